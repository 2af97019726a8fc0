(** Theorems about direct_close: C75. *)
Require Import ZArith QArith Qcanon List Bool.
Require Import Verif.Base Verif.Path_Model Verif.PathEdit_Model Verif.PathEdit_Spec Verif.PathEdit_Proofs Verif.PathEdit_Thms Verif.PathClose_Spec Verif.PathClose_Proofs.
Import ListNotations.

(** Of any connected path, direct_close makes a connected path of the same outline, all of whose closes stay in place. *)
Theorem path_direct_close : forall p, joined p ->
  exists q parts, direct_close p = Ok q /\ q = concat parts /\ Forall2 stands_for p parts /\ joined q /\ (forall s, In s q -> ~ long_close s).
Proof.
  intros p H. exists (concat (map direct1 p)), (map direct1 p). split; [now apply direct_close_exact|]. split; [auto|]. split; [|split].
  - clear H. induction p; cbn; constructor; auto. apply direct1_stands.
  - now apply direct_joined.
  - apply direct_no_long.
Qed.
Example path_direct_close_ex : joined demo /\ long_close (zz 1 1 0 0) /\
  direct_close demo = Ok [mv 0 0; ln 0 0 1 0; ln 1 0 1 1; ln 1 1 0 0; zz 0 0 0 0; mv2 0 0 5 5; ln 5 5 6 5].
Proof. split; [valid|]. split; [|vm_compute; reflexivity]. split; auto. do 2 eexists. split; [reflexivity|]. split; [reflexivity|]. discriminate. Qed.
Print Assumptions path_direct_close.
(** Doing it again changes nothing. *)
Theorem path_direct_close_idempotent : forall p q, joined p -> direct_close p = Ok q -> direct_close q = Ok q.
Proof.
  intros p q H E. rewrite direct_close_exact in E by auto. inversion E; subst; clear E. rewrite direct_close_exact by now apply direct_joined. f_equal.
  pose proof (direct_no_long p) as N. revert N. generalize (concat (map direct1 p)). induction l as [|s l IH]; intros N; cbn; auto. rewrite IH by (intros; apply N; now right).
  destruct (direct1_stands s) as [[L _]|[_ ->]]; [|reflexivity]. exfalso. apply (N s); auto. now left.
Qed.
Print Assumptions path_direct_close_idempotent.
