(** C79: instructions that lack numbers are reported, and what was drawn before them is kept. *)
Require Import ZArith QArith Qcanon Ascii String List Bool Lia.
Require Import Verif.Base Verif.Path_Model Verif.PathText_Model Verif.Text_Spec Verif.Text_Proofs Verif.PathText_Spec Verif.PathDraw_Spec Verif.PathText_Proofs Verif.PathDraw_Proofs Verif.PathText_Thms Verif.PathShort_Spec Verif.PathShort_Proofs.
Import ListNotations.
Open Scope Z_scope.

(** Moves, lines, curves and, after their first number, arcs; with their letter or in a repetition. Partial: see below. *)
Theorem path_short_partial : forall l s t p q, spelled None l s t -> short (implied_after l) t -> parse (explicit l) p = (q, None) -> parse s p = (q, Some ValueError).
Proof.
  intros l s t p q SP SH D. eapply parse_short; eauto. rewrite <- D. symmetry. eapply parse_draws. apply explicit_spelled. eapply spelled_ok; eauto. apply stop_nil.
Qed.
Lemma barren_nil : barren [].
Proof.
  intros w r W E. symmetry in E. apply app_eq_nil in E as [-> ->]. split.
  - intros (l & v & L & E). destruct (Transform_Proofs.lit_start l L) as (c & x & E' & _). rewrite E' in E. discriminate.
  - intros (v & [E | E]); discriminate.
Qed.
Example path_short_ex : spelled None [(false, DMove (ex_n 1, ex_n 2))] (T "M1,2 L3") (T " L3") /\ short (implied_after [(false, DMove (ex_n 1, ex_n 2))]) (T " L3") /\
  snd (parse (T "M1,2 L3") []) = Some ValueError /\ List.length (fst (parse (T "M1,2 L3") [])) = 1%nat.
Proof.
  split; [exact (proj1 path_parse_keeps_ex)|]. split; [|vm_compute; auto].
  apply (short_letter _ false (DLine (ex_n 3, ex_n 3)) [TNum (ex_n 3)] (T " ") (T "3") []).
  - constructor; [unfold sepch; cbn; auto|constructor].
  - exists [TNum (ex_n 3)]. split; [discriminate|reflexivity].
  - apply (tt_num (ex_n 3) [] [] [] []); [lok|constructor| |constructor]. ncont.
  - exact barren_nil.
  - exact I.
Qed.
Print Assumptions path_short_partial.
(** An absolute vertical line or an arc without any number is passed over; a horizontal line raises another exception. *)
Theorem path_short_refuted : snd (parse (T "M1,2 V L3,4") []) = None /\ snd (parse (T "M1,2 A") []) = None /\ snd (parse (T "M1,2 h") []) = Some TypeError.
Proof. vm_compute. auto. Qed.
Print Assumptions path_short_refuted.
