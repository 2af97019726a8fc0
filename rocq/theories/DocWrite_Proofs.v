(** The first object stays the document. *)
Require Import ZArith QArith List Ascii String Bool Arith Lia.
Require Import Verif.Base Verif.Dom_Model Verif.Dom_Spec Verif.Dom_Proofs Verif.Dom_Inv_Proofs.
Import ListNotations.
Open Scope nat_scope.

Definition doc0 (d : dom) : Prop := exists n, get d 0 = Some n /\ n_cls n = CDocument /\ n_attrs n = Some [].
Lemma doc0_append d p n d' : append_new d p n = Ok d' -> doc0 d -> doc0 d'.
Proof.
  intros A (m & G & C & E). destruct (append_inv _ _ _ _ A) as (q & Q & N). destruct (append_ok d p q n Q N) as (d2 & A2 & _ & _ & J). rewrite A in A2. injection A2 as <-.
  pose proof (get_lt _ _ _ G) as L. specialize (J 0). destruct (Nat.eqb_spec 0 p) as [<-|P].
  - rewrite G in Q. injection Q as <-. eexists. split; [exact J|]. cbn. auto.
  - destruct (Nat.eqb_spec 0 (List.length (heap d))); [lia|]. exists m. rewrite J. auto.
Qed.
Lemma doc0_step doc d cur e d' r : doc0 d -> parse_step doc d cur e = (d', r) -> doc0 d'.
Proof.
  intros I H. destruct e as [tag a| |]; cbn [parse_step] in H.
  - fold (made tag) in H. destruct (made tag) as [c|x]; [|inversion H; subst; auto]. destruct cur as [p|]; [|inversion H; subst; auto].
    destruct (append_new d p _) as [d1|x] eqn:A; [|inversion H; subst; auto]. assert (I1 : doc0 d1) by (eapply doc0_append; eauto).
    destruct (dget (T "id") a); [destruct doc|]; inversion H; subst; auto.
  - destruct cur as [i|]; [|inversion H; subst; auto]. destruct (get d i); inversion H; subst; auto.
  - inversion H; subst; auto.
Qed.
Lemma doc0_loop doc : forall evs d cur d' r, doc0 d -> parse_loop doc evs d cur = (d', r) -> doc0 d'.
Proof.
  induction evs as [|e l IH]; intros d cur d' r I H; cbn [parse_loop] in H; [inversion H; subst; auto|].
  destruct (parse_step doc d cur e) as [d1 [c|x]] eqn:S; [|inversion H; subst; eapply doc0_step; eauto]. eapply IH; [|eauto]. eapply doc0_step; eauto.
Qed.
Lemma doc0_act d a : doc0 d -> doc0 (act d a).
Proof.
  intros I. destruct a as [i evs|i name args kwargs]; cbn [act].
  - unfold parse. destruct (get d i) as [n|] eqn:G; [|exact I]. destruct (is_node (n_cls n)); [|exact I]. destruct (parse_loop (n_doc n) evs d (Some i)) as [d' r] eqn:P. cbn [fst]. eapply doc0_loop; eauto.
  - unfold build. destruct (get d i) as [n|] eqn:G; [|exact I]. destruct (dget (dash name) bootstrap) as [c|]; [|exact I]. destruct (is_node (n_cls n)); [|exact I]. destruct (construct c args kwargs) as [a|x]; [|exact I].
    destruct (append_new d i _) as [d1|x] eqn:A; [|exact I]. cbn [fst]. eapply doc0_append; eauto.
Qed.
Lemma doc0_history : forall l, doc0 (history l).
Proof.
  intros l. unfold history. assert (H : forall m d, doc0 d -> doc0 (fold_left act m d)). { induction m as [|a r IH]; intros d I; cbn; auto. apply IH, doc0_act, I. } apply H. eexists. repeat split; reflexivity.
Qed.
