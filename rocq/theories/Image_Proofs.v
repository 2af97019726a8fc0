(** Lemmas about images. *)
Require Import Reals Lra List Ascii String Bool.
Require Import Verif.Base Verif.Point_Model Verif.Matrix_Model Verif.Shape_Model Verif.Image_Model.
Import ListNotations.
Open Scope R_scope.

Lemma startswith_app p r : startswith p (p ++ r) = true.
Proof. induction p as [|a p IH]; [reflexivity|]. cbn. now rewrite Ascii.eqb_refl, IH. Qed.
Lemma startswith_inv p t : startswith p t = true -> exists r, t = p ++ r.
Proof.
  revert t. induction p as [|a p IH]; intros t H; [now exists t|]. destruct t as [|b t]; [discriminate|]. cbn in H.
  apply andb_true_iff in H. destruct H as [E H]. apply Ascii.eqb_eq in E. subst b. destruct (IH t H) as [r ->]. now exists r.
Qed.
Lemma min4_le a b c d : min4 a b c d <= a /\ min4 a b c d <= b /\ min4 a b c d <= c /\ min4 a b c d <= d.
Proof. unfold min4. repeat split; unfold Rmin; repeat destruct (Rle_dec _ _); lra. Qed.
Lemma max4_ge a b c d : a <= max4 a b c d /\ b <= max4 a b c d /\ c <= max4 a b c d /\ d <= max4 a b c d.
Proof. unfold max4. repeat split; unfold Rmax; repeat destruct (Rle_dec _ _); lra. Qed.
Lemma min4_in a b c d : min4 a b c d = a \/ min4 a b c d = b \/ min4 a b c d = c \/ min4 a b c d = d.
Proof. unfold min4, Rmin. repeat destruct (Rle_dec _ _); auto. Qed.
Lemma max4_in a b c d : max4 a b c d = a \/ max4 a b c d = b \/ max4 a b c d = c \/ max4 a b c d = d.
Proof. unfold max4, Rmax. repeat destruct (Rle_dec _ _); auto. Qed.
(** A value that depends on both parameters linearly lies between its values at the four corners. *)
Lemma between p q r s t m M : 0 <= s <= 1 -> 0 <= t <= 1 ->
  m <= r <= M -> m <= p + r <= M -> m <= p + q + r <= M -> m <= q + r <= M -> m <= p * s + q * t + r <= M.
Proof.
  intros S T A B C D. assert (X : m <= p * s + r <= M).
  { split; [destruct (Rle_dec 0 p)|destruct (Rle_dec 0 p)]; nra. }
  assert (Y : m <= p * s + q + r <= M).
  { split; [destruct (Rle_dec 0 p)|destruct (Rle_dec 0 p)]; nra. }
  split; destruct (Rle_dec 0 q); nra.
Qed.
