(** Property theorems about Point.convex_hull (C25). *)
Require Import ZArith QArith List Bool Lia Lqa.
Require Import Verif.Base Verif.Hull_Model Verif.Hull_Spec Verif.Hull_Proofs Verif.HullEnds_Proofs.
Import ListNotations.
Open Scope Q_scope.

(** * C25: for points in general position the hull terminates and is an enclosing convex polygon, in
    whatever order set() delivers the points. *)
Theorem hull_encloses_partial : forall s, s <> [] -> general_position s -> exists h, convex_enclosing h s /\
  forall k, (List.length s <= k)%nat -> convex_hull k s = Some h.
Proof. exact hull_lemma. Qed.
Example hull_encloses_ex : convex_hull 5 [(1, 1); (4, 0); (0, 0); (5, 5); (1, 4)] = Some [(0, 0); (4, 0); (5, 5); (1, 4)].
Proof. reflexivity. Qed.
Example hull_general_position_ex : general_position [(1, 1); (4, 0); (0, 0)].
Proof.
  split; [split|].
  - repeat constructor; simpl; intuition discriminate.
  - simpl. intros a b A B. intuition subst; auto; discriminate.
  - simpl. intros a b c A B C. intuition subst; try congruence; discriminate.
Qed.
Print Assumptions hull_encloses_partial.

(** With collinear points it can miss a vertex: here (2,0) lies outside the returned polygon. *)
Theorem hull_encloses_refuted : exists s h t, pdistinct s /\ (forall k, (4 <= k)%nat -> convex_hull k s = Some h) /\
  In t s /\ outside h t.
Proof.
  exists [(0, 0); (1, 0); (2, 0); (3, 5)], [(0, 0); (1, 0); (3, 5)], (2, 0). split; [split|split; [|split]].
  - repeat constructor; simpl; intuition discriminate.
  - simpl. intros a b A B. intuition subst; auto; discriminate.
  - intros k K. do 4 (destruct k as [|k]; [lia|]). reflexivity.
  - simpl; auto.
  - exists (1, 0), (3, 5). split; [simpl; auto | reflexivity].
Qed.
Print Assumptions hull_encloses_refuted.

(** Whatever the points, three on a line or not, and whatever their order: convex_hull ends, after at most as many rounds as there
    are points, and returns points of the input, none of them twice. What it leaves outside, if anything, is straight below the
    first vertex, which is a leftmost point, or on the line of the first side, beyond its end. *)
Theorem hull_ends : forall s, pdistinct s -> exists h, incl h s /\ NoDup h /\ (s <> [] -> h <> []) /\ (forall k, (List.length s <= k)%nat -> convex_hull k s = Some h) /\
  forall t, In t s -> outside h t -> exists f v, nth_error h 0 = Some f /\ nth_error h 1 = Some v /\ (forall p, In p s -> fst f <= fst p) /\
    (fst t == fst f /\ snd t < snd f \/ area2 f v t == 0 /\ fst f < fst v < fst t).
Proof. exact hull_ends_lemma. Qed.
Example hull_ends_ex : pdistinct [(0, 1); (0, 2); (0, 0); (1, 1); (0, 3); (2, 2)] /\
  convex_hull 6 [(0, 1); (0, 2); (0, 0); (1, 1); (0, 3); (2, 2)] = Some [(0, 1); (1, 1); (2, 2); (0, 3)] /\ outside [(0, 1); (1, 1); (2, 2); (0, 3)] (0, 0).
Proof.
  split; [|split; [vm_compute; reflexivity|exists (0, 1), (1, 1); split; [left; auto|reflexivity]]]. split.
  - repeat constructor; simpl; intuition discriminate.
  - simpl. intros a b A B. intuition subst; auto; discriminate.
Qed.
Print Assumptions hull_ends.
(** So nothing is left outside if only one point is leftmost, and no two others are on a line with it; others may be on lines. *)
Theorem hull_around_partial : forall s f, pdistinct s -> In f s -> (forall p, In p s -> p <> f -> fst f < fst p) ->
  (forall a b, In a s -> In b s -> a <> f -> b <> f -> a <> b -> ~ area2 f a b == 0) ->
  exists h, incl h s /\ NoDup h /\ nth_error h 0 = Some f /\ (forall k, (List.length s <= k)%nat -> convex_hull k s = Some h) /\ forall t, In t s -> ~ outside h t.
Proof.
  intros s f PD F L NC. destruct (hull_ends s PD) as (h & I & ND & NE & K & O). destruct h as [|g h]; [exfalso; apply NE; auto; intros ->; destruct F|].
  assert (G : g = f).
  { pose proof (K _ (le_n _)) as H. unfold convex_hull in H. pose proof (sort_perm s) as PM. pose proof (sort_min s) as MN. destruct (sort_x s) as [|g' r]; [discriminate H|]. destruct (loop_incl _ _ _ _ _ (in_eq g' r) H) as [_ HD]. injection HD as <-.
    assert (GI : In g s) by (apply I; left; auto). assert (FI : In f (g :: r)) by (eapply Permutation.Permutation_in; eauto). assert (E : {g = f} + {g <> f}) by (destruct (same g f) eqn:S; [left; apply (same_in s); auto|right; intros ->; apply not_true_iff_false in S; apply S, same_iff; split; reflexivity]).
    destruct E as [E|E]; auto. exfalso. specialize (L g GI E). destruct FI as [FI|FI]; [congruence|]. pose proof (MN f (or_intror FI)) as MM. cbn in MM. lra. }
  exists (g :: h). split; auto. split; auto. split; [rewrite G; auto|]. split; auto. intros t T OT. destruct (O t T OT) as (f' & v & F1 & V1 & MN & C). injection F1 as <-. rewrite G in *.
  assert (VI : In v s) by (apply I; destruct h as [|v' h]; [discriminate V1|]; injection V1 as ->; right; left; auto). destruct C as [[C1 C2]|[C1 [C2 C3]]].
  - assert (TF : t <> f) by (intros ->; lra). specialize (L t T TF). lra.
  - apply (NC v t); auto; intros E; [rewrite E in C2|rewrite E in C3|rewrite E in C3]; lra.
Qed.
Print Assumptions hull_around_partial.
Example hull_around_ex : pdistinct [(0, 0); (1, 3); (2, 0); (2, 1); (2, 5)] /\ convex_hull 5 [(0, 0); (1, 3); (2, 0); (2, 1); (2, 5)] = Some [(0, 0); (2, 0); (2, 1); (2, 5); (1, 3)] /\
  (forall p, In p [(0, 0); (1, 3); (2, 0); (2, 1); (2, 5)] -> p <> (0, 0) -> 0 < fst p) /\
  (forall a b, In a [(0, 0); (1, 3); (2, 0); (2, 1); (2, 5)] -> In b [(0, 0); (1, 3); (2, 0); (2, 1); (2, 5)] -> a <> (0, 0) -> b <> (0, 0) -> a <> b -> ~ area2 (0, 0) a b == 0).
Proof.
  split; [|split; [vm_compute; reflexivity|split]].
  - split; [repeat constructor; simpl; intuition discriminate|]. simpl. intros a b A B. intuition subst; auto; discriminate.
  - simpl. intros p P N. intuition subst; try congruence; reflexivity.
  - simpl. intros a b A B NA NB AB. intuition subst; try congruence; discriminate.
Qed.
