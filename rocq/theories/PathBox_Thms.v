(** Property theorems about the box of a subpath (C85). *)
Require Import Reals ZArith List Bool Lra Lia Psatz.
Require Import Verif.Base Verif.Point_Model Verif.Curve_Model Verif.Curve_Spec Verif.Curve_Proofs Verif.Curve_Thms Verif.Arc_Model Verif.Arc_Spec Verif.Arc_Thms.
Require Import Verif.PathEdit_Model Verif.PathBox_Model Verif.PathBox_Spec.
Import ListNotations.
Open Scope R_scope.

Lemma rmin_least : forall l x, (forall y, In y (x :: l) -> rmin x l <= y) /\ In (rmin x l) (x :: l).
Proof.
  induction l as [|z l IH]; intros x; cbn [rmin].
  - split; [intros y [<-|[]]; lra|left; auto].
  - destruct (IH z) as [A B]. split.
    + intros y [<-|Y]; [apply Rmin_l|]. eapply Rle_trans; [apply Rmin_r|]. apply A; auto.
    + unfold Rmin. destruct (Rle_dec x (rmin z l)); [left; auto|right; auto].
Qed.
Lemma rmax_most : forall l x, (forall y, In y (x :: l) -> y <= rmax x l) /\ In (rmax x l) (x :: l).
Proof.
  induction l as [|z l IH]; intros x; cbn [rmax].
  - split; [intros y [<-|[]]; lra|left; auto].
  - destruct (IH z) as [A B]. split.
    + intros y [<-|Y]; [apply Rmax_l|]. eapply Rle_trans; [|apply Rmax_r]. apply A; auto.
    + unfold Rmax. destruct (Rle_dec x (rmax z l)); [right; auto|left; auto].
Qed.
Lemma boxes_union : forall l, match boxes_bbox l with None => l = [] | Some b => union_box l b end.
Proof.
  intros [|a l]; cbn [boxes_bbox]; [reflexivity|]. split.
  - intros c C. unfold box_in. cbn [xmin ymin xmax ymax].
    destruct (rmin_least (map xmin l) (xmin a)) as [A _]. destruct (rmin_least (map ymin l) (ymin a)) as [B _].
    destruct (rmax_most (map xmax l) (xmax a)) as [D _]. destruct (rmax_most (map ymax l) (ymax a)) as [E _].
    repeat split; [apply A|apply B|apply D|apply E]; apply (in_map _ (a :: l)); auto.
  - intros c C. unfold box_in. cbn [xmin ymin xmax ymax].
    destruct (rmin_least (map xmin l) (xmin a)) as [_ A]. destruct (rmin_least (map ymin l) (ymin a)) as [_ B].
    destruct (rmax_most (map xmax l) (xmax a)) as [_ D]. destruct (rmax_most (map ymax l) (ymax a)) as [_ E].
    change (xmin a :: map xmin l) with (map xmin (a :: l)) in A. change (ymin a :: map ymin l) with (map ymin (a :: l)) in B.
    change (xmax a :: map xmax l) with (map xmax (a :: l)) in D. change (ymax a :: map ymax l) with (map ymax (a :: l)) in E.
    apply in_map_iff in A, B, D, E. destruct A as (p & <- & P), B as (q & <- & Q), D as (r & <- & R0), E as (s & <- & S).
    destruct (C p P) as (? & _). destruct (C q Q) as (_ & ? & _). destruct (C r R0) as (_ & _ & ? & _). destruct (C s S) as (_ & _ & _ & ?). auto.
Qed.
Lemma nth_firstn : forall A n (l : list A) k, (k < n)%nat -> nth_error (firstn n l) k = nth_error l k.
Proof. induction n as [|n IH]; intros [|x l] [|k] L; cbn; auto; try lia. apply IH. lia. Qed.
Lemma nth_skipn : forall A n (l : list A) k, nth_error (skipn n l) k = nth_error l (n + k).
Proof. induction n as [|n IH]; intros [|x l] k; cbn; auto. destruct k; auto. Qed.
Lemma in_view : forall A (p : list A) i j s, (j < length p)%nat -> In s (pyslice p (Some (Z.of_nat i)) (Some (Z.of_nat j + 1)%Z)) <-> positions p i j s.
Proof.
  intros A p i j s L. unfold pyslice, lo, hi, pyclamp, positions.
  replace (Z.of_nat i <? 0)%Z with false by (symmetry; apply Z.ltb_ge; lia). replace (Z.of_nat j + 1 <? 0)%Z with false by (symmetry; apply Z.ltb_ge; lia).
  replace (Z.to_nat (Z.min (Z.max 0 (Z.of_nat j + 1)) (Z.of_nat (length p)))) with (S j) by lia.
  split.
  - intros I. apply In_nth_error in I. destruct I as [k K].
    assert (B : (k < S j - Z.to_nat (Z.min (Z.max 0 (Z.of_nat i)) (Z.of_nat (length p))))%nat).
    { assert (N : nth_error (firstn (S j - Z.to_nat (Z.min (Z.max 0 (Z.of_nat i)) (Z.of_nat (length p)))) (skipn (Z.to_nat (Z.min (Z.max 0 (Z.of_nat i)) (Z.of_nat (length p)))) p)) k <> None) by congruence.
      apply nth_error_Some in N. rewrite firstn_length in N. lia. }
    rewrite nth_firstn, nth_skipn in K by auto. eexists. split; [|exact K]. lia.
  - intros (k & B & K). assert (E : Z.to_nat (Z.min (Z.max 0 (Z.of_nat i)) (Z.of_nat (length p))) = i) by lia. rewrite E.
    apply nth_error_In with (n := (k - i)%nat). rewrite nth_firstn, nth_skipn by lia. replace (i + (k - i))%nat with k by lia. auto.
Qed.

(** * C85 *)
(** The box of a subpath is the smallest one around the boxes of its segments. *)
Theorem subpath_bbox_union : forall p i j, (i <= j)%nat -> (j < length p)%nat ->
  exists b, sub_bbox p (mkSub (Z.of_nat i) (Z.of_nat j)) = Some b /\
    (forall s, positions p i j s -> box_in (aseg_bbox s) b) /\
    (forall c, (forall s, positions p i j s -> box_in (aseg_bbox s) c) -> box_in b c).
Proof.
  intros p i j IJ L. unfold sub_bbox. cbn [u_start u_end]. set (w := pyslice p (Some (Z.of_nat i)) (Some (Z.of_nat j + 1)%Z)).
  pose proof (boxes_union (map aseg_bbox w)) as H. destruct (boxes_bbox (map aseg_bbox w)) as [b|].
  - exists b. split; auto. destruct H as [H1 H2]. split.
    + intros s S. apply H1, in_map. apply in_view; auto.
    + intros c C. apply H2. intros a A. apply in_map_iff in A. destruct A as (s & <- & A). apply C. apply in_view; auto.
  - exfalso. assert (N : nth_error p i <> None) by (apply nth_error_Some; lia). destruct (nth_error p i) as [s|] eqn:E; [|congruence].
    assert (S : In s w) by (apply in_view; auto; exists i; auto). apply (in_map aseg_bbox) in S. rewrite H in S. destruct S.
Qed.
Print Assumptions subpath_bbox_union.
(** Full statement: everything a subpath draws lies inside its box. Proved but for cubic curves with tiny third
    differences and arcs of no ellipse, whose own boxes can be wrong. *)
Theorem subpath_bbox_contains_partial : forall np p i j s t q, (i <= j)%nat -> (j < length p)%nat -> positions p i j s -> tame s -> 0 <= t <= 1 -> drawn_at np s t q ->
  exists b, sub_bbox p (mkSub (Z.of_nat i) (Z.of_nat j)) = Some b /\ in_box b q.
Proof.
  intros np p i j s t q IJ L S TM T D. destruct (subpath_bbox_union p i j IJ L) as (b & E & H & _). exists b. split; auto. specialize (H s S).
  assert (B : in_box (aseg_bbox s) q).
  { destruct s as [g|A]; cbn [aseg_bbox drawn_at] in *.
    - assert (X : range (fun t => px (point np g t)) (xmin (bbox g)) (xmax (bbox g)) /\ range (fun t => py (point np g t)) (ymin (bbox g)) (ymax (bbox g))).
      { destruct g; try contradiction; try (apply bbox_range; exact I). destruct TM as [X Y]. destruct (bbox_cubic_partial np a c d b0) as [U V]. split; [apply U|apply V]; left; auto. }
      destruct X as [[X _] [Y _]]. destruct g; try contradiction; subst q; split; auto.
    - destruct TM as [SW (t0 & PA)]. pose proof (arc_bbox_tight A t0 PA SW) as X. destruct (arc_bbox A) as [[[x0 y0] x1] y1]. destruct X as [[X _] [Y _]]. subst q. split; cbn; auto. }
  destruct H as (A1 & A2 & A3 & A4), B as [B1 B2]. unfold in_box. lra.
Qed.
Definition two_lines : list aseg := [ASeg (GMove None (P 0 0)); ASeg (GLine (P 0 0) (P 1 1)); ASeg (GMove (Some (P 1 1)) (P 5 5)); ASeg (GLine (P 5 5) (P 6 6))].
Example subpath_bbox_ex : positions two_lines 2 3 (ASeg (GLine (P 5 5) (P 6 6))) /\ tame (ASeg (GLine (P 5 5) (P 6 6))) /\ drawn_at true (ASeg (GLine (P 5 5) (P 6 6))) 0 (P 5 5).
Proof. split; [exists 3%nat; split; [lia|reflexivity]|]. split; [exact I|]. cbn. unfold lin_point, interp. cbn. destruct (Rle_dec 0 0); [reflexivity|lra]. Qed.
Print Assumptions subpath_bbox_contains_partial.
(** The box also contains where a move came from: M0,0 L1,1 M5,5 L6,6, whose second subpath draws nothing left of 5. *)
Theorem subpath_bbox_move_refuted : exists p i j b, sub_bbox p (mkSub (Z.of_nat i) (Z.of_nat j)) = Some b /\ xmin b = 1 /\
  forall np s t q, positions p i j s -> 0 <= t <= 1 -> drawn_at np s t q -> 5 <= px q.
Proof.
  exists two_lines, 2%nat, 3%nat. eexists. split; [reflexivity|]. split.
  - cbn. rewrite (Rmin_left 5 6), (Rmin_left 1 5) by lra. apply Rmin_left. lra.
  - intros np s t q (k & K & E) T D. assert (C : k = 2%nat \/ k = 3%nat) by lia. destruct C as [->| ->]; cbn in E; injection E as <-; cbn in D; [contradiction|].
    subst q. rewrite lin_point_inside by auto. cbn. lra.
Qed.
Print Assumptions subpath_bbox_move_refuted.
