(** The closest point of a line in floating point. *)
Require Import ZArith Reals List Bool Lra Lia Psatz.
From Flocq Require Import Core BinarySingleNaN.
Require Import Verif.Point_Model Verif.Point_Proofs Verif.Curve_Spec Verif.Float_Model Verif.Float_Spec Verif.Float_Proofs Verif.FloatBox_Proofs Verif.Float_Thms Verif.FloatDist_Spec Verif.FloatDist_Proofs Verif.FloatDist_Thms Verif.FloatClosest_Model Verif.FloatClosest_Proofs.
Open Scope R_scope.

Lemma near_dist : forall p c q e, Rabs (px q - px c) <= e -> Rabs (py q - py c) <= e -> dist p q <= dist p c + 2 * e.
Proof.
  intros p c q e X Y. assert (H : forall a b, dist a b = distance a b) by (intros a b; unfold dist, distance; f_equal; ring). rewrite !H. apply Rle_trans with (1 := distance_triangle p c q). apply Rplus_le_compat_l.
  assert (E : 0 <= e) by (pose proof (Rabs_pos (px q - px c)); lra). unfold distance. rewrite <- (sqrt_square (2 * e)) by lra. apply sqrt_le_1_alt. apply abs_ge in X, Y. nra.
Qed.
(** C120. closest_segment_point finds the point of the line that is closest, but for the rounding error that its points have anyway,
    wherever the point asked for lies, with numpy or not; with numpy it never leaves the box of the line. Full statement: for all
    ends that differ; below 2^-400 the squares may vanish, see below. *)
Theorem float_closest_partial : forall np a b p M, M <= bpow radix2 500 -> within M a -> within M b -> within M p -> bpow radix2 (-400) <= apart a b ->
  exists q c t, fclosest np a b p true = Some q /\
    0 <= t <= 1 /\ c = mix t (place a) (place b) /\ (forall s, 0 <= s <= 1 -> dist (place p) c <= dist (place p) (mix s (place a) (place b))) /\
    about_pt q c (tolerance M) /\
    (forall s, 0 <= s <= 1 -> dist (place p) (place q) <= dist (place p) (mix s (place a) (place b)) + 2 * tolerance M) /\
    (np = true -> Rmin (value (fx a)) (value (fx b)) <= value (fx q) <= Rmax (value (fx a)) (value (fx b)) /\ Rmin (value (fy a)) (value (fy b)) <= value (fy q) <= Rmax (value (fy a)) (value (fy b))).
Proof.
  intros np a b p M MB A B P V. destruct (closest_close np a b p M MB A B P V) as (q & c & t & E & ((FX & CX) & (FY & CY)) & T & C & N & W). exists q, c, t.
  assert (MP : 0 <= M) by (destruct A as (_ & A & _); pose proof (Rabs_pos (value (fx a))); lra). assert (K : 80 * D M <= tolerance M) by (rewrite <- tolerance_D; pose proof (D_pos M MP); lra).
  split; [exact E|]. split; [exact T|]. split; [exact C|]. split; [exact W|]. split; [split; (split; [assumption|lra])|]. split; [|exact N]. intros s S. pose proof (W s S). pose proof (near_dist (place p) c (place q) (tolerance M) (Rle_trans _ _ _ CX K) (Rle_trans _ _ _ CY K)). lra.
Qed.
Print Assumptions float_closest_partial.
Lemma fpz_within : forall x y M, (Z.abs x <= M)%Z -> (Z.abs y <= M)%Z -> (M <= 2 ^ 53)%Z -> within (IZR M) (fpz x y).
Proof. intros x y M X Y B. destruct (fz_is x ltac:(lia)) as [F1 V1]. destruct (fz_is y ltac:(lia)) as [F2 V2]. unfold within, finite_pt. cbn [fpz fx fy]. rewrite V1, V2, <- !abs_IZR. repeat split; auto; apply IZR_le; auto. Qed.
(** Halfway, and beyond the end. *)
Example float_closest_case : within 10 (fpz 0 0) /\ within 10 (fpz 10 0) /\ within 10 (fpz 5 7) /\ bpow radix2 (-400) <= apart (fpz 0 0) (fpz 10 0) /\ 10 <= bpow radix2 500 /\
  match fclosest true (fpz 0 0) (fpz 10 0) (fpz 5 7) true with Some q => feq (fx q) (fz 5) && feq (fy q) (fz 0) | None => false end = true /\
  match fclosest false (fpz 0 0) (fpz 4 0) (fpz 10 3) true with Some q => feq (fx q) (fz 4) && feq (fy q) (fz 0) | None => false end = true.
Proof.
  split; [apply (fpz_within 0 0 10); lia|]. split; [apply (fpz_within 10 0 10); lia|]. split; [apply (fpz_within 5 7 10); lia|]. split; [|split; [|split; vm_compute; reflexivity]].
  - unfold apart. cbn [fpz place px py fx fy]. rewrite (proj2 (fz_is 0 ltac:(lia))), (proj2 (fz_is 10 ltac:(lia))). replace ((0 - 10) ^ 2 + (0 - 0) ^ 2) with (10 * 10) by ring. rewrite sqrt_square by lra. apply Rle_trans with (bpow radix2 3); [apply bpow_le; lia|change (bpow radix2 3) with 8; lra].
  - apply Rle_trans with (bpow radix2 4); [change (bpow radix2 4) with 16; lra|apply bpow_le; lia].
Qed.
(** Two ends that differ, but by so little that the square of their distance is 0: the result is the number 0, not a point. *)
Theorem float_closest_refuted : exists a b p, finite_pt a /\ finite_pt b /\ finite_pt p /\ place a <> place b /\ forall np rb, fclosest np a b p rb = None.
Proof.
  exists (fpz 0 0), (FP (fd 1 (-540)) (fz 0)), (fpz 1 1). split; [split; vm_compute; reflexivity|]. split; [split; vm_compute; reflexivity|]. split; [split; vm_compute; reflexivity|]. split.
  - intros H. apply (f_equal px) in H. cbn [fpz place px fx] in H. rewrite (proj2 (fz_is 0 ltac:(lia))), (proj2 (fd_is 1 (-540) ltac:(lia) ltac:(lia))) in H. pose proof (bpow_gt_0 radix2 (-540)). lra.
  - intros np rb. unfold fclosest. match goal with |- context [feq ?s ?z] => assert (E : feq s z = true) by (vm_compute; reflexivity) end. rewrite E. reflexivity.
Qed.
Print Assumptions float_closest_refuted.

(** Asked for an end of the line, it gives that end, with no error at all. Full statement: with or without numpy; without it the far
    end may be missed, see below. *)
Theorem float_closest_ends_partial : forall np a b rb, moderate a -> moderate b ->
  (forall q, fclosest np a b a rb = Some q -> is_pt q (place a)) /\ (np = true -> forall q, fclosest np a b b rb = Some q -> is_pt q (place b)).
Proof. exact closest_ends. Qed.
Print Assumptions float_closest_ends_partial.
Example float_closest_ends_case : moderate (fpz 1 3) /\ moderate (fpz 7 4) /\
  match fclosest true (fpz 1 3) (fpz 7 4) (fpz 7 4) true with Some q => feq (fx q) (fz 7) && feq (fy q) (fz 4) | None => false end = true /\ match fclosest false (fpz 1 3) (fpz 7 4) (fpz 1 3) false with Some q => feq (fx q) (fz 1) && feq (fy q) (fz 3) | None => false end = true.
Proof.
  assert (B : forall x y, (Z.abs x <= 10)%Z -> (Z.abs y <= 10)%Z -> moderate (fpz x y)).
  { intros x y X Y. destruct (fpz_within x y 10 X Y ltac:(lia)) as (F & A & C). assert (10 <= bpow radix2 500) by (apply Rle_trans with (bpow radix2 4); [change (bpow radix2 4) with 16; lra|apply bpow_le; lia]). split; [exact F|]. lra. }
  split; [apply B; lia|]. split; [apply B; lia|]. split; vm_compute; reflexivity.
Qed.
Theorem float_closest_ends_refuted : exists a b q, finite_pt a /\ finite_pt b /\ fclosest false a b b true = Some q /\ value (fx q) <> value (fx b).
Proof.
  exists (FP (fz 1) (fz 0)), (FP (fd 1 (-60)) (fz 0)). unfold fclosest. match goal with |- context [feq ?s ?z] => assert (E : feq s z = false) by (vm_compute; reflexivity) end. rewrite E. eexists. split; [split; vm_compute; reflexivity|]. split; [split; vm_compute; reflexivity|]. split; [reflexivity|].
  cbn [fx]. apply Rlt_not_eq. apply flt_spec; vm_compute; reflexivity.
Qed.
Print Assumptions float_closest_ends_refuted.
