(** C117: distances and the lengths of polylines in floating point. *)
Require Import ZArith Reals List Bool Lra Lia.
From Flocq Require Import Core BinarySingleNaN.
Require Import Verif.Point_Model Verif.Curve_Spec Verif.Base Verif.Float_Model Verif.Float_Spec Verif.Float_Proofs Verif.Float_Thms Verif.FloatWalk_Model Verif.FloatWalk_Thms Verif.FloatDist_Model Verif.FloatDist_Spec Verif.FloatDist_Proofs.
Import ListNotations.
Open Scope R_scope.

Lemma whole_moderate : forall p, whole_pt (2 ^ 24) p -> moderate p.
Proof.
  intros p ((x & (FX & X) & BX) & (y & (FY & Y) & BY)). assert (MB : forall z, (Z.abs z <= 2 ^ 24)%Z -> Rabs (IZR z) <= bpow radix2 500) by (intros z Z; rewrite <- abs_IZR; apply Rle_trans with (bpow radix2 24); [change (bpow radix2 24) with (IZR (2 ^ 24)); apply IZR_le; auto|apply bpow_le; lia]).
  split; [split; auto|]. rewrite X, Y. auto.
Qed.
Definition fpz (x y : Z) : fpt := FP (fz x) (fz y).
Lemma fpz_whole : forall x y, (Z.abs x <= 2 ^ 24)%Z -> (Z.abs y <= 2 ^ 24)%Z -> whole_pt (2 ^ 24) (fpz x y).
Proof. intros x y X Y. split; [exists x|exists y]; (split; [apply fz_is; lia|auto]). Qed.
Lemma fpz_apart : forall x y z w k, (Z.abs x <= 2 ^ 24)%Z -> (Z.abs y <= 2 ^ 24)%Z -> (Z.abs z <= 2 ^ 24)%Z -> (Z.abs w <= 2 ^ 24)%Z -> (0 <= k)%Z -> ((x - z) * (x - z) + (y - w) * (y - w) = k * k)%Z -> apart (fpz x y) (fpz z w) = IZR k.
Proof.
  intros x y z w k X Y Z W K E. unfold apart, fpz, place. cbn [px py fx fy]. rewrite (proj2 (fz_is x ltac:(lia))), (proj2 (fz_is y ltac:(lia))), (proj2 (fz_is z ltac:(lia))), (proj2 (fz_is w ltac:(lia))).
  replace ((IZR x - IZR z) ^ 2 + (IZR y - IZR w) ^ 2) with (IZR k * IZR k); [apply sqrt_square; apply IZR_le; auto|]. rewrite <- mult_IZR, <- E, plus_IZR, !mult_IZR, !minus_IZR. ring.
Qed.

(** Point.distance and the length of a line: a number that is not negative, within 4 roundings of Euclid's distance. The 2^-535
    matters for points closer than 2^-480 only. *)
Theorem float_distance : forall p q, moderate p -> moderate q ->
  finite (fdistance p q) /\ 0 <= value (fdistance p q) /\
  Rabs (value (fdistance p q) - apart p q) <= 4 * bpow radix2 (-53) * apart p q + bpow radix2 (-535) /\
  fline_length q p = fdistance p q.
Proof.
  intros p q P Q. destruct (distance_close p q P Q) as (v & (F & V) & V0 & E). rewrite V. split; [auto|]. split; [auto|]. split; [|reflexivity].
  replace (bpow radix2 (-535)) with (2 * h); [exact E|]. unfold h. change 2 with (bpow radix2 1). rewrite <- bpow_plus. reflexivity.
Qed.
Example float_distance_case : moderate (fpz 1 2) /\ moderate (fpz 2 3) /\ feq (fdistance (fpz 1 2) (fpz 2 3)) (fd 6369051672525773 (-52)) = true.
Proof. split; [apply whole_moderate, fpz_whole; lia|]. split; [apply whole_moderate, fpz_whole; lia|vm_compute; reflexivity]. Qed.
Print Assumptions float_distance.

(** The same in both directions, bit for bit, and whatever the coordinates are; so a line and the line back are equally long. *)
Theorem float_distance_symmetric : forall p q, fdistance p q = fdistance q p /\ fline_length p q = fline_length q p.
Proof. intros p q. split; apply distance_sym. Qed.
Example float_distance_symmetric_case : fdistance (FP (fd 1 1000) B754_nan) (fpz 0 0) = B754_nan /\ feq (fdistance (fpz 0 3) (fpz 4 0)) (fz 5) = true.
Proof. split; vm_compute; reflexivity. Qed.
Print Assumptions float_distance_symmetric.

(** 0 for points with equal coordinates, and not 0 for points that are 2^-534 or more apart. *)
Theorem float_distance_zero : forall p q, moderate p -> moderate q ->
  (place p = place q -> is (fdistance p q) 0) /\ (bpow radix2 (-534) <= apart p q -> 0 < value (fdistance p q)).
Proof.
  intros p q P Q. split; intros H.
  - unfold place in H. injection H as HX HY. pose proof (distance_x p q P Q HY (or_introl HX)) as D. rewrite HX in D. unfold Rminus in D. rewrite Rplus_opp_r, rnd_0, Rabs_R0 in D. exact D.
  - destruct (distance_close p q P Q) as (v & (F & V) & V0 & E). rewrite V. apply abs_ge in E. pose proof u_val as U. pose proof h_pos as HP. assert (HH : 4 * h <= apart p q) by (unfold h; change 4 with (bpow radix2 2); rewrite <- bpow_plus; exact H). rewrite U in E. lra.
Qed.
Example float_distance_zero_case : place (FP (fz 0) (fz 1)) = place (FP (fneg (fz 0)) (fz 1)) /\ moderate (fpz 0 1) /\ moderate (fpz 4 4) /\ bpow radix2 (-534) <= apart (fpz 0 1) (fpz 4 4).
Proof.
  split; [unfold place, fneg, value; cbn [fx fy]; rewrite B2R_Bopp; fold (value (fz 0)); rewrite (proj2 fz0), Ropp_0; reflexivity|]. split; [apply whole_moderate, fpz_whole; lia|]. split; [apply whole_moderate, fpz_whole; lia|].
  rewrite (fpz_apart 0 1 4 4 5) by (reflexivity || lia). apply Rle_trans with (bpow radix2 0); [apply bpow_le; lia|cbn; lra].
Qed.
Print Assumptions float_distance_zero.

(** Of a horizontal or vertical line the length is the number nearest to the difference: squaring and the root cost nothing. *)
Theorem float_distance_axis : forall p q, moderate p -> moderate q ->
  (value (fy p) = value (fy q) -> bpow radix2 (-500) <= Rabs (value (fx p) - value (fx q)) -> is (fdistance p q) (Rabs (nearest (value (fx p) - value (fx q))))) /\
  (value (fx p) = value (fx q) -> bpow radix2 (-500) <= Rabs (value (fy p) - value (fy q)) -> is (fdistance p q) (Rabs (nearest (value (fy p) - value (fy q))))).
Proof. intros p q P Q. split; intros E H; [apply (distance_x p q P Q E)|apply (distance_y p q P Q E)]; auto. Qed.
Example float_distance_axis_case : moderate (FP (fd 5404319552844595 (-54)) (fz 1)) /\ moderate (FP (fz 0) (fz 1)) /\
  feq (fdistance (FP (fd 5404319552844595 (-54)) (fz 1)) (FP (fz 0) (fz 1))) (fd 5404319552844595 (-54)) = true.
Proof.
  assert (B : bpow radix2 0 <= bpow radix2 500) by (apply bpow_le; lia). change (bpow radix2 0) with 1 in B. destruct fz0 as [F0 V0]. destruct fz1 as [F1 V1]. destruct (fd_is 5404319552844595 (-54) ltac:(lia) ltac:(lia)) as [FD VD].
  split; [|split; [|vm_compute; reflexivity]]; (split; [split; auto|]); cbn [fx fy]; rewrite ?V0, ?V1, ?VD, ?Rabs_R0, ?Rabs_R1; (split; [|lra]); try lra.
  rewrite Rabs_pos_eq by (apply Rmult_le_pos; [lra|apply bpow_ge_0]). change (bpow radix2 (-54)) with (/ 18014398509481984). lra.
Qed.
Print Assumptions float_distance_axis.

(** With whole coordinates up to 2^24, a distance that is a whole number is exact. *)
Theorem float_distance_whole : forall p q k, whole_pt (2 ^ 24) p -> whole_pt (2 ^ 24) q -> apart p q = IZR k -> is (fdistance p q) (IZR k).
Proof. exact distance_whole_is. Qed.
Example float_distance_whole_case : whole_pt (2 ^ 24) (fpz (-3000) 7) /\ whole_pt (2 ^ 24) (fpz 0 4007) /\ apart (fpz (-3000) 7) (fpz 0 4007) = IZR 5000.
Proof. split; [apply fpz_whole; lia|]. split; [apply fpz_whole; lia|]. apply fpz_apart; try lia. Qed.
Print Assumptions float_distance_whole.

(** Path.length of a Move and n lines: the length of the polyline but for 2n+7 roundings. *)
Theorem float_length : forall p l, moderate p -> Forall moderate l -> (Z.of_nat (length l) < 2 ^ 40)%Z ->
  about (fpolyline_length p l) (walked p l) ((2 * INR (length l) + 7) * bpow radix2 (-53) * walked p l + INR (length l) * bpow radix2 (-534)).
Proof.
  intros p l P L N. replace (bpow radix2 (-534)) with (4 * h); [exact (length_close l p P L N)|]. unfold h. change 4 with (bpow radix2 2). rewrite <- bpow_plus. reflexivity.
Qed.
Definition sides : list fpt := [fpz 30 0; fpz 30 40; fpz 0 0].
Lemma sides_ok : Forall moderate sides.
Proof. unfold sides. repeat apply Forall_cons; try apply Forall_nil; apply whole_moderate, fpz_whole; lia. Qed.
Example float_length_case : moderate (fpz 0 0) /\ Forall moderate sides /\ walked (fpz 0 0) sides = 120 /\ feq (fpolyline_length (fpz 0 0) sides) (fz 120) = true.
Proof.
  split; [apply whole_moderate, fpz_whole; lia|]. split; [apply sides_ok|]. split; [|vm_compute; reflexivity]. cbn [walked sides].
  rewrite (fpz_apart 0 0 30 0 30), (fpz_apart 30 0 30 40 40), (fpz_apart 30 40 0 0 50) by (reflexivity || lia). lra.
Qed.
Print Assumptions float_length.

(** One more line never makes a path shorter. *)
Theorem float_length_grows : forall p l q, moderate p -> Forall moderate (l ++ [q]) -> (Z.of_nat (length (l ++ [q])) < 2 ^ 40)%Z ->
  value (fpolyline_length p l) <= value (fpolyline_length p (l ++ [q])).
Proof. intros p l q. apply length_grows. Qed.
Example float_length_grows_case : moderate (fpz 0 0) /\ Forall moderate (sides ++ [fpz 0 1]) /\ flt (fpolyline_length (fpz 0 0) sides) (fpolyline_length (fpz 0 0) (sides ++ [fpz 0 1])) = true.
Proof. split; [apply whole_moderate, fpz_whole; lia|]. split; [apply Forall_app; split; [apply sides_ok|apply Forall_cons; [apply whole_moderate, fpz_whole; lia|apply Forall_nil]]|vm_compute; reflexivity]. Qed.
Print Assumptions float_length_grows.

(** path.point(t) of a polyline with a length of 2^-400 or more: for 0 < t < 1 the place that is reached when t of the length is
    walked. The distance is right but for 8n+26 roundings of the length, and the point there but for 2^-46 of the coordinates.
    Partial: for t next to 1 it may be the beginning of the last line, see [float_walk_refuted]. *)
Theorem float_along_partial : forall np p l t M, 0 <= M <= bpow radix2 500 -> within M p -> Forall (within M) l -> (Z.of_nat (length l) < 2 ^ 40 - 1)%Z ->
  bpow radix2 (-400) <= walked p l -> finite t -> 0 < value t < 1 ->
  exists q, fpolyline_point np p l t = Ok (Some q) /\
    ((exists s x, along p l s x /\ 0 <= s <= walked p l /\ Rabs (s - value t * walked p l) <= (8 * INR (length l) + 26) * bpow radix2 (-53) * walked p l /\ about_pt q x (tolerance M)) \/
     (1 - (8 * INR (length l) + 16) * bpow radix2 (-53) < value t /\ about_pt q (place (nth (length l - 1) (p :: l) p)) (tolerance M))).
Proof.
  intros np p l t M MM P L N W FT T. destruct (point_along M np p l t MM P L N W FT T) as (q & E & H). exists q. split; [exact E|].
  assert (K : 20 * D M <= tolerance M) by (rewrite <- tolerance_D; pose proof (D_pos M (proj1 MM)); lra). assert (AP : forall x, about_pt q x (20 * D M) -> about_pt q x (tolerance M)) by (intros x ((A1 & A2) & (A3 & A4)); split; split; auto; lra).
  destruct H as [(s & x & A & B & C & F)|(A & B)]; [left; exists s, x; auto|right; auto].
Qed.
Definition square : list fpt := [fpz 4 0; fpz 4 4; fpz 0 4; fpz 0 0].
Example float_along_case : within 4 (fpz 0 0) /\ Forall (within 4) square /\ walked (fpz 0 0) square = 16 /\ along (fpz 0 0) square 6 (P 4 2) /\
  match fpolyline_point true (fpz 0 0) square (fd 3 (-3)) with Ok (Some q) => feq (fx q) (fz 4) && feq (fy q) (fz 2) | _ => false end = true.
Proof.
  assert (W : forall x y, (Z.abs x <= 4)%Z -> (Z.abs y <= 4)%Z -> within 4 (fpz x y)).
  { intros x y X Y. destruct (fz_is x ltac:(lia)) as [FX VX]. destruct (fz_is y ltac:(lia)) as [FY VY]. split; [split; auto|]. cbn [fpz fx fy]. rewrite VX, VY, <- !abs_IZR. split; apply IZR_le; auto. }
  split; [apply W; lia|]. split; [unfold square; repeat apply Forall_cons; try apply Forall_nil; apply W; lia|]. split; [cbn [walked square]; rewrite (fpz_apart 0 0 4 0 4), (fpz_apart 4 0 4 4 4), (fpz_apart 4 4 0 4 4), (fpz_apart 0 4 0 0 4) by (reflexivity || lia); lra|]. split; [|vm_compute; reflexivity].
  unfold square. replace 6 with (apart (fpz 0 0) (fpz 4 0) + 2) by (rewrite (fpz_apart 0 0 4 0 4) by (reflexivity || lia); lra). apply along_further. replace 2 with (/ 2 * apart (fpz 4 0) (fpz 4 4)) at 1 by (rewrite (fpz_apart 4 0 4 4 4) by (reflexivity || lia); lra).
  replace (P 4 2) with (mix (/ 2) (place (fpz 4 0)) (place (fpz 4 4))); [apply along_here; lra|]. unfold mix, place, fpz. cbn [px py fx fy]. rewrite (proj2 (fz_is 4 ltac:(lia))), (proj2 fz0). f_equal; lra.
Qed.
Print Assumptions float_along_partial.
(** Up to 0 it is the point of the Move itself, and at 1 the last point but for 2^-46 of the coordinates. *)
Theorem float_along_ends : forall np p l t M, 0 <= M <= bpow radix2 500 -> within M p -> Forall (within M) l -> finite t ->
  (value t <= 0 -> fpolyline_point np p l t = Ok (Some p)) /\
  (value t = 1 -> l <> [] -> exists q, fpolyline_point np p l t = Ok (Some q) /\ about_pt q (place (last l p)) (tolerance M)).
Proof.
  intros np p l t M MM P L FT. destruct (float_walk_ends (fpolyline_lengths p l) t ltac:(discriminate) FT) as [A B]. unfold fpolyline_point. split.
  - intros T. rewrite (A T). reflexivity.
  - intros T NE. rewrite B by lra. eexists. split; [reflexivity|]. cbn [fst snd]. destruct (exists_last NE) as (l' & b & ->).
    assert (LEN : (length (fpolyline_lengths p (l' ++ [b])) - 1 = S (length l'))%nat) by (unfold fpolyline_lengths; cbn [length]; rewrite flines_length, app_length; cbn [length]; lia). rewrite LEN.
    pose proof (segment_close M np p (l' ++ [b]) (length l') t) as SC. rewrite T in SC. replace (nth (length l') (l' ++ [b]) p) with b in SC by (rewrite app_nth2, Nat.sub_diag by lia; reflexivity). rewrite last_last.
    assert (K : 20 * D M <= tolerance M) by (rewrite <- tolerance_D; pose proof (D_pos M (proj1 MM)); lra). assert (M2 : 0 <= M <= bpow radix2 1000) by (split; [lra|apply Rle_trans with (1 := proj2 MM), bpow_le; lia]).
    specialize (SC M2 P L ltac:(rewrite app_length; cbn; lia) FT ltac:(lra)). replace (mix 1 (place (nth (length l') (p :: l' ++ [b]) p)) (place b)) with (place b) in SC by (unfold mix; destruct (place b) as [x y]; cbn [px py]; f_equal; ring).
    destruct SC as ((A1 & A2) & (A3 & A4)). split; split; auto; lra.
Qed.
Example float_along_ends_case : match fpolyline_point true (fpz 7 8) square (fz (-1)) with Ok (Some q) => feq (fx q) (fz 7) && feq (fy q) (fz 8) | _ => false end = true /\
  match fpolyline_point false (fpz 7 8) square (fz 1) with Ok (Some q) => feq (fx q) (fz 0) && feq (fy q) (fz 0) | _ => false end = true.
Proof. split; vm_compute; reflexivity. Qed.
Print Assumptions float_along_ends.
(** What is walked is told by the place: two places at the same distance are the same. *)
Theorem along_unique : forall p l s x y, along p l s x -> along p l s y -> x = y.
Proof. exact along_fun. Qed.
Example along_unique_case : along (fpz 0 0) square 6 (P 4 2). Proof. apply float_along_case. Qed.
Print Assumptions along_unique.

(** Not so for all finite numbers: the square of a large difference is infinite, and so is the distance; the square of a small one
    is 0, and so is the distance of two different points. *)
Theorem float_distance_refuted :
  (exists p q, finite_pt p /\ finite_pt q /\ apart p q = bpow radix2 600 /\ fdistance p q = B754_infinity false) /\
  (exists p q, finite_pt p /\ finite_pt q /\ apart p q = bpow radix2 (-600) /\ value (fdistance p q) = 0).
Proof.
  assert (A : forall e, (-1074 <= e <= 900)%Z -> finite_pt (FP (fd 1 e) (fz 0)) /\ finite_pt (fpz 0 0) /\ apart (FP (fd 1 e) (fz 0)) (fpz 0 0) = bpow radix2 e).
  { intros e E. destruct (fd_is 1 e ltac:(lia) E) as [F V]. destruct fz0 as [F0 V0]. split; [split; auto|]. split; [split; auto|]. unfold apart, fpz, place. cbn [px py fx fy]. rewrite V, V0. replace ((1 * bpow radix2 e - 0) ^ 2 + (0 - 0) ^ 2) with (bpow radix2 e * bpow radix2 e) by ring. apply sqrt_square, bpow_ge_0. }
  split.
  - exists (FP (fd 1 600) (fz 0)), (fpz 0 0). destruct (A 600%Z ltac:(lia)) as (X & Y & Z). split; [auto|]. split; [auto|]. split; [auto|]. vm_compute. reflexivity.
  - exists (FP (fd 1 (-600)) (fz 0)), (fpz 0 0). destruct (A (-600)%Z ltac:(lia)) as (X & Y & Z). split; [auto|]. split; [auto|]. split; [auto|]. replace (fdistance (FP (fd 1 (-600)) (fz 0)) (fpz 0 0)) with (B754_zero false : fl); [reflexivity|]. vm_compute. reflexivity.
Qed.
Print Assumptions float_distance_refuted.
