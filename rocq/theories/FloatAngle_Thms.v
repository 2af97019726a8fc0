(** Angles in binary floating point: C107. *)
Require Import ZArith Reals Lra Lia List Bool.
From Flocq Require Import Core BinarySingleNaN.
Require Import Verif.Float_Model Verif.Float_Spec Verif.Float_Proofs Verif.FloatWalk_Proofs Verif.FloatAngle_Model Verif.FloatAngle_Spec Verif.FloatAngle_Proofs.
Open Scope R_scope.

(** C107: an angle given in degrees, gradians or turns is, but for three roundings, that angle in radians; read back in
    these units it is the true number but for three roundings, and what was given but for five. *)
Theorem float_angle_units : forall x, ordinary x ->
  nearly (fdegrees x) (2 * PI * value x / 360) (3 * bpow radix2 (-53)) /\ nearly (fgradians x) (2 * PI * value x / 400) (3 * bpow radix2 (-53)) /\
  nearly (fturns x) (2 * PI * value x) (3 * bpow radix2 (-53)) /\ fradians x = x /\
  nearly (fas_degrees x) (value x * 360 / (2 * PI)) (3 * bpow radix2 (-53)) /\ nearly (fas_gradians x) (value x * 400 / (2 * PI)) (3 * bpow radix2 (-53)) /\
  nearly (fas_turns x) (value x / (2 * PI)) (3 * bpow radix2 (-53)) /\ fas_radians x = x /\
  nearly (fas_degrees (fdegrees x)) (value x) (5 * bpow radix2 (-53)) /\ nearly (fas_gradians (fgradians x)) (value x) (5 * bpow radix2 (-53)) /\
  nearly (fas_turns (fturns x)) (value x) (5 * bpow radix2 (-53)).
Proof.
  intros x X. destruct (turns_close x X) as (T1 & T2 & T3). assert (A : (256 <= 360 <= 512)%Z) by lia. assert (B : (256 <= 400 <= 512)%Z) by lia.
  exact (conj (into_close 360 x A X) (conj (into_close 400 x B X) (conj T1 (conj eq_refl (conj (out_close 360 x A X) (conj (out_close 400 x B X) (conj T2 (conj eq_refl
    (conj (there_and_back 360 x A X) (conj (there_and_back 400 x B X) T3)))))))))).
Qed.
Lemma ordinary_int : forall z, (z <> 0)%Z -> (Z.abs z <= 2 ^ 53)%Z -> ordinary (fz z).
Proof.
  intros z N Z. destruct (fz_is z Z) as [F V]. split; auto. right. rewrite V, <- abs_IZR. split.
  - apply Rle_trans with (bpow radix2 0); [apply bpow_le; lia|]. cbn. apply (IZR_le 1). lia.
  - apply Rle_trans with (bpow radix2 53); [|apply bpow_le; lia]. change (bpow radix2 53) with (IZR (2 ^ 53)). apply IZR_le. auto.
Qed.
Example float_angle_units_ex : ordinary (fz 11) /\ feq (fas_degrees (fdegrees (fz 11))) (fz 11) = false /\ feq (fas_degrees (fdegrees (fz 90))) (fz 90) = true.
Proof. split; [apply ordinary_int; lia|]. split; vm_compute; reflexivity. Qed.
Print Assumptions float_angle_units.

Lemma as_degrees_size : forall a, ordinary a -> Rabs (value (fas_degrees a) - value a * 360 / (2 * PI)) <= 3 * u * Rabs (value a * 360 / (2 * PI)) /\ finite (fas_degrees a) /\
  57 * Rabs (value a) <= Rabs (value a * 360 / (2 * PI)) <= 58 * Rabs (value a).
Proof.
  intros a A. destruct (out_close 360 a) as [F E]; [lia|auto|]. split; [exact E|]. split; [exact F|]. pose proof pi_bounds. pose proof (Rabs_pos (value a)).
  replace (value a * 360 / (2 * PI)) with (180 / PI * value a) by (field; lra). rewrite Rabs_mult.
  assert (K : 57 <= 180 / PI <= 58) by (split; apply Rmult_le_reg_r with PI; try lra; unfold Rdiv; rewrite Rmult_assoc, Rinv_l by lra; lra).
  rewrite (Rabs_pos_eq (180 / PI)) by lra. split; apply Rmult_le_compat_r; lra.
Qed.
(** C107: for angles down to -2^50 radians as_positive_degrees ends, with a number that is not negative, is at most 360
    if the angle was negative, and differs from the angle's number of degrees by a multiple of 360 but for one rounding;
    that rounding does nothing if the number of degrees is whole. *)
Theorem float_positive_degrees_partial : forall a, ordinary a -> - bpow radix2 50 <= value a ->
  exists n r (j : nat), (forall k, (n <= k)%nat -> fas_positive_degrees k a = Some r) /\ 0 <= value r /\
    about r (value (fas_degrees a) + 360 * INR j) (bpow radix2 (-44)) /\
    about r (value a * 360 / (2 * PI) + 360 * INR j) (bpow radix2 (-44) + 3 * bpow radix2 (-53) * Rabs (value a * 360 / (2 * PI))) /\
    (value (fas_degrees a) < 0 -> value r <= 360) /\ (0 <= value (fas_degrees a) -> r = fas_degrees a) /\
    (forall z, value (fas_degrees a) = IZR z -> value r = IZR (z + 360 * Z.of_nat j)).
Proof.
  intros a A L. destruct (as_degrees_size a A) as (E & F & S). set (v := fas_degrees a) in *. set (w := value a * 360 / (2 * PI)) in *.
  assert (LV : - bpow radix2 56 < value v).
  { pose proof u_small. pose proof u_pos. apply abs_ge in E. destruct (Rle_or_lt 0 (value a)) as [P | P].
    - assert (0 <= w). { unfold w. pose proof pi_bounds. apply Rmult_le_pos; [lra|]. left. apply Rinv_0_lt_compat. lra. } rewrite (Rabs_pos_eq w) in E by auto. assert (0 <= w * (1 - 3 * u)) by nra. pose proof (bpow_gt_0 radix2 56). lra.
    - rewrite (Rabs_left (value a)) in S by auto. assert (B : bpow radix2 56 = 64 * bpow radix2 50) by (change 64 with (bpow radix2 6); rewrite <- bpow_plus; reflexivity). pose proof (bpow_gt_0 radix2 50). pose proof (Rabs_pos w) as PW.
      assert (W : Rabs w <= 58 * bpow radix2 50) by lra. assert (Rabs w * (1 + 3 * u) < 64 * bpow radix2 50) by nra. pose proof (Rle_abs (- w)) as AW. rewrite Rabs_Ropp in AW. lra. }
  destruct (up_ends (Z.to_nat (up (Rabs (value v)))) v F LV) as (r & j & K & [FR VR] & N & P).
  { pose proof (archimed (Rabs (value v))) as [U _]. pose proof (Rabs_pos (value v)). rewrite INR_IZR_INZ, Z2Nat.id by (apply le_IZR; lra). pose proof (Rle_abs (- value v)) as AV. rewrite Rabs_Ropp in AV. lra. }
  assert (Q : Rabs (value r - (value v + 360 * INR j)) <= bpow radix2 (-44) /\ 0 <= value r /\ (value v < 0 -> value r <= 360) /\ (0 <= value v -> value r = value v)).
  { rewrite VR. pose proof u_pos. pose proof (bpow_gt_0 radix2 (-44)). destruct (Rle_or_lt 0 (value v)) as [Z | Z].
    - rewrite (P Z). cbn [INR]. rewrite Rmult_0_r, Rplus_0_r. unfold value in *. rewrite rnd_format. rewrite Rminus_diag_eq, Rabs_R0 by auto. repeat split; intros; lra.
    - specialize (N Z). pose proof (rnd_err (value v + 360 * INR j)) as R. rewrite (Rabs_pos_eq (value v + 360 * INR j)) in R by lra. pose proof eta_u.
      assert (X : rnd 360 = 360) by (apply (rnd_int 360); lia). pose proof (rnd_le 0 (value v + 360 * INR j)). pose proof (rnd_le (value v + 360 * INR j) 360). rewrite rnd_0, X in *.
      assert (B : bpow radix2 (-44) = 512 * u) by (unfold u; change 512 with (bpow radix2 9); rewrite <- bpow_plus; reflexivity). repeat split; intros; try lra. rewrite B. eapply Rle_trans; [exact R|]. nra. }
  destruct Q as (Q1 & Q2 & Q3 & Q4). exists (Z.to_nat (up (Rabs (value v)))), r, j. split; [exact K|]. split; [exact Q2|]. split; [split; auto|]. split; [split; auto|]; [|split; [exact Q3|split]].
  - replace (value r - (w + 360 * INR j)) with ((value r - (value v + 360 * INR j)) + (value v - w)) by ring. eapply Rle_trans; [apply Rabs_triang|]. apply Rplus_le_compat; auto.
  - intros Z. specialize (K _ (le_n _)). set (n := Z.to_nat (up (Rabs (value v)))) in K. assert (fup360 n v = Some v) by (destruct n; cbn [fup360]; rewrite flt_zero, Rlt_bool_false by auto; auto). congruence.
  - intros z Hz. rewrite VR, Hz, plus_IZR, mult_IZR, <- INR_IZR_INZ. destruct (Rle_or_lt 0 (value v)) as [Z | Z].
    + rewrite (P Z). cbn [INR]. rewrite Rmult_0_r, Rplus_0_r. rewrite <- Hz. apply rnd_format.
    + specialize (N Z). rewrite Hz in N. rewrite INR_IZR_INZ in *. rewrite <- mult_IZR, <- plus_IZR in *. apply rnd_int. destruct N as [N1 N2]. apply le_IZR in N1. apply lt_IZR in N2. lia.
Qed.
Example float_positive_degrees_ex : ordinary (fz (-12)) /\ - bpow radix2 50 <= value (fz (-12)) /\ (exists r, fas_positive_degrees 2 (fz (-12)) = Some r /\ feq r (fas_degrees (fz (-12))) = false).
Proof.
  split; [apply ordinary_int; lia|]. split; [rewrite (proj2 (fz_is (-12) ltac:(lia))); assert (bpow radix2 4 <= bpow radix2 50) by (apply bpow_le; lia); change (bpow radix2 4) with 16 in *; lra|].
  assert (H : match fas_positive_degrees 2 (fz (-12)) with Some r => negb (feq r (fas_degrees (fz (-12)))) | None => false end = true) by (vm_compute; reflexivity).
  destruct (fas_positive_degrees 2 (fz (-12))) as [r|]; [|discriminate]. exists r. split; auto. destruct (feq _ _); auto.
Qed.
Print Assumptions float_positive_degrees_partial.

(** C107, not so for angles below -2^57 radians: adding 360 rounds to what it was added to, and the loop goes on for
    ever. Of minus infinity as well. *)
Theorem float_positive_degrees_refuted :
  (exists a, finite a /\ forall k, fas_positive_degrees k a = None) /\
  (forall a, ordinary a -> value a <= - bpow radix2 57 -> forall k, fas_positive_degrees k a = None) /\
  (forall k, fas_positive_degrees k (B754_infinity true) = None).
Proof.
  assert (G : forall a, ordinary a -> value a <= - bpow radix2 57 -> forall k, fas_positive_degrees k a = None).
  { intros a A L k. destruct (as_degrees_size a A) as (E & F & S). apply stuck; auto. set (v := value (fas_degrees a)) in *. pose proof u_small. pose proof u_pos. apply abs_ge in E. pose proof (bpow_gt_0 radix2 57) as P57.
    assert (W : value a * 360 / (2 * PI) < 0). { pose proof pi_bounds. unfold Rdiv. assert (0 < / (2 * PI)) by (apply Rinv_0_lt_compat; lra). nra. }
    rewrite (Rabs_left (value a)), (Rabs_left _ W) in S by lra. rewrite (Rabs_left _ W) in E. set (w := value a * 360 / (2 * PI)) in *.
    assert (B : bpow radix2 62 = 32 * bpow radix2 57) by (change 32 with (bpow radix2 5); rewrite <- bpow_plus; reflexivity). nra. }
  split; [|split; [exact G|exact stuck_inf]].
  exists (fnorm (-1) 60). destruct (norm_is (-1) 60) as [F V]; [lia|lia|]. split; auto. apply G.
  - split; auto. right. rewrite V, Rabs_mult, (Rabs_pos_eq (bpow _ _)) by apply bpow_ge_0. replace (Rabs (-1)) with 1 by (rewrite Rabs_left; lra). rewrite Rmult_1_l. split; apply bpow_le; lia.
  - rewrite V. assert (bpow radix2 57 <= bpow radix2 60) by (apply bpow_le; lia). lra.
Qed.
Print Assumptions float_positive_degrees_refuted.

(** C107: normalized is between zero and a full turn, and the same direction but for the given error. *)
Theorem float_normalized : forall a, finite a ->
  finite (fnormalized a) /\ 0 <= value (fnormalized a) <= value (fturns (fz 1)) /\ same_way (value (fnormalized a)) (value a) ((Rabs (value a) + 13) * bpow radix2 (-53)).
Proof.
  intros a A. destruct (tau_mod a A) as [[F _] R]. split; [exact F|]. assert (T : value (fturns (fz 1)) = tauv). { destruct tau_is as [FT VT]. rewrite <- VT. apply mul_one; [exact FT|apply fz1]. }
  rewrite T. split; [exact R|]. destruct (norm_close a A) as [k K]. exists (- k)%Z. rewrite opp_IZR. replace (value (fnormalized a) - value a - 2 * PI * - IZR k) with (value (fnormalized a) - (value a - 2 * PI * IZR k)) by ring. exact K.
Qed.
Example float_normalized_ex : finite (fz 100) /\ flt (fnormalized (fz 100)) (fz 6) = true.
Proof. split; [reflexivity|]. vm_compute. reflexivity. Qed.
Print Assumptions float_normalized.

(** C107, not so: a full turn can be left, so that normalizing again changes the angle. *)
Theorem float_normalized_refuted : exists a, finite a /\ value (fnormalized a) = value (fturns (fz 1)) /\ feq (fnormalized (fnormalized a)) (fnormalized a) = false.
Proof.
  exists (fnorm (-1) (-70)). split; [reflexivity|]. split; [|vm_compute; reflexivity].
  assert (H : feq (fnormalized (fnorm (-1) (-70))) (fturns (fz 1)) = true) by (vm_compute; reflexivity). unfold feq in H. rewrite Beqb_correct in H by (vm_compute; reflexivity).
  revert H. case Req_bool_spec; [auto|discriminate].
Qed.
Print Assumptions float_normalized_refuted.

(** C107: equal angles are the same direction but for 1e-11 and rounding, and angles that are so close are equal unless
    they are within 1e-9 of the direction of zero. *)
Theorem float_angle_eq_partial : forall a b, finite a -> finite b ->
  (fangle_eq a b = true -> same_way (value a) (value b) (/ 10 ^ 11 + (Rabs (value a) + Rabs (value b) + 30) * bpow radix2 (-53))) /\
  (forall h d, heading (value a) h -> / 10 ^ 9 <= h <= 2 * PI - / 10 ^ 9 -> same_way (value a) (value b) d ->
     d + (Rabs (value a) + Rabs (value b) + 60) * bpow radix2 (-53) <= / 10 ^ 11 -> fangle_eq a b = true).
Proof.
  intros a b A B. replace (10 ^ 11) with 100000000000 by (cbn [pow]; lra). replace (10 ^ 9) with 1000000000 by (cbn [pow]; lra). split; [apply eq_sound; auto|]. intros h d. apply eq_complete; auto.
Qed.
(** 7 radians are the direction of 7 - 2 pi, which is not near zero. *)
Example float_angle_eq_ex : fangle_eq (fz 1) (fadd (fz 1) (fturns (fz 5))) = true /\ fangle_eq (fz 1) (fz 2) = false /\ heading (value (fz 7)) (7 - 2 * PI) /\ / 10 ^ 9 <= 7 - 2 * PI <= 2 * PI - / 10 ^ 9.
Proof.
  split; [vm_compute; reflexivity|]. split; [vm_compute; reflexivity|]. pose proof pi_bounds. replace (10 ^ 9) with 1000000000 by (cbn [pow]; lra). split; [|lra]. split; [lra|]. exists 1%Z. rewrite (proj2 (fz_is 7 ltac:(lia))). lra.
Qed.
Print Assumptions float_angle_eq_partial.

(** C107, not so near zero: nine whole turns, 3240 degrees, do not equal zero degrees. *)
Theorem float_whole_turns_refuted : exists k : Z, fangle_eq (fdegrees (fz (360 * k))) (fdegrees (fz 0)) = false.
Proof. exists 9%Z. vm_compute. reflexivity. Qed.
Print Assumptions float_whole_turns_refuted.

(** C107: is_orthogonal tells the multiples of a quarter of a turn as the float tau gives it; right angles given in
    degrees are recognized up to 720 degrees either way ... *)
Theorem float_orthogonal_partial :
  (forall a, finite a -> (fis_orthogonal a = true <-> exists k : Z, value a = value (fturns (fz 1)) / 4 * IZR k)) /\
  (forall k, (-8 <= k <= 8)%Z -> fis_orthogonal (fdegrees (fz (90 * k))) = true).
Proof.
  split.
  - intros a A. assert (T : value (fturns (fz 1)) = tauv). { destruct tau_is as [FT VT]. rewrite <- VT. apply mul_one; [exact FT|apply fz1]. } rewrite T. apply orthogonal_iff; auto.
  - intros k H. assert (F : forallb (fun n => fis_orthogonal (fdegrees (fz (90 * (Z.of_nat n - 8))))) (seq 0 17) = true) by (vm_compute; reflexivity).
    rewrite forallb_forall in F. specialize (F (Z.to_nat (k + 8))). rewrite Z2Nat.id in F by lia. replace (k + 8 - 8)%Z with k in F by lia. apply F. apply in_seq. lia.
Qed.
Example float_orthogonal_ex : fis_orthogonal (fturns (fz 3)) = true /\ fis_orthogonal (fz 1) = false.
Proof. split; vm_compute; reflexivity. Qed.
Print Assumptions float_orthogonal_partial.

(** ... and not beyond: 810 degrees are no right angle. *)
Theorem float_orthogonal_refuted : exists k : Z, fis_orthogonal (fdegrees (fz (90 * k))) = false.
Proof. exists 9%Z. vm_compute. reflexivity. Qed.
Print Assumptions float_orthogonal_refuted.
