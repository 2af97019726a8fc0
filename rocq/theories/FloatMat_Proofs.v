(** Matrices, tolerance, relative steps and opacity in floating point. *)
Require Import ZArith Reals List Bool Lra Lia Psatz.
From Flocq Require Import Core BinarySingleNaN Relative.
Require Import Verif.Point_Model Verif.Curve_Spec Verif.Float_Model Verif.Float_Spec Verif.Float_Proofs Verif.FloatBox_Proofs.
Import ListNotations.
Open Scope R_scope.

(** * Matrices *)
Section Apply.
  Variable M : R.
  Hypothesis M_pos : 0 <= M.
  Hypothesis M_big : M <= bpow radix2 1000.
  Lemma coord_prod : forall x y, finite x -> finite y -> Rabs (value x * value y) <= M -> coord M (fmul x y) (value x * value y) 1 1.
  Proof.
    intros x y FX FY S. pose proof u_pos. pose proof eta_pos. destruct (fmul_rnd x y FX FY) as [F V]; [pose proof (fits_big M M_pos M_big 1 0); lra|].
    split; auto. split; [lra|]. rewrite V. eapply Rle_trans; [apply rnd_err|]. unfold D. nra.
  Qed.
  Lemma apply1_about : forall x a y c e, finite x -> finite a -> finite y -> finite c -> finite e -> Rabs (value a * value x) + Rabs (value c * value y) + Rabs (value e) <= M ->
    about (fadd (fadd (fmul x a) (fmul y c)) (fmul (fz 1) e)) (value a * value x + value c * value y + value e) (16 * D M).
  Proof.
    intros x a y c e FX FA FY FC FE S. pose proof (Rabs_pos (value a * value x)). pose proof (Rabs_pos (value c * value y)). pose proof (Rabs_pos (value e)). pose proof (D_pos M M_pos).
    rewrite (Rmult_comm (value a)), (Rmult_comm (value c)) in *. destruct (one_mul (fz 1) e fz1 FE) as [FO VO].
    assert (C : coord M (fadd (fadd (fmul x a) (fmul y c)) (fmul (fz 1) e)) (value x * value a + value y * value c + value (fmul (fz 1) e)) (1 + 1 + 1) (1 + 1 + 1 + 1 + 2 + 0 + (1 + 1) + 1 + 2)).
    { apply (coord_add M M_pos M_big); try lra; [apply (coord_add M M_pos M_big); try lra; apply coord_prod; auto; lra|]. apply coord_exact; auto. rewrite VO. lra. }
    destruct C as (F & _ & E). split; auto. rewrite VO in E. eapply Rle_trans; [exact E|]. nra.
  Qed.
End Apply.
Lemma add_whole : forall x y a b, is x (IZR a) -> is y (IZR b) -> (Z.abs (a + b) <= 2 ^ 53)%Z -> is (fadd x y) (IZR (a + b)).
Proof.
  intros x y a b [FX VX] [FY VY] H. destruct (fadd_rnd x y FX FY) as [F V].
  - rewrite VX, VY, <- plus_IZR, <- abs_IZR. apply Rle_trans with (IZR (2 ^ 53)); [apply IZR_le; auto|]. change (IZR (2 ^ 53)) with (bpow radix2 53). apply bpow_le. lia.
  - split; auto. rewrite V, VX, VY, <- plus_IZR. apply rnd_int. auto.
Qed.
Lemma mul_whole : forall x y a b, is x (IZR a) -> is y (IZR b) -> (Z.abs (a * b) <= 2 ^ 53)%Z -> is (fmul x y) (IZR (a * b)).
Proof.
  intros x y a b [FX VX] [FY VY] H. destruct (fmul_rnd x y FX FY) as [F V].
  - rewrite VX, VY, <- mult_IZR, <- abs_IZR. apply Rle_trans with (IZR (2 ^ 53)); [apply IZR_le; auto|]. change (IZR (2 ^ 53)) with (bpow radix2 53). apply bpow_le. lia.
  - split; auto. rewrite V, VX, VY, <- mult_IZR. apply rnd_int. auto.
Qed.
Lemma dot_whole : forall x a y c e o zx za zy zc ze zo, is x (IZR zx) -> is a (IZR za) -> is y (IZR zy) -> is c (IZR zc) -> is e (IZR ze) -> is o (IZR zo) ->
  (Z.abs (zx * za) + Z.abs (zy * zc) + Z.abs (ze * zo) <= 2 ^ 53)%Z -> is (fadd (fadd (fmul x a) (fmul y c)) (fmul e o)) (IZR (zx * za + zy * zc + ze * zo)).
Proof. intros. apply add_whole; [apply add_whole; [apply mul_whole|apply mul_whole|]|apply mul_whole|]; auto; lia. Qed.
Lemma fz1_whole : is (fz 1) (IZR 1). Proof. apply fz_is. lia. Qed.
Lemma fz0_whole : is (fz 0) (IZR 0). Proof. apply fz_is. lia. Qed.
Lemma apply_whole : forall m p za zb zc zd ze zf zx zy, is (fma m) (IZR za) -> is (fmb m) (IZR zb) -> is (fmc m) (IZR zc) -> is (fmd m) (IZR zd) -> is (fme m) (IZR ze) -> is (fmf m) (IZR zf) ->
  is (fx p) (IZR zx) -> is (fy p) (IZR zy) -> (Z.abs (zx * za) + Z.abs (zy * zc) + Z.abs ze <= 2 ^ 53)%Z -> (Z.abs (zx * zb) + Z.abs (zy * zd) + Z.abs zf <= 2 ^ 53)%Z ->
  is (fx (fapply m p)) (IZR (zx * za + zy * zc + ze)) /\ is (fy (fapply m p)) (IZR (zx * zb + zy * zd + zf)).
Proof.
  intros m p za zb zc zd ze zf zx zy A B C Dd E F X Y H1 H2. unfold fapply. cbn [fx fy]. split.
  - replace (zx * za + zy * zc + ze)%Z with (zx * za + zy * zc + 1 * ze)%Z by ring. apply dot_whole; auto using fz1_whole. rewrite Z.mul_1_l. auto.
  - replace (zx * zb + zy * zd + zf)%Z with (zx * zb + zy * zd + 1 * zf)%Z by ring. apply dot_whole; auto using fz1_whole. rewrite Z.mul_1_l. auto.
Qed.
(** * Tolerance *)
Lemma ferror_is : is ferror (4951760157141521 * bpow radix2 (-92)).
Proof.
  split; [vm_compute; reflexivity|]. pose proof (binary_normalize_correct 53 1024 p53 p1024 mode_NE 4951760157141521 (-92) false) as H. cbv zeta in H. fold ferror in H. change (round_mode mode_NE) with ZnearestE in H.
  set (r := F2R {| Fnum := 4951760157141521; Fexp := -92 |}) in *. assert (E : r = 4951760157141521 * bpow radix2 (-92)) by reflexivity.
  assert (G : round radix2 (SpecFloat.fexp 53 1024) ZnearestE r = r).
  { apply round_generic; [typeclasses eauto|]. change (SpecFloat.fexp 53 1024) with (FLT_exp (-1074) 53). apply generic_format_FLT. exists (Float radix2 4951760157141521 (-92)); cbn; [reflexivity|lia|lia]. }
  rewrite G in H. rewrite Rlt_bool_true in H.
  - destruct H as [H _]. unfold value. rewrite H. exact E.
  - rewrite E. rewrite Rabs_right by (pose proof (bpow_gt_0 radix2 (-92)); lra). apply Rlt_trans with (bpow radix2 53 * bpow radix2 (-92)); [apply Rmult_lt_compat_r; [apply bpow_gt_0|]; change (bpow radix2 53) with 9007199254740992; lra|]. rewrite <- bpow_plus. apply bpow_lt. lia.
Qed.
Lemma error_small : value ferror < bpow radix2 (-39).
Proof.
  rewrite (proj2 ferror_is). change (-39)%Z with (53 + -92)%Z. rewrite bpow_plus. apply Rmult_lt_compat_r; [apply bpow_gt_0|]. change (bpow radix2 53) with 9007199254740992. lra.
Qed.
Lemma grid : forall x, generic_format radix2 (FLT_exp (-1074) 53) x -> bpow radix2 13 <= Rabs x -> exists k : Z, x = IZR k * bpow radix2 (-39).
Proof.
  intros x F H. assert (MG : (14 <= mag radix2 x)%Z) by (apply mag_ge_bpow; exact H).
  assert (G : generic_format radix2 (FIX_exp (-39)) x).
  { apply generic_inclusion_mag with (FLT_exp (-1074) 53); auto. intros _. unfold FIX_exp, FLT_exp. lia. }
  apply FIX_format_generic in G. destruct G as [[k e] E1 E2]. cbn in E2. subst e. exists k. rewrite E1. reflexivity.
Qed.
Lemma eq_large1 : forall x y, finite x -> finite y -> bpow radix2 13 <= Rabs (value x) -> bpow radix2 13 <= Rabs (value y) -> Rabs (value x - value y) <= big ->
  fle (fabs (fsub x y)) ferror = true -> value x = value y.
Proof.
  intros x y FX FY HX HY BD H. destruct (fsub_rnd x y FX FY BD) as [FS VS].
  assert (FA : finite (fabs (fsub x y))) by (unfold finite, fabs; rewrite is_finite_Babs; exact FS). apply fle_spec in H; auto; [|apply ferror_is].
  assert (VA : value (fabs (fsub x y)) = Rabs (value (fsub x y))) by apply B2R_Babs. rewrite VA, VS in H.
  destruct (grid (value x) (format_value x) HX) as [k K]. destruct (grid (value y) (format_value y) HY) as [l L]. rewrite K, L in *.
  destruct (Z.eq_dec k l) as [E|NE]; [subst; auto|]. exfalso. rewrite <- Rmult_minus_distr_r, <- minus_IZR in H. pose proof error_small as ES. pose proof (bpow_gt_0 radix2 (-39)) as P.
  assert (FB : rnd (bpow radix2 (-39)) = bpow radix2 (-39)).
  { apply rnd_same. apply generic_format_bpow. cbv. discriminate. }
  assert (G : bpow radix2 (-39) <= Rabs (rnd (IZR (k - l) * bpow radix2 (-39)))).
  { destruct (Z_lt_le_dec 0 (k - l)) as [Q|Q].
    - assert (1 <= IZR (k - l)) by (apply IZR_le; lia). assert (A : bpow radix2 (-39) <= IZR (k - l) * bpow radix2 (-39)) by nra. apply rnd_le in A. rewrite FB in A. rewrite Rabs_right; lra.
    - assert (IZR (k - l) <= -1) by (apply IZR_le; lia). assert (A : IZR (k - l) * bpow radix2 (-39) <= - bpow radix2 (-39)) by nra. apply rnd_le in A. rewrite rnd_opp, FB in A. rewrite Rabs_left1; lra. }
  lra.
Qed.
(** * Relative steps *)
Section Pen.
  Variable M : R.
  Hypothesis M_pos : 0 <= M.
  Hypothesis M_big : M <= bpow radix2 1000.
  Lemma step_about : forall x y v e, finite x -> finite y -> Rabs (v + value x) <= M -> 0 <= e <= M -> Rabs (value y - v) <= e -> about (fadd x y) (v + value x) (e + 2 * D M).
  Proof.
    intros x y v e FX FY H E A. pose proof u_pos. pose proof eta_pos. apply abs_mid in A. apply abs_ge in H.
    destruct (fadd_rnd x y FX FY) as [F V]; [apply abs_le; pose proof (fits_big M M_pos M_big 2 0); lra|]. split; auto. rewrite V. pose proof (rnd_err (value x + value y)) as R.
    assert (Rabs (value x + value y) <= 2 * M) by (apply abs_le; lra). assert (u * Rabs (value x + value y) + eta <= 2 * D M) by (unfold D; nra).
    apply abs_mid in R. apply abs_le. lra.
  Qed.
  Lemma steps_about : forall steps start v e, finite start -> Rabs (value start - v) <= e -> 0 <= e -> e + 2 * INR (length steps) * D M <= M -> (forall s, In s steps -> finite s) ->
    (forall n, (0 < n <= length steps)%nat -> Rabs (v + fold_right Rplus 0 (map value (firstn n steps))) <= M) ->
    about (fold_left (fun p s => fadd s p) steps start) (v + fold_right Rplus 0 (map value steps)) (e + 2 * INR (length steps) * D M).
  Proof.
    pose proof (D_pos M M_pos) as DP. induction steps as [|s steps IH]; intros start v e F A E L FS H.
    - cbn in *. split; auto. rewrite Rplus_0_r. lra.
    - cbn [fold_left map fold_right]. cbn [length] in L. rewrite S_INR in L. cbn [length]. rewrite S_INR. pose proof (pos_INR (length steps)).
      assert (H1 : Rabs (v + value s) <= M) by (pose proof (H 1%nat) as Q; cbn in Q; rewrite Rplus_0_r in Q; apply Q; lia).
      destruct (step_about s start v e (FS s (or_introl eq_refl)) F H1) as [F1 A1]; [split; auto; nra|auto|].
      destruct (IH (fadd s start) (v + value s) (e + 2 * D M) F1 A1) as [F2 A2]; [lra|lra|intros; apply FS; right; auto| |].
      + intros n N. pose proof (H (S n)) as Q. cbn in Q. rewrite Rplus_assoc. apply Q. lia.
      + split; auto. replace (v + (value s + fold_right Rplus 0 (map value steps))) with (v + value s + fold_right Rplus 0 (map value steps)) by ring. lra.
  Qed.
End Pen.
Lemma steps_whole : forall steps start z, is start (IZR z) -> (Z.abs z <= 2 ^ 53)%Z -> (forall s, In s steps -> exists k, is s (IZR k)) ->
  (forall n, (n <= length steps)%nat -> Rabs (IZR z + fold_right Rplus 0 (map value (firstn n steps))) <= IZR (2 ^ 53)) ->
  is (fold_left (fun p s => fadd s p) steps start) (IZR z + fold_right Rplus 0 (map value steps)).
Proof.
  induction steps as [|s steps IH]; intros start z S Z W H.
  - cbn. rewrite Rplus_0_r. auto.
  - cbn [fold_left map fold_right]. destruct (W s (or_introl eq_refl)) as [k K]. pose proof (H 1%nat) as Q. cbn [firstn map fold_right length] in Q. rewrite Rplus_0_r, (proj2 K), <- plus_IZR, <- abs_IZR in Q. assert (B : (Z.abs (z + k) <= 2 ^ 53)%Z) by (apply le_IZR, Q; lia).
    rewrite (proj2 K), <- Rplus_assoc, <- plus_IZR. apply IH; auto.
    + replace (z + k)%Z with (k + z)%Z by ring. apply add_whole; auto. rewrite Z.add_comm. auto.
    + intros t T. apply W. right. auto.
    + intros n N. pose proof (H (Datatypes.S n)) as G. cbn [firstn map fold_right length] in G. rewrite (proj2 K) in G. rewrite plus_IZR, Rplus_assoc. apply G. lia.
Qed.
(** * Opacity *)
Lemma fround_is : forall x, fround x = ZnearestE (value x).
Proof.
  intros x. unfold fround. apply eq_IZR. rewrite (Btrunc_correct 53 1024 p1024). destruct (Bnearbyint_correct 53 1024 p1024 mode_NE x) as [-> _]. change (round_mode mode_NE) with ZnearestE. fold (value x).
  assert (E : forall f (v : R), Valid_rnd f -> round radix2 (FIX_exp 0) f v = IZR (f v)).
  { intros f v _. unfold round, F2R, scaled_mantissa, cexp, FIX_exp. cbn. rewrite !Rmult_1_r. reflexivity. }
  rewrite (E ZnearestE) by typeclasses eauto. rewrite (E Ztrunc) by typeclasses eauto. f_equal. apply Ztrunc_IZR.
Qed.
Lemma near_half : forall r, Rabs (IZR (ZnearestE r) - r) <= / 2.
Proof. intros r. rewrite Rabs_minus_sym. apply Znearest_half. Qed.
Lemma fsub_cases : forall x y, finite x -> finite y -> is (fsub x y) (rnd (value x - value y)) \/ (exists s, fsub x y = B754_infinity s) /\ big <= Rabs (value x - value y).
Proof.
  intros x y FX FY. pose proof (@Bminus_correct 53 1024 p53 p1024 mode_NE x y FX FY) as H. unfold fsub, rnd, value, finite in *. change (round_mode mode_NE) with ZnearestE in H.
  destruct (Rlt_bool_spec (Rabs (round radix2 (SpecFloat.fexp 53 1024) ZnearestE (B2R x - B2R y))) (bpow radix2 1024)) as [L|L].
  - left. destruct H as (A & B & _). split; auto.
  - right. split.
    + destruct H as [H _]. unfold binary_overflow in H. change (overflow_to_inf mode_NE (Bsign x)) with true in H. cbn iota in H. exists (Bsign x). apply B2SF_inj. rewrite H. reflexivity.
    + destruct (Rle_or_lt big (Rabs (B2R x - B2R y))) as [G|G]; auto. exfalso. apply Rlt_le, rnd_big in G. unfold rnd in G. lra.
Qed.
Lemma inf_not_equal : forall s, fle (fabs (B754_infinity s)) ferror = false. Proof. intros [|]; vm_compute; reflexivity. Qed.
Lemma eq_large : forall x y, finite x -> finite y -> bpow radix2 13 <= Rabs (value x) -> bpow radix2 13 <= Rabs (value y) -> fle (fabs (fsub x y)) ferror = true -> value x = value y.
Proof.
  intros x y FX FY HX HY H. destruct (Rle_or_lt (Rabs (value x - value y)) big) as [B|B]; [apply eq_large1; auto|].
  destruct (fsub_cases x y FX FY) as [[FS VS]|[[s E] _]]; [|rewrite E, inf_not_equal in H; discriminate].
  exfalso. assert (FA : finite (fabs (fsub x y))) by (unfold finite, fabs; rewrite is_finite_Babs; exact FS). apply fle_spec in H; auto; [|apply ferror_is].
  assert (VA : value (fabs (fsub x y)) = Rabs (value (fsub x y))) by apply B2R_Babs. rewrite VA, VS in H. pose proof error_small.
  assert (FB : rnd big = big) by (apply rnd_same; apply generic_format_bpow; cbv; discriminate).
  assert (G : big <= Rabs (rnd (value x - value y))).
  { unfold Rabs in B. destruct (Rcase_abs (value x - value y)) as [C|C].
    - assert (A : value x - value y <= - big) by lra. apply rnd_le in A. rewrite rnd_opp, FB in A. pose proof one_big. rewrite Rabs_left1; lra.
    - assert (A : big <= value x - value y) by lra. apply rnd_le in A. rewrite FB in A. pose proof one_big. rewrite Rabs_right; lra. }
  assert (bpow radix2 (-39) < big) by (apply bpow_lt; lia). lra.
Qed.
Lemma line_about : forall M, 0 <= M -> M <= bpow radix2 1000 -> forall np a b t, ok M a -> ok M b -> finite t -> 0 <= value t <= 1 -> about (flin1 np a b t) ((1 - value t) * value a + value t * value b) (20 * D M).
Proof.
  intros M MP MB np a b t OA OB FT T. destruct (towards_about M MP MB a b t OA OB FT T) as (F & _ & E). replace ((1 - value t) * value a + value t * value b) with (value t * (value b - value a) + value a) by ring. pose proof (D_pos M MP) as DP.
  destruct np; cbn [flin1]; [|split; auto]. destruct OA as [FA BA], OB as [FB BB]. destruct (interp_ends a b t FT) as [E0 E1].
  destruct (Req_dec (value t) 0) as [Z|Z]; [rewrite E0, Z by auto; split; auto; apply abs_le; lra|]. destruct (Req_dec (value t) 1) as [O|O]; [rewrite E1, O by auto; split; auto; apply abs_le; lra|].
  assert (BG : Rabs (value b - value a) <= big) by (apply abs_ge in BA, BB; apply abs_le; pose proof (fits_big M MP MB 2 0); lra).
  destruct (interp_inner a b t FA FB BG FT) as [FI VI]; [lra|]. split; auto. rewrite VI.
  assert (V : value (ftowards1 a b t) = rnd (rnd (rnd (value b - value a) * value t) + value a)); [|rewrite <- V; auto].
  unfold ftowards1. destruct (fsub_rnd b a FB FA BG) as [FS VS]. assert (S : Rabs (rnd (value b - value a)) <= big) by (apply rnd_abs_big; auto).
  destruct (fmul_rnd t _ FT FS) as [FM VM]; [rewrite VS, Rabs_mult, (Rabs_right (value t)) by lra; pose proof (Rabs_pos (rnd (value b - value a))); nra|].
  rewrite VS, Rmult_comm in VM. destruct (fadd_rnd_lt _ _ FM FA) as [FA' VA]; [rewrite VM; rewrite <- VI; apply abs_B2R_lt_emax|rewrite VM in VA; auto].
Qed.
Definition rep_pow (x : fl) (n : Z) : fl := if Z.eqb n 2 then fmul x x else fmul (fmul x x) x.
Lemma rep_pow_good : good_pow rep_pow.
Proof.
  intros x n F X N. pose proof (weight_exact x F X) as W. pose proof (weight_mul x x _ _ 0 0 (Rle_refl 0) (Rle_refl 0) W W) as W2. assert (Z : 0 <= 0 + 0 + 2) by lra.
  pose proof (weight_mul _ x _ _ _ 0 Z (Rle_refl 0) W2 W) as W3. assert (U : u = / 2 * bpow radix2 (-52)) by (unfold u; change (-53)%Z with (-1 + -52)%Z; rewrite bpow_plus; reflexivity). pose proof u_pos.
  assert (E2 : (value x = 0 -> value (fmul x x) = 0) /\ (value x = 1 -> value (fmul x x) = 1)).
  { split; intros V; [destruct (zero_mul x x (conj F V) F) as [_ ->]; auto|destruct (one_mul x x (conj F V) F) as [_ ->]; auto]. }
  destruct N as [-> | ->]; unfold rep_pow; cbn [Z.eqb Pos.eqb].
  - destruct W2 as (A & B & C & E). split; auto. split; auto. split; [unfold powerRZ; change (Pos.to_nat 2) with 2%nat; cbn [pow]; rewrite Rmult_1_r; lra|auto].
  - destruct W3 as (A & B & C & E). split; auto. split; auto. split; [unfold powerRZ; change (Pos.to_nat 3) with 3%nat; cbn [pow]; rewrite Rmult_1_r, <- Rmult_assoc; lra|]. destruct W2 as (A2 & _). destruct E2 as [P Q].
    split; intros V; [destruct (zero_mul (fmul x x) x (conj A2 (P V)) F) as [_ ->]; auto|destruct (one_mul (fmul x x) x (conj A2 (Q V)) F) as [_ ->]; auto].
Qed.
