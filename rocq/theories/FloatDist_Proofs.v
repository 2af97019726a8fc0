(** The rounding of distances. *)
Require Import ZArith Reals List Bool Lra Lia Psatz.
From Flocq Require Import Core BinarySingleNaN Relative.
Require Import Verif.Point_Model Verif.Curve_Spec Verif.Base Verif.Float_Model Verif.Float_Spec Verif.Float_Proofs Verif.FloatMat_Proofs Verif.FloatWalk_Model Verif.FloatWalk_Spec Verif.FloatWalk_Proofs Verif.FloatDist_Model Verif.FloatDist_Spec.
Import ListNotations.
Open Scope R_scope.

Definition h : R := bpow radix2 (-536).
Lemma h_pos : 0 < h. Proof. apply bpow_gt_0. Qed.
Lemma h_sq : 8 * eta = h * h.
Proof. unfold h, eta. rewrite <- bpow_plus. change 8 with (bpow radix2 3). rewrite <- bpow_plus. reflexivity. Qed.
Lemma eta_h : 8 * eta <= h.
Proof. unfold h, eta. change 8 with (bpow radix2 3). rewrite <- bpow_plus. apply bpow_le. lia. Qed.

Lemma fsqrt_rnd : forall x, finite x -> 0 < value x \/ Bsign x = false -> is (fsqrt x) (rnd (sqrt (value x))).
Proof.
  intros x F S. destruct (Bsqrt_correct 53 1024 p53 p1024 mode_NE x) as (A & B & _). split; [|exact A]. unfold finite, fsqrt. rewrite B.
  destruct x as [s|s| |[|] m e b]; try reflexivity; try discriminate F. destruct S as [S|S]; [|discriminate S]. exfalso. unfold value in S. cbn [B2R] in S.
  assert (C : F2R (Float radix2 (cond_Zopp true (Z.pos m)) e) < 0) by (apply F2R_lt_0; reflexivity). cbn [cond_Zopp] in C. unfold B2R in S. cbn [cond_Zopp] in S. lra.
Qed.
Lemma bsign_pos : forall x : fl, 0 < value x -> Bsign x = false.
Proof.
  intros [s|s| |[|] m e b] H; try reflexivity; unfold value in H; cbn [B2R] in H; try lra.
  assert (C : F2R (Float radix2 (cond_Zopp true (Z.pos m)) e) < 0) by (apply F2R_lt_0; reflexivity). lra.
Qed.

Lemma square_cases : forall a : fl, finite a -> Rabs (value a) <= bpow radix2 502 -> is (fmul a a) (rnd (value a * value a)) /\ Bsign (fmul a a) = false /\ 0 <= value (fmul a a) <= bpow radix2 1004.
Proof.
  intros a F H. assert (Q : 0 <= value a * value a <= bpow radix2 1004).
  { replace (bpow radix2 1004) with (bpow radix2 502 * bpow radix2 502) by (rewrite <- bpow_plus; reflexivity). rewrite <- (Rabs_pos_eq (value a * value a)) by nra. rewrite Rabs_mult. pose proof (Rabs_pos (value a)). split; [nra|]. apply Rmult_le_compat; auto. }
  assert (B : Rabs (value a * value a) <= big) by (rewrite Rabs_pos_eq by lra; apply Rle_trans with (bpow radix2 1004); [lra|apply bpow_le; lia]).
  pose proof (fmul_rnd a a F F B) as I. split; [exact I|]. destruct I as [FI VI]. split.
  - pose proof (Bmult_correct 53 1024 p53 p1024 mode_NE a a) as C. rewrite Rlt_bool_true in C by (apply rnd_big; exact B). destruct C as (_ & _ & C). unfold fmul. rewrite C; [apply xorb_nilpotent|]. destruct (Bmult mode_NE a a) eqn:E; try reflexivity. unfold finite, fmul in FI. rewrite E in FI. discriminate FI.
  - rewrite VI. split; [rewrite <- rnd_0; apply rnd_le; lra|]. replace (bpow radix2 1004) with (rnd (bpow radix2 1004)); [apply rnd_le; lra|]. unfold rnd. apply round_generic; [typeclasses eauto|]. apply generic_format_bpow. vm_compute. discriminate.
Qed.
Lemma add_cases : forall a b : fl, finite a -> finite b -> 0 <= value a <= bpow radix2 1004 -> 0 <= value b <= bpow radix2 1004 -> Bsign a = false -> Bsign b = false ->
  exists e, Rabs e <= u /\ is (fadd a b) ((value a + value b) * (1 + e)) /\ is (fadd a b) (rnd (value a + value b)) /\ Bsign (fadd a b) = false.
Proof.
  intros a b FA FB HA HB SA SB. assert (B : Rabs (value a + value b) <= big).
  { rewrite Rabs_pos_eq by lra. apply Rle_trans with (bpow radix2 1005); [|apply bpow_le; lia]. replace (bpow radix2 1005) with (2 * bpow radix2 1004) by (change 2 with (bpow radix2 1); rewrite <- bpow_plus; reflexivity). lra. }
  destruct (fadd_rel a b FA FB B) as (e & E & I). exists e. split; [exact E|]. split; [exact I|]. split; [apply fadd_rnd; auto|].
  pose proof (Bplus_correct 53 1024 p53 p1024 mode_NE a b FA FB) as C. rewrite Rlt_bool_true in C by (apply rnd_big; exact B). destruct C as (_ & _ & C). unfold fadd. rewrite C. unfold value in *. destruct (Rcompare_spec (B2R a + B2R b) 0); [lra| |reflexivity]. now rewrite SA, SB.
Qed.
Lemma diff_cases : forall a b : fl, finite a -> finite b -> Rabs (value a) <= bpow radix2 500 -> Rabs (value b) <= bpow radix2 500 ->
  exists e, Rabs e <= u /\ is (fsub a b) ((value a - value b) * (1 + e)) /\ is (fsub a b) (rnd (value a - value b)) /\ Rabs (value (fsub a b)) <= bpow radix2 502.
Proof.
  intros a b FA FB HA HB. assert (D : Rabs (value a - value b) <= bpow radix2 501).
  { unfold Rminus. eapply Rle_trans; [apply Rabs_triang|]. rewrite Rabs_Ropp. replace (bpow radix2 501) with (2 * bpow radix2 500) by (change 2 with (bpow radix2 1); rewrite <- bpow_plus; reflexivity). lra. }
  assert (B : Rabs (value a - value b) <= big) by (eapply Rle_trans; [exact D|apply bpow_le; lia]).
  destruct (fsub_rel a b FA FB B) as (e & E & I). exists e. split; [exact E|]. split; [exact I|]. split; [apply fsub_rnd; auto|]. destruct I as [_ ->]. rewrite Rabs_mult.
  replace (bpow radix2 502) with (bpow radix2 501 * 2) by (change 2 with (bpow radix2 1); rewrite <- bpow_plus; reflexivity). apply Rmult_le_compat; try apply Rabs_pos; auto.
  apply abs_ge in E. pose proof u_small. apply Rabs_le. lra.
Qed.

(** One coordinate: the rounded square of the rounded difference. *)
Lemma coord_square : forall d e, Rabs e <= u -> Rabs (rnd ((d * (1 + e)) * (d * (1 + e))) - d ^ 2) <= d ^ 2 * ((1 + u) ^ 3 - 1) + eta.
Proof.
  intros d e E. set (q := d * (1 + e) * (d * (1 + e))). pose proof (rnd_err q) as H. assert (Q : q = d ^ 2 * (1 + e) ^ 2) by (unfold q; ring). assert (D : 0 <= d ^ 2) by nra.
  apply abs_ge in E. pose proof u_small. pose proof u_pos. assert (P : 0 <= q) by (rewrite Q; apply Rmult_le_pos; [auto|nra]). rewrite (Rabs_pos_eq q P) in H. apply abs_ge in H. pose proof eta_pos.
  assert (U1 : q <= d ^ 2 * (1 + u) ^ 2) by (rewrite Q; apply Rmult_le_compat_l; [auto|nra]). assert (L1 : d ^ 2 * (1 - u) ^ 2 <= q) by (rewrite Q; apply Rmult_le_compat_l; [auto|nra]).
  apply abs_le. split.
  - apply Rle_trans with (q * (1 - u) - eta - d ^ 2); [|lra]. apply Rle_trans with (d ^ 2 * (1 - u) ^ 2 * (1 - u) - eta - d ^ 2); [|nra].
    assert (0 <= d ^ 2 * ((1 - u) ^ 3 + (1 + u) ^ 3 - 2)) by (apply Rmult_le_pos; [auto|]; nra). nra.
  - apply Rle_trans with (q * (1 + u) + eta - d ^ 2); [lra|]. apply Rle_trans with (d ^ 2 * (1 + u) ^ 2 * (1 + u) + eta - d ^ 2); [nra|]. right. ring.
Qed.
Lemma sqrt_between : forall s d, 0 <= d -> 0 <= s -> Rabs (s - d ^ 2) <= d ^ 2 * ((1 + u) ^ 4 - 1) + 4 * eta -> Rabs (sqrt s - d) <= d * (2 * u + 8 * u ^ 2) + h.
Proof.
  intros s d D S H. apply abs_ge in H. pose proof u_pos. pose proof u_small. pose proof h_pos. pose proof h_sq. pose proof eta_pos. pose proof (sqrt_pos s) as P. pose proof (sqrt_sqrt s S) as Q. set (r := sqrt s) in *.
  assert (K : (1 + u) ^ 4 - 1 <= 4 * u + 7 * u ^ 2) by nra. assert (D2 : 0 <= d ^ 2) by nra. assert (HU : s <= d ^ 2 * (1 + (4 * u + 7 * u ^ 2)) + 4 * eta) by nra. assert (HL : d ^ 2 * (1 - (4 * u + 7 * u ^ 2)) - 4 * eta <= s) by nra.
  apply abs_le. split.
  - set (w := d * (1 - (2 * u + 8 * u ^ 2)) - h). destruct (Rle_or_lt w 0) as [W|W]; [unfold w in W; lra|]. assert (w <= r); [|unfold w in *; lra]. apply Rnot_lt_le. intros C. assert (E : s < w * w) by (rewrite <- Q; nra).
    assert (B : w * w <= d ^ 2 * (1 - (4 * u + 7 * u ^ 2)) - 4 * eta); [|lra]. set (k := 1 - (2 * u + 8 * u ^ 2)) in *. assert (K2 : k ^ 2 <= 1 - (4 * u + 7 * u ^ 2)) by (unfold k; nra). assert (DK : h < d * k) by (unfold w in W; lra).
    apply Rle_trans with (d ^ 2 * k ^ 2 - h * h); [|nra]. unfold w. nra.
  - set (k := 1 + (2 * u + 8 * u ^ 2)). set (w := d * k + h). assert (r <= w); [|unfold w, k in *; lra]. apply Rnot_lt_le. intros C. assert (W0 : 0 <= w) by (unfold w, k; nra). assert (E : w * w < s) by (rewrite <- Q; nra).
    assert (B : d ^ 2 * (1 + (4 * u + 7 * u ^ 2)) + 4 * eta <= w * w); [|lra]. assert (K2 : 1 + (4 * u + 7 * u ^ 2) <= k ^ 2) by (unfold k; nra). assert (0 <= d * k) by (unfold k; nra). apply Rle_trans with (d ^ 2 * k ^ 2 + h * h); [nra|]. unfold w. nra.
Qed.

(** What is computed: two rounded differences, their rounded squares, the rounded sum and the rounded root. *)
Lemma distance_steps : forall p q, moderate p -> moderate q ->
  is (fdistance p q) (rnd (sqrt (rnd (rnd (rnd (value (fx p) - value (fx q)) * rnd (value (fx p) - value (fx q))) + rnd (rnd (value (fy p) - value (fy q)) * rnd (value (fy p) - value (fy q))))))).
Proof.
  intros p q ((FPX & FPY) & PX & PY) ((FQX & FQY) & QX & QY). unfold fdistance.
  destruct (diff_cases _ _ FPX FQX PX QX) as (_ & _ & _ & (FX & VX) & BX). destruct (diff_cases _ _ FPY FQY PY QY) as (_ & _ & _ & (FY & VY) & BY).
  destruct (square_cases _ FX BX) as ((FX2 & VX2) & SX & RX). destruct (square_cases _ FY BY) as ((FY2 & VY2) & SY & RY).
  destruct (add_cases _ _ FX2 FY2 RX RY SX SY) as (_ & _ & _ & (FS & VS) & SS). rewrite VX2, VY2, VX, VY in VS. rewrite <- VS. apply fsqrt_rnd; auto.
Qed.
Lemma distance_close : forall p q, moderate p -> moderate q ->
  exists v, is (fdistance p q) v /\ 0 <= v /\ Rabs (v - apart p q) <= 4 * u * apart p q + 2 * h.
Proof.
  intros p q ((FPX & FPY) & PX & PY) ((FQX & FQY) & QX & QY). unfold fdistance.
  destruct (diff_cases _ _ FPX FQX PX QX) as (ex & EX & (_ & WX) & (FX & VX) & BX). destruct (diff_cases _ _ FPY FQY PY QY) as (ey & EY & (_ & WY) & (FY & VY) & BY).
  destruct (square_cases _ FX BX) as ((FX2 & VX2) & SX & RX). destruct (square_cases _ FY BY) as ((FY2 & VY2) & SY & RY).
  destruct (add_cases _ _ FX2 FY2 RX RY SX SY) as (e & E & (_ & WS) & (FS & VS) & SS). rewrite WX in VX2. rewrite WY in VY2.
  pose proof (coord_square (value (fx p) - value (fx q)) ex EX) as CX. pose proof (coord_square (value (fy p) - value (fy q)) ey EY) as CY. rewrite <- VX2 in CX. rewrite <- VY2 in CY.
  set (X := value (fmul (fsub (fx p) (fx q)) (fsub (fx p) (fx q)))) in *. set (Y := value (fmul (fsub (fy p) (fy q)) (fsub (fy p) (fy q)))) in *.
  assert (D : apart p q = sqrt ((value (fx p) - value (fx q)) ^ 2 + (value (fy p) - value (fy q)) ^ 2)) by reflexivity.
  set (a := (value (fx p) - value (fx q)) ^ 2) in *. set (b := (value (fy p) - value (fy q)) ^ 2) in *.
  assert (A0 : 0 <= a) by apply pow2_ge_0. assert (B0 : 0 <= b) by apply pow2_ge_0. pose proof u_pos. pose proof u_small. pose proof eta_pos. pose proof h_pos. pose proof eta_h.
  apply abs_ge in CX. apply abs_ge in CY. apply abs_ge in E. set (d := apart p q) in *. assert (D0 : 0 <= d) by (rewrite D; apply sqrt_pos). assert (D2 : d ^ 2 = a + b) by (rewrite D; simpl; rewrite Rmult_1_r; apply sqrt_sqrt; lra).
  set (s := value (fadd (fmul (fsub (fx p) (fx q)) (fsub (fx p) (fx q))) (fmul (fsub (fy p) (fy q)) (fsub (fy p) (fy q))))) in *.
  assert (S0 : 0 <= s) by (rewrite WS; apply Rmult_le_pos; lra).
  assert (SB : Rabs (s - d ^ 2) <= d ^ 2 * ((1 + u) ^ 4 - 1) + 4 * eta).
  { set (t := X + Y) in *. set (g := (1 + u) ^ 3 - 1) in *. assert (T : - (d ^ 2 * g + 2 * eta) <= t - d ^ 2 <= d ^ 2 * g + 2 * eta) by (rewrite D2; unfold t; nra). assert (T0 : 0 <= t) by (unfold t; lra). assert (G : (1 + u) ^ 4 - 1 = g * (1 + u) + u) by (unfold g; ring). rewrite G.
    assert (SU : s <= t * (1 + u)) by (rewrite WS; apply Rmult_le_compat_l; lra). assert (SL : t * (1 - u) <= s) by (rewrite WS; apply Rmult_le_compat_l; lra). assert (0 <= d ^ 2) by nra. assert (0 <= g) by (unfold g; nra).
    apply abs_le. assert (t * (1 + u) <= (d ^ 2 * (1 + g) + 2 * eta) * (1 + u)) by (apply Rmult_le_compat_r; lra). assert ((d ^ 2 * (1 - g) - 2 * eta) * (1 - u) <= t * (1 - u)) by (apply Rmult_le_compat_r; lra).
    assert (eta * u <= eta) by nra. assert (0 <= d ^ 2 * g * u) by (repeat apply Rmult_le_pos; lra). split; nra. }
  pose proof (sqrt_between s d D0 S0 SB) as R. apply abs_ge in R. destruct (fsqrt_rnd _ FS (or_intror SS)) as (FR & VR). fold s in VR. exists (rnd (sqrt s)). split; [split; auto|]. split; [rewrite <- rnd_0; apply rnd_le, sqrt_pos|].
  pose proof (rnd_err (sqrt s)) as RE. pose proof (sqrt_pos s) as RP. rewrite (Rabs_pos_eq (sqrt s) RP) in RE. apply abs_ge in RE. set (r := sqrt s) in *. apply abs_le.
  assert (U : u * r <= u * (d * (1 + (2 * u + 8 * u ^ 2)) + h)) by (apply Rmult_le_compat_l; lra). assert (K : (2 * u + 8 * u ^ 2) + u * (1 + (2 * u + 8 * u ^ 2)) <= 4 * u) by nra. assert (d * ((2 * u + 8 * u ^ 2) + u * (1 + (2 * u + 8 * u ^ 2))) <= d * (4 * u)) by (apply Rmult_le_compat_l; auto). assert (u * h <= h * / 1000000) by nra. split; nra.
Qed.

(** The root of a rounded square. *)
Lemma rnd_rel : forall r, bpow radix2 (-1022) <= Rabs r -> Rabs (rnd r - r) <= u / (1 + u) * Rabs r.
Proof.
  intros r H. unfold rnd. rewrite fexp_FLT. rewrite round_FLT_FLX by exact H. destruct (relative_error_N_FLX'_ex radix2 53 ltac:(reflexivity) (fun x => negb (Z.even x)) r) as (e & E & ->).
  replace (r * (1 + e) - r) with (e * r) by ring. rewrite Rabs_mult. apply Rmult_le_compat_r; [apply Rabs_pos|]. eapply Rle_trans; [exact E|]. right. unfold u_ro.
  replace (/ 2 * bpow radix2 (- (53) + 1)) with u; [reflexivity|]. change (- (53) + 1)%Z with (1 + -53)%Z. rewrite bpow_plus. fold u. change (bpow radix2 1) with 2. lra.
Qed.
Lemma root_near : forall x y, 0 < x -> 0 <= y -> Rabs (y - x * x) <= u / (1 + u) * (x * x) -> Rabs (sqrt y - x) <= x * (u / 2).
Proof.
  intros x y X Y H. pose proof u_pos. pose proof u_small. assert (XX : 0 < x * x) by nra. pose proof (sqrt_pos y) as P. pose proof (sqrt_sqrt y Y) as Q. set (r := sqrt y) in *. apply abs_ge in H.
  assert (K : u / (1 + u) <= u) by (apply Rmult_le_reg_r with (1 + u); [lra|]; unfold Rdiv; rewrite Rmult_assoc, Rinv_l by lra; nra). assert (K2 : u / (1 + u) = 1 - / (1 + u)) by (field; lra). assert (K3 : (1 - u / 2) ^ 2 <= / (1 + u)).
  { apply Rmult_le_reg_r with (1 + u); [lra|]. rewrite Rinv_l by lra. nra. }
  assert (HU : y <= x * x * (1 + u / 2) ^ 2) by (apply Rle_trans with (x * x * (1 + u)); [nra|apply Rmult_le_compat_l; nra]).
  assert (HL : x * x * (1 - u / 2) ^ 2 <= y) by (apply Rle_trans with (x * x * / (1 + u)); [apply Rmult_le_compat_l; lra|rewrite K2 in H; nra]).
  apply abs_le. split.
  - assert (x * (1 - u / 2) <= r); [|lra]. apply Rnot_lt_le. intros C. assert (0 < x * (1 - u / 2)) by nra. assert (r * r < x * (1 - u / 2) * (x * (1 - u / 2))) by nra. nra.
  - assert (r <= x * (1 + u / 2)); [|lra]. apply Rnot_lt_le. intros C. assert (0 < x * (1 + u / 2)) by nra. assert (x * (1 + u / 2) * (x * (1 + u / 2)) < r * r) by nra. nra.
Qed.
Lemma format_bpow : forall e, (-1074 <= e)%Z -> generic_format radix2 (FLT_exp (-1074) 53) (bpow radix2 e).
Proof. intros e H. apply generic_format_FLT_bpow; [reflexivity|auto]. Qed.
Lemma rnd_id : forall r, generic_format radix2 (FLT_exp (-1074) 53) r -> rnd r = r.
Proof. intros r H. unfold rnd. rewrite fexp_FLT. apply round_generic; [typeclasses eauto|exact H]. Qed.
Lemma rnd_format' : forall r, generic_format radix2 (FLT_exp (-1074) 53) (rnd r).
Proof. intros r. unfold rnd. rewrite fexp_FLT. apply generic_format_round; typeclasses eauto. Qed.
Lemma root_square : forall x, generic_format radix2 (FLT_exp (-1074) 53) x -> bpow radix2 (-500) <= x -> rnd (sqrt (rnd (x * x))) = x.
Proof.
  intros x F L. assert (X : 0 < x) by (eapply Rlt_le_trans; [apply (bpow_gt_0 radix2 (-500))|exact L]). destruct (mag radix2 x) as (ex & M). assert (M' := M ltac:(lra)). rewrite Rabs_pos_eq in M' by lra. destruct M' as [M1 M2].
  assert (EX : (-500 < ex)%Z) by (apply (lt_bpow radix2); lra).
  assert (SQ : bpow radix2 (2 * ex - 2) = bpow radix2 (ex - 1) * bpow radix2 (ex - 1)) by (rewrite <- bpow_plus; f_equal; lia). pose proof (bpow_gt_0 radix2 (ex - 1)) as PB.
  destruct (Rle_lt_or_eq_dec _ _ M1) as [LT|EQ].
  2:{ rewrite <- EQ, <- SQ. rewrite (rnd_id (bpow radix2 (2 * ex - 2))) by (apply format_bpow; lia). rewrite SQ, sqrt_square by lra. apply rnd_id. apply format_bpow. lia. }
  set (y := rnd (x * x)) in *. assert (Y1 : bpow radix2 (2 * ex - 2) <= y) by (rewrite <- (rnd_id (bpow radix2 (2 * ex - 2))) by (apply format_bpow; lia); apply rnd_le; rewrite SQ; nra).
  assert (Y0 : 0 <= y) by (pose proof (bpow_gt_0 radix2 (2 * ex - 2)); lra).
  assert (N : Rabs (sqrt y - x) <= x * (u / 2)).
  { apply root_near; auto. unfold y. pose proof (rnd_rel (x * x)) as RR. rewrite (Rabs_pos_eq (x * x)) in RR by nra. apply RR. apply Rle_trans with (bpow radix2 (2 * ex - 2)); [apply bpow_le; lia|rewrite SQ; nra]. }
  assert (R1 : bpow radix2 (ex - 1) <= sqrt y) by (rewrite <- (sqrt_square (bpow radix2 (ex - 1))) by lra; rewrite <- SQ; apply sqrt_le_1_alt; auto).
  assert (ULP : bpow radix2 ex * (u / 2) = / 2 * bpow radix2 (ex - 53)) by (unfold u; replace (ex - 53)%Z with (ex + -53)%Z by lia; rewrite bpow_plus; lra).
  assert (N' : Rabs (sqrt y - x) < / 2 * bpow radix2 (ex - 53)) by (eapply Rle_lt_trans; [exact N|]; rewrite <- ULP; pose proof u_pos; apply Rmult_lt_compat_r; lra).
  assert (CX : cexp radix2 (FLT_exp (-1074) 53) x = (ex - 53)%Z) by (unfold cexp; rewrite (mag_unique_pos radix2 x ex) by lra; unfold FLT_exp; lia).
  assert (MX : x = IZR (Ztrunc (scaled_mantissa radix2 (FLT_exp (-1074) 53) x)) * bpow radix2 (ex - 53)) by (rewrite F at 1; unfold F2R; cbn [Fnum Fexp]; rewrite CX; reflexivity).
  set (m := Ztrunc (scaled_mantissa radix2 (FLT_exp (-1074) 53) x)) in *. pose proof (bpow_gt_0 radix2 (ex - 53)) as PU.
  assert (TOP : x + bpow radix2 (ex - 53) <= bpow radix2 ex).
  { replace (bpow radix2 ex) with (IZR (2 ^ 53) * bpow radix2 (ex - 53)) in * by (change (IZR (2 ^ 53)) with (bpow radix2 53); rewrite <- bpow_plus; f_equal; lia).
    assert (MM : (m < 2 ^ 53)%Z) by (apply lt_IZR; apply Rmult_lt_reg_r with (bpow radix2 (ex - 53)); [auto|rewrite <- MX; exact M2]).
    rewrite MX at 1. replace (IZR m * bpow radix2 (ex - 53) + bpow radix2 (ex - 53)) with (IZR (m + 1) * bpow radix2 (ex - 53)) by (rewrite plus_IZR; ring). apply Rmult_le_compat_r; [lra|]. apply IZR_le. lia. }
  apply Rabs_def2 in N' as [N1 N2]. assert (CR : cexp radix2 (FLT_exp (-1074) 53) (sqrt y) = (ex - 53)%Z) by (unfold cexp; rewrite (mag_unique_pos radix2 (sqrt y) ex) by lra; unfold FLT_exp; lia).
  unfold rnd. rewrite fexp_FLT. unfold round. rewrite CR. assert (Z : ZnearestE (scaled_mantissa radix2 (FLT_exp (-1074) 53) (sqrt y)) = m).
  { apply Znearest_imp. unfold scaled_mantissa. rewrite CR. assert (I : bpow radix2 (ex - 53) * bpow radix2 (- (ex - 53)) = 1) by (rewrite <- bpow_plus; replace (ex - 53 + - (ex - 53))%Z with 0%Z by lia; reflexivity). pose proof (bpow_gt_0 radix2 (- (ex - 53))) as PI.
    replace (IZR m) with (x * bpow radix2 (- (ex - 53))) by (rewrite MX at 1; rewrite Rmult_assoc, I; ring). rewrite <- Rmult_minus_distr_r. rewrite Rabs_mult. rewrite (Rabs_pos_eq (bpow radix2 (- (ex - 53)))) by lra. assert (N3 : Rabs (sqrt y - x) < / 2 * bpow radix2 (ex - 53)) by (apply Rabs_def1; lra).
    apply Rlt_le_trans with (/ 2 * bpow radix2 (ex - 53) * bpow radix2 (- (ex - 53))); [apply Rmult_lt_compat_r; auto|]. rewrite Rmult_assoc, I. lra. }
  rewrite Z. unfold F2R. cbn [Fnum Fexp]. symmetry. exact MX.
Qed.
(** Along an axis: the rounded difference itself. *)
Lemma one_axis : forall d, d = 0 \/ bpow radix2 (-500) <= Rabs d -> rnd (sqrt (rnd (rnd (rnd d * rnd d) + rnd (rnd 0 * rnd 0)))) = Rabs (rnd d).
Proof.
  intros d H. rewrite rnd_0, Rmult_0_r, rnd_0, Rplus_0_r. rewrite (rnd_id (rnd (rnd d * rnd d))) by apply rnd_format'.
  destruct H as [->|H]; [rewrite rnd_0, Rmult_0_r, rnd_0, sqrt_0, rnd_0, Rabs_R0; reflexivity|].
  assert (A : Rabs (rnd d) = rnd (Rabs d)) by (destruct (Rle_or_lt 0 d) as [D|D]; [rewrite (Rabs_pos_eq d D); apply Rabs_pos_eq; rewrite <- rnd_0; apply rnd_le; auto|rewrite (Rabs_left d D), rnd_opp; apply Rabs_left1; rewrite <- rnd_0; apply rnd_le; lra]).
  replace (rnd d * rnd d) with (Rabs (rnd d) * Rabs (rnd d)) by (rewrite <- Rabs_mult; apply Rabs_pos_eq; nra). rewrite A. apply root_square; [apply rnd_format'|]. rewrite <- (rnd_id (bpow radix2 (-500))) by (apply format_bpow; lia). apply rnd_le; auto.
Qed.
Lemma distance_x : forall p q, moderate p -> moderate q -> value (fy p) = value (fy q) -> value (fx p) = value (fx q) \/ bpow radix2 (-500) <= Rabs (value (fx p) - value (fx q)) ->
  is (fdistance p q) (Rabs (rnd (value (fx p) - value (fx q)))).
Proof. intros p q P Q E D. pose proof (distance_steps p q P Q) as H. rewrite E in H. unfold Rminus at 3 4 in H. rewrite Rplus_opp_r in H. rewrite one_axis in H; [exact H|]. destruct D as [D|D]; [left; lra|right; auto]. Qed.
Lemma distance_y : forall p q, moderate p -> moderate q -> value (fx p) = value (fx q) -> value (fy p) = value (fy q) \/ bpow radix2 (-500) <= Rabs (value (fy p) - value (fy q)) ->
  is (fdistance p q) (Rabs (rnd (value (fy p) - value (fy q)))).
Proof. intros p q P Q E D. pose proof (distance_steps p q P Q) as H. rewrite E in H. unfold Rminus at 1 2 in H. rewrite Rplus_opp_r in H. rewrite (Rplus_comm (rnd (rnd 0 * rnd 0))) in H. rewrite one_axis in H; [exact H|]. destruct D as [D|D]; [left; lra|right; auto]. Qed.

(** Whole numbers. *)
Lemma sq_bound : forall a b, (Z.abs a <= 2 ^ 24)%Z -> (Z.abs b <= 2 ^ 24)%Z -> (0 <= (a - b) * (a - b) <= 2 ^ 50)%Z.
Proof. intros a b A B. split; [apply Z.square_nonneg|]. rewrite <- (Z.abs_square (a - b)). change (2 ^ 50)%Z with (2 ^ 25 * 2 ^ 25)%Z. apply Z.mul_le_mono_nonneg; lia. Qed.
Lemma distance_whole_is : forall p q k, whole_pt (2 ^ 24) p -> whole_pt (2 ^ 24) q -> apart p q = IZR k -> is (fdistance p q) (IZR k).
Proof.
  intros p q k ((x1 & (FX1 & X1) & B1) & (y1 & (FY1 & Y1) & B2)) ((x2 & (FX2 & X2) & B3) & (y2 & (FY2 & Y2) & B4)) D.
  assert (MB : forall z, (Z.abs z <= 2 ^ 24)%Z -> Rabs (IZR z) <= bpow radix2 500) by (intros z Z; rewrite <- abs_IZR; apply Rle_trans with (bpow radix2 24); [change (bpow radix2 24) with (IZR (2 ^ 24)); apply IZR_le; auto|apply bpow_le; lia]).
  assert (P : moderate p) by (split; [split; auto|rewrite X1, Y1; auto]). assert (Q : moderate q) by (split; [split; auto|rewrite X2, Y2; auto]).
  pose proof (distance_steps p q P Q) as H. unfold apart, place in D. cbn [px py] in D. rewrite X1, X2, Y1, Y2 in *. rewrite <- !minus_IZR in *. rewrite !(rnd_int (_ - _)) in H by lia. rewrite <- !mult_IZR in H.
  pose proof (sq_bound x1 x2 B1 B3) as S1. pose proof (sq_bound y1 y2 B2 B4) as S2. rewrite !(rnd_int (_ * _)) in H by lia. rewrite <- plus_IZR in H. rewrite rnd_int in H by lia.
  replace (IZR ((x1 - x2) * (x1 - x2) + (y1 - y2) * (y1 - y2))) with (IZR (x1 - x2) ^ 2 + IZR (y1 - y2) ^ 2) in H by (rewrite plus_IZR, !mult_IZR; ring). rewrite D in H. rewrite rnd_int in H; [exact H|].
  assert (K0 : 0 <= IZR k) by (rewrite <- D; apply sqrt_pos). assert (K2 : (k * k = (x1 - x2) * (x1 - x2) + (y1 - y2) * (y1 - y2))%Z).
  { apply eq_IZR. rewrite plus_IZR, !mult_IZR. rewrite <- D. rewrite sqrt_sqrt; [ring|]. pose proof (pow2_ge_0 (IZR (x1 - x2))). pose proof (pow2_ge_0 (IZR (y1 - y2))). lra. }
  apply le_IZR in K0. clear - K0 K2 S1 S2. set (a := ((x1 - x2) * (x1 - x2))%Z) in *. set (b := ((y1 - y2) * (y1 - y2))%Z) in *. assert (k <= 2 ^ 26)%Z; [|lia]. apply Z.nlt_ge. intros C. assert (2 ^ 26 * 2 ^ 26 < k * k)%Z by (apply Z.mul_lt_mono_nonneg; lia). lia.
Qed.

(** The order of the two points does not matter, whatever numbers they are. *)
Lemma square_opp : forall a : fl, fmul (fneg a) (fneg a) = fmul a a.
Proof.
  intros a. unfold fmul, fneg. destruct a as [s|s| |s m e b]; try (destruct s; reflexivity); try reflexivity.
  set (a := B754_finite s m e b). assert (FA : is_finite a = true) by reflexivity. assert (FO : is_finite (Bopp a) = true) by reflexivity.
  pose proof (Bmult_correct 53 1024 p53 p1024 mode_NE (Bopp a) (Bopp a)) as C. pose proof (Bmult_correct 53 1024 p53 p1024 mode_NE a a) as D. rewrite !B2R_Bopp in C. rewrite Rmult_opp_opp in C. rewrite !xorb_nilpotent in *.
  destruct (Rlt_bool _ _).
  - destruct C as (C1 & C2 & C3). destruct D as (D1 & D2 & D3). rewrite FO in C2. rewrite FA in D2. cbn [andb] in *. assert (NN : forall z : fl, is_finite z = true -> is_nan z = false) by (intros [| | |] Z; auto; discriminate). apply B2R_Bsign_inj; auto; [congruence|]. rewrite C3, D3; auto.
  - apply B2SF_inj. congruence.
Qed.

Lemma square_diff : forall x y : fl, fmul (fsub x y) (fsub x y) = fmul (fsub y x) (fsub y x).
Proof.
  intros x y. destruct (is_finite x) eqn:FX; destruct (is_finite y) eqn:FY.
  - pose proof (Bminus_correct 53 1024 p53 p1024 mode_NE x y FX FY) as C. pose proof (Bminus_correct 53 1024 p53 p1024 mode_NE y x FY FX) as D.
    change (round radix2 (SpecFloat.fexp 53 1024) (round_mode mode_NE)) with rnd in C, D. replace (B2R y - B2R x) with (- (B2R x - B2R y)) in D by ring. rewrite rnd_opp, Rabs_Ropp in D. fold (fsub x y) in C. fold (fsub y x) in D.
    destruct (Rlt_bool (Rabs (rnd (B2R x - B2R y))) (bpow radix2 1024)).
    + destruct C as (C1 & C2 & C3). destruct D as (D1 & D2 & D3). destruct (Req_dec (B2R x - B2R y) 0) as [Z|Z].
      * rewrite Z, ?Ropp_0, rnd_0 in *. rewrite Ropp_0 in D1. destruct (fsub x y) as [s|s| |s m e b]; try discriminate C2; [|exfalso; cbn [B2R] in C1; apply eq_0_F2R in C1; destruct s; discriminate C1].
        destruct (fsub y x) as [s'|s'| |s' m e b]; try discriminate D2; [|exfalso; cbn [B2R] in D1; apply eq_0_F2R in D1; destruct s'; discriminate D1]. destruct s, s'; reflexivity.
      * rewrite <- (square_opp (fsub y x)). assert (E : fsub x y = fneg (fsub y x)); [|rewrite E; reflexivity]. unfold fneg. apply B2R_Bsign_inj; [auto|rewrite is_finite_Bopp; auto|rewrite B2R_Bopp, C1, D1; ring|].
        rewrite Bsign_Bopp by (destruct (fsub y x); try reflexivity; discriminate D2). rewrite C3, D3. destruct (Rcompare_spec (B2R x - B2R y) 0); destruct (Rcompare_spec (- (B2R x - B2R y)) 0); try lra; reflexivity.
    + destruct C as (C & _). destruct D as (D & _). rewrite <- (square_opp (fsub y x)). destruct (fsub x y) as [s|s| |s m e b]; try discriminate C. destruct (fsub y x) as [s'|s'| |s' m e b]; try discriminate D. destruct s, s'; reflexivity.
  - destruct y as [s|s| |s m e b]; try discriminate FY; destruct x as [s'|s'| |s' m' e' b']; try discriminate FX; try reflexivity; destruct s; reflexivity.
  - destruct y as [s|s| |s m e b]; try discriminate FY; destruct x as [s'|s'| |s' m' e' b']; try discriminate FX; try reflexivity; destruct s'; reflexivity.
  - destruct y as [s|s| |s m e b]; try discriminate FY; destruct x as [s'|s'| |s' m' e' b']; try discriminate FX; try reflexivity; destruct s'; try reflexivity; destruct s; reflexivity.
Qed.
Lemma distance_sym : forall p q, fdistance p q = fdistance q p.
Proof. intros p q. unfold fdistance. rewrite (square_diff (fx p)), (square_diff (fy p)). reflexivity. Qed.

(** Polylines. *)
Lemma apart_sym : forall p q, apart p q = apart q p.
Proof. intros p q. unfold apart. f_equal. ring. Qed.
Lemma apart_nonneg : forall p q, 0 <= apart p q. Proof. intros p q. apply sqrt_pos. Qed.
Lemma walked_nonneg : forall l p, 0 <= walked p l. Proof. induction l as [|q l IH]; intros p; cbn [walked]; [lra|]. pose proof (apart_nonneg p q). pose proof (IH q). lra. Qed.
Lemma apart_cap : forall p q, moderate p -> moderate q -> apart p q <= bpow radix2 502.
Proof.
  intros p q (_ & PX & PY) (_ & QX & QY). unfold apart, place. cbn [px py]. rewrite <- (sqrt_square (bpow radix2 502)) by apply bpow_ge_0. apply sqrt_le_1_alt.
  replace (bpow radix2 502) with (4 * bpow radix2 500) by (change 4 with (bpow radix2 2); rewrite <- bpow_plus; reflexivity). set (M := bpow radix2 500) in *. apply abs_ge in PX. apply abs_ge in PY. apply abs_ge in QX. apply abs_ge in QY.
  assert (S : forall a b, - M <= a <= M -> - M <= b <= M -> (a - b) ^ 2 <= (2 * M) ^ 2) by (intros a b A B; apply pow_maj_Rabs, Rabs_le; lra).
  pose proof (S _ _ PX QX). pose proof (S _ _ PY QY). pose proof (bpow_gt_0 radix2 500). fold M in H1. nra.
Qed.
Lemma lines_close : forall l p, moderate p -> Forall moderate l -> Forall (fun x => finite x /\ 0 <= value x) (flines p l) /\ length (flines p l) = length l /\
  Rabs (total (flines p l) - walked p l) <= 4 * u * walked p l + INR (length l) * (2 * h) /\ walked p l <= INR (length l) * bpow radix2 502.
Proof.
  induction l as [|q l IH]; intros p P L; cbn [flines walked total].
  - split; [constructor|]. split; [reflexivity|]. cbn [length INR]. rewrite Rminus_0_r, Rabs_R0. split; lra.
  - inversion L as [|? ? Q L']; subst. destruct (IH q Q L') as (A & B & C & D). destruct (distance_close q p Q P) as (v & (F & V) & V0 & E). unfold fline_length. rewrite apart_sym in E. split; [constructor; [rewrite V; auto|exact A]|]. split; [cbn [length]; now rewrite B|].
    rewrite V. cbn [length]. rewrite S_INR. apply abs_ge in C. apply abs_ge in E. pose proof (apart_cap p q P Q). split; [apply abs_le; split; lra|lra].
Qed.
Lemma length_close : forall l p, moderate p -> Forall moderate l -> (Z.of_nat (length l) < 2 ^ 40)%Z ->
  about (fpolyline_length p l) (walked p l) ((2 * INR (length l) + 7) * u * walked p l + INR (length l) * (4 * h)).
Proof.
  intros l p P L N. destruct (lines_close l p P L) as (A & B & C & D). destruct fz0 as [F0 V0]. set (n := length l) in *. set (w := walked p l) in *. set (t := total (flines p l)) in *.
  assert (W0 : 0 <= w) by apply walked_nonneg. assert (NF : few (S n)) by (unfold few; rewrite INR_IZR_INZ; change (bpow radix2 40) with (IZR (2 ^ 40)); apply IZR_le; lia). assert (N0 : 0 <= INR n) by apply pos_INR.
  assert (NU : INR n * u <= / 8192) by (pose proof (few_u _ NF) as K; rewrite S_INR in K; pose proof u_pos; nra). pose proof u_pos. pose proof u_small. pose proof h_pos. apply abs_ge in C.
  assert (T : total (fpolyline_lengths p l) = t) by (unfold fpolyline_lengths; cbn [total]; rewrite V0; fold t; ring).
  assert (CAP : t <= bpow radix2 1000).
  { assert (N40 : INR n <= bpow radix2 40) by (unfold few in NF; rewrite S_INR in NF; lra). assert (HH : h <= 1) by (change 1 with (bpow radix2 0); apply bpow_le; lia). assert (B1 : 1 <= bpow radix2 502) by (change 1 with (bpow radix2 0); apply bpow_le; lia).
    assert (W : w <= bpow radix2 542) by (eapply Rle_trans; [exact D|]; replace (bpow radix2 542) with (bpow radix2 40 * bpow radix2 502) by (rewrite <- bpow_plus; reflexivity); apply Rmult_le_compat_r; [lra|exact N40]).
    apply Rle_trans with (4 * bpow radix2 542); [|change 4 with (bpow radix2 2); rewrite <- bpow_plus; apply bpow_le; lia]. assert (bpow radix2 40 <= bpow radix2 542) by (apply bpow_le; lia). assert (4 * u * w <= w) by nra. assert (INR n * (2 * h) <= 2 * INR n) by nra. lra. }
  assert (OK : lengths_ok (fpolyline_lengths p l)) by (split; [unfold fpolyline_lengths; constructor; [split; [exact F0|rewrite V0; lra]|exact A]|rewrite T; exact CAP]).
  assert (LEN : length (fpolyline_lengths p l) = S n) by (unfold fpolyline_lengths; cbn [length]; now rewrite B).
  destruct (fsum_close _ OK ltac:(rewrite LEN; exact NF)) as (v & (FV & VV) & S1). rewrite T, LEN, S_INR in S1. assert (T0 : 0 <= t) by (apply total_nonneg; exact A). unfold fpolyline_length. split; [exact FV|]. rewrite VV.
  set (k := INR n) in *. set (g := k * (2 * h)) in *. assert (G0 : 0 <= g) by (unfold g; nra). assert (TW : t <= w * (1 + 4 * u) + g) by lra.
  assert (X : (k + 1) * u * t <= (k + 1) * u * (w * (1 + 4 * u) + g)) by (apply Rmult_le_compat_l; [nra|exact TW]). replace (k * (4 * h)) with (2 * g) by (unfold g; ring).
  assert (KU : 0 <= (k + 1) * u <= / 4096) by (split; nra). assert (Y : (k + 1) * u * (w * (1 + 4 * u) + g) <= (k + 1) * u * w + u * w * / 1000 + g * / 4096).
  { assert ((k + 1) * u * (4 * (u * w)) <= / 4096 * (4 * (u * w))) by (apply Rmult_le_compat_r; nra). assert ((k + 1) * u * g <= / 4096 * g) by (apply Rmult_le_compat_r; lra). assert (0 <= u * w) by nra. nra. }
  apply abs_le. assert (0 <= u * w) by nra. assert (0 <= k * u * w) by (apply Rmult_le_pos; nra). split; nra.
Qed.
Lemma flines_app : forall l p q, exists r, flines p (l ++ [q]) = flines p l ++ [fline_length r q] /\ (r = p \/ In r l).
Proof.
  induction l as [|a l IH]; intros p q; cbn [flines app].
  - exists p. auto.
  - destruct (IH a q) as (r & E & I). exists r. rewrite E. split; [reflexivity|]. right. cbn. destruct I as [->|I]; auto.
Qed.
Lemma fadd_finite : forall a b : fl, finite a -> finite b -> finite (fadd a b) -> value (fadd a b) = rnd (value a + value b).
Proof.
  intros a b A B C. pose proof (Bplus_correct 53 1024 p53 p1024 mode_NE a b A B) as H. destruct (Rlt_bool _ _); [exact (proj1 H)|]. destruct H as [H _]. exfalso. unfold finite, fadd in C. destruct (Bplus mode_NE a b); try discriminate C; discriminate H.
Qed.
Lemma length_grows : forall l p q, moderate p -> Forall moderate (l ++ [q]) -> (Z.of_nat (length (l ++ [q])) < 2 ^ 40)%Z -> value (fpolyline_length p l) <= value (fpolyline_length p (l ++ [q])).
Proof.
  intros l p q P L N. pose proof (length_close _ p P L N) as [F _]. pose proof L as L'. apply Forall_app in L' as [L1 L2]. inversion L2 as [|? ? Q _]; subst. rewrite app_length in N.
  pose proof (length_close l p P L1 ltac:(lia)) as [F1 _]. destruct (flines_app l p q) as (r & E & I). assert (R : moderate r) by (destruct I as [->|I]; [auto|]; rewrite Forall_forall in L1; auto).
  destruct (distance_close q r Q R) as (v & (FV & VV) & V0 & _). assert (A : fpolyline_length p (l ++ [q]) = fadd (fpolyline_length p l) (fline_length r q)) by (unfold fpolyline_length, fpolyline_lengths, fsum; rewrite E, app_comm_cons, fold_left_app; reflexivity).
  rewrite A in *. fold (fline_length r q) in FV, VV. rewrite fadd_finite; auto. rewrite VV. unfold value at 1. rewrite <- (rnd_format (fpolyline_length p l)). apply rnd_le. unfold value. lra.
Qed.

(** Walking along. *)
Lemma along_lines : forall l p i f, moderate p -> Forall moderate l -> (i < length l)%nat -> 0 <= f <= 1 ->
  exists s, along p l s (mix f (place (nth i (p :: l) p)) (place (nth i l p))) /\ 0 <= s <= walked p l /\
    Rabs (total (firstn i (flines p l)) + f * value (nth i (flines p l) (fz 0)) - s) <= 4 * u * s + INR (length l) * (2 * h).
Proof.
  induction l as [|q l IH]; intros p i f P L I F; [cbn in I; lia|]. inversion L as [|? ? Q L']; subst. destruct (distance_close q p Q P) as (v & (FV & V) & V0 & E). rewrite apart_sym in E. pose proof (apart_nonneg p q) as A0. pose proof (walked_nonneg l q) as W0. pose proof u_pos. pose proof h_pos. cbn [length]. rewrite S_INR. pose proof (pos_INR (length l)).
  destruct i as [|i].
  - exists (f * apart p q). split; [apply along_here; auto|]. cbn [walked flines firstn total nth]. split; [nra|]. unfold fline_length. rewrite V. replace (0 + f * v - f * apart p q) with (f * (v - apart p q)) by ring. rewrite Rabs_mult, (Rabs_pos_eq f) by lra.
    apply Rle_trans with (f * (4 * u * apart p q + 2 * h)); [apply Rmult_le_compat_l; lra|]. assert (f * (2 * h) <= 2 * h) by nra. nra.
  - cbn [length] in I. destruct (IH q i f Q L' ltac:(lia) F) as (s & A & S & D). exists (apart p q + s). change (nth (Datatypes.S i) (p :: q :: l) p) with (nth i (q :: l) p). change (nth (Datatypes.S i) (q :: l) p) with (nth i l p). replace (nth i (q :: l) p) with (nth i (q :: l) q) by (apply nth_indep; cbn; lia). replace (nth i l p) with (nth i l q) by (apply nth_indep; lia).
    split; [apply along_further; exact A|]. cbn [walked flines firstn total nth]. split; [lra|]. unfold fline_length at 1. rewrite V. apply abs_ge in D. apply abs_ge in E. apply abs_le. split; lra.
Qed.

Lemma segment_close : forall M np p l i f, 0 <= M <= bpow radix2 1000 -> within M p -> Forall (within M) l -> (i < length l)%nat -> finite f -> 0 <= value f <= 1 ->
  about_pt (fsegment_point np p l (Datatypes.S i) f) (mix (value f) (place (nth i (p :: l) p)) (place (nth i l p))) (20 * D M).
Proof.
  intros M np p l i f [M0 M1] P L I FF F. cbn [fsegment_point]. assert (W : forall q, In q (p :: l) -> within M q) by (intros q [<-|K]; [auto|]; rewrite Forall_forall in L; auto).
  assert (A : within M (nth i (p :: l) p)) by (apply W, nth_In; cbn; lia). assert (B : within M (nth i l p)) by (apply W; right; apply nth_In; lia).
  set (a := nth i (p :: l) p) in *. set (b := nth i l p) in *. destruct A as ((AF1 & AF2) & A1 & A2). destruct B as ((BF1 & BF2) & B1 & B2). unfold mix, place. cbn [px py].
  split; cbn [fx fy px py]; apply line_about; auto; split; auto.
Qed.
Lemma point_along : forall M np p l t, 0 <= M <= bpow radix2 500 -> within M p -> Forall (within M) l -> (Z.of_nat (length l) < 2 ^ 40 - 1)%Z -> bpow radix2 (-400) <= walked p l -> finite t -> 0 < value t < 1 ->
  exists q, fpolyline_point np p l t = Ok (Some q) /\
    ((exists s x, along p l s x /\ 0 <= s <= walked p l /\ Rabs (s - value t * walked p l) <= (8 * INR (length l) + 26) * u * walked p l /\ about_pt q x (20 * D M)) \/
     (1 - (8 * INR (length l) + 16) * u < value t /\ about_pt q (place (nth (length l - 1) (p :: l) p)) (20 * D M))).
Proof.
  intros M np p l t [M0 M1] P L N W FT T. assert (MO : forall q, within M q -> moderate q) by (intros q (A & B & C); split; [auto|split; lra]). assert (PM : moderate p) by auto. assert (LM : Forall moderate l) by (eapply Forall_impl; [|exact L]; auto).
  assert (M2 : M <= bpow radix2 1000) by (apply Rle_trans with (1 := M1), bpow_le; lia).
  destruct (lines_close l p PM LM) as (A & B & C & E). destruct fz0 as [F0 V0]. set (n := length l) in *. set (w := walked p l) in *. set (tt := total (flines p l)) in *. pose proof (bpow_gt_0 radix2 (-400)) as B400.
  assert (NF : few (Datatypes.S n)) by (unfold few; rewrite INR_IZR_INZ; change (bpow radix2 40) with (IZR (2 ^ 40)); apply IZR_le; lia). pose proof (pos_INR n) as N0. set (k := INR n) in *.
  assert (KB : k + 1 <= bpow radix2 40) by (unfold few in NF; rewrite S_INR in NF; exact NF).
  pose proof u_pos. pose proof u_small. pose proof h_pos.
  assert (KH : k * (2 * h) <= u * / 100 * w).
  { apply Rle_trans with (bpow radix2 40 * (2 * h)); [apply Rmult_le_compat_r; lra|]. apply Rle_trans with (u * / 100 * bpow radix2 (-400)); [|apply Rmult_le_compat_l; [nra|exact W]].
    apply Rle_trans with (u * bpow radix2 (-7) * bpow radix2 (-400)).
    - unfold u, h. change 2 with (bpow radix2 1). rewrite <- !bpow_plus. apply Rle_refl || (apply bpow_le; lia).
    - apply Rmult_le_compat_r; [lra|]. apply Rmult_le_compat_l; [lra|]. change (bpow radix2 (-7)) with (/ 128). lra. }
  assert (W0 : 0 < w) by lra. apply abs_ge in C. assert (T1 : tt <= w * (1 + 5 * u)) by nra. assert (T2 : w * (1 - 5 * u) <= tt) by nra. assert (TP : 0 < tt) by nra.
  assert (TT : total (fpolyline_lengths p l) = tt) by (unfold fpolyline_lengths; cbn [total]; rewrite V0; fold tt; ring).
  assert (CAP : tt <= bpow radix2 1000).
  { assert (bpow radix2 542 * 2 <= bpow radix2 1000) by (change 2 with (bpow radix2 1); rewrite <- bpow_plus; apply bpow_le; lia). assert (w <= bpow radix2 542) by (eapply Rle_trans; [exact E|]; replace (bpow radix2 542) with (bpow radix2 40 * bpow radix2 502) by (rewrite <- bpow_plus; reflexivity); apply Rmult_le_compat_r; [apply bpow_ge_0|lra]). nra. }
  assert (OK : lengths_ok (fpolyline_lengths p l)) by (split; [unfold fpolyline_lengths; constructor; [split; [exact F0|rewrite V0; lra]|exact A]|rewrite TT; exact CAP]).
  assert (LEN : length (fpolyline_lengths p l) = Datatypes.S n) by (unfold fpolyline_lengths; cbn [length]; now rewrite B).
  destruct (point_close _ t OK ltac:(rewrite LEN; exact NF) ltac:(rewrite TT; exact TP) FT T) as (i & f & R & I & FF & F & G). rewrite LEN in *. rewrite S_INR in G. fold k in G. exists (fsegment_point np p l i f). split; [unfold fpolyline_point; rewrite R; reflexivity|].
  assert (NP : (0 < n)%nat) by (destruct n eqn:NN; [|lia]; unfold k in KH; cbn in E; lra).
  destruct G as [[G1 G2]|(G1 & G2 & G3)].
  - left. destruct i as [|i]; [cbn [fpolyline_lengths nth] in G2; lra|]. destruct (along_lines l p i (value f) PM LM ltac:(fold n; lia) F) as (s & AL & S & SD). fold w in S. exists s. eexists. split; [exact AL|]. split; [exact S|]. split; [|apply segment_close; auto; fold n; lia].
    unfold reached in G1. rewrite TT in G1. unfold fpolyline_lengths in G1. cbn [firstn total nth] in G1. rewrite V0, Rplus_0_l in G1. set (a := total (firstn i (flines p l)) + value f * value (nth i (flines p l) (fz 0))) in *. fold n in SD. fold k in SD. apply abs_ge in SD.
    assert (G4 : Rabs (a - value t * tt) <= 8 * (k + 1 + 1) * u * tt).
    { replace (a - value t * tt) with ((a / tt - value t) * tt) by (field; lra). rewrite Rabs_mult, (Rabs_pos_eq tt) by lra. apply Rmult_le_compat_r; lra. }
    apply abs_ge in G4. assert (K1 : 8 * (k + 1 + 1) * u * tt <= 8 * (k + 2) * u * (w * (1 + 5 * u))) by (replace (k + 1 + 1) with (k + 2) by ring; apply Rmult_le_compat_l; [nra|exact T1]).
    assert (KU : k * u <= / 8192) by (pose proof (few_u _ NF) as K; rewrite S_INR in K; fold k in K; nra).
    assert (K2 : 8 * (k + 2) * u * (w * (1 + 5 * u)) <= (8 * k + 16) * u * w + u * w * / 100).
    { replace (8 * (k + 2) * u * (w * (1 + 5 * u))) with ((8 * k + 16) * u * w + (40 * (k * u) + 80 * u) * (u * w)) by ring. assert (0 <= u * w) by nra. assert ((40 * (k * u) + 80 * u) * (u * w) <= / 100 * (u * w)) by (apply Rmult_le_compat_r; lra). lra. }
    assert (K3 : 4 * u * s <= 4 * (u * w)) by nra. set (uw := u * w) in *. assert (UW : 0 <= uw) by (unfold uw; nra). assert (KH' : k * (2 * h) <= uw * / 100) by (unfold uw; lra). assert (K4 : (8 * k + 16) * u * w = (8 * k + 16) * uw) by (unfold uw; ring). rewrite K4 in K2.
    assert (TW : - (5 * uw) <= value t * (tt - w) <= 5 * uw).
    { assert (- (5 * uw) <= tt - w <= 5 * uw) by (unfold uw; lra). split; nra. }
    replace ((8 * k + 26) * u * w) with ((8 * k + 26) * uw) by (unfold uw; ring). apply abs_le. replace (s - value t * w) with (s - a + (a - value t * tt) + value t * (tt - w)) by ring. split; lra.
  - right. split; [replace (8 * k + 16) with (8 * (k + 1 + 1)) by ring; exact G1|]. subst i. replace (Datatypes.S n - 1)%nat with (Datatypes.S (n - 1)) by lia. pose proof (segment_close M np p l (n - 1) f (conj M0 M2) P L ltac:(fold n; lia) FF F) as SC. rewrite G3 in SC.
    replace (mix 0 (place (nth (n - 1) (p :: l) p)) (place (nth (n - 1) l p))) with (place (nth (n - 1) (p :: l) p)) in SC; [exact SC|]. unfold mix. destruct (place (nth (n - 1) (p :: l) p)) as [x0 y0]. cbn [px py]. f_equal; ring.
Qed.

(** The place is a function of the distance. *)
Lemma apart_0 : forall p q, apart p q = 0 -> place p = place q.
Proof.
  intros p q H. unfold apart in H. apply sqrt_eq_0 in H; [|pose proof (pow2_ge_0 (px (place p) - px (place q))); pose proof (pow2_ge_0 (py (place p) - py (place q))); lra].
  destruct (place p) as [a b], (place q) as [c d]. cbn [px py] in H. pose proof (pow2_ge_0 (a - c)). pose proof (pow2_ge_0 (b - d)). assert (SQ : forall r, r ^ 2 = 0 -> r = 0) by (intros r R; simpl in R; rewrite Rmult_1_r in R; apply Rsqr_0_uniq; exact R). assert (a - c = 0) by (apply SQ; lra). assert (b - d = 0) by (apply SQ; lra). f_equal; lra.
Qed.
Lemma along_low : forall p l s x, along p l s x -> 0 <= s /\ (s = 0 -> x = place p).
Proof.
  intros p l s x H. induction H as [p q r f F|p q r s x H [IH1 IH2]]; pose proof (apart_nonneg p q) as A.
  - split; [nra|]. intros Z. apply Rmult_integral in Z. destruct Z as [Z|Z]; [rewrite Z|rewrite <- (apart_0 p q Z)]; unfold mix; destruct (place p) as [x y]; cbn [px py]; f_equal; ring.
  - split; [lra|]. intros Z. assert (apart p q = 0) by lra. rewrite (apart_0 p q) by auto. apply IH2. lra.
Qed.
Lemma along_fun : forall p l s x y, along p l s x -> along p l s y -> x = y.
Proof.
  intros p l s x y H. revert y. induction H as [p q r f F|p q r s x H IH]; intros y K; pose proof (apart_nonneg p q) as A.
  - remember (f * apart p q) as s0 eqn:E0. inversion K as [? ? ? g G E1 E2 E3|? ? ? s' x' K' E1 E2 E3 E4]; subst.
    + destruct (Req_dec (apart p q) 0) as [Z|Z].
      * rewrite (apart_0 p q Z). unfold mix. f_equal; ring.
      * assert (f = g) by (apply Rmult_eq_reg_r with (apart p q); auto). subst. reflexivity.
    + destruct (along_low _ _ _ _ K') as [L1 L2]. assert (s' = 0) by nra. rewrite L2 by auto. destruct (Req_dec (apart p q) 0) as [Z|Z]; [rewrite (apart_0 p q Z); unfold mix; destruct (place q) as [x y0]; cbn [px py]; f_equal; ring|].
      assert (f = 1) by (apply Rmult_eq_reg_r with (apart p q); [lra|auto]). subst. unfold mix. destruct (place q) as [x y0]. cbn [px py]. f_equal; ring.
  - remember (apart p q + s) as s0 eqn:E0. destruct (along_low _ _ _ _ H) as [L1 L2]. inversion K as [? ? ? g G E1 E2 E3|? ? ? s' x' K' E1 E2 E3 E4]; subst.
    + assert (s = 0) by nra. rewrite L2 by auto. destruct (Req_dec (apart p q) 0) as [Z|Z]; [rewrite (apart_0 p q Z); unfold mix; destruct (place q) as [x0 y0]; cbn [px py]; f_equal; ring|].
      assert (g = 1) by (apply Rmult_eq_reg_r with (apart p q); [lra|auto]). subst. unfold mix. destruct (place q) as [x0 y0]. cbn [px py]. f_equal; ring.
    + apply IH. replace s with s' by lra. exact K'.
Qed.
Lemma flines_length : forall l p, length (flines p l) = length l.
Proof. induction l as [|q l IH]; intros p; cbn [flines length]; [reflexivity|]. now rewrite IH. Qed.
