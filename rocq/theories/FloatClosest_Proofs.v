(** The rounding of the closest point of a line. *)
Require Import ZArith Reals List Bool Lra Lia Psatz.
From Flocq Require Import Core BinarySingleNaN Relative.
Require Import Verif.Point_Model Verif.Curve_Model Verif.Curve_Spec Verif.Curve_Proofs Verif.Float_Model Verif.Float_Spec Verif.Float_Proofs Verif.FloatBox_Proofs Verif.FloatMat_Proofs Verif.FloatWalk_Proofs Verif.FloatDist_Spec Verif.FloatDist_Proofs Verif.FloatClosest_Model.
Open Scope R_scope.

(** * Rounding *)
Lemma product_err : forall a b e f, Rabs e <= u -> Rabs f <= u -> Rabs (rnd ((a * (1 + e)) * (b * (1 + f))) - a * b) <= 4 * u * Rabs (a * b) + eta.
Proof.
  intros a b e f E F. set (q := a * (1 + e) * (b * (1 + f))). pose proof (rnd_err q) as H. pose proof u_pos. pose proof u_small.
  assert (Q : Rabs (q - a * b) <= (2 * u + u * u) * Rabs (a * b)).
  { replace (q - a * b) with ((e + f + e * f) * (a * b)) by (unfold q; ring). rewrite Rabs_mult. apply Rmult_le_compat_r; [apply Rabs_pos|]. apply Rle_trans with (Rabs e + Rabs f + Rabs e * Rabs f); [rewrite <- (Rabs_mult e f); eapply Rle_trans; [apply Rabs_triang|]; apply Rplus_le_compat_r, Rabs_triang|]. assert (Rabs e * Rabs f <= u * u) by (apply Rmult_le_compat; auto using Rabs_pos). lra. }
  replace (rnd q - a * b) with ((rnd q - q) + (q - a * b)) by ring. eapply Rle_trans; [apply Rabs_triang|].
  assert (S2 : Rabs q <= (1 + 2 * u + u * u) * Rabs (a * b)).
  { replace q with (a * b + (q - a * b)) by ring. eapply Rle_trans; [apply Rabs_triang|]. lra. }
  pose proof (Rabs_pos (a * b)) as P. assert (T : u * Rabs q <= 2 * u * Rabs (a * b) - u * u * Rabs (a * b)).
  { apply Rle_trans with (u * ((1 + 2 * u + u * u) * Rabs (a * b))); [apply Rmult_le_compat_l; lra|]. assert (u * (1 + 2 * u + u * u) <= 2 * u - u * u) by nra. nra. }
  lra.
Qed.
Lemma sum_err : forall x y X Y A B e, Rabs (x - X) <= 4 * u * A + eta -> Rabs (y - Y) <= 4 * u * B + eta -> Rabs X <= A -> Rabs Y <= B -> Rabs e <= u ->
  Rabs ((x + y) * (1 + e) - (X + Y)) <= 6 * u * (A + B) + 3 * eta.
Proof.
  intros x y X Y A B e HX HY AX BY E. pose proof u_pos. pose proof u_small. pose proof eta_pos. pose proof (Rabs_pos X). pose proof (Rabs_pos Y).
  assert (D : Rabs (x + y - (X + Y)) <= 4 * u * (A + B) + 2 * eta) by (replace (x + y - (X + Y)) with ((x - X) + (y - Y)) by ring; eapply Rle_trans; [apply Rabs_triang|lra]).
  assert (S : Rabs (x + y) <= (1 + 4 * u) * (A + B) + 2 * eta).
  { replace (x + y) with ((X + Y) + (x + y - (X + Y))) by ring. eapply Rle_trans; [apply Rabs_triang|]. pose proof (Rabs_triang X Y). lra. }
  replace ((x + y) * (1 + e) - (X + Y)) with ((x + y - (X + Y)) + (x + y) * e) by ring. eapply Rle_trans; [apply Rabs_triang|]. rewrite (Rabs_mult (x + y) e).
  assert (T : Rabs (x + y) * Rabs e <= ((1 + 4 * u) * (A + B) + 2 * eta) * u) by (apply Rmult_le_compat; auto using Rabs_pos). assert (AB : 0 <= A + B) by lra.
  assert (((1 + 4 * u) * (A + B) + 2 * eta) * u <= 2 * u * (A + B) + eta); [|lra].
  assert (4 * u * (A + B) * u <= u * (A + B)) by (assert (0 <= u * (A + B)) by (apply Rmult_le_pos; lra); nra). nra.
Qed.

(** * The amount *)
Section Amount.
  Variables V M : R.
  Hypothesis VL : bpow radix2 (-400) <= V.
  Hypothesis VM : V <= 4 * M.
  Hypothesis MB : M <= bpow radix2 500.
  Lemma V_pos : 0 < V. Proof. pose proof (bpow_gt_0 radix2 (-400)). lra. Qed.
  Lemma M_pos : 0 < M. Proof. pose proof V_pos. lra. Qed.
  Lemma eta_VV : 32 * eta <= u * (V * V).
  Proof.
    apply Rle_trans with (u * bpow radix2 (-800)).
    - unfold u, eta. rewrite <- bpow_plus. change 32 with (bpow radix2 5). rewrite <- bpow_plus. apply bpow_le. lia.
    - apply Rmult_le_compat_l; [left; apply u_pos|]. replace (bpow radix2 (-800)) with (bpow radix2 (-400) * bpow radix2 (-400)) by (rewrite <- bpow_plus; reflexivity). pose proof (bpow_ge_0 radix2 (-400)). apply Rmult_le_compat; auto.
  Qed.
  Lemma eta_VM : 8 * eta <= u * (V * M).
  Proof. pose proof eta_VV. pose proof V_pos. pose proof u_pos. assert (V * V <= 4 * (V * M)) by nra. nra. Qed.
  Lemma ratio_pos : / 4 <= M / V.
  Proof. pose proof V_pos. apply Rmult_le_reg_r with V; auto. unfold Rdiv. rewrite Rmult_assoc, Rinv_l by lra. lra. Qed.
  Lemma ratio_big : M / V <= bpow radix2 900.
  Proof.
    pose proof V_pos. apply Rmult_le_reg_r with V; auto. unfold Rdiv. rewrite Rmult_assoc, Rinv_l by lra. rewrite Rmult_1_r. apply Rle_trans with (1 := MB).
    replace (bpow radix2 500) with (bpow radix2 900 * bpow radix2 (-400)) by (rewrite <- bpow_plus; reflexivity). apply Rmult_le_compat_l; [apply bpow_ge_0|auto].
  Qed.
  Lemma quotient_err : forall d s dot, Rabs (d - dot) <= 25 * u * (V * M) -> Rabs (s - V * V) <= 7 * u * (V * V) -> Rabs dot <= 4 * (V * M) ->
    0 < s /\ Rabs (d / s - dot / (V * V)) <= 54 * u * (M / V) /\ Rabs (d / s) <= 5 * (M / V).
  Proof.
    intros d s dot HD HS HO. pose proof V_pos as VP. pose proof M_pos as MP. pose proof u_pos as U. pose proof u_small as US. assert (Q : 0 < V * V) by nra. assert (SP : V * V * (1 - 7 * u) <= s) by (apply abs_ge in HS; lra).
    assert (S0 : 0 < s) by (apply Rlt_le_trans with (2 := SP); apply Rmult_lt_0_compat; lra). split; [exact S0|]. set (t := dot / (V * V)).
    assert (DT : dot = t * (V * V)) by (unfold t; field; lra). assert (R0 : 0 < M / V) by (apply Rdiv_lt_0_compat; auto). assert (RV : V * M = M / V * (V * V)) by (field; lra).
    assert (T4 : Rabs t <= 4 * (M / V)).
    { unfold t. unfold Rdiv at 1. rewrite Rabs_mult, (Rabs_pos_eq (/ (V * V))) by (left; apply Rinv_0_lt_compat; auto). apply Rmult_le_reg_r with (V * V); auto. rewrite Rmult_assoc, Rinv_l by lra. rewrite Rmult_1_r. apply Rle_trans with (1 := HO). rewrite RV. lra. }
    assert (N : Rabs (d - t * s) <= 53 * u * (M / V) * (V * V)).
    { replace (d - t * s) with ((d - dot) + t * (V * V - s)) by (rewrite DT; ring). eapply Rle_trans; [apply Rabs_triang|]. rewrite Rabs_mult. rewrite (Rabs_minus_sym (V * V) s).
      assert (Rabs t * Rabs (s - V * V) <= 4 * (M / V) * (7 * u * (V * V))) by (apply Rmult_le_compat; auto using Rabs_pos). rewrite RV in HD. lra. }
    assert (E : Rabs (d / s - t) <= 54 * u * (M / V)).
    { replace (d / s - t) with ((d - t * s) / s) by (field; lra). unfold Rdiv at 1. rewrite Rabs_mult, (Rabs_pos_eq (/ s)) by (left; apply Rinv_0_lt_compat; auto). apply Rmult_le_reg_r with s; auto. rewrite Rmult_assoc, Rinv_l by lra. rewrite Rmult_1_r. apply Rle_trans with (1 := N).
      assert (K : 0 <= u * (M / V)) by (apply Rmult_le_pos; lra). apply Rle_trans with (54 * u * (M / V) * (V * V * (1 - 7 * u))); [|apply Rmult_le_compat_l; [lra|auto]].
      assert (W : 0 <= u * (M / V) * (V * V)) by (apply Rmult_le_pos; lra). nra. }
    split; [exact E|]. replace (d / s) with (t + (d / s - t)) by ring. eapply Rle_trans; [apply Rabs_triang|]. nra.
  Qed.
  Lemma amount_err : forall d s dot, Rabs (d - dot) <= 25 * u * (V * M) -> Rabs (s - V * V) <= 7 * u * (V * V) -> Rabs dot <= 4 * (V * M) ->
    Rabs (d / s) <= big /\ Rabs (rnd (d / s) - dot / (V * V)) * V <= 60 * (u * M).
  Proof.
    intros d s dot HD HS HO. destruct (quotient_err d s dot HD HS HO) as (S0 & E & B). pose proof V_pos as VP. pose proof M_pos as MP. pose proof u_pos as U. pose proof ratio_pos as RP. pose proof ratio_big as RB. split.
    - apply Rle_trans with (1 := B). apply Rle_trans with (bpow radix2 3 * bpow radix2 900); [change (bpow radix2 3) with 8; lra|]. rewrite <- bpow_plus. apply bpow_le. lia.
    - pose proof (rnd_err (d / s)) as H. assert (EU : eta <= u * (M / V)).
      { apply Rle_trans with (u * / 4); [|apply Rmult_le_compat_l; lra]. unfold eta, u. change (/ 4) with (bpow radix2 (-2)). rewrite <- bpow_plus. apply bpow_le. lia. }
      assert (T : Rabs (rnd (d / s) - dot / (V * V)) <= 60 * u * (M / V)).
      { replace (rnd (d / s) - dot / (V * V)) with ((rnd (d / s) - d / s) + (d / s - dot / (V * V))) by ring. eapply Rle_trans; [apply Rabs_triang|].
        assert (u * Rabs (d / s) <= u * (5 * (M / V))) by (apply Rmult_le_compat_l; lra). lra. }
      apply Rle_trans with (60 * u * (M / V) * V); [apply Rmult_le_compat_r; lra|]. right. field. lra.
  Qed.
End Amount.

(** * Clamping *)
Lemma clamp01_near : forall s t, Rabs (clamp01 s - clamp01 t) <= Rabs (s - t).
Proof. intros s t. unfold clamp01. repeat destruct (Rlt_dec _ _); unfold Rabs; repeat destruct (Rcase_abs _); lra. Qed.
Lemma fclamp01_is : forall t, finite t -> is (fclamp01 t) (clamp01 (value t)).
Proof.
  intros t F. destruct fz0 as [F0 V0]. destruct fz1 as [F1 V1]. unfold fclamp01, clamp01.
  destruct (flt (fz 1) t) eqn:A.
  - apply (proj1 (flt_spec _ _ F1 F)) in A. rewrite V1 in A. destruct (Rlt_dec 1 (value t)) as [_|N]; [|lra]. destruct (flt (fz 1) (fz 0)) eqn:B.
    + apply (proj1 (flt_spec _ _ F1 F0)) in B. lra.
    + destruct (Rlt_dec 1 0); [lra|]. split; auto.
  - destruct (Rlt_dec 1 (value t)) as [L|N]; [rewrite (proj2 (flt_spec _ _ F1 F)) in A; [discriminate|lra]|]. destruct (flt t (fz 0)) eqn:B.
    + apply (proj1 (flt_spec _ _ F F0)) in B. rewrite V0 in B. destruct (Rlt_dec (value t) 0); [|lra]. split; auto.
    + destruct (Rlt_dec (value t) 0) as [L|_]; [rewrite (proj2 (flt_spec _ _ F F0)) in B; [discriminate|lra]|]. split; auto.
Qed.

(** * The point *)
Lemma apart_sq : forall a b, apart a b * apart a b = (value (fx b) - value (fx a)) * (value (fx b) - value (fx a)) + (value (fy b) - value (fy a)) * (value (fy b) - value (fy a)).
Proof. intros a b. unfold apart. cbn [place px py]. rewrite sqrt_sqrt; [ring|]. apply Rplus_le_le_0_compat; apply pow2_ge_0. Qed.
Lemma square_le : forall x y, 0 <= y -> x * x <= y * y -> Rabs x <= y.
Proof. intros x y Y H. apply Rsqr_incr_0_var; [|auto]. rewrite <- Rsqr_abs. exact H. Qed.
Lemma two_le : forall M x y, Rabs x <= M -> Rabs y <= M -> Rabs (x - y) <= 2 * M.
Proof. intros M x y X Y. apply abs_ge in X, Y. apply abs_le. lra. Qed.
Lemma prod_cases : forall a b : fl, finite a -> finite b -> Rabs (value a) <= bpow radix2 502 -> Rabs (value b) <= bpow radix2 502 -> is (fmul a b) (rnd (value a * value b)) /\ Rabs (value (fmul a b)) <= bpow radix2 1004.
Proof.
  intros a b FA FB HA HB. assert (Q : Rabs (value a * value b) <= bpow radix2 1004).
  { replace (bpow radix2 1004) with (bpow radix2 502 * bpow radix2 502) by (rewrite <- bpow_plus; reflexivity). rewrite Rabs_mult. apply Rmult_le_compat; auto using Rabs_pos. }
  assert (B : Rabs (value a * value b) <= big) by (apply Rle_trans with (1 := Q), bpow_le; lia). pose proof (fmul_rnd a b FA FB B) as I. split; [exact I|]. destruct I as [_ ->].
  unfold rnd. apply abs_round_le_generic; try typeclasses eauto; auto. apply generic_format_bpow. vm_compute. discriminate.
Qed.
Lemma sum_cases : forall a b : fl, finite a -> finite b -> Rabs (value a) <= bpow radix2 1004 -> Rabs (value b) <= bpow radix2 1004 -> exists e, Rabs e <= u /\ is (fadd a b) ((value a + value b) * (1 + e)).
Proof.
  intros a b FA FB HA HB. apply fadd_rel; auto. eapply Rle_trans; [apply Rabs_triang|]. apply Rle_trans with (bpow radix2 1 * bpow radix2 1004); [change (bpow radix2 1) with 2; lra|]. rewrite <- bpow_plus. apply bpow_le. lia.
Qed.
(** The sum of two products of differences. *)
Lemma dot_err : forall a b c d a' b' c' d', (forall x, In x (a :: b :: c :: d :: a' :: b' :: c' :: d' :: nil)%list -> finite x /\ Rabs (value x) <= bpow radix2 500) ->
  let X := (value a - value b) * (value c - value d) in let Y := (value a' - value b') * (value c' - value d') in
  finite (fadd (fmul (fsub a b) (fsub c d)) (fmul (fsub a' b') (fsub c' d'))) /\
  Rabs (value (fadd (fmul (fsub a b) (fsub c d)) (fmul (fsub a' b') (fsub c' d'))) - (X + Y)) <= 6 * u * (Rabs X + Rabs Y) + 3 * eta.
Proof.
  intros a b c d a' b' c' d' H X Y. assert (DC : forall x y, In x (a :: b :: c :: d :: a' :: b' :: c' :: d' :: nil)%list -> In y (a :: b :: c :: d :: a' :: b' :: c' :: d' :: nil)%list ->
    exists e, Rabs e <= u /\ is (fsub x y) ((value x - value y) * (1 + e)) /\ Rabs (value (fsub x y)) <= bpow radix2 502).
  { intros x y HX HY. destruct (H x HX) as [FX BX]. destruct (H y HY) as [FY BY]. destruct (diff_cases x y FX FY BX BY) as (e & E & I & _ & B). eauto. }
  destruct (DC a b) as (e1 & E1 & [F1 V1] & B1); [cbn; tauto|cbn; tauto|]. destruct (DC c d) as (e2 & E2 & [F2 V2] & B2); [cbn; tauto|cbn; tauto|].
  destruct (DC a' b') as (e3 & E3 & [F3 V3] & B3); [cbn; tauto|cbn; tauto|]. destruct (DC c' d') as (e4 & E4 & [F4 V4] & B4); [cbn; tauto|cbn; tauto|].
  destruct (prod_cases _ _ F1 F2 B1 B2) as ([G1 W1] & C1). destruct (prod_cases _ _ F3 F4 B3 B4) as ([G2 W2] & C2).
  destruct (sum_cases _ _ G1 G2 C1 C2) as (e & E & [F V]). split; [exact F|]. rewrite V. apply sum_err; auto; try lra.
  - rewrite W1, V1, V2. apply product_err; auto.
  - rewrite W2, V3, V4. apply product_err; auto.
Qed.

Lemma closest_close : forall np a b p M, M <= bpow radix2 500 -> within M a -> within M b -> within M p -> bpow radix2 (-400) <= apart a b ->
  exists q c t, fclosest np a b p true = Some q /\ about_pt q c (80 * D M) /\ 0 <= t <= 1 /\ c = mix t (place a) (place b) /\
    (np = true -> Rmin (value (fx a)) (value (fx b)) <= value (fx q) <= Rmax (value (fx a)) (value (fx b)) /\ Rmin (value (fy a)) (value (fy b)) <= value (fy q) <= Rmax (value (fy a)) (value (fy b))) /\
    forall s, 0 <= s <= 1 -> dist (place p) c <= dist (place p) (mix s (place a) (place b)).
Proof.
  intros np a b p M MB ((FAX & FAY) & AX & AY) ((FBX & FBY) & BX & BY) ((FPX & FPY) & PX & PY) VL.
  assert (L : forall x, finite x -> Rabs (value x) <= M -> finite x /\ Rabs (value x) <= bpow radix2 500) by (intros x F B; split; [exact F|lra]).
  set (V := apart a b) in *. pose proof (apart_sq a b) as VV. fold V in VV. assert (V0 : 0 < V) by (pose proof (bpow_gt_0 radix2 (-400)); lra).
  pose proof (two_le _ _ _ BX AX) as DX. pose proof (two_le _ _ _ BY AY) as DY. pose proof (two_le _ _ _ PX AX) as WX. pose proof (two_le _ _ _ PY AY) as WY.
  set (vx := value (fx b) - value (fx a)) in *. set (vy := value (fy b) - value (fy a)) in *. set (wx := value (fx p) - value (fx a)) in *. set (wy := value (fy p) - value (fy a)) in *.
  assert (VX : Rabs vx <= V) by (apply square_le; [lra|]; rewrite VV; pose proof (Rle_0_sqr vy); unfold Rsqr in *; lra). assert (VY : Rabs vy <= V) by (apply square_le; [lra|]; rewrite VV; pose proof (Rle_0_sqr vx); unfold Rsqr in *; lra).
  assert (MP : 0 <= M) by (pose proof (Rabs_pos (value (fx a))); lra).
  assert (VM : V <= 4 * M).
  { rewrite <- (Rabs_pos_eq V) by lra. apply square_le; [lra|]. rewrite VV. assert (Q : forall z, Rabs z <= 2 * M -> z * z <= 4 * (M * M)) by (intros z Z; apply abs_ge in Z; nra). pose proof (Q vx DX). pose proof (Q vy DY). nra. }
  pose proof (eta_VV V VL) as EVV. pose proof (eta_VM V M VL VM) as EVM. pose proof u_pos as U.
  destruct (dot_err (fx b) (fx a) (fx b) (fx a) (fy b) (fy a) (fy b) (fy a)) as [FS ES]; [cbn [In]; intros x I; repeat (destruct I as [<- |I]; [apply L; assumption|]); destruct I|].
  destruct (dot_err (fx b) (fx a) (fx p) (fx a) (fy b) (fy a) (fy p) (fy a)) as [FD ED]; [cbn [In]; intros x I; repeat (destruct I as [<- |I]; [apply L; assumption|]); destruct I|].
  fold vx vy wx wy in ES, ED. unfold fclosest. set (S := fadd (fmul (fsub (fx b) (fx a)) (fsub (fx b) (fx a))) _) in *. set (O := fadd (fmul (fsub (fx b) (fx a)) (fsub (fx p) (fx a))) _) in *. clearbody S O.
  rewrite <- VV in ES. rewrite (Rabs_pos_eq (vx * vx)), (Rabs_pos_eq (vy * vy)) in ES by apply Rle_0_sqr. rewrite <- VV in ES.
  assert (ES' : Rabs (value S - V * V) <= 7 * u * (V * V)) by (pose proof eta_pos; lra).
  assert (HX : Rabs (vx * wx) <= V * (2 * M)) by (rewrite Rabs_mult; apply Rmult_le_compat; auto using Rabs_pos). assert (HY : Rabs (vy * wy) <= V * (2 * M)) by (rewrite Rabs_mult; apply Rmult_le_compat; auto using Rabs_pos).
  assert (ED' : Rabs (value O - (vx * wx + vy * wy)) <= 25 * u * (V * M)).
  { apply Rle_trans with (1 := ED). assert (u * (Rabs (vx * wx) + Rabs (vy * wy)) <= u * (4 * (V * M))) by (apply Rmult_le_compat_l; lra). pose proof eta_pos. lra. }
  assert (OB : Rabs (vx * wx + vy * wy) <= 4 * (V * M)) by (eapply Rle_trans; [apply Rabs_triang|]; lra).
  destruct (quotient_err V M VL VM _ _ _ ED' ES' OB) as (S0 & _). destruct (amount_err V M VL VM MB _ _ _ ED' ES' OB) as (QB & AE).
  assert (NZ : feq S (fz 0) = false) by (destruct (feq S (fz 0)) eqn:Z; [apply (proj1 (FloatBox_Proofs.feq_zero S FS)) in Z; lra|reflexivity]). rewrite NZ.
  destruct (fdiv_rnd O S FD ltac:(lra) QB) as [FT VT]. set (t := fdiv O S) in *. destruct (fclamp01_is t FT) as [FC VC]. rewrite VT in VC. set (k := fclamp01 t) in *. pose proof (clamp01_range (rnd (value O / value S))) as CR. rewrite <- VC in CR.
  set (r := (vx * wx + vy * wy) / (V * V)) in *. pose proof (clamp01_range r) as RR.
  destruct (closest np (place a) (place b) (place p) true) as [c|] eqn:EC.
  2:{ apply closest_none in EC. exfalso. assert (vx = 0) by (unfold vx; change (value (fx b)) with (px (place b)); rewrite <- EC; cbn [place px]; ring). assert (vy = 0) by (unfold vy; change (value (fy b)) with (py (place b)); rewrite <- EC; cbn [place py]; ring). nra. }
  destruct (closest_bounded _ _ _ _ _ EC) as (_ & _ & _ & CB).
  assert (CM : c = mix (clamp01 r) (place a) (place b)).
  { unfold closest in EC. destruct (Req_EM_T _ _) as [|_]; [discriminate|]. inversion EC as [EC']. rewrite lin_point_inside by apply clamp01_range. unfold r. rewrite VV. unfold vx, vy, wx, wy. cbn [place px py]. reflexivity. }
  exists (FP (flin1 np (fx a) (fx b) k) (flin1 np (fy a) (fy b) k)), c, (clamp01 r). split; [reflexivity|].
  assert (KE : forall v, Rabs v <= V -> Rabs ((value k - clamp01 r) * v) <= 60 * (u * M)).
  { intros v HV. rewrite Rabs_mult. apply Rle_trans with (2 := AE). apply Rmult_le_compat; auto using Rabs_pos. rewrite VC. apply clamp01_near. }
  assert (DM : 60 * (u * M) <= 60 * D M) by (unfold D; pose proof eta_pos; lra). assert (MB' : M <= bpow radix2 1000) by (apply Rle_trans with (1 := MB), bpow_le; lia).
  assert (AX' : forall x y, finite x -> finite y -> Rabs (value x) <= M -> Rabs (value y) <= M -> Rabs (value y - value x) <= V -> about (flin1 np x y k) ((1 - clamp01 r) * value x + clamp01 r * value y) (80 * D M)).
  { intros x y F1 F2 H1 H2 HV. destruct (line_about M MP MB' np x y k (conj F1 H1) (conj F2 H2) FC CR) as [F E]. split; [exact F|]. pose proof (KE _ HV) as K.
    replace (value (flin1 np x y k) - ((1 - clamp01 r) * value x + clamp01 r * value y)) with ((value (flin1 np x y k) - ((1 - value k) * value x + value k * value y)) + (value k - clamp01 r) * (value y - value x)) by ring. eapply Rle_trans; [apply Rabs_triang|]. lra. }
  split; [rewrite CM; unfold mix; split; cbn [fx fy px py place]; apply AX'; auto|]. split; [exact RR|]. split; [exact CM|]. split; [|exact CB].
  intros ->. cbn [fx fy flin1]. assert (BG : forall z, Rabs z <= V -> Rabs z <= big).
  { intros z Z. apply Rle_trans with (1 := Z). apply Rle_trans with (1 := VM). apply Rle_trans with (bpow radix2 2 * bpow radix2 500); [change (bpow radix2 2) with 4; lra|]. rewrite <- bpow_plus. apply bpow_le. lia. }
  split; [apply (interp_between (fx a) (fx b) k FAX FBX (BG _ VX) FC CR)|apply (interp_between (fy a) (fy b) k FAY FBY (BG _ VY) FC CR)].
Qed.

(** * The ends *)
Lemma lin1_start : forall np x y t, finite x -> finite y -> Rabs (value y - value x) <= big -> finite t -> value t = 0 -> is (flin1 np x y t) (value x).
Proof.
  intros np x y t X Y B F V. destruct np; cbn [flin1].
  - rewrite (proj1 (interp_ends x y t F) V). split; auto.
  - unfold ftowards1. destruct (fsub_rnd y x Y X B) as [FS _]. assert (Z : value t * value (fsub y x) = 0) by (rewrite V; ring). destruct (fmul_rnd t (fsub y x) F FS) as [FM VM]; [rewrite Z, Rabs_R0; apply bpow_ge_0|].
    rewrite Z, rnd_0 in VM. apply (fadd_exact _ x x); auto. rewrite VM. ring.
Qed.
Lemma closest_ends : forall np a b rb, moderate a -> moderate b ->
  (forall q, fclosest np a b a rb = Some q -> is_pt q (place a)) /\ (np = true -> forall q, fclosest np a b b rb = Some q -> is_pt q (place b)).
Proof.
  intros np a b rb ((FAX & FAY) & AX & AY) ((FBX & FBY) & BX & BY).
  destruct (dot_err (fx b) (fx a) (fx b) (fx a) (fy b) (fy a) (fy b) (fy a)) as [FS _]; [cbn [In]; intros x I; repeat (destruct I as [<- |I]; [split; assumption|]); destruct I|].
  destruct (dot_err (fx b) (fx a) (fx a) (fx a) (fy b) (fy a) (fy a) (fy a)) as [FO EO]; [cbn [In]; intros x I; repeat (destruct I as [<- |I]; [split; assumption|]); destruct I|]. clear EO.
  assert (BG : forall x y, Rabs (value x) <= bpow radix2 500 -> Rabs (value y) <= bpow radix2 500 -> Rabs (value y - value x) <= big).
  { intros x y X Y. apply Rle_trans with (1 := two_le _ _ _ Y X). apply Rle_trans with (bpow radix2 1 * bpow radix2 500); [change (bpow radix2 1) with 2; lra|]. rewrite <- bpow_plus. apply bpow_le. lia. }
  assert (Z1 : forall x y, finite x -> finite y -> Rabs (value x) <= bpow radix2 500 -> Rabs (value y) <= bpow radix2 500 -> is (fmul (fsub y x) (fsub x x)) 0).
  { intros x y X Y HX HY. assert (VX : value x - value x = 0) by ring. destruct (fsub_rnd x x X X) as [F1 V1]; [rewrite VX, Rabs_R0; apply bpow_ge_0|]. rewrite VX, rnd_0 in V1. destruct (fsub_rnd y x Y X) as [F2 _]; [apply BG; auto|].
    assert (Z : value (fsub y x) * value (fsub x x) = 0) by (rewrite V1; ring). destruct (fmul_rnd _ _ F2 F1) as [F3 V3]; [rewrite Z, Rabs_R0; apply bpow_ge_0|]. rewrite Z, rnd_0 in V3. split; auto. }
  unfold fclosest. set (S := fadd (fmul (fsub (fx b) (fx a)) (fsub (fx b) (fx a))) (fmul (fsub (fy b) (fy a)) (fsub (fy b) (fy a)))) in *. destruct (feq S (fz 0)) eqn:NZ; [split; intros; discriminate|].
  assert (SZ : value S <> 0) by (intros Z; rewrite (proj2 (FloatBox_Proofs.feq_zero S FS) Z) in NZ; discriminate).
  assert (CL : forall t r, is t r -> 0 <= r <= 1 -> is (if rb then fclamp01 t else t) r).
  { intros t r [F V] R. destruct rb; [|split; auto]. destruct (fclamp01_is t F) as [FC VC]. split; auto. rewrite VC, V. unfold clamp01. repeat destruct (Rlt_dec _ _); lra. }
  split.
  - intros q H. inversion H; subst; clear H. set (O := fadd (fmul (fsub (fx b) (fx a)) (fsub (fx a) (fx a))) _) in *.
    assert (VO : value O = 0).
    { destruct (Z1 (fx a) (fx b)) as [F1 V1]; auto. destruct (Z1 (fy a) (fy b)) as [F2 V2]; auto. destruct (fadd_exact _ _ (fz 0) 0 F1 F2) as [_ V]; [rewrite V1, V2; ring|symmetry; apply (proj2 fz0)|exact V]. }
    assert (Q : value O / value S = 0) by (rewrite VO; field; auto). destruct (fdiv_rnd O S FO SZ) as [FT VT]; [rewrite Q, Rabs_R0; apply bpow_ge_0|]. rewrite Q, rnd_0 in VT. destruct (CL _ 0 (conj FT VT)) as [FC VC]; [lra|].
    split; cbn [fx fy place px py]; apply lin1_start; auto.
  - intros -> q H. inversion H; subst; clear H. fold S. assert (Q : value S / value S = 1) by (field; auto). assert (R1 : rnd 1 = 1) by (apply (rnd_int 1); lia).
    destruct (fdiv_rnd S S FS SZ) as [FT VT]; [rewrite Q, Rabs_R1; change 1 with (bpow radix2 0); apply bpow_le; lia|]. rewrite Q, R1 in VT. destruct (CL _ 1 (conj FT VT)) as [FC VC]; [lra|]. cbn [flin1].
    rewrite (proj2 (interp_ends _ _ _ FC) VC), (proj2 (interp_ends _ _ _ FC) VC). repeat split; auto.
Qed.
