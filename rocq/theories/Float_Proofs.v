(** Rounding errors. *)
Require Import ZArith Reals List Bool Lra Lia Psatz.
From Flocq Require Import Core BinarySingleNaN Relative.
Require Import Verif.Point_Model Verif.Curve_Spec Verif.Float_Model Verif.Float_Spec.
Import ListNotations.
Open Scope R_scope.

Definition rnd (r : R) : R := round radix2 (SpecFloat.fexp 53 1024) ZnearestE r.
Definition u : R := bpow radix2 (-53).
Definition eta : R := bpow radix2 (-1075).
Definition big : R := bpow radix2 1023.
Lemma u_pos : 0 < u. Proof. apply bpow_gt_0. Qed.
Lemma eta_pos : 0 < eta. Proof. apply bpow_gt_0. Qed.
Lemma u_val : u = / 9007199254740992.
Proof. reflexivity. Qed.
Lemma eta_small : eta * bpow radix2 1000 <= u.
Proof. unfold eta, u. rewrite <- bpow_plus. apply bpow_le. lia. Qed.
Lemma eta_u : eta <= u. Proof. unfold eta, u. apply bpow_le. lia. Qed.
Lemma fexp_FLT : SpecFloat.fexp 53 1024 = FLT_exp (-1074) 53.
Proof. reflexivity. Qed.
Global Instance vexp : Valid_exp (SpecFloat.fexp 53 1024) := @FLT_exp_valid (-1074) 53 p53.
Lemma rnd_err : forall r, Rabs (rnd r - r) <= u * Rabs r + eta.
Proof.
  intros r. unfold rnd. rewrite fexp_FLT. destruct (error_N_FLT radix2 (-1074) 53 eq_refl (fun x => negb (Z.even x)) r) as (eps & et & E & H & _ & ->).
  replace (r * (1 + eps) + et - r) with (r * eps + et) by ring. eapply Rle_trans; [apply Rabs_triang|]. rewrite Rabs_mult.
  assert (U : / 2 * bpow radix2 (- (53) + 1) = u) by (change (- (53) + 1)%Z with (1 + -53)%Z; rewrite bpow_plus; fold u; change (bpow radix2 1) with 2; lra).
  assert (T : / 2 * bpow radix2 (-1074) = eta) by (unfold eta; replace (-1075)%Z with (-1 + -1074)%Z by lia; rewrite bpow_plus; change (bpow radix2 (-1)) with (/ 2); lra).
  rewrite U in E. rewrite T in H. pose proof (Rabs_pos r). nra.
Qed.
Lemma rnd_le : forall a b, a <= b -> rnd a <= rnd b.
Proof. intros a b H. unfold rnd. apply round_le; try typeclasses eauto; auto. Qed.
Lemma rnd_format : forall (x : fl), rnd (B2R x) = B2R x.
Proof. intros x. unfold rnd. apply round_generic; [typeclasses eauto|apply generic_format_B2R]. Qed.
Lemma rnd_big : forall r, Rabs r <= big -> Rabs (rnd r) < bpow radix2 1024.
Proof.
  intros r H. apply Rle_lt_trans with big; [|apply bpow_lt; lia]. unfold rnd. apply abs_round_le_generic; try typeclasses eauto; auto.
  apply generic_format_bpow. cbv. discriminate.
Qed.
Lemma format_53 : generic_format radix2 (FLT_exp (-1074) 53) (IZR (2 ^ 53)).
Proof. change (IZR (2 ^ 53)) with (bpow radix2 53). apply generic_format_bpow. cbv. discriminate. Qed.
Lemma rnd_int : forall z, (Z.abs z <= 2 ^ 53)%Z -> rnd (IZR z) = IZR z.
Proof.
  intros z H. unfold rnd. apply round_generic; [typeclasses eauto|]. rewrite fexp_FLT.
  destruct (Z.eq_dec (Z.abs z) (2 ^ 53)) as [E|E].
  - assert (C : z = (2 ^ 53)%Z \/ z = (- 2 ^ 53)%Z) by lia. destruct C as [-> | ->]; [exact format_53|]. rewrite opp_IZR. apply generic_format_opp, format_53.
  - apply generic_format_FLT. exists (Float radix2 z 0); cbn [Fnum Fexp]; [unfold F2R; cbn; lra|change (radix2 ^ 53)%Z with (2 ^ 53)%Z; lia|lia].
Qed.

(** * The operations *)
Lemma fz_is : forall z, (Z.abs z <= 2 ^ 53)%Z -> is (fz z) (IZR z).
Proof.
  intros z H. pose proof (binary_normalize_correct 53 1024 p53 p1024 mode_NE z 0 false) as C. cbn zeta in C.
  assert (E : F2R (Float radix2 z 0) = IZR z) by (unfold F2R; cbn; lra). rewrite E in C. change (round radix2 (SpecFloat.fexp 53 1024) (round_mode mode_NE) (IZR z)) with (rnd (IZR z)) in C.
  rewrite rnd_int in C by auto. rewrite Rlt_bool_true in C; [destruct C as (A & B & _); split; auto|].
  rewrite <- abs_IZR. apply Rle_lt_trans with (IZR (2 ^ 53)); [apply IZR_le; auto|]. change (IZR (2 ^ 53)) with (bpow radix2 53). apply bpow_lt. lia.
Qed.
Lemma fadd_rnd : forall x y, finite x -> finite y -> Rabs (value x + value y) <= big -> is (fadd x y) (rnd (value x + value y)).
Proof.
  intros x y X Y H. pose proof (Bplus_correct 53 1024 p53 p1024 mode_NE x y X Y) as C. change (round radix2 (SpecFloat.fexp 53 1024) (round_mode mode_NE) (B2R x + B2R y)) with (rnd (value x + value y)) in C.
  rewrite Rlt_bool_true in C by (apply rnd_big; auto). destruct C as (A & B & _). split; auto.
Qed.
Lemma fsub_rnd : forall x y, finite x -> finite y -> Rabs (value x - value y) <= big -> is (fsub x y) (rnd (value x - value y)).
Proof.
  intros x y X Y H. pose proof (Bminus_correct 53 1024 p53 p1024 mode_NE x y X Y) as C. change (round radix2 (SpecFloat.fexp 53 1024) (round_mode mode_NE) (B2R x - B2R y)) with (rnd (value x - value y)) in C.
  rewrite Rlt_bool_true in C by (apply rnd_big; auto). destruct C as (A & B & _). split; auto.
Qed.
Lemma fmul_rnd : forall x y, finite x -> finite y -> Rabs (value x * value y) <= big -> is (fmul x y) (rnd (value x * value y)).
Proof.
  intros x y X Y H. pose proof (Bmult_correct 53 1024 p53 p1024 mode_NE x y) as C. change (round radix2 (SpecFloat.fexp 53 1024) (round_mode mode_NE) (B2R x * B2R y)) with (rnd (value x * value y)) in C.
  rewrite Rlt_bool_true in C by (apply rnd_big; auto). destruct C as (A & B & _). split; auto. unfold finite. etransitivity; [exact B|]. now rewrite X, Y.
Qed.
Lemma fdiv_rnd : forall x y, finite x -> value y <> 0 -> Rabs (value x / value y) <= big -> is (fdiv x y) (rnd (value x / value y)).
Proof.
  intros x y X Y H. pose proof (Bdiv_correct 53 1024 p53 p1024 mode_NE x y Y) as C. change (round radix2 (SpecFloat.fexp 53 1024) (round_mode mode_NE) (B2R x / B2R y)) with (rnd (value x / value y)) in C.
  rewrite Rlt_bool_true in C by (apply rnd_big; auto). destruct C as (A & B & _). split; auto. unfold finite. etransitivity; [exact B|exact X].
Qed.
Lemma rnd_0 : rnd 0 = 0. Proof. unfold rnd. apply round_0. typeclasses eauto. Qed.
Lemma rnd_1 : rnd 1 = 1. Proof. apply (rnd_int 1). lia. Qed.
Lemma rnd_unit : forall r, 0 <= r <= 1 -> 0 <= rnd r <= 1.
Proof. intros r [A B]. split; [rewrite <- rnd_0|rewrite <- rnd_1]; apply rnd_le; auto. Qed.
Lemma value_big : forall x, Rabs (value x) <= bpow radix2 1024.
Proof. intros x. apply Rlt_le, abs_B2R_lt_emax. Qed.
Lemma one_big : 1 <= big.
Proof. change 1 with (bpow radix2 0). apply bpow_le. lia. Qed.
Lemma rnd_opp : forall r, rnd (- r) = - rnd r.
Proof. intros r. unfold rnd. apply round_NE_opp. Qed.

(** * Weights: numbers of [0,1] with an error of so many units *)
Definition weight (x : fl) (w c : R) : Prop := finite x /\ 0 <= value x <= 1 /\ 0 <= w <= 1 /\ Rabs (value x - w) <= c * u.
Lemma abs_le : forall a b, - b <= a <= b -> Rabs a <= b. Proof. intros a b H. apply Rabs_le. lra. Qed.
Lemma abs_ge : forall a b, Rabs a <= b -> - b <= a <= b. Proof. intros a b H. apply Rabs_le_inv. auto. Qed.
Lemma weight_exact : forall x, finite x -> 0 <= value x <= 1 -> weight x (value x) 0.
Proof. intros x F X. split; auto. split; auto. split; auto. rewrite Rminus_diag_eq by auto. rewrite Rabs_R0. lra. Qed.
Lemma weight_less : forall x, finite x -> 0 <= value x <= 1 -> weight (fsub (fz 1) x) (1 - value x) 2.
Proof.
  intros x F X. destruct (fz_is 1) as [F1 V1]; [lia|]. destruct (fsub_rnd (fz 1) x F1 F) as [FS VS]; [rewrite V1; apply abs_le; pose proof one_big; lra|].
  split; auto. rewrite VS, V1. pose proof (rnd_unit (1 - value x)) as R. pose proof (rnd_err (1 - value x)) as E. split; [apply R; lra|]. split; [lra|].
  pose proof eta_u. pose proof u_pos. assert (A : Rabs (1 - value x) <= 1) by (apply abs_le; lra). nra.
Qed.
Lemma weight_mul : forall x y v w c d, 0 <= c -> 0 <= d -> weight x v c -> weight y w d -> weight (fmul x y) (v * w) (c + d + 2).
Proof.
  intros x y v w c d C D (FX & X & V & EX) (FY & Y & W & EY). assert (P : 0 <= value x * value y <= 1) by nra.
  destruct (fmul_rnd x y FX FY) as [F VM]; [apply abs_le; pose proof one_big; lra|].
  split; auto. rewrite VM. split; [apply rnd_unit; auto|]. split; [nra|]. pose proof (rnd_err (value x * value y)) as E. rewrite (Rabs_right (value x * value y)) in E by lra.
  apply abs_ge in EX, EY, E. pose proof eta_u. pose proof u_pos. apply abs_le. nra.
Qed.
Lemma pow_close : forall x w c n, 0 <= x <= 1 -> 0 <= w <= 1 -> 0 <= c -> Rabs (x - w) <= c -> (n = 2 \/ n = 3)%Z -> Rabs (powerRZ x n - powerRZ w n) <= 3 * c /\ 0 <= powerRZ w n <= 1.
Proof.
  intros x w c n X W C E [-> | ->]; unfold powerRZ; change (Pos.to_nat 2) with 2%nat; change (Pos.to_nat 3) with 3%nat; cbn [pow]; apply abs_ge in E.
  - split; [|nra]. apply abs_le. replace (x * (x * 1) - w * (w * 1)) with ((x - w) * (x + w)) by ring. nra.
  - split; [|nra]. apply abs_le. replace (x * (x * (x * 1)) - w * (w * (w * 1))) with ((x - w) * (x * x + x * w + w * w)) by ring. assert (0 <= x * x + x * w + w * w <= 3) by nra. nra.
Qed.
Lemma weight_pow : forall pow x w c n, good_pow pow -> (n = 2 \/ n = 3)%Z -> 0 <= c -> weight x w c -> weight (pow x n) (powerRZ w n) (3 * c + 4).
Proof.
  intros pow x w c n G N C (F & X & W & E). destruct (G x n F X N) as (FP & XP & EP & _). pose proof u_pos.
  destruct (pow_close (value x) w (c * u) n X W) as [PC PW]; auto; [nra|]. split; auto. split; auto. split; auto.
  assert (U : bpow radix2 (-52) = 2 * u) by (unfold u; change (-52)%Z with (1 + -53)%Z; rewrite bpow_plus; reflexivity). rewrite U in EP. apply abs_ge in PC, EP. apply abs_le. lra.
Qed.
(** * Coordinates: of size at most b M, with an error of so many D *)
Section Coord.
  Variable M : R.
  Hypothesis M_pos : 0 <= M.
  Hypothesis M_big : M <= bpow radix2 1000.
  Definition D : R := u * M + eta.
  Lemma D_pos : 0 < D. Proof. unfold D. pose proof u_pos. pose proof eta_pos. nra. Qed.
  Lemma fits_big : forall b k, 0 <= b <= 1000 -> 0 <= k <= 1000 -> b * M + k * D <= big.
  Proof.
    intros b k B K. pose proof u_pos. pose proof eta_pos. assert (U : u <= 1) by (change 1 with (bpow radix2 0); apply bpow_le; lia). assert (L : eta <= bpow radix2 1000) by (apply bpow_le; lia).
    assert (E : big = 8388608 * bpow radix2 1000) by (unfold big; change 1023%Z with (23 + 1000)%Z; rewrite bpow_plus; reflexivity). rewrite E. unfold D.
    assert (D1 : u * M + eta <= 2 * bpow radix2 1000) by nra. assert (b * M <= 1000 * bpow radix2 1000) by nra. assert (k * (u * M + eta) <= 1000 * (2 * bpow radix2 1000)); [|lra].
    apply Rmult_le_compat; try lra. nra.
  Qed.
  Definition coord (x : fl) (v b k : R) : Prop := finite x /\ Rabs v <= b * M /\ Rabs (value x - v) <= k * D.
  Lemma coord_size : forall x v b k, coord x v b k -> Rabs (value x) <= b * M + k * D.
  Proof. intros x v b k (_ & A & B). apply abs_ge in A, B. apply abs_le. lra. Qed.
  Lemma coord_exact : forall x, finite x -> Rabs (value x) <= M -> coord x (value x) 1 0.
  Proof. intros x F H. split; auto. split; [lra|]. rewrite Rminus_diag_eq by auto. rewrite Rabs_R0. lra. Qed.
  Lemma coord_weight : forall x w c y, 0 <= c <= 1000 -> weight x w c -> finite y -> Rabs (value y) <= M -> coord (fmul x y) (w * value y) 1 (c + 1).
  Proof.
    intros x w c y C (FX & X & W & E) FY Y. pose proof u_pos as U. pose proof eta_pos as T. assert (S : Rabs (value x * value y) <= M) by (rewrite Rabs_mult, (Rabs_right (value x)) by lra; pose proof (Rabs_pos (value y)); nra).
    destruct (fmul_rnd x y FX FY) as [F V]; [pose proof (fits_big 1 0); lra|]. split; auto. split; [rewrite Rabs_mult, (Rabs_right w) by lra; pose proof (Rabs_pos (value y)); nra|].
    rewrite V. pose proof (rnd_err (value x * value y)) as R.
    replace (rnd (value x * value y) - w * value y) with ((rnd (value x * value y) - value x * value y) + (value x - w) * value y) by ring.
    eapply Rle_trans; [apply Rabs_triang|]. rewrite Rabs_mult. assert (P : Rabs (value x - w) * Rabs (value y) <= c * u * M) by (apply Rmult_le_compat; auto using Rabs_pos). unfold D. nra.
  Qed.
  Lemma coord_add : forall x y v w b b' k k', 0 <= b -> 0 <= b' -> 0 <= k -> 0 <= k' -> b + b' <= 1000 -> k + k' <= 1000 -> coord x v b k -> coord y w b' k' -> coord (fadd x y) (v + w) (b + b') (k + k' + b + b' + 2).
  Proof.
    intros x y v w b b' k k' B B' K K' BS KS CX CY. pose proof (coord_size _ _ _ _ CX) as SX. pose proof (coord_size _ _ _ _ CY) as SY. destruct CX as (FX & VX & EX), CY as (FY & VY & EY).
    pose proof u_pos as U. pose proof eta_pos as T. pose proof D_pos as DP.
    assert (S : Rabs (value x + value y) <= (b + b') * M + (k + k') * D) by (eapply Rle_trans; [apply Rabs_triang|]; lra).
    destruct (fadd_rnd x y FX FY) as [F V]; [pose proof (fits_big (b + b') (k + k')); lra|]. split; auto. split; [eapply Rle_trans; [apply Rabs_triang|]; lra|].
    rewrite V. pose proof (rnd_err (value x + value y)) as R.
    replace (rnd (value x + value y) - (v + w)) with ((rnd (value x + value y) - (value x + value y)) + ((value x - v) + (value y - w))) by ring.
    eapply Rle_trans; [apply Rabs_triang|]. assert (Q : Rabs (value x - v + (value y - w)) <= (k + k') * D) by (eapply Rle_trans; [apply Rabs_triang|]; lra).
    assert (UM : u * ((b + b') * M) + eta <= (b + b' + 1) * D) by (unfold D; nra). assert (UK : u * ((k + k') * D) <= 1 * D).
    { assert (u * (k + k') <= 1); [|nra]. rewrite u_val. nra. }
    assert (u * Rabs (value x + value y) <= u * ((b + b') * M + (k + k') * D)) by (apply Rmult_le_compat_l; lra). lra.
  Qed.
  Lemma coord_int : forall z y w b k, (0 <= z <= 3)%Z -> 0 <= b <= 100 -> 0 <= k <= 100 -> coord y w b k -> coord (fmul (fz z) y) (IZR z * w) (3 * b) (3 * k + 3 * b + 2).
  Proof.
    intros z y w b k Z B K CY. pose proof (coord_size _ _ _ _ CY) as SY. destruct CY as (FY & VY & EY). destruct (fz_is z) as [FZ VZ]; [lia|].
    assert (Z' : 0 <= IZR z <= 3) by (split; apply (IZR_le _ _); lia). pose proof u_pos as U. pose proof eta_pos as T. pose proof D_pos as DP.
    assert (S : Rabs (value (fz z) * value y) <= 3 * b * M + 3 * k * D) by (rewrite VZ, Rabs_mult, (Rabs_right (IZR z)) by lra; pose proof (Rabs_pos (value y)); nra).
    destruct (fmul_rnd (fz z) y FZ FY) as [F V]; [pose proof (fits_big (3 * b) (3 * k)); lra|]. split; auto. split; [rewrite Rabs_mult, (Rabs_right (IZR z)) by lra; pose proof (Rabs_pos w); nra|].
    rewrite V. pose proof (rnd_err (value (fz z) * value y)) as R.
    replace (rnd (value (fz z) * value y) - IZR z * w) with ((rnd (value (fz z) * value y) - value (fz z) * value y) + IZR z * (value y - w)) by (rewrite VZ; ring).
    eapply Rle_trans; [apply Rabs_triang|]. assert (Q : Rabs (IZR z * (value y - w)) <= 3 * k * D) by (rewrite Rabs_mult, (Rabs_right (IZR z)) by lra; pose proof (Rabs_pos (value y - w)); nra).
    assert (UM : u * (3 * b * M) + eta <= (3 * b + 1) * D) by (unfold D; nra). assert (UK : u * (3 * k * D) <= 1 * D).
    { assert (u * (3 * k) <= 1); [|nra]. rewrite u_val. nra. }
    assert (u * Rabs (value (fz z) * value y) <= u * (3 * b * M + 3 * k * D)) by (apply Rmult_le_compat_l; lra). lra.
  Qed.
  Lemma coord_scale : forall x w c y v b k, 0 <= c <= 10 -> 0 <= b <= 10 -> 0 <= k <= 10 -> weight x w c -> coord y v b k -> coord (fmul x y) (w * v) b (k + c * b + b + 2).
  Proof.
    intros x w c y v b k C B K (FX & X & W & E) CY. pose proof (coord_size _ _ _ _ CY) as SY. destruct CY as (FY & VY & EY). pose proof u_pos as U. pose proof eta_pos as T. pose proof D_pos as DP.
    assert (S : Rabs (value x * value y) <= b * M + k * D) by (rewrite Rabs_mult, (Rabs_right (value x)) by lra; pose proof (Rabs_pos (value y)); nra).
    destruct (fmul_rnd x y FX FY) as [F V]; [pose proof (fits_big b k); lra|]. split; auto. split; [rewrite Rabs_mult, (Rabs_right w) by lra; pose proof (Rabs_pos v); nra|].
    rewrite V. pose proof (rnd_err (value x * value y)) as R.
    replace (rnd (value x * value y) - w * v) with ((rnd (value x * value y) - value x * value y) + (value x * (value y - v) + (value x - w) * v)) by ring.
    eapply Rle_trans; [apply Rabs_triang|]. assert (P1 : Rabs (value x * (value y - v)) <= k * D) by (rewrite Rabs_mult, (Rabs_right (value x)) by lra; pose proof (Rabs_pos (value y - v)); nra).
    assert (P2 : Rabs ((value x - w) * v) <= c * u * (b * M)) by (rewrite Rabs_mult; apply Rmult_le_compat; auto using Rabs_pos).
    assert (Q : Rabs (value x * (value y - v) + (value x - w) * v) <= k * D + c * b * D) by (eapply Rle_trans; [apply Rabs_triang|]; assert (c * u * (b * M) <= c * b * D) by (unfold D; assert (0 <= c * b) by nra; nra); lra).
    assert (UM : u * (b * M) + eta <= (b + 1) * D) by (unfold D; nra). assert (UK : u * (k * D) <= 1 * D) by (assert (u * k <= 1); [rewrite u_val|]; nra).
    assert (u * Rabs (value x * value y) <= u * (b * M + k * D)) by (apply Rmult_le_compat_l; lra). lra.
  Qed.
  Lemma coord_sub : forall x y, finite x -> finite y -> Rabs (value x) <= M -> Rabs (value y) <= M -> coord (fsub x y) (value x - value y) 2 2.
  Proof.
    intros x y FX FY X Y. pose proof u_pos as U. pose proof eta_pos as T. pose proof D_pos as DP.
    assert (S : Rabs (value x - value y) <= 2 * M) by (unfold Rminus; eapply Rle_trans; [apply Rabs_triang|]; rewrite Rabs_Ropp; lra).
    destruct (fsub_rnd x y FX FY) as [F V]; [pose proof (fits_big 2 0); lra|]. split; auto. split; auto. rewrite V. eapply Rle_trans; [apply rnd_err|]. unfold D. nra.
  Qed.
  Lemma coord_weaken : forall x v b k b' k', b <= b' -> k <= k' -> coord x v b k -> coord x v b' k'.
  Proof. intros x v b k b' k' B K (F & V & E). pose proof D_pos. split; auto. split; nra. Qed.

  (** * Points of segments *)
  Definition ok (x : fl) : Prop := finite x /\ Rabs (value x) <= M.
  Lemma double_weight : forall x w c, 0 <= c <= 100 -> weight x w c -> value x <= / 2 -> w <= / 2 -> weight (fmul (fz 2) x) (2 * w) (2 * c + 2).
  Proof.
    intros x w c C (F & X & W & E) H H'. destruct (fz_is 2) as [F2 V2]; [lia|]. pose proof u_pos. pose proof eta_u.
    destruct (fmul_rnd (fz 2) x F2 F) as [FM VM]; [rewrite V2; pose proof one_big; apply abs_le; lra|]. split; auto. rewrite VM, V2. split; [apply rnd_unit; lra|]. split; [lra|].
    pose proof (rnd_err (2 * value x)) as R. rewrite (Rabs_right (2 * value x)) in R by lra. apply abs_ge in R, E. apply abs_le. nra.
  Qed.
  Lemma half_format : rnd (/ 2) = / 2.
  Proof. unfold rnd. apply round_generic; [typeclasses eauto|]. change (/ 2) with (bpow radix2 (-1)). apply generic_format_bpow. cbv. discriminate. Qed.
  Variable pow : fl -> Z -> fl.
  Hypothesis GP : good_pow pow.
  Lemma quad_about : forall x0 x1 x2 t, ok x0 -> ok x1 -> ok x2 -> finite t -> 0 <= value t <= 1 ->
    coord (fquad1 pow x0 x1 x2 t) ((1 - value t) ^ 2 * value x0 + 2 * ((1 - value t) * value t) * value x1 + value t ^ 2 * value x2) 3 36.
  Proof.
    intros x0 x1 x2 t [F0 B0] [F1 B1] [F2 B2] FT T. unfold fquad1. cbv zeta. set (n := fsub (fz 1) t).
    pose proof (weight_exact t FT T) as WT. pose proof (weight_less t FT T) as WN. fold n in WN.
    assert (WP : weight (pow t 2) (value t ^ 2) 4) by (pose proof (weight_pow pow t _ 0 2 GP (or_introl eq_refl) (Rle_refl 0) WT) as H; replace (3 * 0 + 4) with 4 in H by ring; exact H).
    assert (WQ : weight (pow n 2) ((1 - value t) ^ 2) 10) by (assert (Z : 0 <= 2) by lra; pose proof (weight_pow pow n _ 2 2 GP (or_introl eq_refl) Z WN) as H; replace (3 * 2 + 4) with 10 in H by ring; exact H).
    assert (WM : weight (fmul n t) ((1 - value t) * value t) 4) by (assert (Z : 0 <= 2) by lra; pose proof (weight_mul _ _ _ _ _ _ Z (Rle_refl 0) WN WT) as H; replace (2 + 0 + 2) with 4 in H by ring; exact H).
    assert (WD : weight (fmul (fz 2) (fmul n t)) (2 * ((1 - value t) * value t)) 10).
    { replace 10 with (2 * 4 + 2) by ring. apply double_weight; [lra|auto| |nra]. destruct WN as (FN & VN & _ & EN). apply abs_ge in EN.
      destruct (fmul_rnd n t FN FT) as [_ ->]; [apply abs_le; pose proof one_big; nra|]. rewrite <- half_format. apply rnd_le. rewrite u_val in EN. nra. }
    apply coord_weaken with (1 + 1 + 1) ((10 + 1) + (10 + 1) + 1 + 1 + 2 + (4 + 1) + (1 + 1) + 1 + 2); [lra|lra|].
    apply coord_add; try lra; [apply coord_add; try lra|]; apply coord_weight; auto; lra.
  Qed.
  Lemma cubic_about : forall x0 x1 x2 x3 t, ok x0 -> ok x1 -> ok x2 -> ok x3 -> finite t -> 0 <= value t <= 1 ->
    coord (fcubic1 pow x0 x1 x2 x3 t) ((1 - value t) ^ 3 * value x0 + 3 * ((1 - value t) * (1 - value t) * value t * value x1 + value t * value t * (1 - value t) * value x2) + value t ^ 3 * value x3) 8 103.
  Proof.
    intros x0 x1 x2 x3 t [F0 B0] [F1 B1] [F2 B2] [F3 B3] FT T. unfold fcubic1. cbv zeta. set (n := fsub (fz 1) t).
    pose proof (weight_exact t FT T) as WT. pose proof (weight_less t FT T) as WN. fold n in WN. assert (Z : 0 <= 2) by lra.
    assert (WP : weight (pow t 3) (value t ^ 3) 4) by (pose proof (weight_pow pow t _ 0 3 GP (or_intror eq_refl) (Rle_refl 0) WT) as H; replace (3 * 0 + 4) with 4 in H by ring; exact H).
    assert (WQ : weight (pow n 3) ((1 - value t) ^ 3) 10) by (pose proof (weight_pow pow n _ 2 3 GP (or_intror eq_refl) Z WN) as H; replace (3 * 2 + 4) with 10 in H by ring; exact H).
    assert (W2 : weight (fmul (fmul t t) n) (value t * value t * (1 - value t)) (0 + 0 + 2 + 2 + 2)) by (apply weight_mul; try lra; auto; apply weight_mul; try lra; auto).
    assert (W3 : weight (fmul (fmul n n) t) ((1 - value t) * (1 - value t) * value t) (2 + 2 + 2 + 0 + 2)) by (apply weight_mul; try lra; auto; apply weight_mul; try lra; auto).
    apply coord_weaken with (1 + 3 * (1 + 1) + 1) ((10 + 1) + (3 * ((2 + 2 + 2 + 0 + 2 + 1) + (0 + 0 + 2 + 2 + 2 + 1) + 1 + 1 + 2) + 3 * (1 + 1) + 2) + 1 + 3 * (1 + 1) + 2 + (4 + 1) + (1 + 3 * (1 + 1)) + 1 + 2); [lra|lra|].
    apply coord_add; try lra; [apply coord_add; try lra|]; try (apply coord_weight; auto; lra). apply coord_int; try lra; try lia. apply coord_add; try lra; apply coord_weight; auto; lra.
  Qed.
  Lemma towards_about : forall a b t, ok a -> ok b -> finite t -> 0 <= value t <= 1 -> coord (ftowards1 a b t) (value t * (value b - value a) + value a) 3 20.
  Proof.
    intros a b t [FA BA] [FB BB] FT T. unfold ftowards1. apply coord_weaken with (2 + 1) ((2 + 0 * 2 + 2 + 2) + 0 + 2 + 1 + 2); [lra|lra|].
    apply coord_add; try lra; [|apply coord_exact; auto]. apply coord_scale; try lra; [apply weight_exact; auto|]. apply coord_sub; auto.
  Qed.
End Coord.

(** * Exact results *)
Lemma rnd_fits : forall r z, r = value z -> Rabs (rnd r) < bpow radix2 1024 /\ rnd r = value z.
Proof. intros r z ->. pose proof (rnd_format z) as E. unfold value. rewrite E. split; [apply abs_B2R_lt_emax|reflexivity]. Qed.
Lemma fadd_exact : forall x y z v, finite x -> finite y -> value x + value y = v -> v = value z -> is (fadd x y) v.
Proof.
  intros x y z v X Y <- H. pose proof (Bplus_correct 53 1024 p53 p1024 mode_NE x y X Y) as C. destruct (rnd_fits _ z H) as [B V].
  change (round radix2 (SpecFloat.fexp 53 1024) (round_mode mode_NE) (B2R x + B2R y)) with (rnd (value x + value y)) in C. rewrite Rlt_bool_true in C by auto.
  destruct C as (E & F & _). split; [exact F|]. unfold value at 1. etransitivity; [exact E|]. congruence.
Qed.
Lemma fsub_exact : forall x y z v, finite x -> finite y -> value x - value y = v -> v = value z -> is (fsub x y) v.
Proof.
  intros x y z v X Y <- H. pose proof (Bminus_correct 53 1024 p53 p1024 mode_NE x y X Y) as C. destruct (rnd_fits _ z H) as [B V].
  change (round radix2 (SpecFloat.fexp 53 1024) (round_mode mode_NE) (B2R x - B2R y)) with (rnd (value x - value y)) in C. rewrite Rlt_bool_true in C by auto.
  destruct C as (E & F & _). split; [exact F|]. unfold value at 1. etransitivity; [exact E|]. congruence.
Qed.
Lemma fmul_exact : forall x y z v, finite x -> finite y -> value x * value y = v -> v = value z -> is (fmul x y) v.
Proof.
  intros x y z v X Y <- H. pose proof (Bmult_correct 53 1024 p53 p1024 mode_NE x y) as C. destruct (rnd_fits _ z H) as [B V].
  change (round radix2 (SpecFloat.fexp 53 1024) (round_mode mode_NE) (B2R x * B2R y)) with (rnd (value x * value y)) in C. rewrite Rlt_bool_true in C by auto.
  destruct C as (E & F & _). split; [unfold finite; etransitivity; [exact F|]; now rewrite X, Y|]. unfold value at 1. etransitivity; [exact E|]. congruence.
Qed.
Lemma fdiv_one : forall x, finite x -> is (fdiv x (fz 1)) (value x).
Proof.
  intros x X. destruct (fz_is 1) as [F1 V1]; [lia|]. assert (N : value (fz 1) <> 0) by (rewrite V1; lra).
  pose proof (Bdiv_correct 53 1024 p53 p1024 mode_NE x (fz 1) N) as C. assert (H : value x / value (fz 1) = value x) by (rewrite V1; field). destruct (rnd_fits _ x H) as [B V].
  change (round radix2 (SpecFloat.fexp 53 1024) (round_mode mode_NE) (B2R x / B2R (fz 1))) with (rnd (value x / value (fz 1))) in C. rewrite Rlt_bool_true in C by auto.
  destruct C as (E & F & _). split; [unfold finite; etransitivity; [exact F|exact X]|]. unfold value at 1. etransitivity; [exact E|exact V].
Qed.
Lemma fz0 : is (fz 0) 0. Proof. apply (fz_is 0). lia. Qed.
Lemma fz1 : is (fz 1) 1. Proof. apply (fz_is 1). lia. Qed.
Lemma zero_mul : forall x y, is x 0 -> finite y -> is (fmul x y) 0.
Proof. intros x y [F V] Y. apply (fmul_exact x y (fz 0) 0 F Y); [rewrite V; ring|symmetry; apply fz0]. Qed.
Lemma mul_zero : forall x y, finite x -> is y 0 -> is (fmul x y) 0.
Proof. intros x y X [F V]. apply (fmul_exact x y (fz 0) 0 X F); [rewrite V; ring|symmetry; apply fz0]. Qed.
Lemma one_mul : forall x y, is x 1 -> finite y -> is (fmul x y) (value y).
Proof. intros x y [F V] Y. apply (fmul_exact x y y _ F Y); [rewrite V; ring|reflexivity]. Qed.
Lemma mul_one : forall x y, finite x -> is y 1 -> is (fmul x y) (value x).
Proof. intros x y X [F V]. apply (fmul_exact x y x _ X F); [rewrite V; ring|reflexivity]. Qed.
Lemma zero_add : forall x y z, is x 0 -> is y (value z) -> is (fadd x y) (value z).
Proof. intros x y z [F V] [G W]. apply (fadd_exact x y z _ F G); [rewrite V, W; ring|reflexivity]. Qed.
Lemma add_zero : forall x y z, is x (value z) -> is y 0 -> is (fadd x y) (value z).
Proof. intros x y z [F V] [G W]. apply (fadd_exact x y z _ F G); [rewrite V, W; ring|reflexivity]. Qed.
Lemma zero_zero : forall x y, is x 0 -> is y 0 -> is (fadd x y) 0.
Proof. intros x y A B. rewrite <- (proj2 fz0). apply add_zero; [rewrite (proj2 fz0)|]; auto. Qed.
Section Ends.
  Variable pow : fl -> Z -> fl.
  Hypothesis GP : good_pow pow.
  Lemma less_0 : forall t, is t 0 -> is (fsub (fz 1) t) 1.
  Proof. intros t [F V]. apply (fsub_exact (fz 1) t (fz 1) 1 (proj1 fz1) F); [rewrite V, (proj2 fz1); ring|symmetry; apply fz1]. Qed.
  Lemma less_1 : forall t, is t 1 -> is (fsub (fz 1) t) 0.
  Proof. intros t [F V]. apply (fsub_exact (fz 1) t (fz 0) 0 (proj1 fz1) F); [rewrite V, (proj2 fz1); ring|symmetry; apply fz0]. Qed.
  Lemma pow_0 : forall t n, (n = 2 \/ n = 3)%Z -> is t 0 -> is (pow t n) 0.
  Proof. intros t n N [F V]. destruct (GP t n F) as (A & _ & _ & B & _); auto; [lra|]. split; auto. Qed.
  Lemma pow_1 : forall t n, (n = 2 \/ n = 3)%Z -> is t 1 -> is (pow t n) 1.
  Proof. intros t n N [F V]. destruct (GP t n F) as (A & _ & _ & _ & B); auto; [lra|]. split; auto. Qed.
  Lemma quad_ends : forall x0 x1 x2 t, finite x0 -> finite x1 -> finite x2 -> (is t 0 -> is (fquad1 pow x0 x1 x2 t) (value x0)) /\ (is t 1 -> is (fquad1 pow x0 x1 x2 t) (value x2)).
  Proof.
    intros x0 x1 x2 t F0 F1 F2. unfold fquad1. cbv zeta. split; intros T.
    - pose proof (less_0 t T) as N. apply add_zero; [apply add_zero|]; [apply one_mul; auto; apply pow_1; auto| |apply zero_mul; auto; apply pow_0; auto].
      apply zero_mul; auto. apply mul_zero; [apply fz_is; lia|]. apply mul_zero; [apply N|auto].
    - pose proof (less_1 t T) as N. apply zero_add; [apply zero_zero|]; [apply zero_mul; auto; apply pow_0; auto| |apply one_mul; auto; apply pow_1; auto].
      apply zero_mul; auto. apply mul_zero; [apply fz_is; lia|]. apply zero_mul; [auto|apply T].
  Qed.
  Lemma cubic_ends : forall x0 x1 x2 x3 t, finite x0 -> finite x1 -> finite x2 -> finite x3 -> (is t 0 -> is (fcubic1 pow x0 x1 x2 x3 t) (value x0)) /\ (is t 1 -> is (fcubic1 pow x0 x1 x2 x3 t) (value x3)).
  Proof.
    intros x0 x1 x2 x3 t F0 F1 F2 F3. unfold fcubic1. cbv zeta. split; intros T.
    - pose proof (less_0 t T) as N. apply add_zero; [apply add_zero|]; [apply one_mul; auto; apply pow_1; auto| |apply zero_mul; auto; apply pow_0; auto].
      apply mul_zero; [apply fz_is; lia|]. apply zero_zero; apply zero_mul; auto.
      + apply mul_zero; auto. apply (mul_one _ _ (proj1 N) N).
      + apply zero_mul; [apply zero_mul; auto; apply T|apply N].
    - pose proof (less_1 t T) as N. apply zero_add; [apply zero_zero|]; [apply zero_mul; auto; apply pow_0; auto| |apply one_mul; auto; apply pow_1; auto].
      apply mul_zero; [apply fz_is; lia|]. apply zero_zero; apply zero_mul; auto.
      + apply zero_mul; [apply zero_mul; auto; apply N|apply T].
      + apply mul_zero; auto. apply (mul_one _ _ (proj1 T) T).
  Qed.
End Ends.
