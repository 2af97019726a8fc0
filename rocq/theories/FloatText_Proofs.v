(** Reading and writing floats. *)
Require Import ZArith QArith Qabs Qreals Reals Ascii String List Bool Lqa Lia Lra.
From Flocq Require Import Core BinarySingleNaN.
Require Import Verif.Base Verif.Color_Spec Verif.Color_Proofs Verif.Text_Spec Verif.Text_Proofs Verif.Fmt_Model Verif.Fmt_Proofs Verif.Length_Model Verif.Length_Proofs Verif.Transform_Proofs
  Verif.Viewbox_Model Verif.Viewbox_Proofs Verif.FmtG_Model Verif.PointText_Spec Verif.FmtG_Proofs
  Verif.Float_Model Verif.Float_Spec Verif.Float_Proofs Verif.FloatBox_Proofs Verif.FloatView_Model Verif.FloatView_Proofs Verif.FloatText_Model Verif.FloatText_Spec.
Import ListNotations.
Open Scope R_scope.

Definition signed (neg : bool) (r : R) : R := if neg then - r else r.
Lemma fmag_spec : forall neg q, (0 <= q)%Q -> Rabs (rnd (Q2R q)) < bpow radix2 1024 -> finite (fmag neg q) /\ value (fmag neg q) = signed neg (rnd (Q2R q)) /\ Bsign (fmag neg q) = neg.
Proof.
  intros neg [n d] Hq B. unfold fmag. cbn [Qnum Qden]. destruct n as [|n|n].
  - split; [reflexivity|]. split; [|reflexivity]. unfold value. cbn. unfold Q2R. cbn. rewrite Rmult_0_l, rnd_0. unfold signed. destruct neg; lra.
  - unfold fratio, finite, value. rewrite B2R_SF2B, is_finite_SF2B, Bsign_SF2B.
    pose proof (proj2 (Bdiv_correct_aux 53 1024 p53 p1024 mode_NE neg n 0 false d 0)) as C. cbv zeta in C.
    assert (E : F2R (Float radix2 (SpecFloat.cond_Zopp neg (Zpos n)) 0) / F2R (Float radix2 (SpecFloat.cond_Zopp false (Zpos d)) 0) = signed neg (Q2R (Zpos n # d))).
    { unfold F2R, Q2R. cbn [Fnum Fexp Qnum Qden SpecFloat.cond_Zopp bpow]. rewrite !Rmult_1_r. destruct neg; cbn [SpecFloat.cond_Zopp signed]; [rewrite opp_IZR|]; unfold Rdiv; ring. }
    rewrite E in C. change (round radix2 (SpecFloat.fexp 53 1024) (round_mode mode_NE) (signed neg (Q2R (Zpos n # d)))) with (rnd (signed neg (Q2R (Zpos n # d)))) in C.
    assert (S : rnd (signed neg (Q2R (Zpos n # d))) = signed neg (rnd (Q2R (Zpos n # d)))). { unfold signed. destruct neg; auto. apply rnd_opp. }
    rewrite S in C. rewrite Rlt_bool_true in C. destruct C as (C1 & C2 & C3). rewrite C3. destruct neg; auto.
    unfold signed. destruct neg; [rewrite Rabs_Ropp|]; auto.
  - exfalso. unfold Qle in Hq. cbn in Hq. lia.
Qed.
Lemma rnd_nearest : forall t (x : fl), Rabs (rnd t - t) <= Rabs (value x - t).
Proof.
  intros t x. destruct (round_N_pt radix2 (FLT_exp (-1074) 53) (fun z => negb (Z.even z)) t) as [_ H]. apply (H (value x)). apply format_value.
Qed.
Lemma rnd_mono0 : forall t, 0 <= t -> 0 <= rnd t.
Proof. intros t H. rewrite <- rnd_0. apply rnd_le. auto. Qed.
Lemma value_sign : forall x, finite x -> value x = signed (Bsign x) (Rabs (value x)).
Proof.
  intros [s|s| |s m e p] F; cbn; try discriminate; unfold signed.
  - rewrite Rabs_R0. destruct s; lra.
  - unfold value, B2R. rewrite <- F2R_Zabs. destruct s; cbn; [rewrite <- F2R_Zopp|]; reflexivity.
Qed.
Lemma Q2R_abs : forall q, Q2R (Qabs q) = Rabs (Q2R q).
Proof. intros [n d]. unfold Q2R, Qabs. cbn [Qnum Qden]. rewrite Rabs_mult, abs_IZR. f_equal. rewrite Rabs_right; auto. apply Rle_ge, Rlt_le, Rinv_0_lt_compat, IZR_lt. lia. Qed.
Lemma max_value : forall x, finite x -> Rabs (value x) <= bpow radix2 1024 - bpow radix2 971.
Proof.
  intros x F. pose proof (abs_B2R_le_emax_minus_prec 53 1024 p53 x) as H. exact H.
Qed.
(** Reading a literal. *)
Lemma ffloat_lit : forall l, lit_ok l -> ffloat (lit_text l) = Ok (ffnum (fnum_of l)).
Proof.
  intros l L. unfold ffloat. rewrite <- (app_nil_r (lit_text l)), match_float_lit; auto. apply nc_no_cont. exact I.
Qed.
Lemma ffnum_spec : forall l t, lit_ok l -> (Qabs (lit_val l) == t)%Q -> Rabs (rnd (Q2R t)) < bpow radix2 1024 ->
  finite (ffnum (fnum_of l)) /\ value (ffnum (fnum_of l)) = signed (match l_sgn l with SMinus => true | _ => false end) (rnd (Q2R t)) /\ Bsign (ffnum (fnum_of l)) = (match l_sgn l with SMinus => true | _ => false end).
Proof.
  intros l t L E B. assert (E2 : Q2R (Qabs (fnum_val (fnum_of l))) = Q2R t). { apply Qeq_eqR. rewrite <- E. rewrite fnum_val_lit by auto. reflexivity. }
  unfold ffnum. rewrite <- E2 in *. apply (fmag_spec _ _ (Qabs_nonneg _) B).
Qed.
Lemma same_float : forall x y, finite x -> finite y -> value x = value y -> Bsign x = Bsign y -> x = y.
Proof. intros x y F G V S. apply (B2R_Bsign_inj 53 1024); auto. Qed.

(** * Twelve decimals *)
Lemma round_stable : forall r r' n, nearest r n -> (Qabs (r' - inject_Z n) <= Qabs (r - inject_Z n))%Q -> Qround_even r' = n.
Proof.
  intros r r' n (A & B & C) H. eapply nearest_unique; [apply round_nearest|].
  assert (L : (Qabs (r - inject_Z n) <= 1 # 2)%Q) by (apply Qabs_Qle_condition; split; Lqa.lra).
  assert (M : (Qabs (r' - inject_Z n) <= 1 # 2)%Q) by Lqa.lra. pose proof M as M0. apply Qabs_Qle_condition in M as [M1 M2]. unfold nearest. split; [Lqa.lra|]. split; [Lqa.lra|].
  intros T. apply C. assert (T2 : (Qabs (r' - inject_Z n) == 1 # 2)%Q).
  { destruct T as [T|T]; rewrite T. setoid_replace (inject_Z n - (1 # 2) - inject_Z n)%Q with (- (1 # 2))%Q by ring. reflexivity. setoid_replace (inject_Z n + (1 # 2) - inject_Z n)%Q with (1 # 2)%Q by ring. reflexivity. }
  assert (T3 : (Qabs (r - inject_Z n) == 1 # 2)%Q) by Lqa.lra.
  destruct (Qlt_le_dec (r - inject_Z n) 0) as [Q|Q]; [rewrite Qabs_neg in T3 by Lqa.lra; left; Lqa.lra|rewrite Qabs_pos in T3 by Lqa.lra; right; Lqa.lra].
Qed.
Definition E12 : Q := inject_Z (10 ^ 12).
Lemma f12_sign : forall x n, n = Qround_even (Qabs (f2q x) * E12) -> (0 <= n)%Z -> flength_str x = lit_text (f12_lit (Bsign x) n).
Proof.
  intros x n E N. unfold flength_str, fsign. rewrite (f12_text (Qabs (f2q x)) n); auto.
  - assert (S : Qltb (Qabs (f2q x)) 0 = false) by (apply Qltb_false, Qabs_nonneg). rewrite S. unfold f12_lit, lit_text. cbn [l_sgn l_int l_frac l_exp]. destruct (Bsign x); reflexivity.
  - rewrite E. apply Qround_even_Qeq. rewrite (Qabs_pos (Qabs (f2q x))) by apply Qabs_nonneg. reflexivity.
Qed.
Lemma E12_R : Q2R E12 = 1000000000000. Proof. unfold Q2R, E12, inject_Z. cbn [Qnum Qden]. rewrite Rinv_1. replace (10 ^ 12)%Z with 1000000000000%Z by reflexivity. lra. Qed.
Section Twelve.
  Variable x : fl.
  Hypothesis F : finite x.
  Let n := Qround_even (Qabs (f2q x) * E12).
  Let a := Rabs (value x).
  Let t := IZR n / 1000000000000.
  Lemma n_nonneg : (0 <= n)%Z.
  Proof.
    pose proof (round_nearest (Qabs (f2q x) * E12)) as (A & B & _). fold n in A, B. assert (P : (0 <= Qabs (f2q x) * E12)%Q) by (apply Qmult_le_0_compat; [apply Qabs_nonneg|discriminate]).
    assert (-1 < n)%Z; [|lia]. rewrite Zlt_Qlt. change (inject_Z (-1)) with (-1)%Q. Lqa.lra.
  Qed.
  Lemma a_q : Q2R (Qabs (f2q x) * E12) = a * 1000000000000. Proof. rewrite Q2R_mult, Q2R_abs, f2q_value, E12_R. reflexivity. Qed.
  Lemma t_near : Rabs (a - t) <= / 2000000000000.
  Proof.
    pose proof (round_nearest (Qabs (f2q x) * E12)) as (A & B & _). fold n in A, B. apply Qreals.Qle_Rle in A, B. rewrite Q2R_minus in A. rewrite Q2R_plus in B. rewrite a_q in A, B.
    assert (I : Q2R (inject_Z n) = IZR n) by (unfold Q2R, inject_Z; cbn; lra). assert (H : Q2R (1 # 2) = / 2) by (unfold Q2R; cbn; lra). rewrite I, H in A, B. unfold t. apply Rabs_le. Lra.lra.
  Qed.
  Lemma t_nonneg : 0 <= t. Proof. unfold t. pose proof n_nonneg as N. apply IZR_le in N. Lra.lra. Qed.
  Lemma rt_near : Rabs (rnd t - t) <= Rabs (a - t).
  Proof. pose proof (rnd_nearest t (fabs x)) as H. unfold value, fabs in H. rewrite B2R_Babs in H. exact H. Qed.
  Lemma rt_fits : Rabs (rnd t) < bpow radix2 1024.
  Proof.
    pose proof rt_near as A. pose proof t_near as B. pose proof (max_value x F) as M. fold a in M. pose proof (rnd_mono0 t t_nonneg). rewrite Rabs_right by Lra.lra.
    assert (P : 1 <= bpow radix2 971) by (change 1 with (bpow radix2 0); apply bpow_le; lia). apply abs_ge in A, B. assert (Rabs (a - t) <= / 2000000000000) by (apply abs_le; auto). Lra.lra.
  Qed.
  Lemma lit_t : (Qabs (lit_val (f12_lit (Bsign x) n)) == inject_Z n / E12)%Q.
  Proof.
    rewrite f12_val by apply n_nonneg. assert (P : (0 <= inject_Z n / E12)%Q). { apply Qmult_le_0_compat; [|discriminate]. change 0%Q with (inject_Z 0). rewrite <- Zle_Qle. apply n_nonneg. }
    fold E12. destruct (Bsign x); [|apply Qabs_pos; auto]. rewrite inject_Z_opp. setoid_replace (- inject_Z n / E12)%Q with (- (inject_Z n / E12))%Q by (unfold Qdiv; ring). rewrite Qabs_opp. apply Qabs_pos. auto.
  Qed.
  Lemma tq : Q2R (inject_Z n / E12) = t.
  Proof. rewrite Q2R_div by discriminate. rewrite E12_R. unfold Q2R, inject_Z. cbn [Qnum Qden]. unfold t. field. Qed.
  Lemma twelve : exists y, ffloat (flength_str x) = Ok y /\ finite y /\ Bsign y = Bsign x /\ Rabs (value y) = rnd t /\ flength_str y = flength_str x.
  Proof.
    pose proof (f12_sign x n eq_refl n_nonneg) as T. set (l := f12_lit (Bsign x) n) in *. assert (L : lit_ok l) by (apply f12_lit_ok, n_nonneg).
    destruct (ffnum_spec l (inject_Z n / E12) L lit_t) as (G & V & S); [rewrite tq; apply rt_fits|]. rewrite tq in V.
    assert (SS : (match l_sgn l with SMinus => true | _ => false end) = Bsign x) by (unfold l, f12_lit; cbn; destruct (Bsign x); reflexivity). rewrite SS in *.
    exists (ffnum (fnum_of l)). split; [rewrite T; apply ffloat_lit; auto|]. split; auto. split; auto.
    assert (AV : Rabs (value (ffnum (fnum_of l))) = rnd t). { rewrite V. pose proof (rnd_mono0 t t_nonneg). unfold signed. destruct (Bsign x); [rewrite Rabs_Ropp|]; apply Rabs_right; Lra.lra. }
    split; auto. rewrite T. rewrite (f12_sign (ffnum (fnum_of l)) n); [rewrite S; reflexivity| |apply n_nonneg].
    symmetry. apply (round_stable (Qabs (f2q x) * E12)); [apply round_nearest|].
    apply Rle_Qle. rewrite !Q2R_abs, !Q2R_minus, a_q, Q2R_mult, Q2R_abs, f2q_value, E12_R, AV.
    assert (I : Q2R (inject_Z n) = t * 1000000000000) by (unfold Q2R, inject_Z, t; cbn [Qnum Qden]; field). rewrite I.
    replace (rnd t * 1000000000000 - t * 1000000000000) with ((rnd t - t) * 1000000000000) by ring. replace (a * 1000000000000 - t * 1000000000000) with ((a - t) * 1000000000000) by ring.
    rewrite !Rabs_mult. apply Rmult_le_compat_r; [apply Rabs_pos|apply rt_near].
  Qed.
  (** What is read is near, and the same if the number is large. *)
  Lemma twelve_near : Rabs (rnd t - a) <= / 1000000000000.
  Proof.
    replace (rnd t - a) with ((rnd t - t) + (t - a)) by ring. eapply Rle_trans; [apply Rabs_triang|]. rewrite (Rabs_minus_sym t a). pose proof rt_near. pose proof t_near. lra.
  Qed.
End Twelve.
Lemma grid : forall r, 8192 <= r -> generic_format radix2 (FLT_exp (-1074) 53) r -> exists k, r = IZR k * bpow radix2 (-39).
Proof.
  intros r H G. assert (M : (14 <= mag radix2 r)%Z). { apply mag_ge_bpow. rewrite Rabs_right by lra. change (bpow radix2 (14 - 1)) with 8192. auto. }
  assert (C : (-39 <= cexp radix2 (FLT_exp (-1074) 53) r)%Z) by (unfold cexp, FLT_exp; lia).
  rewrite G. set (z := Ztrunc _). set (c := cexp _ _ r) in *. exists (z * 2 ^ (c + 39))%Z. unfold F2R. cbn [Fnum Fexp].
  rewrite mult_IZR. change 2%Z with (radix_val radix2). rewrite IZR_Zpower by lia. rewrite Rmult_assoc, <- bpow_plus. f_equal. f_equal. lia.
Qed.
Lemma twelve_large : forall x, finite x -> 8192 <= Rabs (value x) -> ffloat (flength_str x) = Ok x.
Proof.
  intros x F H. destruct (twelve x F) as (y & E & G & S & V & T). rewrite E. f_equal. set (n := Qround_even (Qabs (f2q x) * E12)) in *.
  pose proof (twelve_near x) as D. fold n in D. rewrite <- V in D.
  assert (N : (8192 * 10 ^ 12 <= n)%Z).
  { pose proof (round_nearest (Qabs (f2q x) * E12)) as (_ & B & _). fold n in B. apply Qreals.Qle_Rle in B. rewrite Q2R_plus, a_q in B.
    assert (I : Q2R (inject_Z n) = IZR n) by (unfold Q2R, inject_Z; cbn; lra). assert (J : Q2R (1 # 2) = / 2) by (unfold Q2R; cbn; lra). rewrite I, J in B.
    assert (8192 * 10 ^ 12 < n + 1)%Z; [|lia]. apply lt_IZR. rewrite plus_IZR. change (8192 * 10 ^ 12)%Z with 8192000000000000%Z. lra. }
  assert (Y : 8192 <= Rabs (value y)).
  { rewrite V. replace 8192 with (rnd 8192) by (apply (rnd_int 8192); lia). apply rnd_le. apply IZR_le in N. change (8192 * 10 ^ 12)%Z with 8192000000000000%Z in N. lra. }
  assert (FA : forall z, generic_format radix2 (FLT_exp (-1074) 53) (Rabs (value z))) by (intros z; apply generic_format_abs, format_value).
  destruct (grid _ H (FA x)) as (k1 & K1). destruct (grid _ Y (FA y)) as (k2 & K2).
  assert (K : k1 = k2).
  { rewrite K1, K2, <- Rmult_minus_distr_r, Rabs_mult, <- minus_IZR, <- abs_IZR in D. change (bpow radix2 (-39)) with (/ 549755813888) in D.
    rewrite (Rabs_right (/ 549755813888)) in D by lra. assert (Z.abs (k2 - k1) < 1)%Z; [|lia]. apply lt_IZR. lra. }
  apply same_float; auto. rewrite (value_sign y G), (value_sign x F), K1, K2, K, S. reflexivity.
Qed.
Lemma twelve_short : forall l k, lit_ok l -> (Qabs (lit_val l) * E12 == inject_Z k)%Q -> (k <= 4096 * 10 ^ 12)%Z ->
  exists x, ffloat (lit_text l) = Ok x /\ finite x /\ ffloat (flength_str x) = Ok x.
Proof.
  intros l k L K B. assert (K0 : (0 <= k)%Z). { assert (0 <= inject_Z k)%Q. { rewrite <- K. apply Qmult_le_0_compat; [apply Qabs_nonneg|discriminate]. } change 0%Q with (inject_Z 0) in H. rewrite <- Zle_Qle in H. auto. }
  assert (QT : (Qabs (lit_val l) == inject_Z k / E12)%Q). { rewrite <- K. field. discriminate. }
  set (t := IZR k / 1000000000000).
  assert (TQ : Q2R (inject_Z k / E12) = t). { rewrite Q2R_div by discriminate. rewrite E12_R. unfold Q2R, inject_Z. cbn [Qnum Qden]. unfold t. field. }
  assert (T0 : 0 <= t <= 4096). { unfold t. apply IZR_le in K0, B. change (4096 * 10 ^ 12)%Z with 4096000000000000%Z in B. lra. }
  assert (R : Rabs (rnd t - t) < / 2000000000000).
  { eapply Rle_lt_trans; [apply rnd_err|]. rewrite Rabs_right by lra. pose proof eta_u. pose proof u_pos. assert (u * t <= u * 4096) by (apply Rmult_le_compat_l; lra). rewrite u_val in *. lra. }
  assert (FT : Rabs (rnd t) < bpow radix2 1024). { apply rnd_big. rewrite Rabs_right by lra. apply Rle_trans with (bpow radix2 12); [change (bpow radix2 12) with 4096; lra|apply bpow_le; lia]. }
  destruct (ffnum_spec l _ L QT) as (G & V & S); [rewrite TQ; auto|]. rewrite TQ in V. set (neg := match l_sgn l with SMinus => true | _ => false end) in *.
  set (x := ffnum (fnum_of l)) in *. exists x. split; [apply ffloat_lit; auto|]. split; auto.
  destruct (twelve x G) as (y & E & FY & SY & VY & _). rewrite E. f_equal.
  assert (AX : Rabs (value x) = rnd t). { rewrite V. pose proof (rnd_mono0 t ltac:(lra)). unfold signed. destruct neg; [rewrite Rabs_Ropp|]; apply Rabs_right; lra. }
  assert (NK : Qround_even (Qabs (f2q x) * E12) = k).
  { eapply nearest_unique; [apply round_nearest|]. assert (R' := R). apply Rabs_def2 in R' as [R1 R2].
    assert (QX : Q2R (Qabs (f2q x) * E12) = rnd t * 1000000000000) by (rewrite a_q, AX; reflexivity).
    assert (I : Q2R (inject_Z k) = t * 1000000000000) by (unfold Q2R, inject_Z, t; cbn [Qnum Qden]; field). assert (J : Q2R (1 # 2) = / 2) by (unfold Q2R; cbn; lra).
    assert (LO : (inject_Z k - (1 # 2) < Qabs (f2q x) * E12)%Q) by (apply Rlt_Qlt; rewrite Q2R_minus, QX, I, J; lra).
    assert (HI : (Qabs (f2q x) * E12 < inject_Z k + (1 # 2))%Q) by (apply Rlt_Qlt; rewrite Q2R_plus, QX, I, J; lra).
    unfold nearest. split; [Lqa.lra|]. split; [Lqa.lra|]. intros [Z|Z]; Lqa.lra. }
  rewrite NK in VY. fold t in VY. apply same_float; auto. rewrite (value_sign y FY), (value_sign x G), AX, VY, SY. reflexivity.
Qed.

(** * Twelve significant digits *)
Definition gform (m e : Z) : lit := if ((-4 <=? e) && (e <? 12))%Z then G_lit false m (Z.to_nat (12 - 1 - e)) None else G_lit false m (Z.to_nat (12 - 1)) (Some (true, exp_sgn e, exp_ds e)).
Lemma p10_step : forall e, (p10 (e - 11) == 10 * p10 (e - 12))%Q.
Proof. intros e. replace (e - 11)%Z with (e - 12 + 1)%Z by lia. apply p10_S. Qed.
Lemma p10_e : forall e, (p10 e == 1000000000000 * p10 (e - 12))%Q.
Proof. intros e. replace e with (12 + (e - 12))%Z at 1 by lia. rewrite p10_plus. reflexivity. Qed.
Lemma mant_eq : forall m m' (U : Q), (0 < U)%Q -> (inject_Z m * (10 * U) - inject_Z m' * (10 * U) < 10 * U)%Q -> (inject_Z m' * (10 * U) - inject_Z m * (10 * U) < 10 * U)%Q -> m = m'.
Proof.
  intros m m' U P A B. assert (X : (inject_Z (m - m') < 1)%Q).
  { apply Qmult_lt_r with (10 * U)%Q; [Lqa.lra|]. unfold Z.sub. rewrite inject_Z_plus, inject_Z_opp. Lqa.lra. }
  assert (Y : (inject_Z (m' - m) < 1)%Q).
  { apply Qmult_lt_r with (10 * U)%Q; [Lqa.lra|]. unfold Z.sub. rewrite inject_Z_plus, inject_Z_opp. Lqa.lra. }
  change 1%Q with (inject_Z 1) in X, Y. rewrite <- Zlt_Qlt in X, Y. lia.
Qed.
Lemma fmt_G_near : forall q m e, (0 < q)%Q -> (10 ^ 11 <= m < 10 ^ 12)%Z -> (Qabs (q - inject_Z m * p10 (e - 11)) < (1 # 2) * p10 (e - 12))%Q -> fmt_G 12 q = lit_text (gform m e).
Proof.
  intros q m e Q0 M H. assert (NZ : ~ (q == 0)%Q) by Lqa.lra. destruct (fmt_G_spec 12 q ltac:(lia) NZ) as (m' & e' & d & M' & D1 & D2 & ED & ER & _ & TX).
  change (12 - 1)%Z with 11%Z in M', ER. assert (S : Qltb q 0 = false) by (apply Qltb_false; Lqa.lra). rewrite S in TX.
  rewrite (Qabs_pos q) in * by Lqa.lra. set (U := p10 (e - 12)) in *. assert (UP : (0 < U)%Q) by apply p10_pos.
  assert (X11 := p10_step e). fold U in X11. assert (Xe := p10_e e). fold U in Xe. rewrite X11 in H.
  apply Qabs_Qlt_condition in H as [H1 H2]. apply Qabs_Qle_condition in ER as [R1 R2].
  assert (MI : (100000000000 <= inject_Z m)%Q /\ (inject_Z m <= 999999999999)%Q).
  { split; [change 100000000000%Q with (inject_Z (10 ^ 11))|change 999999999999%Q with (inject_Z (10 ^ 12 - 1))]; rewrite <- Zle_Qle; lia. }
  assert (MI' : (100000000000 <= inject_Z m')%Q /\ (inject_Z m' <= 999999999999)%Q).
  { split; [change 100000000000%Q with (inject_Z (10 ^ 11))|change 999999999999%Q with (inject_Z (10 ^ 12 - 1))]; rewrite <- Zle_Qle; lia. }
  assert (TL : (1000000000000 * U <= inject_Z m * (10 * U))%Q). { setoid_replace (1000000000000 * U)%Q with (100000000000 * (10 * U))%Q by ring. apply Qmult_le_r; [Lqa.lra|]. apply MI. }
  assert (TH : (inject_Z m * (10 * U) <= 9999999999990 * U)%Q). { setoid_replace (9999999999990 * U)%Q with (999999999999 * (10 * U))%Q by ring. apply Qmult_le_r; [Lqa.lra|]. apply MI. }
  set (U' := p10 (e' - 12)) in *. assert (UP' : (0 < U')%Q) by apply p10_pos. assert (X11' := p10_step e'). fold U' in X11'. rewrite X11' in R1, R2.
  assert (TL' : (1000000000000 * U' <= inject_Z m' * (10 * U'))%Q). { setoid_replace (1000000000000 * U')%Q with (100000000000 * (10 * U'))%Q by ring. apply Qmult_le_r; [Lqa.lra|]. apply MI'. }
  assert (TH' : (inject_Z m' * (10 * U') <= 9999999999990 * U')%Q). { setoid_replace (9999999999990 * U')%Q with (999999999999 * (10 * U'))%Q by ring. apply Qmult_le_r; [Lqa.lra|]. apply MI'. }
  assert (DE : (p10 (d - 11) <= 10 * U')%Q). { rewrite <- X11'. apply p10_le. destruct ED as [->|[-> _]]; lia. }
  assert (EE : e' = e).
  { destruct (Z.lt_trichotomy e' e) as [L|[L|L]]; auto; exfalso.
    - destruct (Z.eq_dec e' (e - 1)) as [->|N].
      + assert (Z : (U == 10 * U')%Q). { unfold U, U'. replace (e - 12)%Z with (e - 1 - 12 + 1)%Z by lia. apply p10_S. } rewrite Z in *. Lqa.lra.
      + assert (Z : (100 * U' <= U)%Q). { unfold U, U'. apply Qle_trans with (p10 (e' - 12 + 1 + 1)); [rewrite !p10_S; Lqa.lra|apply p10_le; lia]. } Lqa.lra.
    - assert (Z : (10 * U <= U')%Q). { unfold U, U'. rewrite <- p10_S. apply p10_le. lia. }
      destruct (Z.le_gt_cases d e) as [C|C].
      + assert (DD : (p10 (d - 11) <= 10 * U)%Q). { rewrite <- X11. apply p10_le. lia. } Lqa.lra.
      + assert (DD : (10000000000000 * U <= p10 d)%Q). { apply Qle_trans with (p10 (e + 1)); [rewrite p10_S, Xe; Lqa.lra|apply p10_le; lia]. } Lqa.lra. }
  subst e'. fold U in U'. change U' with U in *. clear U'. assert (m = m') by (apply (mant_eq m m' U UP); Lqa.lra). subst m'. exact TX.
Qed.
(** The text of a coordinate, and the number it is. *)
Lemma coord_form : forall q, (0 < q)%Q -> tame q -> exists m e, (10 ^ 11 <= m < 10 ^ 12)%Z /\ fmt_G 12 q = lit_text (gform m e) /\ coord_str q = lit_text (gform m e) /\ lit_ok (gform m e) /\
  (lit_val (gform m e) == inject_Z m * p10 (e - 11))%Q /\ (Qabs (inject_Z m * p10 (e - 11) - q) <= q * (1 # 2) * p10 (- 11))%Q.
Proof.
  intros q Q0 TM. assert (NZ : ~ (q == 0)%Q) by Lqa.lra. destruct (fmt_G_spec 12 q ltac:(lia) NZ) as (m & e & d & M & D1 & D2 & ED & ER & _ & TX).
  assert (S : Qltb q 0 = false) by (apply Qltb_false; Lqa.lra). rewrite S in TX. change (lit_text _) with (lit_text (gform m e)) in TX.
  pose proof (p10_half 12 d (Qabs q) D1) as PH. rewrite (Qabs_pos q) in * by Lqa.lra. change (12 - 1)%Z with 11%Z in M, ER, PH. change (1 - 12)%Z with (- 11)%Z in PH.
  assert (M0 : (0 <= m)%Z) by lia. destruct (exp_ds_ok e) as (X1 & X2 & X3).
  exists m, e. split; auto. split; auto.
  assert (OK : lit_ok (gform m e)) by (unfold gform; destruct (_ && _)%Z; apply G_lit_ok; auto).
  assert (VAL : (lit_val (gform m e) == inject_Z m * p10 (e - 11))%Q).
  { unfold gform. destruct ((-4 <=? e) && (e <? 12))%Z eqn:C; [rewrite (G_fixed_val false 12 m e M0) by lia|rewrite (G_sci_val false 12 m e M0) by lia]; change (12 - 1)%Z with 11%Z; ring. }
  split; [|split; [auto|split; [auto|Lqa.lra]]]. unfold coord_str. rewrite TX.
  destruct TM as [[Z|[L1 L2]]|(d0 & (S1 & S2) & RR & Md)]; [contradiction| |].
  - rewrite (Qabs_pos q) in * by Lqa.lra. assert (D4 : (-4 <= d)%Z). { assert (-4 < d + 1)%Z; [|lia]. apply p10_lt_inv. Lqa.lra. }
    assert (D12 : (d < 12)%Z). { apply p10_lt_inv. Lqa.lra. }
    assert (E12 : (e < 12)%Z).
    { destruct ED as [->|[-> Hm]]; auto. destruct (Z.eq_dec d 11) as [->|]; [|lia]. exfalso. rewrite Hm in ER.
      change (inject_Z (10 ^ (12 - 1)) * p10 (11 + 1 - 11))%Q with (100000000000 * p10 1)%Q in ER.
      change (p10 1) with 10%Q in ER. change (p10 (11 - 11)) with 1%Q in ER. change (p10 12) with (1000000000000)%Q in L2. apply Qabs_Qle_condition in ER. Lqa.lra. }
    unfold gform. replace ((-4 <=? e) && (e <? 12))%Z with true by (destruct ED as [->|[-> _]]; lia). apply (G_fixed_strip false m _ M0).
  - rewrite (Qabs_pos q) in * by Lqa.lra. assert (P0 := p10_pos d0). assert (P1 := p10_pos (d0 - 11)). assert (d = d0). { assert (d < d0 + 1)%Z by (apply p10_lt_inv; Lqa.lra). assert (d0 < d + 1)%Z by (apply p10_lt_inv; Lqa.lra). lia. }
    subst d0. assert (e = d).
    { destruct ED as [->|[-> Hm]]; auto. exfalso. rewrite Hm in ER. change (12 - 1)%Z with 11%Z in ER.
      rewrite <- p10_nonneg_Z, <- p10_plus in ER by lia. replace (11 + (d + 1 - 11))%Z with (d + 1)%Z in ER by lia. apply Qabs_Qle_condition in ER. Lqa.lra. }
    subst e. unfold gform. replace ((-4 <=? d) && (d <? 12))%Z with false by lia. apply (G_sci_strip false m _ d Md).
Qed.
Definition neg_lit (neg : bool) (l : lit) : lit := mkLit (if neg then SMinus else SNone) (l_int l) (l_frac l) (l_exp l).
Lemma neg_lit_text : forall neg l, l_sgn l = SNone -> lit_text (neg_lit neg l) = (if neg then ["-"%char] else []) ++ lit_text l.
Proof. intros neg [s i f x] H. cbn in H. subst s. unfold neg_lit, lit_text. cbn [l_sgn l_int l_frac l_exp]. destruct neg; reflexivity. Qed.
Lemma neg_lit_ok : forall neg l, lit_ok l -> lit_ok (neg_lit neg l). Proof. intros neg l H. exact H. Qed.
Lemma neg_lit_val : forall neg l, l_sgn l = SNone -> (lit_val (neg_lit neg l) == inject_Z (if neg then -1 else 1) * lit_val l)%Q.
Proof. intros neg [s i f x] H. cbn in H. subst s. unfold neg_lit, lit_val. cbn [l_sgn l_int l_frac l_exp sgn_z]. destruct neg; cbn [sgn_z]; change (inject_Z 1) with 1%Q; ring. Qed.
Lemma gform_sgn : forall m e, l_sgn (gform m e) = SNone. Proof. intros. unfold gform. destruct (_ && _)%Z; reflexivity. Qed.

Lemma tame_abs : forall q, tame q -> tame (Qabs q).
Proof.
  intros q [[H|H]|(d & H)].
  - left. left. rewrite H. reflexivity.
  - left. right. rewrite (Qabs_pos (Qabs q)) by apply Qabs_nonneg. auto.
  - right. exists d. unfold scientific in *. rewrite (Qabs_pos (Qabs q)) by apply Qabs_nonneg. auto.
Qed.
Lemma fmag_zero : forall neg q, (q == 0)%Q -> fmag neg q = B754_zero neg.
Proof. intros neg [n d] H. unfold Qeq in H. cbn in H. assert (n = 0%Z) by lia. subst n. reflexivity. Qed.
Lemma coord_settles : forall x, good_coord x -> exists l y, lit_ok l /\ fcoord_str x = lit_text l /\ y = ffnum (fnum_of l) /\ finite y /\ fcoord_str y = fcoord_str x /\
  Rabs (value y - value x) <= / 199000000000 * Rabs (value x).
Proof.
  intros x (F & SZ & TM). apply tame_abs in TM. set (v := Qabs (f2q x)) in *. assert (VR : Q2R v = Rabs (value x)) by (unfold v; rewrite Q2R_abs, f2q_value; reflexivity).
  destruct (Req_dec (value x) 0) as [Z|NZ].
  - assert (V0 : (v == 0)%Q). { apply eqR_Qeq. rewrite VR, Z, Rabs_R0. unfold Q2R. cbn. lra. }
    assert (CS : forall q, (q == 0)%Q -> coord_str (Qabs q) = T "0"). { intros q E. unfold coord_str, fmt_G. rewrite Qabs_zero by (rewrite E; reflexivity). reflexivity. }
    assert (VX : (f2q x == 0)%Q). { apply eqR_Qeq. rewrite f2q_value, Z. unfold Q2R. cbn. lra. }
    exists (neg_lit (Bsign x) zero_lit), (B754_zero (Bsign x)). split; [|split; [|split; [|split; [|split]]]].
    + apply neg_lit_ok. unfold lit_ok, zero_lit; cbn. split; [|split; [|split]]; auto. constructor; auto. unfold is_dig; lia. left; discriminate.
    + unfold fcoord_str, fsign. rewrite (CS _ VX), neg_lit_text by reflexivity. reflexivity.
    + unfold ffnum. rewrite fmag_zero. unfold neg_lit, fnum_of. cbn. destruct (Bsign x); reflexivity. destruct (Bsign x); reflexivity.
    + reflexivity.
    + unfold fcoord_str, fsign. rewrite (CS _ VX). cbn [f2q Bsign]. rewrite (CS 0%Q) by reflexivity. reflexivity.
    + rewrite Z. unfold value. cbn. rewrite Rminus_0_r, Rabs_R0. lra.
  - destruct SZ as [Z|[SZ SZ2]]; [lra|]. assert (AP : 0 < Rabs (value x)) by (apply Rabs_pos_lt; auto).
    assert (V0 : (0 < v)%Q). { apply Rlt_Qlt. rewrite VR. unfold Q2R at 1. cbn. lra. }
    destruct (coord_form v V0 TM) as (m & e & M & TX & CX & OK & VAL & ERR). set (t := (inject_Z m * p10 (e - 11))%Q) in *. set (l := neg_lit (Bsign x) (gform m e)).
    assert (LV : (Qabs (lit_val l) == t)%Q).
    { unfold l. rewrite neg_lit_val by apply gform_sgn. rewrite Qabs_Qmult, VAL. rewrite (Qabs_pos t). destruct (Bsign x); [change (Qabs (inject_Z (-1))) with 1%Q|change (Qabs (inject_Z 1)) with 1%Q]; ring.
      apply Qmult_le_0_compat; [change 0%Q with (inject_Z 0); rewrite <- Zle_Qle; lia|apply Qlt_le_weak, p10_pos]. }
    set (tr := Q2R t). assert (TE : Rabs (tr - Rabs (value x)) <= / 200000000000 * Rabs (value x)).
    { unfold tr. rewrite <- VR, <- Q2R_minus, <- Q2R_abs. eapply Rle_trans; [apply Qreals.Qle_Rle; exact ERR|]. rewrite !Q2R_mult. change (p10 (- 11)) with (1 # 100000000000)%Q. unfold Q2R at 2 3. cbn. lra. }
    assert (TE2 := abs_ge _ _ TE). assert (T0 : bpow radix2 (-1001) <= tr).
    { change (-1001)%Z with (-1000 + -1)%Z. rewrite bpow_plus. change (bpow radix2 (-1)) with (/ 2). pose proof (bpow_gt_0 radix2 (-1000)). lra. }
    assert (TP := bpow_gt_0 radix2 (-1001)).
    assert (RE : Rabs (rnd tr - tr) <= 2 * u * tr).
    { eapply Rle_trans; [apply rnd_err|]. rewrite Rabs_right by lra. assert (eta <= u * tr); [|lra]. apply Rle_trans with (u * bpow radix2 (-1001)); [unfold eta, u; rewrite <- bpow_plus; apply bpow_le; lia|]. apply Rmult_le_compat_l; auto. apply Rlt_le, u_pos. }
    assert (U0 := u_pos). assert (UT : u * tr <= / 9000000000000000 * tr) by (apply Rmult_le_compat_r; [lra|rewrite u_val; lra]).
    assert (RP : 0 < rnd tr) by (apply abs_ge in RE; lra).
    assert (FT : Rabs (rnd tr) < bpow radix2 1024).
    { rewrite Rabs_right by lra. replace (bpow radix2 1024) with (16777216 * bpow radix2 1000) by (change 1024%Z with (24 + 1000)%Z; rewrite (bpow_plus radix2 24 1000); reflexivity). apply abs_ge in RE. apply Rle_lt_trans with (2 * bpow radix2 1000); [|pose proof (bpow_gt_0 radix2 1000); lra].
      lra. }
    destruct (ffnum_spec l t (neg_lit_ok _ _ OK) LV FT) as (G & V & S). fold tr in V. assert (SS : (match l_sgn l with SMinus => true | _ => false end) = Bsign x) by (unfold l, neg_lit; cbn; destruct (Bsign x); reflexivity). rewrite SS in *.
    set (y := ffnum (fnum_of l)) in *. assert (AY : Rabs (value y) = rnd tr) by (rewrite V; unfold signed; destruct (Bsign x); [rewrite Rabs_Ropp|]; apply Rabs_right; lra).
    exists l, y. split; [apply neg_lit_ok; auto|]. split; [|split; [|split; [|split]]]; auto.
    + unfold fcoord_str, fsign, l. rewrite neg_lit_text by apply gform_sgn. rewrite <- CX. reflexivity.
    + unfold fcoord_str, fsign. rewrite S. f_equal. fold v. unfold coord_str. rewrite TX. rewrite (fmt_G_near (Qabs (f2q y)) m e); auto.
      * apply Rlt_Qlt. rewrite Q2R_abs, f2q_value, AY. unfold Q2R at 1. cbn. lra.
      * apply Rlt_Qlt. rewrite Q2R_abs, Q2R_minus, Q2R_abs, f2q_value, AY. fold t. fold tr. eapply Rle_lt_trans; [exact RE|].
        rewrite Q2R_mult. set (U := Q2R (p10 (e - 12))). assert (UB : tr < 10000000000000 * U).
        { unfold tr, U. replace 10000000000000 with (Q2R 10000000000000) by (unfold Q2R; cbn; lra). rewrite <- Q2R_mult. apply Qlt_Rlt. unfold t. rewrite p10_step. setoid_replace (10000000000000 * p10 (e - 12))%Q with (inject_Z (10 ^ 12) * (10 * p10 (e - 12)))%Q by (change (inject_Z (10 ^ 12)) with 1000000000000%Q; ring).
          apply Qmult_lt_r; [pose proof (p10_pos (e - 12)); Lqa.lra|]. rewrite <- Zlt_Qlt. lia. }
        unfold Q2R at 1. cbn [Qnum Qden]. lra.
    + rewrite (value_sign y G), S, AY, (value_sign x F). replace (signed (Bsign x) (rnd tr) - signed (Bsign x) (Rabs (value x))) with (signed (Bsign x) (rnd tr - Rabs (value x))) by (unfold signed; destruct (Bsign x); ring).
      replace (Rabs (signed (Bsign x) (rnd tr - Rabs (value x)))) with (Rabs (rnd tr - Rabs (value x))) by (unfold signed; destruct (Bsign x); [rewrite Rabs_Ropp|]; reflexivity).
      replace (Rabs (signed (Bsign x) (Rabs (value x)))) with (Rabs (value x)) by (unfold signed; destruct (Bsign x); [rewrite Rabs_Ropp|]; symmetry; apply Rabs_Rabsolu).
      replace (rnd tr - Rabs (value x)) with ((rnd tr - tr) + (tr - Rabs (value x))) by ring. eapply Rle_trans; [apply Rabs_triang|]. lra.
Qed.

(** * The classes *)
Lemma twelve_lit : forall x, finite x -> exists l y, lit_ok l /\ l_exp l = None /\ flength_str x = lit_text l /\ y = ffnum (fnum_of l) /\ finite y /\ Rabs (value y - value x) <= / 1000000000000 /\ flength_str y = flength_str x /\ (8192 <= Rabs (value x) -> y = x).
Proof.
  intros x F. destruct (twelve x F) as (y & E & G & S & V & TX). pose proof (twelve_near x) as NR. rewrite <- V in NR. set (n := Qround_even (Qabs (f2q x) * E12)) in *.
  pose proof (f12_sign x n eq_refl (n_nonneg x)) as TT. set (l := f12_lit (Bsign x) n) in *. assert (L : lit_ok l) by (apply f12_lit_ok; apply n_nonneg).
  exists l, y. rewrite TT in E at 1. rewrite ffloat_lit in E by auto. injection E as E. split; auto. split; [reflexivity|]. split; auto. split; auto. split; auto. split; [|split; auto].
  - rewrite (value_sign y G), S, (value_sign x F). unfold signed. destruct (Bsign x); [|auto]. rewrite <- Rabs_Ropp. replace (- (- Rabs (value y) - - Rabs (value x))) with (Rabs (value y) - Rabs (value x)) by ring. auto.
  - intros B. pose proof (twelve_large x F B) as H. rewrite TT, ffloat_lit in H by auto. injection H as H. congruence.
Qed.
Lemma ffind_floats_skip : forall n s, ffind_floats n s = ffind_floats 0 (skipn n s).
Proof. induction n; intros; auto. destruct s; auto. simpl. auto. Qed.
Lemma ffind_floats_hit : forall l t, lit_ok l -> nc t -> ffind_floats 0 (lit_text l ++ t) = ffnum (fnum_of l) :: ffind_floats 0 t.
Proof.
  intros l t L N. pose proof (match_float_lit l t L (nc_no_cont l t N)) as M.
  destruct (lit_start _ L) as (c & r & E & _). rewrite E in *. cbn [app ffind_floats]. rewrite <- app_comm_cons in M. rewrite M.
  f_equal. rewrite ffind_floats_skip. f_equal. apply (skip_suffix c _ (c :: r)); [reflexivity | discriminate].
Qed.
Lemma ffind_floats_sep : forall s, ffind_floats 0 (" "%char :: s) = ffind_floats 0 s. Proof. reflexivity. Qed.
Lemma ffind_vb : forall l1 l2 l3 l4, lit_ok l1 -> lit_ok l2 -> lit_ok l3 -> lit_ok l4 ->
  ffind_floats 0 (lit_text l1 ++ " "%char :: lit_text l2 ++ " "%char :: lit_text l3 ++ " "%char :: lit_text l4) = [ffnum (fnum_of l1); ffnum (fnum_of l2); ffnum (fnum_of l3); ffnum (fnum_of l4)].
Proof.
  intros l1 l2 l3 l4 L1 L2 L3 L4. assert (S : forall s, nc (" "%char :: s)) by (intros; simpl; repeat split; discriminate).
  rewrite ffind_floats_hit, ffind_floats_sep by auto. rewrite ffind_floats_hit, ffind_floats_sep by auto. rewrite ffind_floats_hit, ffind_floats_sep by auto.
  rewrite <- (app_nil_r (lit_text l4)). rewrite ffind_floats_hit by (auto; exact I). reflexivity.
Qed.
Lemma flen_of_lit : forall l u, lit_ok l -> l_exp l = None -> forallb is_unit_char u = true -> flen_of_text (lit_text l ++ u) = mkFlen (ffnum (fnum_of l)) (unit_of_text u).
Proof.
  intros l u L X H. unfold flen_of_text. pose proof (match_float_lit l u L (unit_no_cont l u X H)) as M.
  replace (ffind_length (lit_text l ++ u)) with (Some (ffnum (fnum_of l), u)); auto.
  destruct (lit_text l ++ u) eqn:E; cbn [ffind_length]; rewrite M; rewrite (span_all _ _ H); reflexivity.
Qed.
Lemma fpoint_of_lits : forall l1 l2, lit_ok l1 -> lit_ok l2 -> fpoint_of_text (lit_text l1 ++ ","%char :: lit_text l2) = Ok (FP (ffnum (fnum_of l1)) (ffnum (fnum_of l2))).
Proof.
  intros l1 l2 H1 H2. assert (S : pair_sep [","%char]) by (right; exists [], []; repeat split; constructor).
  unfold fpoint_of_text. assert (M : fmatch_pair (lit_text l1 ++ [","%char] ++ lit_text l2 ++ []) = Some (FP (ffnum (fnum_of l1)) (ffnum (fnum_of l2)))).
  { unfold fmatch_pair. rewrite match_float_lit; auto. rewrite match_comma_sep by auto. rewrite match_float_lit; auto. apply nc_no_cont; exact I. apply nc_no_cont. apply sep_nc; auto. }
  rewrite app_nil_r in M. cbn [app] in M. destruct (lit_text l1 ++ ","%char :: lit_text l2) eqn:E; cbn [ffind_pair]; rewrite M; reflexivity.
Qed.
Lemma rnd_signed : forall b t, rnd (signed b t) = signed b (rnd t).
Proof. intros [] t; auto. apply round_NE_opp. Qed.
Lemma lit_signed : forall l, lit_ok l -> Q2R (lit_val l) = signed (match l_sgn l with SMinus => true | _ => false end) (Q2R (Qabs (lit_val l))).
Proof.
  intros l (A & B & _). apply dval_nonneg in A, B. set (m := ((inject_Z (dval (l_int l)) + inject_Z (dval (l_frac l)) * p10 (- Z.of_nat (List.length (l_frac l)))) * p10 (match l_exp l with None => 0 | Some (_, s, ds) => sgn_z s * dval ds end))%Q).
  assert (M : (0 <= m)%Q).
  { unfold m. rewrite Zle_Qle in A, B. apply Qmult_le_0_compat; [|apply Qlt_le_weak, p10_pos]. apply (Qplus_le_compat 0 _ 0); auto. apply Qmult_le_0_compat; auto. apply Qlt_le_weak, p10_pos. }
  assert (E : (lit_val l == inject_Z (sgn_z (l_sgn l)) * m)%Q) by (unfold lit_val, m; ring).
  assert (AE : (Qabs (lit_val l) == m)%Q). { rewrite E, Qabs_Qmult, (Qabs_pos m) by auto. destruct (l_sgn l); cbn [sgn_z]; [change (Qabs (inject_Z 1)) with 1%Q|change (Qabs (inject_Z 1)) with 1%Q|change (Qabs (inject_Z (-1))) with 1%Q]; ring. }
  rewrite (Qeq_eqR _ _ AE), (Qeq_eqR _ _ E), Q2R_mult. unfold signed. destruct (l_sgn l); cbn [sgn_z]; [replace (Q2R (inject_Z 1)) with 1 by (unfold Q2R; cbn; lra)|replace (Q2R (inject_Z 1)) with 1 by (unfold Q2R; cbn; lra)|replace (Q2R (inject_Z (-1))) with (-1) by (unfold Q2R; cbn; lra)]; ring.
Qed.
