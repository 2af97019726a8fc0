(** Viewboxes and floating point. *)
Require Import ZArith QArith Qabs Qreals Reals String List Bool Lra Lia.
From Flocq Require Import Core BinarySingleNaN.
Require Import Verif.Base Verif.Float_Model Verif.Float_Spec Verif.Float_Proofs Verif.FloatBox_Proofs Verif.Matrix_Model Verif.Transform_Model Verif.Viewbox_Model
  Verif.Viewbox_Spec Verif.Viewbox_Proofs Verif.FloatView_Model Verif.FloatView_Spec.
Import ListNotations.
Open Scope R_scope.

Lemma f2q_value : forall x, Q2R (f2q x) = value x.
Proof.
  intros [s|s| |s m e p]; cbn [f2q value B2R]; try (unfold Q2R; cbn; lra).
  unfold value, B2R, F2R. cbn [Fnum Fexp]. destruct (0 <=? e)%Z eqn:C.
  - apply Z.leb_le in C. unfold Q2R. cbn [Qnum Qden inject_Z]. rewrite mult_IZR, <- (IZR_Zpower radix2) by auto. change (radix2 ^ e)%Z with (2 ^ e)%Z. field.
  - apply Z.leb_gt in C. unfold Q2R. cbn [Qnum Qden]. rewrite Z2Pos.id by (apply Z.pow_pos_nonneg; lia).
    change (2 ^ - e)%Z with (radix2 ^ - e)%Z. rewrite IZR_Zpower by lia. rewrite bpow_opp, Rinv_inv. reflexivity.
Qed.
Lemma near12_R : forall a b, near12 a b -> Rabs (Q2R a - Q2R b) <= / 2000000000000.
Proof.
  intros a b H. unfold near12 in H. apply Qreals.Qle_Rle in H. rewrite Q2R_mult in H.
  assert (A : Q2R (Qabs (a - b)) = Rabs (Q2R a - Q2R b)).
  { rewrite <- Q2R_minus. set (c := (a - b)%Q). unfold Q2R, Qabs. destruct c as [n d]. cbn [Qnum Qden]. rewrite Rabs_mult, abs_IZR. f_equal.
    rewrite Rabs_right; auto. apply Rle_ge, Rlt_le, Rinv_0_lt_compat, IZR_lt. lia. }
  rewrite A in H. eapply Rle_trans; [exact H|]. unfold Q2R. cbn [Qnum Qden]. lra.
Qed.

(** * One axis *)
Lemma fdivide_ok : forall x y, finite x -> usual_size x -> usual_size y -> exists s, fdivide x y = Ok s /\ finite s /\ Rabs (value s - value x / value y) <= 2 * u * (value x / value y).
Proof.
  intros x y X [_ [X1 X2]] [Y [Y1 Y2]]. assert (P := bpow_gt_0 radix2 (-100)). assert (YP : 0 < value y) by lra. assert (XP : 0 < value x) by lra.
  unfold fdivide. destruct (feq y (fz 0)) eqn:E; [apply feq_zero in E; auto; lra|].
  assert (L : bpow radix2 (-200) <= value x / value y).
  { apply Rmult_le_reg_r with (value y); auto. unfold Rdiv. rewrite Rmult_assoc, Rinv_l, Rmult_1_r by lra.
    apply Rle_trans with (bpow radix2 (-200) * bpow radix2 100); [apply Rmult_le_compat_l; [apply bpow_ge_0|auto]|]. rewrite <- bpow_plus. exact X1. }
  assert (B : value x / value y <= bpow radix2 200).
  { apply Rmult_le_reg_r with (value y); auto. unfold Rdiv. rewrite Rmult_assoc, Rinv_l, Rmult_1_r by lra.
    apply Rle_trans with (bpow radix2 200 * bpow radix2 (-100)); [rewrite <- bpow_plus; exact X2|apply Rmult_le_compat_l; [apply bpow_ge_0|auto]]. }
  assert (Q0 := bpow_gt_0 radix2 (-200)).
  destruct (fdiv_rnd x y X) as [F V]; [lra| |].
  { rewrite Rabs_right by lra. eapply Rle_trans; [exact B|]. apply bpow_le. lia. }
  exists (fdiv x y). split; auto. split; auto. rewrite V. eapply Rle_trans; [apply rnd_err|]. rewrite Rabs_right by lra.
  assert (T : eta <= u * (value x / value y)).
  { apply Rle_trans with (u * bpow radix2 (-200)); [unfold eta, u; rewrite <- bpow_plus; apply bpow_le; lia|apply Rmult_le_compat_l; auto; apply Rlt_le, u_pos]. }
  lra.
Qed.
Section Axis.
  Variables (e el v vl s : fl) (S W : R).
  Hypothesis (He : usual e) (Hel : usual_size el) (Hv : usual v) (Hvl : usual_size vl) (Fs : finite s) (Sp : 0 < S <= bpow radix2 200) (Hs : Rabs (value s - S) <= 2 * u * S).
  Hypothesis HW : W = Rabs (value e) + value el + S * (Rabs (value v) + value vl).
  Definition near (x : fl) (r : R) (k : R) : Prop := finite x /\ Rabs (value x - r) <= k * (u * W).
  Lemma W_big : W <= bpow radix2 400.
  Proof.
    destruct He as [_ A], Hel as [_ [_ B]], Hv as [_ C], Hvl as [_ [_ D]]. pose proof (Rabs_pos (value v)).
    assert (Vp : 0 <= value vl) by (destruct Hvl as [_ [Z _]]; pose proof (bpow_gt_0 radix2 (-100)); lra).
    assert (M : S * (Rabs (value v) + value vl) <= bpow radix2 200 * bpow radix2 101).
    { apply Rmult_le_compat; try lra. change 101%Z with (100 + 1)%Z. rewrite bpow_plus. change (bpow radix2 1) with 2. lra. }
    rewrite <- bpow_plus in M. change (200 + 101)%Z with 301%Z in M. assert (X : bpow radix2 100 <= bpow radix2 301) by (apply bpow_le; lia).
    assert (Y : 4 * bpow radix2 301 <= bpow radix2 400). { change 4 with (bpow radix2 2). rewrite <- bpow_plus. apply bpow_le. lia. }
    pose proof (bpow_ge_0 radix2 301). lra.
  Qed.
  Lemma W_parts : 0 < W /\ bpow radix2 (-100) <= W /\ Rabs (value e) <= W /\ Rabs (value v) * S <= W /\ value vl * S <= W /\ 0 < value el /\ 0 < value vl.
  Proof.
    destruct Hel as [_ [B _]], Hvl as [_ [D _]]. pose proof (Rabs_pos (value v)). pose proof (Rabs_pos (value e)). pose proof (bpow_gt_0 radix2 (-100)).
    assert (0 <= S * Rabs (value v)) by (apply Rmult_le_pos; lra). assert (0 < S * value vl) by (apply Rmult_lt_0_compat; lra).
    pose proof HW as HW1. rewrite Rmult_plus_distr_l in HW1. repeat split; lra.
  Qed.
  Lemma eta_W : eta <= u * W.
  Proof.
    destruct W_parts as (_ & L & _). apply Rle_trans with (u * bpow radix2 (-100)); [unfold eta, u; rewrite <- bpow_plus; apply bpow_le; lia|].
    apply Rmult_le_compat_l; auto. apply Rlt_le, u_pos.
  Qed.
  Lemma uW : u * W * 1000000 <= W.
  Proof. destruct W_parts as (P & _). assert (U : u <= / 1000000) by (rewrite u_val; lra). nra. Qed.
  Lemma uuW : u * (u * W) * 1000000 <= u * W.
  Proof. destruct W_parts as (P & _). assert (U : u <= / 1000000) by (rewrite u_val; lra). pose proof u_pos. assert (0 < u * W) by nra. nra. Qed.
  (** One rounding more. *)
  Lemma step : forall r t k, 0 <= k <= 1000 -> Rabs (r - t) <= k * (u * W) -> Rabs t <= W -> Rabs (rnd r - t) <= (k + 3) * (u * W) /\ Rabs r <= big.
  Proof.
    intros r t k K H T. destruct W_parts as (P & _). pose proof u_pos. pose proof eta_W. pose proof uW as U1. pose proof uuW as U2. assert (0 < u * W) by nra.
    assert (A : Rabs r <= W + k * (u * W)). { replace r with (t + (r - t)) by ring. eapply Rle_trans; [apply Rabs_triang|]. lra. }
    assert (A2 : k * (u * W) <= 1000 * (u * W)) by (apply Rmult_le_compat_r; lra). split.
    - replace (rnd r - t) with ((rnd r - r) + (r - t)) by ring. eapply Rle_trans; [apply Rabs_triang|]. pose proof (rnd_err r).
      assert (u * Rabs r <= u * (W + 1000 * (u * W))) by (apply Rmult_le_compat_l; lra). lra.
    - pose proof W_big. assert (bpow radix2 400 * 2 <= big). { change 2 with (bpow radix2 1). rewrite <- bpow_plus. apply bpow_le. lia. }
      lra.
  Qed.
  Lemma near_mul : forall x, usual x -> Rabs (value x) * S <= W -> near (fmul x s) (value x * S) 5.
  Proof.
    intros x [F _] B. assert (E : Rabs (value x * value s - value x * S) <= 2 * (u * W)).
    { replace (value x * value s - value x * S) with (value x * (value s - S)) by ring. rewrite Rabs_mult.
      apply Rle_trans with (Rabs (value x) * (2 * u * S)); [apply Rmult_le_compat_l; auto; apply Rabs_pos|]. pose proof u_pos. nra. }
    assert (T : Rabs (value x * S) <= W) by (rewrite Rabs_mult, (Rabs_right S) by lra; auto).
    destruct (step _ _ 2 ltac:(lra) E T) as [R1 R2]. destruct (fmul_rnd x s F Fs R2) as [G V]. split; auto. rewrite V. replace 5 with (2 + 3) by lra. auto.
  Qed.
  Lemma near_sub : forall x y t k, finite x -> near y t k -> 0 <= k <= 1000 -> Rabs (value x - t) <= W -> near (fsub x y) (value x - t) (k + 3).
  Proof.
    intros x y t k F [G H] K T. assert (E : Rabs (value x - value y - (value x - t)) <= k * (u * W)).
    { replace (value x - value y - (value x - t)) with (- (value y - t)) by ring. rewrite Rabs_Ropp. auto. }
    destruct (step _ _ k K E T) as [R1 R2]. destruct (fsub_rnd x y F G R2) as [Q V]. split; auto. rewrite V. auto.
  Qed.
  Lemma near_add : forall x y t r k l, near x t k -> near y r l -> 0 <= k <= 500 -> 0 <= l <= 500 -> Rabs (t + r) <= W -> near (fadd x y) (t + r) (k + l + 3).
  Proof.
    intros x y t r k l [F H1] [G H2] K L T. assert (E : Rabs (value x + value y - (t + r)) <= (k + l) * (u * W)).
    { replace (value x + value y - (t + r)) with ((value x - t) + (value y - r)) by ring. eapply Rle_trans; [apply Rabs_triang|]. lra. }
    destruct (step _ _ (k + l) ltac:(lra) E T) as [R1 R2]. destruct (fadd_rnd x y F G R2) as [Q V]. split; auto. rewrite V. auto.
  Qed.
  Lemma near_half : forall x t k, near x t k -> 0 <= k <= 1000 -> Rabs t <= W -> near (fdiv x (fz 2)) (t / 2) (k / 2 + 3).
  Proof.
    intros x t k [F H] K T. destruct (fz_is 2 ltac:(lia)) as [F2 V2]. assert (E : Rabs (value x / value (fz 2) - t / 2) <= k / 2 * (u * W)).
    { rewrite V2. replace (value x / 2 - t / 2) with ((value x - t) * / 2) by field. rewrite Rabs_mult, (Rabs_right (/ 2)) by lra. lra. }
    assert (T2 : Rabs (t / 2) <= W). { unfold Rdiv. rewrite Rabs_mult, (Rabs_right (/ 2)) by lra. pose proof (Rabs_pos t). lra. }
    destruct (step _ _ (k / 2) ltac:(lra) E T2) as [R1 R2]. destruct (fdiv_rnd x (fz 2) F ltac:(rewrite V2; lra) R2) as [Q V]. split; auto. rewrite V. auto.
  Qed.
  Lemma usual_of_size : usual vl.
  Proof. destruct Hvl as [F [A B]]. split; auto. pose proof (bpow_gt_0 radix2 (-100)). rewrite Rabs_right by lra. auto. Qed.
  (** The translations. *)
  Lemma axis_near : forall a t, rplaced a (value e) (value el) (value v) (value vl) S t ->
    near (faxis (match a with Mid => true | _ => false end) (match a with Max => true | _ => false end) e el v vl s) t 19.
  Proof.
    intros a t P. destruct W_parts as (P0 & _ & P1 & P2 & P3 & P4 & P5). assert (VS : Rabs (value v * S) <= S * Rabs (value v)) by (rewrite Rabs_mult, (Rabs_right S); lra).
    assert (SV : 0 < S * value vl) by (apply Rmult_lt_0_compat; lra). pose proof HW as HW1. rewrite Rmult_plus_distr_l in HW1. pose proof (Rabs_pos (value e)). pose proof (Rabs_pos (value v * S)).
    assert (T0 : Rabs (value e - value v * S) <= Rabs (value e) + S * Rabs (value v)).
    { unfold Rminus. eapply Rle_trans; [apply Rabs_triang|]. rewrite Rabs_Ropp. lra. }
    assert (T1 : Rabs (value el - value vl * S) <= value el + S * value vl).
    { unfold Rminus. eapply Rle_trans; [apply Rabs_triang|]. rewrite Rabs_Ropp, Rabs_mult, !Rabs_right by lra. lra. }
    assert (N0 : near (fsub e (fmul v s)) (value e - value v * S) (5 + 3)). { apply near_sub; try lra. apply He. apply near_mul; auto. }
    assert (N1 : near (fsub el (fmul vl s)) (value el - value vl * S) (5 + 3)).
    { apply near_sub; try lra. apply Hel. apply near_mul; auto using usual_of_size. rewrite Rabs_right by lra. auto. }
    pose proof u_pos. assert (0 < u * W) by nra.
    destruct a; cbn [rplaced] in P; unfold faxis.
    - replace t with (value e - value v * S) by lra. destruct N0 as [F N]. split; auto. lra.
    - assert (E : t = (value e - value v * S) + (value el - value vl * S) / 2) by lra. subst t.
      assert (TT : Rabs ((value el - value vl * S) / 2) <= value el + S * value vl) by (unfold Rdiv; rewrite Rabs_mult, (Rabs_right (/ 2)) by lra; lra).
      destruct (near_add _ _ _ _ _ _ N0 (near_half _ _ _ N1 ltac:(lra) ltac:(lra)) ltac:(lra) ltac:(lra)) as [F N].
      { eapply Rle_trans; [apply Rabs_triang|]. lra. }
      split; auto. lra.
    - assert (E : t = (value e - value v * S) + (value el - value vl * S)) by lra. subst t.
      destruct (near_add _ _ _ _ _ _ N0 N1 ltac:(lra) ltac:(lra)) as [F N]. { eapply Rle_trans; [apply Rabs_triang|]. lra. }
      split; auto. lra.
  Qed.
End Axis.

(** * Both axes *)
Lemma ratio_pos : forall x y, usual_size x -> usual_size y -> 0 < value x / value y <= bpow radix2 200.
Proof.
  intros x y [_ [X1 X2]] [_ [Y1 Y2]]. assert (P := bpow_gt_0 radix2 (-100)). split; [apply Rdiv_lt_0_compat; lra|].
  apply Rmult_le_reg_r with (value y); [lra|]. unfold Rdiv. rewrite Rmult_assoc, Rinv_l, Rmult_1_r by lra.
  apply Rle_trans with (bpow radix2 200 * bpow radix2 (-100)); [rewrite <- bpow_plus; exact X2|apply Rmult_le_compat_l; [apply bpow_ge_0|auto]].
Qed.
Lemma close_pair : forall a b A B S, 0 < A -> 0 < B -> Rabs (a - A) <= 2 * u * A -> Rabs (b - B) <= 2 * u * B -> (S = Rmin A B -> Rabs (Rmin a b - S) <= 2 * u * S) /\ (S = Rmax A B -> Rabs (Rmax a b - S) <= 2 * u * S).
Proof.
  intros a b A B S PA PB HA HB. apply abs_ge in HA, HB. pose proof u_pos. assert (U : u <= / 1000000) by (rewrite u_val; lra).
  assert (M : A <= B -> 2 * u * A <= 2 * u * B) by (intros; apply Rmult_le_compat_l; lra). assert (M' : B <= A -> 2 * u * B <= 2 * u * A) by (intros; apply Rmult_le_compat_l; lra).
  assert (N : A <= B -> A - 2 * u * A <= B - 2 * u * B) by (intros; replace (A - 2 * u * A) with ((1 - 2 * u) * A) by ring; replace (B - 2 * u * B) with ((1 - 2 * u) * B) by ring; apply Rmult_le_compat_l; lra).
  assert (N' : B <= A -> B - 2 * u * B <= A - 2 * u * A) by (intros; replace (A - 2 * u * A) with ((1 - 2 * u) * A) by ring; replace (B - 2 * u * B) with ((1 - 2 * u) * B) by ring; apply Rmult_le_compat_l; lra).
  split; intros ->; apply abs_le; unfold Rmin, Rmax; destruct (Rle_dec A B), (Rle_dec a b); try (specialize (M ltac:(lra)); specialize (N ltac:(lra))); try (specialize (M' ltac:(lra)); specialize (N' ltac:(lra))); lra.
Qed.
Lemma fits_ratio : forall f ew eh vw vh S, 0 < vw -> 0 < vh -> rfits f ew eh vw vh S -> S = match f with Meet => Rmin (ew / vw) (eh / vh) | Slice => Rmax (ew / vw) (eh / vh) end.
Proof.
  intros f ew eh vw vh S V H.
  assert (L : forall s e v, 0 < v -> (s * v <= e -> s <= e / v) /\ (e <= s * v -> e / v <= s) /\ (s * v = e -> s = e / v)).
  { intros s e v P. assert (E : e / v * v = e) by (field; lra). repeat split; intros Q. apply Rmult_le_reg_r with v; lra. apply Rmult_le_reg_r with v; lra. apply Rmult_eq_reg_r with v; lra. }
  destruct (L S ew vw V) as (A1 & A2 & A3), (L S eh vh H) as (B1 & B2 & B3).
  destruct f; cbn [rfits]; intros (X & Y & Z).
  - apply A1 in X. apply B1 in Y. unfold Rmin. destruct (Rle_dec _ _); destruct Z as [Z|Z]; [apply A3 in Z|apply B3 in Z|apply A3 in Z|apply B3 in Z]; lra.
  - apply A2 in X. apply B2 in Y. unfold Rmax. destruct (Rle_dec _ _); destruct Z as [Z|Z]; [apply A3 in Z|apply B3 in Z|apply A3 in Z|apply B3 in Z]; lra.
Qed.
Lemma puts_of : forall e el v vl s t x S T A E, 0 < S -> Rabs (value s - S) <= 2 * u * S -> x = Rabs (value e) + value el + S * (Rabs (value v) + value vl) -> near x t T 19 -> 0 <= x ->
  Rabs (A - value s) <= / 2000000000000 -> Rabs (E - value t) <= / 2000000000000 -> puts e el v vl S T A E.
Proof.
  intros e el v vl s t x S T A E SP HS HX [F N] X0 HA HE p. fold u. pose proof u_pos.
  replace (A * p + E - (S * p + T)) with ((A - value s) * p + (E - value t) + ((value s - S) * p + (value t - T))) by ring.
  assert (P := Rabs_pos p).
  assert (K1 : Rabs ((A - value s) * p) <= / 2000000000000 * Rabs p) by (rewrite Rabs_mult; apply Rmult_le_compat_r; auto).
  assert (K2 : Rabs ((value s - S) * p) <= 2 * u * S * Rabs p) by (rewrite Rabs_mult; apply Rmult_le_compat_r; auto).
  assert (K3 : 0 <= u * S * Rabs p) by (apply Rmult_le_pos; [apply Rmult_le_pos; lra|auto]).
  assert (K4 : 0 <= u * x) by (apply Rmult_le_pos; lra).
  replace (20 * u * (Rabs (value e) + value el + S * (Rabs (value v) + value vl + Rabs p))) with (20 * (u * x) + 20 * (u * S * Rabs p)) by (rewrite HX; ring).
  eapply Rle_trans; [apply Rabs_triang|]. eapply Rle_trans; [apply Rplus_le_compat; [apply Rabs_triang|apply Rabs_triang]|]. lra.
Qed.
Lemma puts_axis : forall a e el v vl s S t A E, usual e -> usual_size el -> usual v -> usual_size vl -> finite s -> 0 < S <= bpow radix2 200 -> Rabs (value s - S) <= 2 * u * S ->
  rplaced a (value e) (value el) (value v) (value vl) S t ->
  let ft := faxis (match a with Mid => true | _ => false end) (match a with Max => true | _ => false end) e el v vl s in
  finite ft /\ (Rabs (A - value s) <= / 2000000000000 -> Rabs (E - value ft) <= / 2000000000000 -> puts e el v vl S t A E).
Proof.
  intros a e el v vl s S t A E He Hel Hv Hvl Fs Sp Hs P ft.
  pose proof (axis_near e el v vl s S _ He Hel Hv Hvl Fs Sp Hs eq_refl a t P) as N. split; [apply N|]. intros HA HE.
  eapply puts_of; [apply Sp|exact Hs|reflexivity|exact N| |exact HA|exact HE].
  destruct (W_parts e el v vl S _ Hel Hvl Sp eq_refl) as (Q & _). lra.
Qed.
Lemma text_lemma : forall ex ey ew eh vx vy vw vh par t, fvb_numbers ex ey ew eh vx vy vw vh par = Ok t -> finite (ft_sx t) -> finite (ft_sy t) -> finite (ft_tx t) -> finite (ft_ty t) ->
  exists s A D E F, fviewbox_transform ex ey ew eh vx vy vw vh par = Ok s /\ mx_of_text s = Ok (M A 0 0 D E F) /\
  Rabs (A - value (ft_sx t)) <= / 2000000000000 /\ Rabs (D - value (ft_sy t)) <= / 2000000000000 /\ Rabs (E - value (ft_tx t)) <= / 2000000000000 /\ Rabs (F - value (ft_ty t)) <= / 2000000000000.
Proof.
  intros ex ey ew eh vx vy vw vh par t N F1 F2 F3 F4. unfold fviewbox_transform. rewrite N. cbn [rbind].
  unfold finite in *. rewrite F1, F2, F3, F4. cbn [andb].
  destruct (vt_text_lemma (mkVt (f2q (ft_sx t)) (f2q (ft_sy t)) (f2q (ft_tx t)) (f2q (ft_ty t)))) as (sx & sy & tx & ty & E & A1 & A2 & A3 & A4 & _).
  cbn [t_sx t_sy t_tx t_ty] in *. apply near12_R in A1, A2, A3, A4. rewrite f2q_value in A1, A2, A3, A4.
  eexists _, _, _, _, _. split; [reflexivity|]. split; [exact E|]. auto.
Qed.
Lemma uniform_lemma : forall ex ey ew eh vx vy vw vh a b f par S TX TY,
  usual ex -> usual ey -> usual_size ew -> usual_size eh -> usual vx -> usual vy -> usual_size vw -> usual_size vh -> par_text a b f par ->
  rfits f (value ew) (value eh) (value vw) (value vh) S -> rplaced a (value ex) (value ew) (value vx) (value vw) S TX -> rplaced b (value ey) (value eh) (value vy) (value vh) S TY ->
  exists s A D E F, fviewbox_transform ex ey ew eh vx vy vw vh par = Ok s /\ mx_of_text s = Ok (M A 0 0 D E F) /\ puts ex ew vx vw S TX A E /\ puts ey eh vy vh S TY D F.
Proof.
  intros ex ey ew eh vx vy vw vh a b f par S TX TY Hex Hey Hew Heh Hvx Hvy Hvw Hvh Hp Hf PX PY.
  destruct (fdivide_ok ew vw ltac:(apply Hew) Hew Hvw) as (s1 & D1 & G1 & N1). destruct (fdivide_ok eh vh ltac:(apply Heh) Heh Hvh) as (s2 & D2 & G2 & N2).
  destruct (ratio_pos ew vw Hew Hvw) as [Q1 Q2]. destruct (ratio_pos eh vh Heh Hvh) as [Q3 Q4].
  assert (PW : 0 < value vw) by (destruct Hvw as [_ [Z _]]; pose proof (bpow_gt_0 radix2 (-100)); lra). assert (PH : 0 < value vh) by (destruct Hvh as [_ [Z _]]; pose proof (bpow_gt_0 radix2 (-100)); lra).
  pose proof (fits_ratio _ _ _ _ _ _ PW PH Hf) as ES.
  set (s := match f with Meet => fmin s1 s2 | Slice => fmax s1 s2 end).
  destruct (close_pair (value s1) (value s2) _ _ S Q1 Q3 N1 N2) as [C1 C2].
  assert (SS : 0 < S <= bpow radix2 200). { rewrite ES. destruct f; [unfold Rmin|unfold Rmax]; destruct (Rle_dec _ _); lra. }
  assert (Fs : finite s /\ Rabs (value s - S) <= 2 * u * S).
  { unfold s. destruct f; [destruct (fmin_spec s1 s2 G1 G2) as [F ->]|destruct (fmax_spec s1 s2 G1 G2) as [F ->]]; auto. }
  destruct Fs as [Fs Ns].
  set (fx := faxis (match a with Mid => true | _ => false end) (match a with Max => true | _ => false end) ex ew vx vw s).
  set (fy := faxis (match b with Mid => true | _ => false end) (match b with Max => true | _ => false end) ey eh vy vh s).
  assert (E : fvb_numbers ex ey ew eh vx vy vw vh par = Ok (mkFvt s s fx fy)).
  { unfold fvb_numbers. pose proof (aspect_ok _ _ _ _ Hp) as O. destruct (aspect_parts par) as [al ms]. destruct O as (O1 & O2 & O3 & O4 & O5 & O6).
    rewrite D1, D2, O1, O3, O4, O5, O6, O2. cbn [rbind negb andb]. destruct f; cbn [teqb]; reflexivity. }
  destruct (text_lemma _ _ _ _ _ _ _ _ _ _ E Fs Fs) as (st & A & D & X & Y & T1 & T2 & T3 & T4 & T5 & T6).
  { apply (puts_axis a ex ew vx vw s S TX 0 0); auto. }
  { apply (puts_axis b ey eh vy vh s S TY 0 0); auto. }
  cbn [ft_sx ft_sy ft_tx ft_ty] in *. exists st, A, D, X, Y. split; auto. split; auto.
  split; [apply (puts_axis a ex ew vx vw s S TX A X)|apply (puts_axis b ey eh vy vh s S TY D Y)]; auto.
Qed.
Lemma stretch_lemma : forall ex ey ew eh vx vy vw vh par SX SY TX TY,
  usual ex -> usual ey -> usual_size ew -> usual_size eh -> usual vx -> usual vy -> usual_size vw -> usual_size vh -> In par [T "none"; T "none meet"; T "none slice"] ->
  ronto (value ex) (value ew) (value vx) (value vw) SX TX -> ronto (value ey) (value eh) (value vy) (value vh) SY TY ->
  exists s A D E F, fviewbox_transform ex ey ew eh vx vy vw vh (Some par) = Ok s /\ mx_of_text s = Ok (M A 0 0 D E F) /\ puts ex ew vx vw SX TX A E /\ puts ey eh vy vh SY TY D F.
Proof.
  intros ex ey ew eh vx vy vw vh par SX SY TX TY Hex Hey Hew Heh Hvx Hvy Hvw Hvh Hp [PX RX] [PY RY].
  destruct (fdivide_ok ew vw ltac:(apply Hew) Hew Hvw) as (s1 & D1 & G1 & N1). destruct (fdivide_ok eh vh ltac:(apply Heh) Heh Hvh) as (s2 & D2 & G2 & N2).
  pose proof (ratio_pos ew vw Hew Hvw) as Q1. pose proof (ratio_pos eh vh Heh Hvh) as Q3.
  assert (PW : 0 < value vw) by (destruct Hvw as [_ [Z _]]; pose proof (bpow_gt_0 radix2 (-100)); lra). assert (PH : 0 < value vh) by (destruct Hvh as [_ [Z _]]; pose proof (bpow_gt_0 radix2 (-100)); lra).
  assert (E1 : SX = value ew / value vw). { apply Rmult_eq_reg_r with (value vw); [|lra]. unfold Rdiv. rewrite Rmult_assoc, Rinv_l by lra. lra. }
  assert (E2 : SY = value eh / value vh). { apply Rmult_eq_reg_r with (value vh); [|lra]. unfold Rdiv. rewrite Rmult_assoc, Rinv_l by lra. lra. }
  rewrite <- E1 in *. rewrite <- E2 in *.
  set (fx := faxis false false ex ew vx vw s1). set (fy := faxis false false ey eh vy vh s2).
  assert (E : fvb_numbers ex ey ew eh vx vy vw vh (Some par) = Ok (mkFvt s1 s2 fx fy)).
  { unfold fvb_numbers. assert (O : fst (aspect_parts (Some par)) = T "none") by (destruct Hp as [<-|[<-|[<-|[]]]]; reflexivity). destruct (aspect_parts (Some par)) as [al ms]. cbn [fst] in O. subst al.
    rewrite D1, D2. reflexivity. }
  destruct (text_lemma _ _ _ _ _ _ _ _ _ _ E G1 G2) as (st & A & D & X & Y & T1 & T2 & T3 & T4 & T5 & T6).
  { apply (puts_axis Min ex ew vx vw s1 SX TX 0 0); auto. }
  { apply (puts_axis Min ey eh vy vh s2 SY TY 0 0); auto. }
  cbn [ft_sx ft_sy ft_tx ft_ty] in *. exists st, A, D, X, Y. split; auto. split; auto.
  split; [apply (puts_axis Min ex ew vx vw s1 SX TX A X)|apply (puts_axis Min ey eh vy vh s2 SY TY D Y)]; auto.
Qed.
(** * The viewport itself as viewBox *)
Lemma self_div : forall x, finite x -> value x <> 0 -> fdivide x x = Ok (fdiv x x) /\ is (fdiv x x) 1.
Proof.
  intros x F N. unfold fdivide. destruct (feq x (fz 0)) eqn:E; [apply feq_zero in E; auto; lra|]. split; auto.
  assert (E1 : value x / value x = 1) by (field; auto). destruct (fdiv_rnd x x F N) as [G V]; rewrite E1 in *; [rewrite Rabs_R1; apply one_big|]. split; auto. rewrite V. apply rnd_1.
Qed.
Lemma self_axis : forall mid max e el s, finite e -> finite el -> is s 1 -> is (faxis mid max e el e el s) 0.
Proof.
  intros mid max e el s He Hl Hs. assert (Z : forall x, finite x -> is (fsub x (fmul x s)) 0).
  { intros x F. destruct (mul_one x s F Hs) as [G V]. destruct fz0 as [F0 V0]. apply (fsub_exact x (fmul x s) (fz 0)); auto. rewrite V. lra. }
  assert (ZZ : forall x y, is x 0 -> is y 0 -> is (fadd x y) 0) by exact zero_zero.
  assert (H : is (fdiv (fsub el (fmul el s)) (fz 2)) 0).
  { destruct (Z el Hl) as [G V], (fz_is 2 ltac:(lia)) as [F2 V2]. assert (E0 : value (fsub el (fmul el s)) / value (fz 2) = 0) by (rewrite V, V2; lra).
    destruct (fdiv_rnd (fsub el (fmul el s)) (fz 2) G ltac:(rewrite V2; lra)) as [Q W]; rewrite E0 in *; [rewrite Rabs_R0; apply bpow_ge_0|]. split; auto. rewrite W. apply rnd_0. }
  unfold faxis. destruct mid, max; auto.
Qed.
Lemma value_is0 : forall x, is x 0 -> Qeq_bool (f2q x) 0 = true.
Proof. intros x [F V]. apply Qeq_bool_iff, eqR_Qeq. rewrite f2q_value, V. unfold Q2R. cbn. lra. Qed.
Lemma value_is1 : forall x, is x 1 -> Qeq_bool (f2q x) 1 = true.
Proof. intros x [F V]. apply Qeq_bool_iff, eqR_Qeq. rewrite f2q_value, V. unfold Q2R. cbn. lra. Qed.
Lemma same_lemma : forall x y w h par, finite x -> finite y -> finite w -> finite h -> value w <> 0 -> value h <> 0 -> fviewbox_transform x y w h x y w h par = Ok [].
Proof.
  intros x y w h par Fx Fy Fw Fh Nw Nh. destruct (self_div w Fw Nw) as [D1 I1], (self_div h Fh Nh) as [D2 I2].
  assert (M : is (fmin (fdiv w w) (fdiv h h)) 1). { destruct (fmin_spec (fdiv w w) (fdiv h h)) as [F V]; [apply I1|apply I2|]. split; auto. rewrite V, (proj2 I1), (proj2 I2). unfold Rmin. destruct (Rle_dec 1 1); auto. }
  assert (X : is (fmax (fdiv w w) (fdiv h h)) 1). { destruct (fmax_spec (fdiv w w) (fdiv h h)) as [F V]; [apply I1|apply I2|]. split; auto. rewrite V, (proj2 I1), (proj2 I2). unfold Rmax. destruct (Rle_dec 1 1); auto. }
  assert (E : exists sx sy tx ty, fvb_numbers x y w h x y w h par = Ok (mkFvt sx sy tx ty) /\ is sx 1 /\ is sy 1 /\ is tx 0 /\ is ty 0).
  { unfold fvb_numbers. destruct (aspect_parts par) as [al ms]. rewrite D1, D2. cbn [rbind].
    destruct (negb (teqb al (T "none")) && teqb ms (T "meet")); [|destruct (negb (teqb al (T "none")) && teqb ms (T "slice"))];
    eexists _, _, _, _; (split; [reflexivity|]); repeat split; try apply self_axis; auto; try apply M; try apply X; try apply I1; try apply I2. }
  destruct E as (sx & sy & tx & ty & E & A & B & C & D). unfold fviewbox_transform. rewrite E. cbn [rbind ft_sx ft_sy ft_tx ft_ty].
  rewrite (proj1 A), (proj1 B), (proj1 C), (proj1 D). cbn [andb]. unfold vt_text. cbn [t_sx t_sy t_tx t_ty].
  rewrite (value_is0 _ C), (value_is0 _ D), (value_is1 _ A), (value_is1 _ B). reflexivity.
Qed.
