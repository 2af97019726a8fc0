(** Boxes and floating point. *)
Require Import ZArith Reals List Bool Lra Lia Psatz.
From Flocq Require Import Core BinarySingleNaN Relative Plus_error.
Require Import Verif.Point_Model Verif.Curve_Spec Verif.Float_Model Verif.Float_Spec Verif.Float_Proofs.
Import ListNotations.
Open Scope R_scope.

Local Notation fexp := (FLT_exp (-1074) 53).
Local Notation format := (generic_format radix2 fexp).
Global Instance vexp' : Valid_exp fexp := @FLT_exp_valid (-1074) 53 p53.
Lemma format_value : forall x, format (value x).
Proof. intros x. exact (generic_format_B2R 53 1024 x). Qed.
Lemma rnd_is : forall r, rnd r = round radix2 fexp ZnearestE r. Proof. reflexivity. Qed.
Lemma rnd_fmt : forall r, format (rnd r).
Proof. intros r. rewrite rnd_is. apply generic_format_round; typeclasses eauto. Qed.
Lemma rnd_same : forall r, format r -> rnd r = r.
Proof. intros r H. rewrite rnd_is. apply round_generic; auto. typeclasses eauto. Qed.

(** * Lines *)
(** A rounded slope times a parameter below 1 is at most the exact difference. *)
Lemma slope_below : forall a b t, format a -> format b -> 0 <= b - a -> 0 <= t <= 1 - u -> rnd (rnd (b - a) * t) <= b - a.
Proof.
  intros a b t A B H T. set (d := b - a) in *. set (s := rnd d). assert (S0 : 0 <= s) by (unfold s; rewrite <- rnd_0; apply rnd_le; auto). pose proof u_pos as U.
  destruct (Rle_or_lt s d) as [L|L].
  - apply Rle_trans with s; auto. rewrite <- (rnd_same s (rnd_fmt d)). apply rnd_le. rewrite (rnd_same s (rnd_fmt d)). nra.
  - assert (ND : ~ format d) by (intros F; unfold s in L; rewrite (rnd_same d F) in L; lra).
    assert (Large : bpow radix2 (53 + -1074) < d).
    { apply Rnot_le_lt. intros K. apply ND. unfold d, Rminus. apply FLT_format_plus_small; auto.
      - exact p53.
      - apply generic_format_opp; auto.
      - fold (b - a). fold d. rewrite Rabs_right by lra. exact K. }
    assert (UP : s = round radix2 fexp Zceil d).
    { destruct (round_DN_or_UP radix2 fexp ZnearestE d) as [E|E]; change (round radix2 fexp ZnearestE d) with s in E; auto. exfalso. pose proof (round_DN_pt radix2 fexp d) as (_ & Q & _). rewrite <- E in Q. lra. }
    set (p := pred radix2 fexp s). assert (PD : p = round radix2 fexp Zfloor d) by (unfold p; rewrite UP; apply pred_UP_eq_DN; try typeclasses eauto; auto).
    assert (PL : p <= d) by (rewrite PD; apply (round_DN_pt radix2 fexp d)).
    assert (FP : format p) by (rewrite PD; apply generic_format_round; typeclasses eauto).
    assert (PG : bpow radix2 (53 + -1074) <= p) by (rewrite PD; apply round_ge_generic; try typeclasses eauto; [apply generic_format_bpow; cbv; discriminate|lra]).
    assert (SP : s = p + ulp radix2 fexp p).
    { rewrite <- succ_eq_pos by (apply Rle_trans with (2 := PG); apply bpow_ge_0). symmetry. apply succ_pred; [typeclasses eauto|]. apply rnd_fmt. }
    assert (UL : ulp radix2 fexp p <= p * bpow radix2 (1 - 53)).
    { rewrite <- (Rabs_right p) at 2 by (apply Rle_ge, Rle_trans with (2 := PG), bpow_ge_0). apply ulp_FLT_le. rewrite Rabs_right by (apply Rle_ge, Rle_trans with (2 := PG), bpow_ge_0). eapply Rle_trans; [|exact PG]. apply bpow_le. lia. }
    assert (U2 : bpow radix2 (1 - 53) = 2 * u) by (change (1 - 53)%Z with (1 + -53)%Z; rewrite bpow_plus; reflexivity). rewrite U2 in UL.
    apply Rle_trans with p; auto. rewrite rnd_is. apply round_N_le_midp; try typeclasses eauto; auto. rewrite (succ_eq_pos radix2 fexp p) by (apply Rle_trans with (2 := PG); apply bpow_ge_0). rewrite <- SP.
    assert (PP : 0 < p) by (apply Rlt_le_trans with (2 := PG); apply bpow_gt_0). nra.
Qed.
Lemma fadd_rnd_lt : forall x y, finite x -> finite y -> Rabs (rnd (value x + value y)) < bpow radix2 1024 -> is (fadd x y) (rnd (value x + value y)).
Proof.
  intros x y X Y H. pose proof (Bplus_correct 53 1024 p53 p1024 mode_NE x y X Y) as C. change (round radix2 (SpecFloat.fexp 53 1024) (round_mode mode_NE) (B2R x + B2R y)) with (rnd (value x + value y)) in C.
  rewrite Rlt_bool_true in C by auto. destruct C as (A & B & _). split; auto.
Qed.
Lemma below_one : forall t, format t -> t < 1 -> t <= 1 - u.
Proof.
  intros t F L. assert (F1 : format 1) by (change 1 with (bpow radix2 0); apply generic_format_bpow; cbv; discriminate).
  assert (P : pred radix2 fexp 1 = 1 - u).
  { change 1 with (bpow radix2 0). rewrite pred_bpow. reflexivity. }
  rewrite <- P. apply pred_ge_gt; auto. typeclasses eauto.
Qed.
Lemma fle_spec : forall x y, finite x -> finite y -> fle x y = true <-> value x <= value y.
Proof. intros x y X Y. unfold fle. rewrite (Bleb_correct 53 1024 x y X Y). fold (value x) (value y). split; intros H; [apply Rle_bool_true in H || idtac|apply Rle_bool_true; auto]. destruct (Rle_bool_spec (value x) (value y)); auto; discriminate. Qed.
Lemma flt_spec : forall x y, finite x -> finite y -> flt x y = true <-> value x < value y.
Proof. intros x y X Y. unfold flt. rewrite (Bltb_correct 53 1024 x y X Y). fold (value x) (value y). split; intros H; [|apply Rlt_bool_true; auto]. destruct (Rlt_bool_spec (value x) (value y)); auto; discriminate. Qed.
Lemma fmin_spec : forall x y, finite x -> finite y -> is (fmin x y) (Rmin (value x) (value y)).
Proof.
  intros x y X Y. unfold fmin. pose proof (flt_spec y x Y X) as H. destruct (flt y x); unfold Rmin; destruct (Rle_dec (value x) (value y)) as [L|L]; split; auto.
  - assert (value y < value x) by (apply H; auto). lra.
  - exfalso. apply L. apply Rnot_lt_le. intros K. apply H in K. discriminate.
Qed.
Lemma fmax_spec : forall x y, finite x -> finite y -> is (fmax x y) (Rmax (value x) (value y)).
Proof.
  intros x y X Y. unfold fmax. pose proof (flt_spec x y X Y) as H. destruct (flt x y); unfold Rmax; destruct (Rle_dec (value x) (value y)) as [L|L]; split; auto.
  - assert (value x < value y) by (apply H; auto). lra.
  - apply Rle_antisym; auto. apply Rnot_lt_le. intros K. apply H in K. discriminate.
Qed.
Lemma rnd_abs_big : forall r, Rabs r <= big -> Rabs (rnd r) <= big.
Proof. intros r H. unfold rnd. apply abs_round_le_generic; try typeclasses eauto; auto. apply generic_format_bpow. cbv. discriminate. Qed.
(** (b - a) t + a, rounded three times, is between a and b. *)
Lemma inner_between : forall a b t, format a -> format b -> 0 <= t <= 1 - u -> Rmin a b <= rnd (rnd (rnd (b - a) * t) + a) <= Rmax a b.
Proof.
  intros a b t A B T. destruct (Rle_or_lt a b) as [L|L].
  - rewrite Rmin_left, Rmax_right by lra. pose proof (slope_below a b t A B ltac:(lra) T) as S.
    assert (S0 : 0 <= rnd (rnd (b - a) * t)).
    { rewrite <- rnd_0. apply rnd_le. apply Rmult_le_pos; [|lra]. rewrite <- rnd_0. apply rnd_le. lra. }
    split; [apply Rle_trans with (rnd a); [rewrite (rnd_same a A); lra|]|apply Rle_trans with (rnd b); [|rewrite (rnd_same b B); lra]]; apply rnd_le; lra.
  - rewrite Rmin_right, Rmax_left by lra. pose proof (slope_below b a t B A ltac:(lra) T) as S. replace (a - b) with (- (b - a)) in S by ring. rewrite rnd_opp in S. replace (- rnd (b - a) * t) with (- (rnd (b - a) * t)) in S by ring. rewrite rnd_opp in S.
    assert (S0 : rnd (rnd (b - a) * t) <= 0).
    { rewrite <- rnd_0. apply rnd_le. assert (rnd (b - a) <= 0) by (rewrite <- rnd_0; apply rnd_le; lra). nra. }
    split; [apply Rle_trans with (rnd b); [rewrite (rnd_same b B); lra|]|apply Rle_trans with (rnd a); [|rewrite (rnd_same a A); lra]]; apply rnd_le; lra.
Qed.
Lemma between_abs : forall a b x, Rmin a b <= x <= Rmax a b -> forall c, Rabs a < c -> Rabs b < c -> Rabs x < c.
Proof. intros a b x H c A B. apply Rabs_def2 in A, B. apply Rabs_def1; unfold Rmin, Rmax in H; destruct (Rle_dec a b); lra. Qed.
Lemma fsub_0 : forall t, finite t -> is (fsub t (fz 0)) (value t).
Proof. intros t F. apply (fsub_exact t (fz 0) t _ F (proj1 fz0)); [rewrite (proj2 fz0); ring|reflexivity]. Qed.
Lemma interp_inner : forall a b t, finite a -> finite b -> Rabs (value b - value a) <= big -> finite t -> 0 < value t < 1 ->
  is (finterp a b t) (rnd (rnd (rnd (value b - value a) * value t) + value a)).
Proof.
  intros a b t A B BG F T. unfold finterp.
  destruct (fle t (fz 0)) eqn:E0; [apply fle_spec in E0; auto; [rewrite (proj2 fz0) in E0; lra|apply fz0]|].
  destruct (fle (fz 1) t) eqn:E1; [apply fle_spec in E1; auto; [rewrite (proj2 fz1) in E1; lra|apply fz1]|].
  destruct (fsub_rnd b a B A BG) as [FS VS]. destruct (fdiv_one _ FS) as [FD VD]. destruct (fsub_0 t F) as [FT VT].
  assert (T' : 0 <= value t <= 1 - u) by (split; [lra|apply below_one; [apply format_value|lra]]).
  assert (S : Rabs (rnd (value b - value a)) <= big) by (apply rnd_abs_big; auto).
  destruct (fmul_rnd _ _ FD FT) as [FM VM].
  { rewrite VD, VS, VT, Rabs_mult, (Rabs_right (value t)) by lra. pose proof (Rabs_pos (rnd (value b - value a))). nra. }
  rewrite VD, VS, VT in VM. destruct (fadd_rnd_lt _ _ FM A) as [FA VA]; [|rewrite VM in VA; split; auto].
  rewrite VM. eapply between_abs; [apply inner_between; auto using format_value| |]; apply abs_B2R_lt_emax.
Qed.
Lemma interp_ends : forall a b t, finite t -> (value t = 0 -> finterp a b t = a) /\ (value t = 1 -> finterp a b t = b).
Proof.
  intros a b t F. unfold finterp. split; intros V.
  - assert (E : fle t (fz 0) = true) by (apply fle_spec; auto; [apply fz0|rewrite (proj2 fz0); lra]). now rewrite E.
  - destruct (fle t (fz 0)) eqn:E0; [apply fle_spec in E0; auto; [rewrite (proj2 fz0) in E0; lra|apply fz0]|].
    assert (E : fle (fz 1) t = true) by (apply fle_spec; auto; [apply fz1|rewrite (proj2 fz1); lra]). now rewrite E.
Qed.
Lemma interp_between : forall a b t, finite a -> finite b -> Rabs (value b - value a) <= big -> finite t -> 0 <= value t <= 1 ->
  finite (finterp a b t) /\ Rmin (value a) (value b) <= value (finterp a b t) <= Rmax (value a) (value b).
Proof.
  intros a b t A B BG F T. destruct (interp_ends a b t F) as [E0 E1]. destruct (Req_dec (value t) 0) as [Z|Z]; [rewrite E0 by auto; split; auto; split; [apply Rmin_l|apply Rmax_l]|].
  destruct (Req_dec (value t) 1) as [O|O]; [rewrite E1 by auto; split; auto; split; [apply Rmin_r|apply Rmax_r]|].
  destruct (interp_inner a b t A B BG F) as [FI VI]; [lra|]. split; auto. rewrite VI. apply inner_between; auto using format_value. split; [lra|apply below_one; [apply format_value|lra]].
Qed.

(** * Quadratic curves *)
Definition bez2 (x0 x1 x2 s : R) : R := (1 - s) ^ 2 * x0 + 2 * ((1 - s) * s) * x1 + s ^ 2 * x2.
Lemma bez2_form : forall x0 x1 x2 s, bez2 x0 x1 x2 s = x0 - 2 * (x0 - x1) * s + (x0 - 2 * x1 + x2) * (s * s).
Proof. intros. unfold bez2. ring. Qed.
Lemma bez2_chord : forall x0 x1 x2 s, bez2 x0 x1 x2 s = (1 - s) * x0 + s * x2 - (x0 - 2 * x1 + x2) * (s * (1 - s)).
Proof. intros. unfold bez2. ring. Qed.
Lemma chord_between : forall x0 x2 s, 0 <= s <= 1 -> Rmin x0 x2 <= (1 - s) * x0 + s * x2 <= Rmax x0 x2.
Proof. intros x0 x2 s S. unfold Rmin, Rmax. destruct (Rle_dec x0 x2); nra. Qed.
Lemma bez2_near : forall x0 x1 x2 t e s, 0 <= s <= 1 -> 0 <= t <= 1 -> 0 <= e -> Rabs ((x0 - 2 * x1 + x2) * t - (x0 - x1)) <= e ->
  Rmin (Rmin x0 x2) (bez2 x0 x1 x2 t) - 2 * e <= bez2 x0 x1 x2 s <= Rmax (Rmax x0 x2) (bez2 x0 x1 x2 t) + 2 * e.
Proof.
  intros x0 x1 x2 t e s S T E H. apply abs_ge in H. pose proof (chord_between x0 x2 s S) as C. set (d := x0 - 2 * x1 + x2) in *. set (n := x0 - x1) in *.
  assert (DF : bez2 x0 x1 x2 s - bez2 x0 x1 x2 t = d * ((s - t) * (s - t)) + 2 * (s - t) * (d * t - n)) by (rewrite !bez2_form; unfold d, n; ring).
  pose proof (bez2_chord x0 x1 x2 s) as CH. fold d in CH. pose proof (Rmin_l (Rmin x0 x2) (bez2 x0 x1 x2 t)). pose proof (Rmin_r (Rmin x0 x2) (bez2 x0 x1 x2 t)). pose proof (Rmax_l (Rmax x0 x2) (bez2 x0 x1 x2 t)). pose proof (Rmax_r (Rmax x0 x2) (bez2 x0 x1 x2 t)).
  assert (SS : 0 <= s * (1 - s)) by (apply Rmult_le_pos; lra).
  assert (TT : 0 <= (s - t) * (s - t)) by apply Rle_0_sqr.
  assert (AB : - (2 * e) <= 2 * (s - t) * (d * t - n) <= 2 * e) by (clear - H S T E; destruct (Rle_or_lt 0 (s - t)); nra).
  destruct (Rle_or_lt 0 d) as [D0|D0]; [assert (0 <= d * (s * (1 - s))) by nra; assert (0 <= d * ((s - t) * (s - t))) by nra|assert (d * (s * (1 - s)) <= 0) by nra; assert (d * ((s - t) * (s - t)) <= 0) by nra]; lra.
Qed.
Lemma bez2_ends : forall x0 x1 x2 e s, 0 <= s <= 1 -> 0 <= e ->
  (0 <= x0 - 2 * x1 + x2 -> x0 - x1 <= e \/ (x0 - 2 * x1 + x2) - (x0 - x1) <= e) -> (x0 - 2 * x1 + x2 <= 0 -> - (x0 - x1) <= e \/ (x0 - x1) - (x0 - 2 * x1 + x2) <= e) ->
  Rmin x0 x2 - 2 * e <= bez2 x0 x1 x2 s <= Rmax x0 x2 + 2 * e.
Proof.
  intros x0 x1 x2 e s S E A B. pose proof (chord_between x0 x2 s S) as C. set (d := x0 - 2 * x1 + x2) in *. set (n := x0 - x1) in *.
  pose proof (bez2_chord x0 x1 x2 s) as CH. fold d in CH. assert (SS : 0 <= s * (1 - s)) by (apply Rmult_le_pos; lra). assert (S2 : 0 <= s * s) by nra. assert (S3 : 0 <= (1 - s) * (1 - s)) by apply Rle_0_sqr.
  assert (D0 : bez2 x0 x1 x2 s - x0 = d * (s * s) - 2 * s * n) by (rewrite bez2_form; unfold d, n; ring).
  assert (D1 : bez2 x0 x1 x2 s - x2 = d * ((1 - s) * (1 - s)) - 2 * (1 - s) * (d - n)) by (rewrite bez2_form; unfold d, n; ring).
  pose proof (Rmin_l x0 x2). pose proof (Rmin_r x0 x2). pose proof (Rmax_l x0 x2). pose proof (Rmax_r x0 x2).
  destruct (Rle_or_lt 0 d) as [P|P].
  - assert (0 <= d * (s * (1 - s))) by (apply Rmult_le_pos; lra). split; [|lra]. destruct (A P) as [Q|Q].
    + assert (0 <= d * (s * s)) by (apply Rmult_le_pos; lra). assert (2 * s * n <= 2 * e) by (clear - Q S E; nra). lra.
    + assert (0 <= d * ((1 - s) * (1 - s))) by (apply Rmult_le_pos; lra). assert (2 * (1 - s) * (d - n) <= 2 * e) by (clear - Q S E; nra). lra.
  - assert (d * (s * (1 - s)) <= 0) by (clear - P SS S2 S3; nra). split; [lra|]. destruct (B (Rlt_le _ _ P)) as [Q|Q].
    + assert (d * (s * s) <= 0) by (clear - P SS S2 S3; nra). assert (- (2 * e) <= 2 * s * n) by (clear - Q S E; nra). lra.
    + assert (d * ((1 - s) * (1 - s)) <= 0) by (clear - P SS S2 S3; nra). assert (- (2 * e) <= 2 * (1 - s) * (d - n)) by (clear - Q S E; nra). lra.
Qed.

Lemma fdiv_cases : forall x y, finite x -> value y <> 0 ->
  is (fdiv x y) (rnd (value x / value y)) \/ (exists s, fdiv x y = B754_infinity s) /\ 1 <= Rabs (value x / value y).
Proof.
  intros x y F Y. pose proof (@Bdiv_correct 53 1024 p53 p1024 mode_NE x y Y) as H. unfold fdiv, rnd, value, finite in *. change (round_mode mode_NE) with ZnearestE in H.
  set (r := round radix2 (SpecFloat.fexp 53 1024) ZnearestE (B2R x / B2R y)) in *. destruct (Rlt_bool_spec (Rabs r) (bpow radix2 1024)) as [L|L].
  - left. destruct H as (A & B & _). split; [unfold finite; rewrite B; auto|auto].
  - right. split.
    + unfold binary_overflow in H. change (overflow_to_inf mode_NE (xorb (Bsign x) (Bsign y))) with true in H. cbn iota in H. exists (xorb (Bsign x) (Bsign y)). apply B2SF_inj. rewrite H. reflexivity.
    + destruct (Rle_or_lt 1 (Rabs (B2R x / B2R y))) as [G|G]; auto. exfalso. assert (Q : Rabs (rnd (B2R x / B2R y)) <= 1).
      { apply Rabs_le. apply Rabs_def2 in G. destruct G as [G1 G2]. split; [rewrite <- rnd_1, <- rnd_opp; apply rnd_le; lra|rewrite <- rnd_1; apply rnd_le; lra]. }
      unfold rnd in Q. fold r in Q. assert (1 < bpow radix2 1024) by (change 1 with (bpow radix2 0); apply bpow_lt; lia). lra.
Qed.
Lemma feq_zero : forall x, finite x -> feq x (fz 0) = true <-> value x = 0.
Proof.
  intros x F. unfold feq. rewrite (Beqb_correct 53 1024 x (fz 0) F (proj1 fz0)). pose proof (proj2 fz0) as Z. unfold value in *. rewrite Z. destruct (Req_bool_spec (B2R x) 0); split; congruence.
Qed.
Lemma abs_mid : forall a b c, Rabs (a - b) <= c -> b - c <= a <= b + c.
Proof. intros a b c H. apply abs_ge in H. lra. Qed.
(** The quotient when it is not strictly between 0 and 1 after rounding. *)
Lemma rnd_out : forall r, rnd r <= 0 -> r <= 2 * u.
Proof.
  intros r H. destruct (Rle_or_lt r 0) as [L|L]; [pose proof u_pos; lra|]. pose proof (rnd_err r) as E. rewrite (Rabs_right r) in E by lra. apply abs_mid in E. pose proof eta_u. pose proof u_pos. rewrite u_val in *. lra.
Qed.
Lemma rnd_out1 : forall r, 1 <= rnd r -> 1 - 2 * u <= r.
Proof.
  intros r H. destruct (Rle_or_lt 1 r) as [L|L]; [pose proof u_pos; lra|]. destruct (Rle_or_lt r 0) as [L'|L']; [apply rnd_le in L'; rewrite rnd_0 in L'; lra|].
  pose proof (rnd_err r) as E. rewrite (Rabs_right r) in E by lra. apply abs_mid in E. pose proof eta_u. pose proof u_pos. rewrite u_val in *. lra.
Qed.
Lemma out_ends : forall n d nh dh r e1 e2 e3, 0 <= e1 -> 0 <= e2 -> 0 <= e3 -> nh = r * dh -> Rabs (nh - n) <= e1 -> Rabs (dh - d) <= e2 -> 2 * u * Rabs dh <= e3 -> r <= 2 * u \/ 1 - 2 * u <= r ->
  (0 <= d -> n <= e1 + e2 + e3 \/ d - n <= e1 + e2 + e3) /\ (d <= 0 -> - n <= e1 + e2 + e3 \/ n - d <= e1 + e2 + e3).
Proof.
  intros n d nh dh r e1 e2 e3 E1 E2 E3 EQ HN HD HU HR. apply abs_mid in HN, HD. pose proof u_pos as U. assert (U1 : 2 * u <= 1) by (rewrite u_val; lra).
  destruct (Rle_or_lt 0 dh) as [S|S].
  - rewrite Rabs_right in HU by lra. destruct HR as [HR|HR].
    + assert (A : nh <= e3) by (subst nh; assert (r * dh <= 2 * u * dh) by (apply Rmult_le_compat_r; lra); lra). split; intros G; [left; lra|]. destruct (Rle_or_lt 0 n); [left|right]; lra.
    + assert (A : dh - nh <= e3) by (subst nh; assert ((1 - 2 * u) * dh <= r * dh) by (apply Rmult_le_compat_r; lra); lra). split; intros G; [right; lra|]. destruct (Rle_or_lt 0 n); [left|right]; lra.
  - rewrite Rabs_left in HU by lra. destruct HR as [HR|HR].
    + assert (A : - e3 <= nh) by (subst nh; assert (2 * u * dh <= r * dh) by (clear - HR S; nra); lra). split; intros G; [|left; lra]. destruct (Rle_or_lt 0 n); [right|left]; lra.
    + assert (A : - e3 <= dh - nh) by (subst nh; assert (r * dh <= (1 - 2 * u) * dh) by (clear - HR S; nra); lra). split; intros G; [|right; lra]. destruct (Rle_or_lt 0 n); [right|left]; lra.
Qed.

Section QuadBox.
  Variable M : R.
  Hypothesis M_pos : 0 <= M.
  Hypothesis M_big : M <= bpow radix2 1000.
  Variable pow : fl -> Z -> fl.
  Hypothesis GP : good_pow pow.
  Lemma coord_minus : forall x y v w b b' k k', 0 <= b -> 0 <= b' -> 0 <= k -> 0 <= k' -> b + b' <= 1000 -> k + k' <= 1000 -> coord M x v b k -> coord M y w b' k' -> coord M (fsub x y) (v - w) (b + b') (k + k' + b + b' + 2).
  Proof.
    intros x y v w b b' k k' B B' K K' BS KS CX CY. pose proof (coord_size _ _ _ _ _ CX) as SX. pose proof (coord_size _ _ _ _ _ CY) as SY. destruct CX as (FX & VX & EX), CY as (FY & VY & EY).
    pose proof u_pos as U. pose proof eta_pos as T. pose proof (D_pos M M_pos) as DP.
    assert (S : Rabs (value x - value y) <= (b + b') * M + (k + k') * D M) by (apply abs_ge in SX, SY; apply abs_le; lra).
    destruct (fsub_rnd x y FX FY) as [F V]; [pose proof (fits_big M M_pos M_big (b + b') (k + k')); lra|]. split; auto. split; [apply abs_ge in VX, VY; apply abs_le; lra|].
    rewrite V. pose proof (rnd_err (value x - value y)) as R.
    replace (rnd (value x - value y) - (v - w)) with ((rnd (value x - value y) - (value x - value y)) + ((value x - v) - (value y - w))) by ring.
    eapply Rle_trans; [apply Rabs_triang|]. assert (Q : Rabs (value x - v - (value y - w)) <= (k + k') * D M) by (apply abs_ge in EX, EY; apply abs_le; lra).
    assert (UM : u * ((b + b') * M) + eta <= (b + b' + 1) * D M) by (unfold D; nra). assert (UK : u * ((k + k') * D M) <= 1 * D M).
    { assert (u * (k + k') <= 1); [|nra]. rewrite u_val. nra. }
    assert (u * Rabs (value x - value y) <= u * ((b + b') * M + (k + k') * D M)) by (apply Rmult_le_compat_l; lra). lra.
  Qed.
  Lemma half_is : is (fdiv (fz 1) (fz 2)) (/ 2).
  Proof.
    destruct fz1 as [F1 V1]. destruct (fz_is 2) as [F2 V2]; [lia|]. destruct (fdiv_rnd (fz 1) (fz 2) F1) as [F V]; rewrite ?V1, ?V2 in *; [lra|rewrite Rabs_right; pose proof one_big; lra|].
    split; auto. rewrite V. replace (1 / 2) with (/ 2) by lra. apply half_format.
  Qed.
  Variable x0 x1 x2 : fl.
  Hypotheses (O0 : ok M x0) (O1 : ok M x1) (O2 : ok M x2).
  Let v0 := value x0. Let v1 := value x1. Let v2 := value x2.
  Lemma numer : coord M (fsub x0 x1) (v0 - v1) 2 2.
  Proof. destruct O0, O1. apply (coord_sub M M_pos M_big); auto. Qed.
  Lemma denom : coord M (fadd (fsub x0 (fmul (fz 2) x1)) x2) (v0 - 2 * v1 + v2) 5 18.
  Proof.
    destruct O0, O1, O2. apply (coord_weaken M M_pos) with (1 + 3 * 1 + 1) (0 + (3 * 0 + 3 * 1 + 2) + 1 + 3 * 1 + 2 + 0 + (1 + 3 * 1) + 1 + 2); [lra|lra|].
    apply (coord_add M M_pos M_big); try lra; [|apply coord_exact; auto]. apply coord_minus; try lra; [apply coord_exact; auto|]. apply (coord_int M M_pos M_big 2); try lra; try lia. apply coord_exact; auto.
  Qed.
  Lemma scale_u : forall b k, 0 <= b -> 0 <= k <= 1000 -> u * (b * M + k * D M) <= (b + 1) * D M.
  Proof. intros b k B K. pose proof u_pos. pose proof eta_pos. pose proof (D_pos M M_pos). assert (u * k <= 1) by (rewrite u_val; lra). assert (u * (b * M) <= b * D M) by (unfold D; nra). nra. Qed.
  Definition near (lo hi : R) (E : R) : Prop :=
    (forall s, 0 <= s <= 1 -> lo - E <= bez2 v0 v1 v2 s <= hi + E) /\
    (exists s, 0 <= s <= 1 /\ Rabs (lo - bez2 v0 v1 v2 s) <= E) /\ (exists s, 0 <= s <= 1 /\ Rabs (hi - bez2 v0 v1 v2 s) <= E).
  Lemma min_cases : forall a b, Rmin a b = a \/ Rmin a b = b. Proof. intros. unfold Rmin. destruct (Rle_dec a b); auto. Qed.
  Lemma max_cases : forall a b, Rmax a b = a \/ Rmax a b = b. Proof. intros. unfold Rmax. destruct (Rle_dec a b); auto. Qed.
  Lemma bez2_at0 : bez2 v0 v1 v2 0 = v0. Proof. unfold bez2. ring. Qed.
  Lemma bez2_at1 : bez2 v0 v1 v2 1 = v2. Proof. unfold bez2. ring. Qed.
  Lemma near_value : forall w E, 0 <= E -> w = v0 \/ w = v2 \/ (exists t, 0 <= t <= 1 /\ Rabs (w - bez2 v0 v1 v2 t) <= E) -> exists s, 0 <= s <= 1 /\ Rabs (w - bez2 v0 v1 v2 s) <= E.
  Proof.
    intros w E HE [-> |[-> |H]]; auto; [exists 0; rewrite bez2_at0|exists 1; rewrite bez2_at1]; (split; [lra|]); rewrite Rminus_diag_eq, Rabs_R0 by auto; auto.
  Qed.
  Lemma with_point : forall t E, finite t -> 0 <= value t <= 1 ->
    (forall s, 0 <= s <= 1 -> Rmin (Rmin v0 v2) (bez2 v0 v1 v2 (value t)) - E <= bez2 v0 v1 v2 s <= Rmax (Rmax v0 v2) (bez2 v0 v1 v2 (value t)) + E) -> E <= 92 * D M ->
    exists lo hi, is (fmin (fmin x0 x2) (fquad1 pow x0 x1 x2 t)) lo /\ is (fmax (fmax x0 x2) (fquad1 pow x0 x1 x2 t)) hi /\ near lo hi (128 * D M).
  Proof.
    intros t E FT T H HE. destruct O0 as [F0 B0], O2 as [F2 B2]. pose proof (D_pos M M_pos) as DP. destruct (quad_about M M_pos M_big pow GP x0 x1 x2 t O0 O1 O2 FT T) as (FV & _ & EV). fold (bez2 (value x0) (value x1) (value x2) (value t)) in EV. fold v0 v1 v2 in EV.
    destruct (fmin_spec x0 x2 F0 F2) as [FM1 VM1]. destruct (fmax_spec x0 x2 F0 F2) as [FM2 VM2]. destruct (fmin_spec _ _ FM1 FV) as [FM3 VM3]. destruct (fmax_spec _ _ FM2 FV) as [FM4 VM4]. rewrite VM1 in VM3. rewrite VM2 in VM4. fold v0 v2 in VM3, VM4.
    set (w := value (fquad1 pow x0 x1 x2 t)) in *. exists (Rmin (Rmin v0 v2) w), (Rmax (Rmax v0 v2) w). split; [split; auto|]. split; [split; auto|]. split; [|split].
    - intros s S. specialize (H s S). apply abs_mid in EV. revert H. unfold Rmin, Rmax. repeat match goal with |- context [Rle_dec ?a ?b] => destruct (Rle_dec a b) end; lra.
    - apply near_value; [lra|]. destruct (min_cases (Rmin v0 v2) w) as [-> | ->]; [destruct (min_cases v0 v2) as [-> | ->]; auto|]. right. right. exists (value t). split; auto. lra.
    - apply near_value; [lra|]. destruct (max_cases (Rmax v0 v2) w) as [-> | ->]; [destruct (max_cases v0 v2) as [-> | ->]; auto|]. right. right. exists (value t). split; auto. lra.
  Qed.
  Lemma without_point : forall E, (forall s, 0 <= s <= 1 -> Rmin v0 v2 - E <= bez2 v0 v1 v2 s <= Rmax v0 v2 + E) -> E <= 128 * D M ->
    exists lo hi, is (fmin x0 x2) lo /\ is (fmax x0 x2) hi /\ near lo hi (128 * D M).
  Proof.
    intros E H HE. destruct O0 as [F0 B0], O2 as [F2 B2]. pose proof (D_pos M M_pos) as DP. exists (Rmin v0 v2), (Rmax v0 v2). split; [apply fmin_spec; auto|]. split; [apply fmax_spec; auto|]. split; [|split].
    - intros s S. specialize (H s S). lra.
    - apply near_value; [lra|]. destruct (min_cases v0 v2) as [-> | ->]; auto.
    - apply near_value; [lra|]. destruct (max_cases v0 v2) as [-> | ->]; auto.
  Qed.
  Lemma inf_out : forall s, flt (fz 0) (B754_infinity s) && flt (B754_infinity s) (fz 1) = false.
  Proof. intros [|]; vm_compute; reflexivity. Qed.
  Lemma quad_range_near : exists lo hi, is (fst (fquad_range pow x0 x1 x2)) lo /\ is (snd (fquad_range pow x0 x1 x2)) hi /\ near lo hi (128 * D M).
  Proof.
    pose proof (D_pos M M_pos) as DP. pose proof u_pos as U. unfold fquad_range. cbv zeta. pose proof (coord_size _ _ _ _ _ numer) as SN. pose proof (coord_size _ _ _ _ _ denom) as SD. destruct numer as (FN & VN & EN). destruct denom as (FD & VD & ED).
    set (nh := fsub x0 x1) in *. set (dh := fadd (fsub x0 (fmul (fz 2) x1)) x2) in *. pose proof (scale_u 2 2 ltac:(lra) ltac:(lra)) as UN. pose proof (scale_u 5 18 ltac:(lra) ltac:(lra)) as UD.
    assert (UN' : u * Rabs (value nh) <= 3 * D M) by (eapply Rle_trans; [apply Rmult_le_compat_l; [lra|exact SN]|lra]).
    assert (UD' : u * Rabs (value dh) <= 6 * D M) by (eapply Rle_trans; [apply Rmult_le_compat_l; [lra|exact SD]|lra]).
    assert (OUT : forall r, value nh = r * value dh -> r <= 2 * u \/ 1 - 2 * u <= r -> forall s, 0 <= s <= 1 -> Rmin v0 v2 - 2 * (32 * D M) <= bez2 v0 v1 v2 s <= Rmax v0 v2 + 2 * (32 * D M)).
    { intros r ER HR s S. destruct (out_ends (v0 - v1) (v0 - 2 * v1 + v2) (value nh) (value dh) r (2 * D M) (18 * D M) (12 * D M) ltac:(lra) ltac:(lra) ltac:(lra) ER EN ED ltac:(lra) HR) as [P Q].
      apply bez2_ends; auto; [lra| |]; intros G; [destruct (P G)|destruct (Q G)]; [left|right|left|right]; lra. }
    destruct (feq dh (fz 0)) eqn:EZ; cbn [negb].
    - apply feq_zero in EZ; auto. destruct half_is as [FH VH].
      assert (L1 : flt (fz 0) (fdiv (fz 1) (fz 2)) = true) by (vm_compute; reflexivity). assert (L2 : flt (fdiv (fz 1) (fz 2)) (fz 1) = true) by (vm_compute; reflexivity). rewrite L1, L2. cbn [andb fst snd].
      apply with_point with (2 * (18 * D M)); auto; [rewrite VH; lra| |lra]. intros s S. rewrite EZ in ED. apply abs_mid in ED.
      assert (B : Rmin v0 v2 - 2 * (18 * D M) <= bez2 v0 v1 v2 s <= Rmax v0 v2 + 2 * (18 * D M)).
      { apply bez2_ends; auto; [lra| |]; intros G; destruct (Rle_or_lt 0 (v0 - v1)); [right|left|left|right]; lra. }
      pose proof (Rmin_l (Rmin v0 v2) (bez2 v0 v1 v2 (value (fdiv (fz 1) (fz 2))))). pose proof (Rmax_l (Rmax v0 v2) (bez2 v0 v1 v2 (value (fdiv (fz 1) (fz 2))))). lra.
    - assert (NZ : value dh <> 0) by (intros C; apply feq_zero in C; auto; congruence). set (t := fdiv nh dh) in *. set (r := value nh / value dh). assert (ER : value nh = r * value dh) by (unfold r; field; auto).
      pose proof (fdiv_cases nh dh FN NZ) as DC. fold t r in DC. destruct DC as [[FT VT]|[[sg EI] BR]].
      + destruct (flt (fz 0) t && flt t (fz 1)) eqn:EB; cbn [fst snd].
        * apply andb_prop in EB. destruct EB as [E1 E2]. apply flt_spec in E1; auto; [|apply fz0]. apply flt_spec in E2; auto; [|apply fz1]. rewrite (proj2 fz0) in E1. rewrite (proj2 fz1) in E2.
          apply with_point with (2 * (29 * D M)); auto; [lra| |lra]. intros s S. apply bez2_near; [lra|lra|lra|]. pose proof (rnd_err r) as RE. rewrite <- VT in RE.
          replace ((v0 - 2 * v1 + v2) * value t - (v0 - v1)) with (((v0 - 2 * v1 + v2) - value dh) * value t + (value dh * (value t - r)) + (value nh - (v0 - v1))) by (rewrite ER; ring).
          assert (P1 : Rabs ((v0 - 2 * v1 + v2 - value dh) * value t) <= 18 * D M).
          { rewrite Rabs_mult, (Rabs_right (value t)), Rabs_minus_sym by lra. pose proof (Rabs_pos (value dh - (v0 - 2 * v1 + v2))). nra. }
          assert (P2 : Rabs (value dh * (value t - r)) <= 9 * D M).
          { rewrite Rabs_mult. assert (A : Rabs (value dh) * Rabs (value t - r) <= Rabs (value dh) * (u * Rabs r + eta)) by (apply Rmult_le_compat_l; auto using Rabs_pos).
            assert (A2 : Rabs (value nh) = Rabs r * Rabs (value dh)) by (rewrite ER; apply Rabs_mult). pose proof eta_u. pose proof (Rabs_pos (value dh)). nra. }
          eapply Rle_trans; [apply Rabs_triang|]. eapply Rle_trans; [apply Rplus_le_compat; [apply Rabs_triang|exact EN]|]. lra.
        * apply without_point with (2 * (32 * D M)); [|lra]. apply (OUT r ER).
          assert (C : value t <= 0 \/ 1 <= value t).
          { apply andb_false_iff in EB. destruct EB as [EB|EB]; [left|right]; apply Rnot_lt_le; intros C; [rewrite <- (proj2 fz0) in C; apply (flt_spec (fz 0) t (proj1 fz0) FT) in C|rewrite <- (proj2 fz1) in C; apply (flt_spec t (fz 1) FT (proj1 fz1)) in C]; congruence. }
          rewrite VT in C. destruct C as [C|C]; [left; apply rnd_out; auto|right; apply rnd_out1; auto].
      + rewrite EI, inf_out. cbn [fst snd]. apply without_point with (2 * (32 * D M)); [|lra]. apply (OUT r ER). unfold Rabs in BR. destruct (Rcase_abs r); lra.
  Qed.
End QuadBox.
