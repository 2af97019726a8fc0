(** "%.<p>G" texts are literals, right to [p] significant digits. *)
Require Import ZArith QArith Qabs Qround Ascii String List Bool Lia Lqa ZifyBool Qfield.
Require Import Verif.Base Verif.Text_Spec Verif.Text_Proofs Verif.Fmt_Model Verif.Fmt_Proofs Verif.Color_Spec Verif.Color_Proofs
  Verif.Viewbox_Model Verif.FmtG_Model Verif.PointText_Spec Verif.Transform_Proofs.
Import ListNotations.
Open Scope Z_scope.

(** * Digit counts and the decimal exponent *)
Lemma digits_fuel_len : forall k n, 0 < n < 2 ^ Z.of_nat k -> (0 < k)%nat ->
  10 ^ (Z.of_nat (List.length (digits_fuel k n)) - 1) <= n < 10 ^ Z.of_nat (List.length (digits_fuel k n)).
Proof.
  induction k; intros n H K. lia. cbn [digits_fuel]. destruct (n <? 10) eqn:E.
  - cbn [List.length]. change (Z.of_nat 1) with 1. change (10 ^ (1 - 1)) with 1. change (10 ^ 1) with 10. lia.
  - rewrite app_length. cbn [List.length]. rewrite Nat2Z.inj_add. change (Z.of_nat 1) with 1.
    assert (K' : (0 < k)%nat). { destruct k; [|lia]. change (2 ^ Z.of_nat 1) with 2 in H. lia. }
    assert (D : 0 < n / 10 < 2 ^ Z.of_nat k).
    { split. apply Z.div_str_pos; lia. apply Z.div_lt_upper_bound; [lia|]. rewrite Nat2Z.inj_succ, Z.pow_succ_r in H by lia. lia. }
    specialize (IHk _ D K'). set (L := Z.of_nat (List.length (digits_fuel k (n / 10)))) in *.
    assert (L1 : 1 <= L). { destruct (Z.le_gt_cases 1 L); auto. exfalso. assert (L = 0) by lia. rewrite H1 in IHk. change (10 ^ 0) with 1 in IHk. lia. }
    replace (L + 1 - 1) with (Z.succ (L - 1)) by lia. rewrite Z.pow_succ_r by lia.
    replace (L + 1) with (Z.succ L) by lia. rewrite Z.pow_succ_r by lia.
    pose proof (Z.div_mod n 10 ltac:(lia)). pose proof (Z.mod_pos_bound n 10 ltac:(lia)). lia.
Qed.
Lemma ndigits_spec : forall n, 0 < n -> 10 ^ (ndigits n - 1) <= n < 10 ^ ndigits n /\ 1 <= ndigits n.
Proof.
  intros n N. unfold ndigits, digits. pose proof (Z.log2_spec n N).
  assert (0 < n < 2 ^ Z.of_nat (S (Z.to_nat (Z.log2 n)))).
  { rewrite Nat2Z.inj_succ, Z2Nat.id by apply Z.log2_nonneg. lia. }
  split. apply digits_fuel_len; auto; lia.
  destruct (digits_fuel_spec (S (Z.to_nat (Z.log2 n))) n) as (_ & _ & D); [lia|lia|].
  destruct (digits_fuel (S (Z.to_nat (Z.log2 n))) n); [congruence|]. cbn [List.length]. lia.
Qed.

Lemma p10_le : forall a b, a <= b -> (p10 a <= p10 b)%Q.
Proof.
  intros a b H. replace b with (a + (b - a)) by lia. rewrite p10_plus.
  rewrite <- (Qmult_1_r (p10 a)) at 1. apply Qmult_le_l. apply p10_pos.
  rewrite p10_nonneg_Z by lia. rewrite <- (Zle_Qle 1). pose proof (Z.pow_pos_nonneg 10 (b - a)). lia.
Qed.
Lemma p10_S : forall a, (p10 (a + 1) == 10 * p10 a)%Q.
Proof. intros. rewrite p10_plus. change (p10 1) with 10%Q. ring. Qed.

Lemma exp10_spec : forall q, (0 < q)%Q -> (p10 (exp10 q) <= q)%Q /\ (q < p10 (exp10 q + 1))%Q.
Proof.
  intros [n d] H. unfold exp10; cbn [Qnum Qden].
  assert (N : 0 < n) by (unfold Qlt in H; simpl in H; lia).
  destruct (ndigits_spec n N) as ((A & B) & _). destruct (ndigits_spec (Zpos d) ltac:(lia)) as ((C & D) & _).
  destruct (ndigits_spec n N) as (_ & N1). destruct (ndigits_spec (Zpos d) ltac:(lia)) as (_ & D1).
  set (a := ndigits n) in *. set (b := ndigits (Z.pos d)) in *.
  rewrite Zle_Qle in A, C. rewrite Zlt_Qlt in B, D. rewrite <- p10_nonneg_Z in A, B, C, D by lia.
  assert (E : (n # d == inject_Z n / inject_Z (Zpos d))%Q) by apply Qmake_Qdiv.
  assert (P : (0 < inject_Z (Zpos d))%Q) by reflexivity.
  assert (U : (n # d < p10 (a - b + 1))%Q).
  { rewrite E. apply Qlt_shift_div_r; auto. eapply Qlt_le_trans; [exact B|].
    replace a with ((a - b + 1) + (b - 1)) at 1 by lia. rewrite p10_plus. apply Qmult_le_l; auto. apply p10_pos. }
  assert (L : (p10 (a - b - 1) <= n # d)%Q).
  { rewrite E. apply Qle_shift_div_l; auto. eapply Qle_trans; [|exact A].
    replace (a - 1) with ((a - b - 1) + b) by lia. rewrite p10_plus. apply Qmult_le_l. apply p10_pos. lra. }
  destruct (Qle_bool (ten_pow (a - b)) (n # d)) eqn:T.
  - apply Qle_bool_iff in T. rewrite ten_pow_p10 in T. auto.
  - split; auto. replace (a - b - 1 + 1) with (a - b) by lia. rewrite <- ten_pow_p10. apply Qnot_le_lt. intros K.
    apply Qle_bool_iff in K. congruence.
Qed.

(** * The literal printed *)
Definition G_lit (neg : bool) (m : Z) (dec : nat) (ex : option (bool * sgn * list Z)) : lit :=
  mkLit (if neg then SMinus else SNone) (digits (m / 10 ^ Z.of_nat dec)) (strip0 (fixed_digits dec (m mod 10 ^ Z.of_nat dec))) ex.
Definition exp_ds (e : Z) : list Z := (if Z.abs e <? 10 then [0] else []) ++ digits (Z.abs e).
Definition exp_sgn (e : Z) : sgn := if e <? 0 then SMinus else SPlus.
Lemma exp_ds_ok : forall e, Forall is_dig (exp_ds e) /\ exp_ds e <> [] /\ sgn_z (exp_sgn e) * dval (exp_ds e) = e.
Proof.
  intros e. unfold exp_ds, exp_sgn. destruct (digits_spec (Z.abs e) ltac:(lia)) as (A & B & C). split; [|split].
  - apply Forall_app. split; auto. destruct (Z.abs e <? 10); auto. constructor; auto. unfold is_dig; lia.
  - intros K. apply app_eq_nil in K as [_ K]. auto.
  - rewrite dval_app, A. destruct (Z.abs e <? 10); cbn [dval]; destruct (e <? 0) eqn:S; cbn [sgn_z]; lia.
Qed.
Lemma exp_text_lit : forall e, exp_text e = sgn_text (exp_sgn e) ++ dtext (exp_ds e).
Proof.
  intros e. unfold exp_text, exp_sgn, exp_ds. destruct (digits_spec (Z.abs e) ltac:(lia)) as (A & B & C).
  rewrite map_dch by auto. rewrite dtext_app. destruct (e <? 0); destruct (Z.abs e <? 10); reflexivity.
Qed.
Lemma G_lit_ok : forall neg m dec ex, 0 <= m -> match ex with None => True | Some (_, _, ds) => Forall is_dig ds /\ ds <> [] end ->
  lit_ok (G_lit neg m dec ex).
Proof.
  intros neg m dec ex H X. assert (P : 0 < 10 ^ Z.of_nat dec) by (apply Z.pow_pos_nonneg; lia).
  destruct (digits_spec (m / 10 ^ Z.of_nat dec)) as (A & B & C). { apply Z.div_pos; lia. }
  destruct (fixed_spec dec (m mod 10 ^ Z.of_nat dec)) as (D & E & F). { apply Z.mod_pos_bound. lia. }
  destruct (strip0_spec _ E) as (k & _ & G & _).
  unfold lit_ok, G_lit; cbn [l_int l_frac l_exp]. auto.
Qed.
Lemma G_lit_text : forall neg m dec, 0 <= m ->
  (if neg : bool then ["-"%char] else []) ++
  strip_zeros (map dch (digits (m / 10 ^ Z.of_nat dec)) ++ "."%char :: map dch (fixed_digits dec (m mod 10 ^ Z.of_nat dec)))
  = lit_text (G_lit neg m dec None).
Proof.
  intros neg m dec H. assert (P : 0 < 10 ^ Z.of_nat dec) by (apply Z.pow_pos_nonneg; lia).
  destruct (digits_spec (m / 10 ^ Z.of_nat dec)) as (A & B & C). { apply Z.div_pos; lia. }
  destruct (fixed_spec dec (m mod 10 ^ Z.of_nat dec)) as (D & E & F). { apply Z.mod_pos_bound. lia. }
  rewrite !map_dch by auto. pose proof (strip_zeros_lit [] _ _ C E) as SZ; cbn [app] in SZ; rewrite SZ by auto.
  unfold lit_text, G_lit; cbn [l_sgn l_int l_frac l_exp]. rewrite app_nil_r. destruct neg; reflexivity.
Qed.
Lemma lit_text_exp : forall s i f up es ds,
  lit_text (mkLit s i f (Some (up, es, ds))) = lit_text (mkLit s i f None) ++ (if up : bool then "E"%char else "e"%char) :: sgn_text es ++ dtext ds.
Proof. intros. unfold lit_text; cbn [l_sgn l_int l_frac l_exp]. rewrite app_nil_r, <- !app_assoc. reflexivity. Qed.
Lemma G_lit_val : forall neg m dec ex, 0 <= m ->
  (lit_val (G_lit neg m dec ex) == (if neg then -1 else 1) * inject_Z m * p10 (- Z.of_nat dec) *
   p10 (match ex with None => 0 | Some (_, s, ds) => sgn_z s * dval ds end))%Q.
Proof.
  intros neg m dec ex N. assert (P : 0 < 10 ^ Z.of_nat dec) by (apply Z.pow_pos_nonneg; lia).
  unfold lit_val, G_lit; cbn [l_sgn l_int l_frac l_exp].
  destruct (digits_spec (m / 10 ^ Z.of_nat dec)) as (A & B & C). { apply Z.div_pos; lia. }
  destruct (fixed_spec dec (m mod 10 ^ Z.of_nat dec)) as (D & E & F). { apply Z.mod_pos_bound. lia. }
  rewrite frac_strip by auto. rewrite A, D, F, p10_neg.
  assert (DM := Z.div_mod m (10 ^ Z.of_nat dec) ltac:(lia)).
  assert (Q1 : (inject_Z m == inject_Z (10 ^ Z.of_nat dec) * inject_Z (m / 10 ^ Z.of_nat dec) + inject_Z (m mod 10 ^ Z.of_nat dec))%Q).
  { rewrite <- inject_Z_mult, <- inject_Z_plus, <- DM. reflexivity. }
  rewrite Q1. assert (~ inject_Z (10 ^ Z.of_nat dec) == 0)%Q. { intros K. change 0%Q with (inject_Z 0) in K. rewrite inject_Z_injective in K. lia. }
  destruct neg; cbn [sgn_z]; [change (inject_Z (-1)) with (-1)%Q | change (inject_Z 1) with 1%Q]; field; auto.
Qed.

(** * What fmt_G prints *)
Definition fixed_range (p e : Z) : Prop := -4 <= e < p.
Lemma fmt_G_spec : forall p q, 1 <= p -> ~ (q == 0)%Q -> exists m e d,
  10 ^ (p - 1) <= m < 10 ^ p /\
  (p10 d <= Qabs q)%Q /\ (Qabs q < p10 (d + 1))%Q /\ (e = d \/ e = d + 1 /\ m = 10 ^ (p - 1)) /\
  (Qabs (inject_Z m * p10 (e - (p - 1)) - Qabs q) <= (1 # 2) * p10 (d - (p - 1)))%Q /\
  ((exists k j, 0 < k < 10 ^ p /\ (Qabs q == inject_Z k * p10 j)%Q) -> (inject_Z m * p10 (e - (p - 1)) == Qabs q)%Q) /\
  fmt_G p q = lit_text (if (-4 <=? e) && (e <? p) then G_lit (Qltb q 0) m (Z.to_nat (p - 1 - e)) None
                        else G_lit (Qltb q 0) m (Z.to_nat (p - 1)) (Some (true, exp_sgn e, exp_ds e))).
Proof.
  intros p q P1 NZ.
  assert (AP : (0 < Qabs q)%Q).
  { destruct (Qlt_le_dec 0 q) as [H|H]. rewrite Qabs_pos by lra; auto. rewrite Qabs_neg by auto.
    destruct (Qlt_le_dec q 0) as [K|K]; [lra|]. exfalso. apply NZ. lra. }
  destruct (exp10_spec _ AP) as [E1 E2]. set (a := Qabs q) in *. set (e0 := exp10 a) in *.
  assert (R := round_nearest (a * ten_pow (p - 1 - e0))). set (m0 := Qround_even (a * ten_pow (p - 1 - e0))) in *.
  destruct R as (R1 & R2 & R3). rewrite ten_pow_p10 in R1, R2, R3.
  assert (PP := p10_pos (p - 1 - e0)).
  assert (X : (p10 (p - 1) == p10 e0 * p10 (p - 1 - e0))%Q) by (rewrite <- p10_plus; replace (e0 + (p - 1 - e0)) with (p - 1) by lia; reflexivity).
  assert (LO : (p10 (p - 1) <= a * p10 (p - 1 - e0))%Q). { rewrite X. apply Qmult_le_r; auto. }
  assert (HI : (a * p10 (p - 1 - e0) < p10 p)%Q).
  { replace p with ((e0 + 1) + (p - 1 - e0)) at 2 by lia. rewrite p10_plus. apply Qmult_lt_r; auto. }
  rewrite (p10_nonneg_Z (p - 1)) in LO by lia. rewrite (p10_nonneg_Z p) in HI by lia.
  assert (M0 : 10 ^ (p - 1) <= m0 <= 10 ^ p).
  { clear - LO HI R1 R2. clearbody m0. set (V := (a * p10 (p - 1 - e0))%Q) in *. clearbody V. split.
    - assert (10 ^ (p - 1) < m0 + 1); [|lia]. rewrite Zlt_Qlt. rewrite inject_Z_plus. change (inject_Z 1) with 1%Q. lra.
    - assert (m0 < 10 ^ p + 1); [|lia]. rewrite Zlt_Qlt. rewrite inject_Z_plus. change (inject_Z 1) with 1%Q. lra. }
  assert (INV : (p10 (e0 - (p - 1)) * p10 (p - 1 - e0) == 1)%Q).
  { rewrite <- p10_plus. replace (e0 - (p - 1) + (p - 1 - e0)) with 0 by lia. reflexivity. }
  assert (PI := p10_pos (e0 - (p - 1))).
  assert (ERR : (Qabs (inject_Z m0 * p10 (e0 - (p - 1)) - a) <= (1 # 2) * p10 (e0 - (p - 1)))%Q).
  { assert (B : (a == a * p10 (p - 1 - e0) * p10 (e0 - (p - 1)))%Q).
    { setoid_replace (a * p10 (p - 1 - e0) * p10 (e0 - (p - 1)))%Q with (a * (p10 (e0 - (p - 1)) * p10 (p - 1 - e0)))%Q by ring. rewrite INV. ring. }
    apply Qabs_Qle_condition.
    set (u := p10 (e0 - (p - 1))) in *. set (v := (a * p10 (p - 1 - e0))%Q) in *. rewrite B.
    assert (Y1 : ((inject_Z m0 - v) * u <= (1 # 2) * u)%Q) by (apply Qmult_le_r; auto; lra).
    assert (Y2 : ((- (1 # 2)) * u <= (inject_Z m0 - v) * u)%Q) by (apply Qmult_le_r; auto; lra).
    assert (Y3 : (inject_Z m0 * u - v * u == (inject_Z m0 - v) * u)%Q) by ring. rewrite Y3. split; lra. }
  assert (EXA : (exists k j, 0 < k < 10 ^ p /\ (a == inject_Z k * p10 j)%Q) -> (inject_Z m0 * p10 (e0 - (p - 1)) == a)%Q).
  { intros (k & j & K & J).
    assert (S : 0 <= j + (p - 1 - e0)).
    { destruct (Z.le_gt_cases 0 (j + (p - 1 - e0))); auto. exfalso.
      assert ((p10 p <= inject_Z k)%Q).
      { assert (p10 (e0 - j) <= inject_Z k)%Q.
        { replace (e0 - j) with (e0 + - j) by lia. rewrite p10_plus. rewrite <- (Qmult_1_r (inject_Z k)), <- (p10_opp_cancel j).
          rewrite Qmult_assoc. apply Qmult_le_r. apply p10_pos. rewrite <- J. auto. }
        eapply Qle_trans; [|eauto]. apply p10_le. lia. }
      rewrite p10_nonneg_Z in H0 by lia. rewrite <- Zle_Qle in H0. lia. }
    assert (V : (a * p10 (p - 1 - e0) == inject_Z (k * 10 ^ (j + (p - 1 - e0))))%Q).
    { rewrite J, inject_Z_mult, <- p10_nonneg_Z, p10_plus by auto. ring. }
    assert (m0 = k * 10 ^ (j + (p - 1 - e0))).
    { unfold m0. eapply nearest_unique; [apply round_nearest|]. unfold nearest. rewrite ten_pow_p10, V. repeat split; try lra. }
    rewrite H, <- V. rewrite <- Qmult_assoc, (Qmult_comm (p10 (p - 1 - e0))), INV. ring. }
  destruct (m0 =? 10 ^ p) eqn:MC.
  - (* carry *)
    apply Z.eqb_eq in MC. exists (10 ^ (p - 1)), (e0 + 1), e0.
    assert (SAME : (inject_Z (10 ^ (p - 1)) * p10 (e0 + 1 - (p - 1)) == inject_Z m0 * p10 (e0 - (p - 1)))%Q).
    { rewrite MC, <- !p10_nonneg_Z by lia. rewrite <- !p10_plus. replace (p - 1 + (e0 + 1 - (p - 1))) with (p + (e0 - (p - 1))) by lia. reflexivity. }
    assert (PW : 10 ^ p = 10 * 10 ^ (p - 1)). { rewrite <- Z.pow_succ_r by lia. f_equal. lia. }
    assert (PP1 : 0 < 10 ^ (p - 1)) by (apply Z.pow_pos_nonneg; lia).
    split; [lia|]. split; [auto|]. split; [auto|]. split; [auto|]. split; [rewrite SAME; auto|]. split; [intros K; rewrite SAME; auto|].
    unfold fmt_G. fold a. replace (Qeq_bool a 0) with false by (symmetry; apply not_true_iff_false; intros K; apply Qeq_bool_iff in K; lra).
    fold e0. fold m0. rewrite (proj2 (Z.eqb_eq _ _) MC).
    destruct ((-4 <=? e0 + 1) && (e0 + 1 <? p)) eqn:F.
    + apply andb_true_iff in F as [F1 F2]. rewrite <- G_lit_text by lia. rewrite Z2Nat.id by lia. reflexivity.
    + unfold G_lit. rewrite lit_text_exp. change (mkLit (if Qltb q 0 then SMinus else SNone) (digits (10 ^ (p - 1) / 10 ^ Z.of_nat (Z.to_nat (p - 1)))) (strip0 (fixed_digits (Z.to_nat (p - 1)) (10 ^ (p - 1) mod 10 ^ Z.of_nat (Z.to_nat (p - 1))))) None) with (G_lit (Qltb q 0) (10 ^ (p - 1)) (Z.to_nat (p - 1)) None).
      rewrite <- G_lit_text by lia. rewrite Z2Nat.id by lia. rewrite exp_text_lit, <- app_assoc. reflexivity.
  - apply Z.eqb_neq in MC. exists m0, e0, e0. split; [lia|]. split; [auto|]. split; [auto|]. split; [auto|]. split; [auto|]. split; [auto|].
    assert (0 < 10 ^ (p - 1)) by (apply Z.pow_pos_nonneg; lia).
    unfold fmt_G. fold a. replace (Qeq_bool a 0) with false by (symmetry; apply not_true_iff_false; intros K; apply Qeq_bool_iff in K; lra).
    fold e0. fold m0. rewrite (proj2 (Z.eqb_neq _ _) MC).
    destruct ((-4 <=? e0) && (e0 <? p)) eqn:F.
    + apply andb_true_iff in F as [F1 F2]. rewrite <- G_lit_text by lia. rewrite Z2Nat.id by lia. reflexivity.
    + unfold G_lit. rewrite lit_text_exp. change (mkLit (if Qltb q 0 then SMinus else SNone) (digits (m0 / 10 ^ Z.of_nat (Z.to_nat (p - 1)))) (strip0 (fixed_digits (Z.to_nat (p - 1)) (m0 mod 10 ^ Z.of_nat (Z.to_nat (p - 1))))) None) with (G_lit (Qltb q 0) m0 (Z.to_nat (p - 1)) None).
      rewrite <- G_lit_text by lia. rewrite Z2Nat.id by lia. rewrite exp_text_lit, <- app_assoc. reflexivity.
Qed.

(** * Reading a printed number back *)
Lemma p10_half : forall p d a, (p10 d <= a)%Q -> ((1 # 2) * p10 (d - (p - 1)) <= a * (1 # 2) * p10 (1 - p))%Q.
Proof.
  intros p d a H. replace (d - (p - 1)) with (d + (1 - p)) by lia. rewrite p10_plus.
  assert (p10 d * p10 (1 - p) <= a * p10 (1 - p))%Q by (apply Qmult_le_r; auto; apply p10_pos).
  set (u := (p10 d * p10 (1 - p))%Q) in *. setoid_replace (a * (1 # 2) * p10 (1 - p))%Q with ((1 # 2) * (a * p10 (1 - p)))%Q by ring. lra.
Qed.
Lemma Qltb_spec : forall q, (if Qltb q 0 then -1 else 1)%Q * Qabs q == q.
Proof.
  intros q. unfold Qltb. destruct (Qle_bool 0 q) eqn:E; cbn [negb].
  - apply Qle_bool_iff in E. rewrite Qabs_pos by auto. ring.
  - rewrite Qabs_neg. ring. destruct (Qlt_le_dec 0 q) as [K|K]; auto. assert (Qle_bool 0 q = true) by (apply Qle_bool_iff; lra). congruence.
Qed.
Lemma signed_diff : forall (b : bool) u v q, ((if b then -1 else 1)%Q * v == q)%Q -> (Qabs ((if b then -1 else 1)%Q * u - q) == Qabs (u - v))%Q.
Proof.
  intros b u v q H. rewrite <- H. destruct b.
  - setoid_replace (-1 * u - -1 * v)%Q with (- (u - v))%Q by ring. apply Qabs_opp.
  - setoid_replace (1 * u - 1 * v)%Q with (u - v)%Q by ring. reflexivity.
Qed.
Lemma G_val_sig : forall p q m e d (l : lit), 1 <= p -> (p10 d <= Qabs q)%Q ->
  (Qabs (inject_Z m * p10 (e - (p - 1)) - Qabs q) <= (1 # 2) * p10 (d - (p - 1)))%Q ->
  (lit_val l == (if Qltb q 0 then -1 else 1) * (inject_Z m * p10 (e - (p - 1))))%Q -> sig p (lit_val l) q.
Proof.
  intros p q m e d l P D E V. unfold sig. rewrite V.
  rewrite (signed_diff _ _ (Qabs q)) by apply Qltb_spec. eapply Qle_trans; [exact E|]. apply p10_half; auto.
Qed.
Lemma G_fixed_val : forall b p m e, 0 <= m -> e < p ->
  (lit_val (G_lit b m (Z.to_nat (p - 1 - e)) None) == (if b then -1 else 1) * (inject_Z m * p10 (e - (p - 1))))%Q.
Proof.
  intros b p m e M H. rewrite G_lit_val by auto. rewrite Z2Nat.id by lia. change (p10 0) with 1%Q.
  replace (- (p - 1 - e)) with (e - (p - 1)) by lia. ring.
Qed.
Lemma G_sci_val : forall b p m e, 0 <= m -> 1 <= p ->
  (lit_val (G_lit b m (Z.to_nat (p - 1)) (Some (true, exp_sgn e, exp_ds e))) == (if b then -1 else 1) * (inject_Z m * p10 (e - (p - 1))))%Q.
Proof.
  intros b p m e M H. rewrite G_lit_val by auto. rewrite Z2Nat.id by lia. destruct (exp_ds_ok e) as (_ & _ & D). rewrite D.
  replace (e - (p - 1)) with (- (p - 1) + e) by lia. rewrite p10_plus. ring.
Qed.
Lemma Qltb_exact : forall q u, (u == Qabs q)%Q -> ((if Qltb q 0 then -1 else 1) * u == q)%Q.
Proof. intros q u H. rewrite H. apply Qltb_spec. Qed.
Definition zero_lit : lit := mkLit SNone [0] [] None.

Lemma fmt_G_lit : forall p q, 1 <= p -> exists l, lit_ok l /\ fmt_G p q = lit_text l /\ sig p (lit_val l) q /\
  (short p q -> (lit_val l == q)%Q).
Proof.
  intros p q P. destruct (Qeq_dec q 0) as [Z0|NZ].
  - exists zero_lit. split; [|split; [|split]].
    + unfold lit_ok, zero_lit; cbn. split; [|split; [|split]]; auto. constructor; auto. unfold is_dig; lia. left; discriminate.
    + unfold fmt_G. replace (Qeq_bool (Qabs q) 0) with true. reflexivity. symmetry. apply Qeq_bool_iff. rewrite Z0. reflexivity.
    + unfold sig. change (lit_val zero_lit) with ((0 + 0) * 1)%Q. rewrite Z0. unfold Qle. simpl. lia.
    + intros _. rewrite Z0. reflexivity.
  - destruct (fmt_G_spec p q P NZ) as (m & e & d & M & D1 & D2 & ED & ER & EX & T).
    assert (M0 : 0 <= m) by (assert (0 < 10 ^ (p - 1)) by (apply Z.pow_pos_nonneg; lia); lia).
    assert (EX' : (exists k j, Z.abs k < 10 ^ p /\ (q == inject_Z k * p10 j)%Q) -> (inject_Z m * p10 (e - (p - 1)) == Qabs q)%Q).
    { intros (k & j & K & J). apply EX. exists (Z.abs k), j. split.
      - split; auto. destruct (Z.eq_dec k 0) as [->|]; [|lia]. exfalso. apply NZ. rewrite J. ring.
      - rewrite J. rewrite Qabs_Qmult. rewrite (Qabs_pos (p10 j)) by (apply Qlt_le_weak, p10_pos). reflexivity. }
    destruct (exp_ds_ok e) as (X1 & X2 & X3).
    eexists. split; [|split; [exact T|]].
    + destruct ((-4 <=? e) && (e <? p)); apply G_lit_ok; auto.
    + destruct ((-4 <=? e) && (e <? p)) eqn:F.
      * assert (V := G_fixed_val (Qltb q 0) p m e M0 ltac:(lia)). split. eapply G_val_sig; eauto. intros K. rewrite V. apply Qltb_exact; auto.
      * assert (V := G_sci_val (Qltb q 0) p m e M0 P). split. eapply G_val_sig; eauto. intros K. rewrite V. apply Qltb_exact; auto.
Qed.

(** * Point.__str__'s second stripping *)
Lemma contains_dot : forall s, contains ["."%char] s = true <-> In "."%char s.
Proof.
  induction s as [|c s IH]; cbn [contains starts].
  - split; [discriminate|intros []].
  - rewrite orb_true_iff, IH, andb_true_r. split.
    + intros [H|H]; [left; unfold aeqb in H; apply Ascii.eqb_eq in H; auto|right; auto].
    + intros [H|H]; [left; subst; reflexivity|right; auto].
Qed.
Lemma no_dot_dtext : forall ds, ~ In "."%char (dtext ds).
Proof. intros ds H. unfold dtext in H. apply in_map_iff in H as (d & H & _). exact (dchar_not_dot d H). Qed.
Lemma no_dot_sgn : forall s, ~ In "."%char (sgn_text s).
Proof. intros [] H; simpl in H; intuition discriminate. Qed.
Lemma strip0_idem : forall ds, strip0 (strip0 ds) = strip0 ds.
Proof.
  induction ds as [|d ds IH]; auto. cbn [strip0]. destruct (strip0 ds) as [|x r].
  - destruct (d =? 0) eqn:E; auto. cbn [strip0]. rewrite E. auto.
  - change (strip0 (d :: x :: r)) with (match strip0 (x :: r) with [] => if d =? 0 then [] else [d] | r => d :: r end). rewrite IH. auto.
Qed.
Lemma G_fixed_strip : forall b m dec, 0 <= m ->
  (let s := lit_text (G_lit b m dec None) in if contains ["."%char] s then strip_zeros s else s) = lit_text (G_lit b m dec None).
Proof.
  intros b m dec H. cbv zeta. destruct (contains ["."%char] (lit_text (G_lit b m dec None))) eqn:C; auto.
  apply contains_dot in C.
  destruct (digits_spec (m / 10 ^ Z.of_nat dec)) as (A & B & N). { apply Z.div_pos; auto. apply Z.pow_pos_nonneg; lia. }
  assert (P : 0 < 10 ^ Z.of_nat dec) by (apply Z.pow_pos_nonneg; lia).
  destruct (fixed_spec dec (m mod 10 ^ Z.of_nat dec)) as (D & E & F). { apply Z.mod_pos_bound. lia. }
  destruct (strip0_spec _ E) as (k & _ & G & _).
  unfold lit_text, G_lit in *; cbn [l_sgn l_int l_frac l_exp] in *. rewrite app_nil_r in *.
  pose proof (strip0_idem (fixed_digits dec (m mod 10 ^ Z.of_nat dec))) as SI.
  destruct (strip0 (fixed_digits dec (m mod 10 ^ Z.of_nat dec))) as [|x r].
  - exfalso. rewrite app_nil_r in C. apply in_app_iff in C as [C|C]; [apply no_dot_sgn in C|apply no_dot_dtext in C]; auto.
  - rewrite (strip_zeros_lit _ _ (x :: r)) by auto. rewrite SI. reflexivity.
Qed.
Lemma strip_zeros_last : forall s d, is_dig d -> d <> 0 -> strip_zeros (s ++ [dchar d]) = s ++ [dchar d].
Proof.
  intros s d D N. unfold strip_zeros. rewrite rstrip1_last by (apply dchar_zero; auto). apply rstrip1_last. apply dchar_not_dot.
Qed.
Lemma digits_last : forall n, 0 <= n -> exists ds, digits n = ds ++ [n mod 10].
Proof.
  intros n N. unfold digits. cbn [digits_fuel]. destruct (n <? 10) eqn:E.
  - exists []. rewrite Z.mod_small by lia. reflexivity.
  - eexists. reflexivity.
Qed.
Lemma G_sci_strip : forall b m dec e, Z.abs e mod 10 <> 0 ->
  (let s := lit_text (G_lit b m dec (Some (true, exp_sgn e, exp_ds e))) in if contains ["."%char] s then strip_zeros s else s)
  = lit_text (G_lit b m dec (Some (true, exp_sgn e, exp_ds e))).
Proof.
  intros b m dec e H. cbv zeta. destruct (contains _ _); auto.
  unfold G_lit. rewrite lit_text_exp. unfold exp_ds. destruct (digits_last (Z.abs e) ltac:(lia)) as (ds & ->).
  rewrite app_assoc, dtext_app. change (dtext [Z.abs e mod 10]) with [dchar (Z.abs e mod 10)].
  rewrite (app_assoc (sgn_text _)), app_comm_cons, app_assoc. apply strip_zeros_last; auto.
  unfold is_dig. pose proof (Z.mod_pos_bound (Z.abs e) 10). lia.
Qed.

Lemma p10_lt_inv : forall a b, (p10 a < p10 b)%Q -> a < b.
Proof. intros a b H. destruct (Z.lt_ge_cases a b); auto. exfalso. assert (p10 b <= p10 a)%Q by (apply p10_le; lia). lra. Qed.
Lemma Qabs_zero : forall q, (q == 0)%Q -> Qeq_bool (Qabs q) 0 = true.
Proof. intros q H. apply Qeq_bool_iff. rewrite H. reflexivity. Qed.

Lemma coord_plain : forall q, plain q -> exists l, lit_ok l /\ l_exp l = None /\ coord_str q = lit_text l /\ sig 12 (lit_val l) q /\
  (short 12 q -> (lit_val l == q)%Q).
Proof.
  intros q PL. destruct (Qeq_dec q 0) as [Z0|NZ].
  - exists zero_lit. split; [|split; [|split; [|split]]].
    + unfold lit_ok, zero_lit; cbn. split; [|split; [|split]]; auto. constructor; auto. unfold is_dig; lia. left; discriminate.
    + reflexivity.
    + unfold coord_str, fmt_G. rewrite Qabs_zero by auto. reflexivity.
    + unfold sig. change (lit_val zero_lit) with ((0 + 0) * 1)%Q. rewrite Z0. unfold Qle. simpl. lia.
    + intros _. rewrite Z0. reflexivity.
  - destruct PL as [K|[L1 L2]]; [contradiction|].
    destruct (fmt_G_spec 12 q ltac:(lia) NZ) as (m & e & d & M & D1 & D2 & ED & ER & EX & TX).
    assert (M0 : 0 <= m) by (change (10 ^ (12 - 1)) with 100000000000 in M; lia).
    assert (D4 : -4 <= d). { assert (-4 < d + 1); [|lia]. apply p10_lt_inv. lra. }
    assert (D12 : d < 12). { apply p10_lt_inv. lra. }
    assert (E12 : e < 12).
    { destruct ED as [->|[-> Hm]]; auto. destruct (Z.eq_dec d 11) as [->|]; [|lia]. exfalso. rewrite Hm in ER.
      change (inject_Z (10 ^ (12 - 1)) * p10 (11 + 1 - (12 - 1)))%Q with (100000000000 * p10 1)%Q in ER.
      change (p10 1) with 10%Q in ER. change (p10 (11 - (12 - 1))) with 1%Q in ER.
      change (p10 12) with (1000000000000)%Q in L2. apply Qabs_Qle_condition in ER. lra. }
    replace ((-4 <=? e) && (e <? 12)) with true in TX by (destruct ED as [->|[-> _]]; lia).
    assert (V := G_fixed_val (Qltb q 0) 12 m e M0 E12).
    exists (G_lit (Qltb q 0) m (Z.to_nat (12 - 1 - e)) None). split; [|split; [|split; [|split]]].
    + apply G_lit_ok; auto.
    + reflexivity.
    + unfold coord_str. rewrite TX. apply G_fixed_strip; auto.
    + eapply G_val_sig; eauto. lia.
    + intros (k & j & K & J). rewrite V. apply Qltb_exact. apply EX. exists (Z.abs k), j. split.
      * split; auto. destruct (Z.eq_dec k 0) as [->|]; [|lia]. exfalso. apply NZ. rewrite J. ring.
      * rewrite J. rewrite Qabs_Qmult. rewrite (Qabs_pos (p10 j)) by (apply Qlt_le_weak, p10_pos). reflexivity.
Qed.
Lemma coord_scientific : forall d q, scientific d q -> exists l, lit_ok l /\ coord_str q = lit_text l /\ sig 12 (lit_val l) q /\
  (short 12 q -> (lit_val l == q)%Q).
Proof.
  intros d0 q ((S1 & S2) & R & Md). assert (P0 := p10_pos d0). assert (P1 := p10_pos (d0 - 11)).
  assert (NZ : ~ (q == 0)%Q). { intros K. rewrite K in S1. change (Qabs 0) with 0%Q in S1. lra. }
  destruct (fmt_G_spec 12 q ltac:(lia) NZ) as (m & e & d & M & D1 & D2 & ED & ER & EX & TX).
  assert (M0 : 0 <= m) by (change (10 ^ (12 - 1)) with 100000000000 in M; lia).
  assert (d = d0).
  { assert (d < d0 + 1) by (apply p10_lt_inv; lra). assert (d0 < d + 1) by (apply p10_lt_inv; lra). lia. }
  subst d0. assert (e = d).
  { destruct ED as [->|[-> Hm]]; auto. exfalso. rewrite Hm in ER. change (12 - 1) with 11 in ER.
    rewrite <- p10_nonneg_Z, <- p10_plus in ER by lia. replace (11 + (d + 1 - 11)) with (d + 1) in ER by lia.
    apply Qabs_Qle_condition in ER. lra. }
  subst e. replace ((-4 <=? d) && (d <? 12)) with false in TX by lia.
  assert (V := G_sci_val (Qltb q 0) 12 m d M0 ltac:(lia)). destruct (exp_ds_ok d) as (X1 & X2 & X3).
  exists (G_lit (Qltb q 0) m (Z.to_nat (12 - 1)) (Some (true, exp_sgn d, exp_ds d))). split; [|split; [|split]].
  + apply G_lit_ok; auto.
  + unfold coord_str. rewrite TX. apply G_sci_strip; auto.
  + eapply G_val_sig; eauto. lia.
  + intros (k & j & K & J). rewrite V. apply Qltb_exact. apply EX. exists (Z.abs k), j. split.
    * split; auto. destruct (Z.eq_dec k 0) as [->|]; [|lia]. exfalso. apply NZ. rewrite J. ring.
    * rewrite J. rewrite Qabs_Qmult. rewrite (Qabs_pos (p10 j)) by (apply Qlt_le_weak, p10_pos). reflexivity.
Qed.

(** * Two numbers *)
Lemma wsp_is_ws : forall c, wsp c -> is_ws c = true.
Proof. intros c H. repeat (destruct H as [<-|H]; [reflexivity|]). destruct H. Qed.
Lemma drop_ws_all : forall w s, Forall wsp w -> drop_ws (w ++ s) = drop_ws s.
Proof. induction 1 as [|c w W F IH]; auto. cbn [app]. unfold drop_ws in *. cbn [drop_ws]. rewrite (wsp_is_ws c W). auto. Qed.
Lemma drop_ws_lit : forall l r, lit_ok l -> drop_ws (lit_text l ++ r) = lit_text l ++ r.
Proof.
  intros l r H. destruct (lit_start l H) as (c & t & -> & I). cbn [app].
  repeat (destruct I as [<-|I]; [reflexivity|]). destruct I.
Qed.
Lemma match_comma_sep : forall sep l r, pair_sep sep -> lit_ok l -> match_comma (sep ++ lit_text l ++ r) = Some (lit_text l ++ r).
Proof.
  intros sep l r S H. unfold match_comma. destruct S as [[W N]|(a & b & A & B & ->)].
  - rewrite drop_ws_all, drop_ws_lit by auto. destruct sep as [|w sep]; [congruence|].
    destruct (lit_start l H) as (c & t & E & I). rewrite E. cbn [app].
    inversion W; subst. rewrite (wsp_is_ws w) by auto.
    repeat (destruct I as [<-|I]; [reflexivity|]). destruct I.
  - rewrite <- app_assoc, drop_ws_all by auto. cbn [app]. change (drop_ws (","%char :: b ++ lit_text l ++ r)) with (","%char :: b ++ lit_text l ++ r).
    cbv iota beta. change (aeqb "," ",") with true. cbv iota. rewrite drop_ws_all, drop_ws_lit by auto. reflexivity.
Qed.
Lemma sep_nc : forall sep s, pair_sep sep -> nc (sep ++ s).
Proof.
  assert (W : forall c s, wsp c -> nc (c :: s)).
  { intros c s H. repeat (destruct H as [<-|H]; [repeat split; discriminate|]). destruct H. }
  intros sep s [[F N]|(a & b & A & B & ->)].
  - destruct F; [congruence|]. cbn [app]. apply W; auto.
  - destruct A; cbn [app]; [repeat split; discriminate|]. apply W; auto.
Qed.
Lemma point_of_text_lits : forall l1 sep l2 rest, lit_ok l1 -> lit_ok l2 -> pair_sep sep -> no_cont l2 rest -> exists x y,
  point_of_text (lit_text l1 ++ sep ++ lit_text l2 ++ rest) = Ok (x, y) /\ (x == lit_val l1)%Q /\ (y == lit_val l2)%Q.
Proof.
  intros l1 sep l2 rest H1 H2 S N. exists (fnum_val (fnum_of l1)), (fnum_val (fnum_of l2)). split; [|split; apply fnum_val_lit; auto].
  unfold point_of_text. assert (M : match_pair (lit_text l1 ++ sep ++ lit_text l2 ++ rest) = Some (fnum_val (fnum_of l1), fnum_val (fnum_of l2))).
  { unfold match_pair. rewrite match_float_lit; auto. rewrite match_comma_sep by auto. rewrite match_float_lit by auto. reflexivity.
    apply nc_no_cont. apply sep_nc; auto. }
  destruct (lit_text l1 ++ sep ++ lit_text l2 ++ rest) eqn:E; cbn [find_pair]; rewrite M; reflexivity.
Qed.
