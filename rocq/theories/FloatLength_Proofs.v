Require Import ZArith QArith Qabs Qreals Reals Ascii String List Bool Lqa Lia Lra.
From Flocq Require Import Core BinarySingleNaN Plus_error.
Require Import Verif.Base Verif.Text_Spec Verif.Text_Proofs Verif.Color_Spec Verif.Color_Proofs Verif.Fmt_Model Verif.Length_Model Verif.Length_Spec Verif.Length_Proofs Verif.FmtG_Model
  Verif.Float_Model Verif.Float_Spec Verif.Float_Proofs Verif.FloatAngle_Proofs Verif.FloatBox_Proofs Verif.FloatView_Model Verif.FloatView_Proofs Verif.FloatText_Model Verif.FloatText_Spec Verif.FloatText_Proofs
  Verif.FloatLength_Model Verif.FloatLength_Spec.
Import ListNotations.
Open Scope R_scope.

(** * Relative errors, in units of u *)
Definition rel (k : R) (x : fl) (r : R) : Prop := finite x /\ exists e, Rabs e <= k * u /\ value x = r * (1 + e).
Lemma u_tiny : 0 < u /\ u <= / 1000000000000000.
Proof. pose proof u_pos. rewrite u_val in *. lra. Qed.
Lemma rel_exact : forall x, finite x -> rel 0 x (value x).
Proof. intros x F. split; auto. exists 0. rewrite Rabs_R0. lra. Qed.
Lemma rel_is : forall x v, is x v -> rel 0 x v.
Proof. intros x v [F <-]. apply rel_exact; auto. Qed.
Lemma rel_weaken : forall k k' x r, k <= k' -> rel k x r -> rel k' x r.
Proof. intros k k' x r K [F (e & E & V)]. split; auto. exists e. split; auto. pose proof u_pos. nra. Qed.
Lemma rel_about : forall k x r, rel k x r -> Rabs (value x - r) <= k * u * Rabs r.
Proof. intros k x r [F (e & E & ->)]. replace (r * (1 + e) - r) with (e * r) by ring. rewrite Rabs_mult. apply Rmult_le_compat_r; [apply Rabs_pos|auto]. Qed.
Lemma one_off : forall a e, 0 <= a <= 20 -> Rabs e <= a * u -> / 2 <= 1 + e <= 2 /\ Rabs e <= / 1000.
Proof. intros a e A E. pose proof u_tiny. assert (Rabs e <= / 1000) by nra. assert (H1 := H0). apply abs_ge in H1. lra. Qed.
Lemma sized_off : forall lo hi r a e, sized lo hi r -> 0 <= a <= 20 -> Rabs e <= a * u -> sized (lo - 1) (hi + 1) (r * (1 + e)).
Proof.
  intros lo hi r a e S A E. destruct (one_off a e A E) as [O _]. apply (sized_mul lo hi r (1 + e) (-1) 1); auto.
  change (bpow radix2 (-1)) with (/ 2). change (bpow radix2 1) with 2. rewrite Rabs_pos_eq; lra.
Qed.
Lemma sized_mul2 : forall l h l' h' a b, sized l h a -> sized l' h' b -> sized (l + l') (h + h') (a * b).
Proof. intros l h l' h' a b A [-> | B]; [left; ring|]. apply sized_mul; auto. Qed.
Lemma sized_inv : forall l h b, b <> 0 -> sized l h b -> sized (- h) (- l) (/ b).
Proof.
  intros l h b N [-> | [B C]]; [congruence|]. right. rewrite Rabs_inv, !bpow_opp. pose proof (bpow_gt_0 radix2 l). pose proof (bpow_gt_0 radix2 h).
  split; apply Rinv_le; auto; lra.
Qed.
Lemma sized_div : forall l h l' h' a b, b <> 0 -> sized l h a -> sized l' h' b -> sized (l - h') (h - l') (a / b).
Proof. intros. unfold Rdiv, Z.sub. apply sized_mul2; auto. apply sized_inv; auto. Qed.
Lemma three : forall a b e f g, 0 <= a <= 10 -> 0 <= b <= 10 -> Rabs e <= a * u -> Rabs f <= b * u -> Rabs g <= u -> Rabs ((1 + e) * (1 + f) * (1 + g) - 1) <= (a + b + 1 + / 100) * u.
Proof.
  intros a b e f g A B E F G. replace ((1 + e) * (1 + f) * (1 + g) - 1) with (e + f + g + (e * f + (e + f + e * f) * g)) by ring. pose proof u_tiny.
  assert (EF : Rabs (e * f) <= 100 * (u * u)). { rewrite Rabs_mult. replace (100 * (u * u)) with ((10 * u) * (10 * u)) by ring. apply Rmult_le_compat; try apply Rabs_pos; nra. }
  assert (UU : u * u <= u * / 1000000) by (apply Rmult_le_compat_l; lra).
  assert (S : Rabs (e + f + e * f) <= 21 * u). { eapply Rle_trans; [apply Rabs_triang|]. pose proof (Rabs_triang e f). nra. }
  assert (SG : Rabs ((e + f + e * f) * g) <= 21 * (u * u)). { rewrite Rabs_mult. replace (21 * (u * u)) with ((21 * u) * u) by ring. apply Rmult_le_compat; try apply Rabs_pos; lra. }
  eapply Rle_trans; [apply Rabs_triang|]. pose proof (Rabs_triang (e * f) ((e + f + e * f) * g)). pose proof (Rabs_triang (e + f) g). pose proof (Rabs_triang e f). lra.
Qed.
Lemma rel_mul : forall a b x y r s, 0 <= a <= 10 -> 0 <= b <= 10 -> rel a x r -> rel b y s -> sized (-990) 990 (r * s) -> rel (a + b + 1 + / 100) (fmul x y) (r * s).
Proof.
  intros a b x y r s A B [F (e & E & V)] [G (f & D & W)] S. destruct (fmul_rel x y F G) as (g & Hg & [FM VM]).
  { rewrite V, W. replace (r * (1 + e) * (s * (1 + f))) with (r * s * (1 + e) * (1 + f)) by ring. apply (sized_widen (-992) 992); try lia.
    apply (sized_off (-991) 991 _ b); auto; try lra. apply (sized_off (-990) 990 _ a); auto; lra. }
  split; auto. exists ((1 + e) * (1 + f) * (1 + g) - 1). split; [apply three; auto|]. rewrite VM, V, W. ring.
Qed.
Lemma inv_off : forall b f, 0 <= b <= 9 -> Rabs f <= b * u -> exists f', Rabs f' <= (b + / 1000) * u /\ / (1 + f) = 1 + f'.
Proof.
  intros b f B F. destruct (one_off b f ltac:(lra) F) as [O O2]. exists (/ (1 + f) - 1). split; [|ring]. replace (/ (1 + f) - 1) with (- f * / (1 + f)) by (field; lra).
  pose proof u_tiny. assert (G := F). apply abs_ge in G. assert (X : / (1 + f) <= 1 + / 10000).
  { rewrite <- (Rinv_inv (1 + / 10000)). apply Rinv_le; [lra|]. assert (9 * u <= 9 * / 1000000000000000) by lra. assert (b * u <= 9 * u) by nra. lra. }
  rewrite Rabs_mult, Rabs_Ropp, (Rabs_pos_eq (/ (1 + f))) by (apply Rlt_le, Rinv_0_lt_compat; lra). apply Rle_trans with (b * u * (1 + / 10000)); [apply Rmult_le_compat; auto; [apply Rabs_pos|apply Rlt_le, Rinv_0_lt_compat; lra]|]. nra.
Qed.
Lemma rel_div : forall a b x y r s, 0 <= a <= 9 -> 0 <= b <= 9 -> s <> 0 -> rel a x r -> rel b y s -> sized (-990) 990 (r / s) -> rel (a + b + 1 + / 50) (fdiv x y) (r / s).
Proof.
  intros a b x y r s A B N [F (e & E & V)] [G (f & D & W)] S. destruct (one_off b f ltac:(lra) D) as [O _]. destruct (inv_off b f B D) as (f' & D' & I).
  assert (Q : value x / value y = r / s * (1 + e) * (1 + f')) by (rewrite V, W, <- I; field; lra).
  assert (NY : value y <> 0) by (rewrite W; intros H; apply Rmult_integral in H; lra).
  destruct (fdiv_rel x y F NY) as (g & Hg & [FM VM]).
  { rewrite Q. apply (sized_widen (-992) 992); try lia. apply (sized_off (-991) 991 _ (b + / 1000)); auto; try lra. apply (sized_off (-990) 990 _ a); auto; lra. }
  apply (rel_weaken (a + (b + / 1000) + 1 + / 100)); [lra|]. split; auto. exists ((1 + e) * (1 + f') * (1 + g) - 1). split; [apply three; auto; lra|]. rewrite VM, Q. ring.
Qed.

(** * The constants *)
Lemma const_rel : forall x q r, finite x -> Q2R q = r -> 0 < r -> (Qabs (f2q x - q) <= q * (1 # 9007199254740992))%Q -> rel 1 x r.
Proof.
  intros x q r F Q P H. split; auto. exists ((value x - r) / r). split; [|field; lra]. apply Qle_Rle in H. rewrite Q2R_abs, Q2R_minus, Q2R_mult, f2q_value, Q in H.
  unfold Rdiv. rewrite Rabs_mult, Rabs_inv, (Rabs_pos_eq r) by lra. apply Rmult_le_reg_r with r; auto. rewrite Rmult_assoc, Rinv_l, u_val by lra.
  replace (Q2R (1 # 9007199254740992)) with (/ 9007199254740992) in H by (unfold Q2R; cbn; lra). lra.
Qed.
Lemma pt_rel : rel 1 fpt_px (13333 / 10000).
Proof. apply (const_rel _ (13333 # 10000)); [vm_compute; reflexivity|unfold Q2R; cbn; lra|lra|vm_compute; discriminate]. Qed.
Lemma mm_rel : rel 1 fmm_in (393701 / 10000000).
Proof. apply (const_rel _ (393701 # 10000000)); [vm_compute; reflexivity|unfold Q2R; cbn; lra|lra|vm_compute; discriminate]. Qed.
Lemma cm_rel : rel 1 fcm_in (393701 / 1000000).
Proof. apply (const_rel _ (393701 # 1000000)); [vm_compute; reflexivity|unfold Q2R; cbn; lra|lra|vm_compute; discriminate]. Qed.
Lemma int_rel : forall z, (Z.abs z <= 2 ^ 53)%Z -> rel 0 (fz z) (IZR z).
Proof. intros z H. apply rel_is, fz_is. auto. Qed.
Lemma sized_const : forall r, / 32 <= r <= 128 -> sized (-5) 7 r.
Proof. intros r H. right. change (bpow radix2 (-5)) with (/ 32). change (bpow radix2 7) with 128. rewrite Rabs_pos_eq; lra. Qed.

(** * value() *)
Lemma mod_rel : forall x, moderate x -> rel 0 x (value x) /\ sized (-300) 300 (value x).
Proof. intros x [F M]. split; [apply rel_exact; auto|exact M]. Qed.
Ltac szd := first [eassumption | apply sized_const; lra |
  match goal with
  | |- sized _ _ (_ * _) => eapply sized_mul2; szd
  | |- sized _ _ (_ / _) => eapply sized_div; [lra|szd|szd] end].
Ltac size := eapply sized_widen; [| |szd]; lia.
Lemma fvalue_rel : forall c a u0, moderate a -> moderate_ctx c ->
  match pixels_in c u0 with
  | Some k => exists y, fvalue c (mkFlen a u0) = FNumber y /\ rel (31 / 10) y (value a * k) /\ sized (-620) 620 (value a * k)
  | None => fvalue c (mkFlen a u0) = FLength (mkFlen a u0)
  end.
Proof.
  intros c a u0 MA (CP & CR & CS & CH & CV). destruct (mod_rel a MA) as [RA SA]. pose proof pt_rel as PT. pose proof mm_rel as MM. pose proof cm_rel as CM.
  pose proof (int_rel 100 ltac:(lia)) as I100. pose proof (int_rel 16 ltac:(lia)) as I16.
  assert (fmin_same : forall h, fmin h h = h) by (intros h; unfold fmin; destruct (flt h h); auto). assert (fmax_same : forall h, fmax h h = h) by (intros h; unfold fmax; destruct (flt h h); auto).
  unfold pixels_in, fvalue, flen_float. cbn [funits famount].
  assert (TWO : forall x k, moderate x -> (/ 32 <= k <= 128) -> forall y, rel 1 y k -> rel (31/10) (fmul (fmul a x) y) (value a * (k * value x)) /\ sized (-620) 620 (value a * (k * value x))).
  { intros x k MX K y RY. destruct (mod_rel x MX) as [RX SX]. split; [|size]. replace (value a * (k * value x)) with (value a * value x * k) by ring.
    eapply rel_weaken; [|eapply rel_mul; [| |eapply rel_mul; [| |exact RA|exact RX|]|exact RY|]]; try lra; size. }
  assert (ONE : forall x, moderate x -> rel (31/10) (fmul a x) (value a * (1 * value x)) /\ sized (-620) 620 (value a * (1 * value x))).
  { intros x MX. destruct (mod_rel x MX) as [RX SX]. split; [|size]. rewrite Rmult_1_l. eapply rel_weaken; [|eapply rel_mul; [| |exact RA|exact RX|]]; try lra; size. }
  assert (HUN : forall x, moderate x -> rel (31/10) (fdiv (fmul a x) (fz 100)) (value a * (value x / 100)) /\ sized (-620) 620 (value a * (value x / 100))).
  { intros x MX. destruct (mod_rel x MX) as [RX SX]. split; [|size]. replace (value a * (value x / 100)) with (value a * value x / 100) by field.
    eapply rel_weaken; [|eapply rel_div; [| | |eapply rel_mul; [| |exact RA|exact RX|]|exact I100|]]; try lra; size. }
  assert (ID : rel (31/10) a (value a * 1) /\ sized (-620) 620 (value a * 1)). { rewrite Rmult_1_r. split; [eapply rel_weaken; [|exact RA]; lra|size]. }
  destruct u0; cbn [times].
  - eexists. split; [reflexivity|]. exact ID.
  - eexists. split; [reflexivity|]. exact ID.
  - eexists. split; [reflexivity|]. split; [|size]. eapply rel_weaken; [|eapply rel_mul; [| |exact RA|exact PT|]]; try lra; size.
  - eexists. split; [reflexivity|]. split; [|size]. eapply rel_weaken; [|eapply rel_mul; [| |exact RA|exact I16|]]; try lra; size.
  - destruct (fc_ppi c) as [x|]; cbn [times]; auto. eexists. split; [reflexivity|]. apply TWO; auto; lra.
  - destruct (fc_ppi c) as [x|]; cbn [times]; auto. eexists. split; [reflexivity|]. apply TWO; auto; lra.
  - destruct (fc_ppi c) as [x|]; cbn [times]; auto. eexists. split; [reflexivity|]. apply ONE; auto.
  - destruct (fc_rel c) as [x|]; cbn [times]; auto. eexists. split; [reflexivity|]. destruct (mod_rel x CR) as [RX SX]. split; [|size]. replace (value a * (1 / 100 * value x)) with (value a / 100 * value x) by field.
    eapply rel_weaken; [|eapply rel_mul; [| |eapply rel_div; [| | |exact RA|exact I100|]|exact RX|]]; try lra; size.
  - destruct (fc_size c) as [x|]; cbn [times]; auto. eexists. split; [reflexivity|]. apply ONE; auto.
  - destruct (fc_height c) as [x|]; cbn [times]; auto. eexists. split; [reflexivity|]. apply ONE; auto.
  - destruct (fc_vb c) as [[w h]|]; auto. eexists. split; [reflexivity|]. apply HUN; tauto.
  - destruct (fc_vb c) as [[w h]|]; auto. eexists. split; [reflexivity|]. apply HUN; tauto.
  - destruct (fc_vb c) as [[w h]|]; auto. rewrite fmin_same. eexists. split; [reflexivity|]. apply HUN; tauto.
  - destruct (fc_vb c) as [[w h]|]; auto. rewrite fmax_same. eexists. split; [reflexivity|]. apply HUN; tauto.
  - eexists. split; [reflexivity|]. exact ID.
Qed.

(** * Sums *)
Lemma rnd_sign : forall x y, (rnd (value x + value y) < 0 <-> value x + value y < 0) /\ (0 < rnd (value x + value y) <-> 0 < value x + value y).
Proof.
  intros x y. set (s := value x + value y). assert (N : s <> 0 -> rnd s <> 0). { intros H. unfold rnd, s. apply round_plus_neq_0; auto; try apply generic_format_B2R; try typeclasses eauto; try exact p53. }
  pose proof (rnd_le 0 s) as A. pose proof (rnd_le s 0) as B. rewrite rnd_0 in *. split; split; intros H; destruct (Rtotal_order s 0) as [L|[L|L]]; try lra; try (rewrite L, rnd_0 in H; lra).
Qed.
Lemma sum_sign : forall x y, finite x -> finite y ->
  (flt (fadd x y) (fz 0) = true <-> value x + value y < 0) /\ (flt (fz 0) (fadd x y) = true <-> 0 < value x + value y) /\
  (fle (fadd x y) (fz 0) = true <-> value x + value y <= 0) /\ (fle (fz 0) (fadd x y) = true <-> 0 <= value x + value y).
Proof.
  intros x y X Y. destruct (rnd_sign x y) as [NEG POS]. destruct fz0 as [F0 V0].
  pose proof (Bplus_correct 53 1024 p53 p1024 mode_NE x y X Y) as H. fold (fadd x y) in H. fold (value x) (value y) in H. change (round_mode mode_NE) with ZnearestE in H. fold (rnd (value x + value y)) in H.
  destruct (Rlt_bool_spec (Rabs (rnd (value x + value y))) (bpow radix2 1024)) as [L|L].
  - destruct H as (V & F & _). fold (value (fadd x y)) in V. rewrite (flt_spec _ _ F F0), (flt_spec _ _ F0 F), (fle_spec _ _ F F0), (fle_spec _ _ F0 F), V0, V. repeat split; intros; try tauto; destruct (Rtotal_order (value x + value y) 0) as [T|[T|T]]; try lra; try (rewrite T, rnd_0 in *; lra).
    all: try (apply NEG in T; lra). all: try (apply POS in T; lra).
  - destruct H as [I S]. assert (NZ : value x + value y <> 0). { intros E. rewrite E, rnd_0, Rabs_R0 in L. pose proof (bpow_gt_0 radix2 1024). lra. }
    assert (E0 : B2SF (fz 0) = SpecFloat.S754_zero false) by reflexivity.
    pose proof (value_sign x X) as SX. pose proof (value_sign y Y) as SY. pose proof (Rabs_pos (value x)). pose proof (Rabs_pos (value y)).
    unfold flt, fle, Bltb, Bleb, SpecFloat.SFltb, SpecFloat.SFleb. rewrite I, E0. cbn [binary_overflow overflow_to_inf].
    unfold signed in *. rewrite <- S in SY. destruct (Bsign x); cbn; repeat split; intros; try discriminate; try reflexivity; lra.
Qed.
Lemma sum_big : forall x y a b, rel a x y -> 0 <= a <= 20 -> sized (-990) 990 y -> moderate b -> Rabs (value b + value x) <= big.
Proof.
  intros x y a b [F (e & E & V)] A S [FB MB]. pose proof (sized_off _ _ _ a e S A E) as S2. rewrite <- V in S2. eapply Rle_trans; [apply Rabs_triang|]. unfold big.
  assert (P : forall lo hi r, sized lo hi r -> Rabs r <= bpow radix2 hi). { intros lo hi r [-> | Z]; [rewrite Rabs_R0; apply bpow_ge_0|lra]. }
  apply P in S2. assert (MB2 : Rabs (value b) <= bpow radix2 300) by (apply (P (-300)%Z); exact MB).
  assert (bpow radix2 300 <= bpow radix2 1022) by (apply bpow_le; lia). assert (bpow radix2 (990 + 1) <= bpow radix2 1022) by (apply bpow_le; lia). change (bpow radix2 1023) with (bpow radix2 (1022 + 1)). rewrite bpow_plus. change (bpow radix2 1) with 2. lra.
Qed.
Lemma fis0_spec : forall x, finite x -> fis0 x = Req_bool (value x) 0.
Proof. intros x F. unfold fis0, feq. rewrite Beqb_correct by (auto; apply fz0). unfold value. f_equal. Qed.
Lemma fis0_true : forall x, finite x -> fis0 x = true <-> value x = 0.
Proof. intros x F. rewrite fis0_spec by auto. destruct (Req_bool_spec (value x) 0); split; intros; congruence. Qed.
Lemma iadd_rel : forall a us b uo k, moderate a -> moderate b -> units_in us uo = Some k -> unit_eqb us uo = false -> fis0 a = false -> fis0 b = false ->
  exists y, flen_iadd (mkFlen a us) (mkFlen b uo) = Ok (mkFlen (fadd a y) us) /\ rel (21 / 10) y (value b * k) /\ sized (-320) 320 (value b * k) /\ (k = 1 -> y = b).
Proof.
  intros a us b uo k MA MB K U A B. destruct (mod_rel b MB) as [RB SB]. pose proof pt_rel as PT. pose proof mm_rel as MM. pose proof cm_rel as CM.
  pose proof (int_rel 10 ltac:(lia)) as I10. pose proof (int_rel 12 ltac:(lia)) as I12. pose proof (int_rel 16 ltac:(lia)) as I16.
  assert (MUL : forall x r j, rel j x r -> 0 <= j <= 1 -> / 32 <= r <= 128 -> r <> 1 -> forall k', k' = r -> rel (21/10) (fmul b x) (value b * k') /\ sized (-320) 320 (value b * k') /\ (k' = 1 -> fmul b x = b)).
  { intros x r j RX J R1 R2 k' ->. split; [|split; [size|intros; congruence]]. eapply rel_weaken; [|eapply rel_mul; [| |exact RB|exact RX|]]; try lra; size. }
  assert (DIV : forall x r j, rel j x r -> 0 <= j <= 1 -> / 32 <= r <= 128 -> r <> 1 -> forall k', k' = 1 / r -> rel (21/10) (fdiv b x) (value b * k') /\ sized (-320) 320 (value b * k') /\ (k' = 1 -> fdiv b x = b)).
  { intros x r j RX J R1 R2 k' ->. replace (value b * (1 / r)) with (value b / r) by (field; lra). split; [|split; [size|]].
    - eapply rel_weaken; [|eapply rel_div; [| | |exact RB|exact RX|]]; try lra; size.
    - intros H. exfalso. apply R2. apply (f_equal (fun t => t * r)) in H. unfold Rdiv in H. rewrite Rmult_assoc, Rinv_l in H by lra. lra. }
  assert (ID : forall k', k' = 1 -> rel (21/10) b (value b * k') /\ sized (-320) 320 (value b * k') /\ (k' = 1 -> b = b)).
  { intros k' ->. rewrite Rmult_1_r. split; [eapply rel_weaken; [|exact RB]; lra|]. split; [size|auto]. }
  unfold flen_iadd. cbn [famount funits]. rewrite U, A, B. unfold units_in in K. rewrite U in K. clear A B.
  destruct us, uo; try discriminate U; cbn in K; try discriminate K; injection K as K; symmetry in K; (eexists; split; [reflexivity|]);
    first [apply ID; lra | eapply (MUL _ _ _ PT); lra | eapply (MUL _ _ _ MM); lra | eapply (MUL _ _ _ CM); lra | eapply (MUL _ _ _ I10); lra | eapply (MUL _ _ _ I12); lra | eapply (MUL _ _ _ I16); lra
      | eapply (DIV _ _ _ PT); lra | eapply (DIV _ _ _ MM); lra | eapply (DIV _ _ _ CM); lra | eapply (DIV _ _ _ I10); lra | eapply (DIV _ _ _ I12); lra | eapply (DIV _ _ _ I16); lra].
Qed.
Lemma units_pos : forall s o k, units_in s o = Some k -> 0 < k.
Proof.
  intros s o k. unfold units_in. destruct (unit_eqb s o); [intros H; injection H; lra|].
  destruct s, o; cbn; intros H; try discriminate H; injection H as <-; lra.
Qed.
Lemma iadd_none : forall a us b uo, units_in us uo = None -> fis0 a = false -> fis0 b = false -> flen_iadd (mkFlen a us) (mkFlen b uo) = Err ValueError.
Proof.
  intros a us b uo K A B. unfold units_in in K. unfold flen_iadd. cbn [famount funits]. destruct (unit_eqb us uo); [discriminate|]. rewrite A, B.
  destruct us, uo; cbn in K; try discriminate K; reflexivity.
Qed.
Lemma neg_moderate : forall b, moderate b -> moderate (fneg b) /\ value (fneg b) = - value b.
Proof.
  intros b [F M]. assert (V : value (fneg b) = - value b) by (unfold value, fneg; apply B2R_Bopp). split; auto. split; [unfold finite, fneg; rewrite is_finite_Bopp; exact F|].
  rewrite V. destruct M as [-> | M]; [left; lra|right]. rewrite Rabs_Ropp. auto.
Qed.
(** The answer depends on the sign of the difference. *)
Definition sign_ok (d : fl) (r : R) : Prop :=
  (flt d (fz 0) = true <-> r < 0) /\ (flt (fz 0) d = true <-> 0 < r) /\ (fle d (fz 0) = true <-> r <= 0) /\ (fle (fz 0) d = true <-> 0 <= r).
Lemma cmp_sign : forall c s o d x y, flen_sub s o = Ok d -> sign_ok (famount d) (x - y) -> answers (flen_cmp c s o) (holds c x y).
Proof.
  intros c s o d x y D (S1 & S2 & S3 & S4). destruct c; cbn [flen_cmp holds]; unfold flen_lt, flen_le, flen_gt, flen_ge; rewrite D; cbn [rbind]; eexists; (split; [reflexivity|]); [rewrite S1|rewrite S3|rewrite S2|rewrite S4]; split; lra.
Qed.
Lemma sign_finite : forall d, finite d -> sign_ok d (value d).
Proof. intros d F. destruct fz0 as [F0 V0]. unfold sign_ok. rewrite (flt_spec _ _ F F0), (flt_spec _ _ F0 F), (fle_spec _ _ F F0), (fle_spec _ _ F0 F), V0. tauto. Qed.
Lemma sign_same : forall d r s, sign_ok d r -> (r < 0 <-> s < 0) -> (0 < r <-> 0 < s) -> sign_ok d s.
Proof.
  intros d r s (A & B & C & D) X Y. assert (Z : r <= 0 <-> s <= 0). { split; intros H; apply Rnot_lt_le; intros Q; apply Y in Q; lra. }
  assert (W : 0 <= r <-> 0 <= s). { split; intros H; apply Rnot_lt_le; intros Q; apply X in Q; lra. } unfold sign_ok. rewrite A, B, C, D, X, Y, Z, W. tauto.
Qed.
Lemma near_sign : forall a y z, Rabs (y - z) < Rabs (a + z) -> (a + y < 0 <-> a + z < 0) /\ (0 < a + y <-> 0 < a + z).
Proof. intros a y z H. apply Rabs_def2 in H as [H1 H2]. unfold Rabs in *. destruct (Rcase_abs (a + z)); lra. Qed.

(** * Conversion *)
Lemma read_decimal : forall w n, finite w -> Rabs (value w - IZR n / 1000000000000) < / 2000000000000 -> exists l, lit_ok l /\ l_exp l = None /\ flength_str w = lit_text l /\
  finite (ffnum (fnum_of l)) /\ value (ffnum (fnum_of l)) = rnd (IZR n / 1000000000000).
Proof.
  intros w n F H. destruct (twelve_lit w F) as (l & y & L & X & E & Y & G & _). destruct (twelve w F) as (y' & E' & G' & S' & V' & _).
  rewrite E, ffloat_lit in E' by auto. injection E' as E'. exists l. rewrite <- E' in *. split; auto. split; auto. split; auto. split; auto.
  assert (A : Rabs (IZR n / 1000000000000) = IZR (Z.abs n) / 1000000000000). { unfold Rdiv. rewrite Rabs_mult, <- abs_IZR, (Rabs_pos_eq (/ 1000000000000)); lra. }
  assert (NK : Qround_even (Qabs (f2q w) * E12) = Z.abs n).
  { eapply nearest_unique; [apply round_nearest|]. assert (D : Rabs (Rabs (value w) - IZR (Z.abs n) / 1000000000000) < / 2000000000000). { rewrite <- A. eapply Rle_lt_trans; [apply Rabs_triang_inv2|exact H]. }
    apply Rabs_def2 in D as [R1 R2]. assert (QX : Q2R (Qabs (f2q w) * E12) = Rabs (value w) * 1000000000000) by (rewrite a_q; reflexivity).
    assert (I : Q2R (inject_Z (Z.abs n)) = IZR (Z.abs n)) by (unfold Q2R, inject_Z; cbn [Qnum Qden]; field). assert (J : Q2R (1 # 2) = / 2) by (unfold Q2R; cbn; lra).
    assert (LO : (inject_Z (Z.abs n) - (1 # 2) < Qabs (f2q w) * E12)%Q) by (apply Rlt_Qlt; rewrite Q2R_minus, QX, I, J; lra).
    assert (HI : (Qabs (f2q w) * E12 < inject_Z (Z.abs n) + (1 # 2))%Q) by (apply Rlt_Qlt; rewrite Q2R_plus, QX, I, J; lra).
    unfold nearest. split; [Lqa.lra|]. split; [Lqa.lra|]. intros [Z|Z]; Lqa.lra. }
  rewrite NK in V'. rewrite (value_sign _ G'), S', V'. destruct (Z.eq_dec n 0) as [->|N].
  - change (Z.abs 0) with 0%Z. replace (IZR 0 / 1000000000000) with 0 by lra. rewrite rnd_0. unfold signed. destruct (Bsign w); lra.
  - pose proof (value_sign w F) as SW. pose proof (Rabs_pos (value w)). apply Rabs_def2 in H as [H1 H2]. unfold signed in *. destruct (Bsign w).
    + assert (n < 0)%Z. { apply Z.nle_gt. intros P. assert (1 <= IZR n) by (apply IZR_le; lia). lra. } rewrite Z.abs_neq by lia. rewrite opp_IZR. replace (- IZR n / 1000000000000) with (- (IZR n / 1000000000000)) by lra. rewrite rnd_opp. ring.
    + assert (0 < n)%Z. { apply Z.nle_gt. intros P. assert (IZR n <= -1) by (apply IZR_le; lia). lra. } rewrite Z.abs_eq by lia. reflexivity.
Qed.
Lemma read_some : forall w, finite w -> exists l n, lit_ok l /\ l_exp l = None /\ flength_str w = lit_text l /\ finite (ffnum (fnum_of l)) /\
  Rabs (value (ffnum (fnum_of l)) - value w) <= / 1000000000000 /\ value (ffnum (fnum_of l)) = rnd (IZR n / 1000000000000).
Proof.
  intros w F. destruct (twelve_lit w F) as (l & y & L & X & E & Y & G & NR & _). destruct (twelve w F) as (y' & E' & G' & S' & V' & _).
  rewrite E, ffloat_lit in E' by auto. injection E' as E'. rewrite Y in NR. rewrite <- E' in *. set (n := Qround_even (Qabs (f2q w) * E12)) in *.
  exists l, (if Bsign w then - n else n)%Z. split; auto. split; auto. split; auto. split; auto. split; auto. rewrite (value_sign _ G'), S', V'. unfold signed.
  destruct (Bsign w); auto. rewrite opp_IZR. replace (- IZR n / 1000000000000) with (- (IZR n / 1000000000000)) by lra. rewrite rnd_opp. reflexivity.
Qed.
Definition per_inch (t : target) : R := match t with Mm => 393701 / 10000000 | Cm => 393701 / 1000000 | Inch => 1 end.
Definition target_text (t : target) : text := match t with Mm => T "mm" | Cm => T "cm" | Inch => T "in" end.
Lemma convert_number : forall t p c a u0 k, moderate a -> moderate p -> value p <> 0 -> moderate_ctx c -> pixels_in (at_ppi p c) u0 = Some k ->
  exists w, fconvert t p c (mkFlen a u0) = Ok (flen_of_text (flength_str w ++ target_text t)) /\ rel (62 / 10) w (value a * k / (value p * per_inch t)).
Proof.
  intros t p c a u0 k MA MP NP MC0 K. assert (MC : moderate_ctx (at_ppi p c)) by (destruct MC0 as (C1 & C2 & C3 & C4 & C5); split; [exact MP|]; cbn [fc_rel fc_size fc_height fc_vb at_ppi]; auto).
  pose proof (fvalue_rel (at_ppi p c) a u0 MA MC) as V. rewrite K in V. destruct V as (v & EV & RV & SV). destruct (mod_rel p MP) as [RP SP].
  assert (D : forall d r, rel (202 / 100) d (value p * r) -> / 32 <= r <= 128 -> exists w, fdivide v d = Ok w /\ rel (62 / 10) w (value a * k / (value p * r))).
  { intros d r RD R. assert (NR : value p * r <> 0) by (apply Rmult_integral_contrapositive_currified; lra).
    assert (ND : value d <> 0). { destruct RD as [_ (e & E & ->)]. destruct (one_off (202 / 100) e ltac:(lra) E) as [O _]. intros H. apply Rmult_integral in H. lra. }
    exists (fdiv v d). split. { unfold fdivide. fold (fis0 d). rewrite fis0_spec by apply RD. rewrite Req_bool_false by auto. reflexivity. }
    eapply rel_weaken; [|eapply rel_div; [| | |exact RV|exact RD|]]; try lra; auto. eapply sized_widen; [| |eapply sized_div; [exact NR|exact SV|eapply sized_mul2; [exact SP|apply (sized_const r R)]]]; lia. }
  assert (G : forall dv u1 d, dv p = d -> (exists w, fdivide v d = Ok w /\ rel (62 / 10) w (value a * k / (value p * per_inch t))) ->
    exists w, fto_unit dv u1 p c (mkFlen a u0) = Ok (flen_of_text (flength_str w ++ u1)) /\ rel (62 / 10) w (value a * k / (value p * per_inch t))).
  { intros dv u1 d <- (w & W & RW). exists w. split; auto. unfold fto_unit. unfold at_ppi in EV. rewrite EV, W. reflexivity. }
  destruct t; cbn [fconvert per_inch target_text] in *.
  - eapply G; [reflexivity|]. apply D; [|lra]. eapply rel_weaken; [|eapply rel_mul; [| |exact RP|exact mm_rel|]]; try lra; size.
  - eapply G; [reflexivity|]. apply D; [|lra]. eapply rel_weaken; [|eapply rel_mul; [| |exact RP|exact cm_rel|]]; try lra; size.
  - eapply G; [reflexivity|]. apply D; [|lra]. rewrite Rmult_1_r. eapply rel_weaken; [|exact RP]; lra.
Qed.
Lemma target_read : forall t l, lit_ok l -> l_exp l = None -> flen_of_text (lit_text l ++ target_text t) = mkFlen (ffnum (fnum_of l)) (target_unit t).
Proof. intros t l L X. rewrite flen_of_lit by (destruct t; auto). destruct t; reflexivity. Qed.
Lemma decimal_size : forall n, IZR n / 1000000000000 = 0 \/ / 1000000000000 <= Rabs (IZR n / 1000000000000).
Proof.
  intros n. destruct (Z.eq_dec n 0) as [->|N]; [left; lra|right]. unfold Rdiv. rewrite Rabs_mult, <- abs_IZR, (Rabs_pos_eq (/ 1000000000000)) by lra. assert (1 <= IZR (Z.abs n)) by (apply IZR_le; lia). lra.
Qed.
Lemma decimal_rel : forall n, exists e, Rabs e <= u /\ rnd (IZR n / 1000000000000) = IZR n / 1000000000000 * (1 + e).
Proof.
  intros n. apply rnd_rel. destruct (decimal_size n) as [Z|Z]; [left; auto|right]. eapply Rle_trans; [|exact Z]. apply Rle_trans with (bpow radix2 (-40)); [apply bpow_le; lia|]. change (bpow radix2 (-40)) with (/ 1099511627776). lra.
Qed.
Lemma decimal_moderate : forall a n, finite a -> value a = rnd (IZR n / 1000000000000) -> (Z.abs n <= 600 * 10 ^ 12)%Z -> moderate a.
Proof.
  intros a n F V B. split; auto. destruct (decimal_rel n) as (e & E & R). rewrite V, R. apply (sized_widen (-41 - 1) (10 + 1)); try lia. apply (sized_off _ _ _ 1); try lra.
  destruct (decimal_size n) as [Z|Z]; [left; auto|right]. change (bpow radix2 (-41)) with (/ 2199023255552). change (bpow radix2 10) with 1024. split; [lra|].
  unfold Rdiv. rewrite Rabs_mult, <- abs_IZR, (Rabs_pos_eq (/ 1000000000000)) by lra. apply IZR_le in B. change (600 * 10 ^ 12)%Z with 600000000000000%Z in B. lra.
Qed.
Lemma convert_same : forall t p c a n, moderate p -> value p <> 0 -> moderate_ctx c -> finite a -> value a = rnd (IZR n / 1000000000000) -> (Z.abs n <= 600 * 10 ^ 12)%Z ->
  exists b, fconvert t p c (mkFlen a (target_unit t)) = Ok (mkFlen b (target_unit t)) /\ value b = value a.
Proof.
  intros t p c a n MP NP MC FA VA B. pose proof (decimal_moderate a n FA VA B) as MA.
  destruct (convert_number t p c a (target_unit t) (per_inch t * value p) MA MP NP MC) as (w & E & RW); [destruct t; reflexivity|].
  replace (value a * (per_inch t * value p) / (value p * per_inch t)) with (value a) in RW by (destruct t; cbn [per_inch]; field; lra).
  pose proof (rel_about _ _ _ RW) as N1. destruct (decimal_rel n) as (e & Ee & R). rewrite <- VA in R. pose proof u_tiny as [UP _].
  set (t0 := IZR n / 1000000000000) in *. assert (T0 : Rabs t0 <= 600).
  { unfold t0, Rdiv. rewrite Rabs_mult, <- abs_IZR, (Rabs_pos_eq (/ 1000000000000)) by lra. apply IZR_le in B. change (600 * 10 ^ 12)%Z with 600000000000000%Z in B. lra. }
  assert (A1 : Rabs (value a - t0) <= u * 600). { rewrite R. replace (t0 * (1 + e) - t0) with (e * t0) by ring. rewrite Rabs_mult. apply Rmult_le_compat; auto; apply Rabs_pos. }
  assert (A2 : Rabs (value a) <= 601). { replace (value a) with (value a - t0 + t0) by ring. eapply Rle_trans; [apply Rabs_triang|]. rewrite u_val in A1. lra. }
  destruct (read_decimal w n) as (l & L & X & TX & G & V); [apply RW| |].
  - fold t0. replace (value w - t0) with ((value w - value a) + (value a - t0)) by ring. eapply Rle_lt_trans; [apply Rabs_triang|].
    assert (62 / 10 * u * Rabs (value a) <= 62 / 10 * u * 601) by (apply Rmult_le_compat_l; lra). rewrite u_val in *. lra.
  - exists (ffnum (fnum_of l)). split; [|fold t0 in V; congruence]. rewrite E, TX, target_read by auto. reflexivity.
Qed.
