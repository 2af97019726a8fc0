(** Rounding errors of colour conversions. *)
Require Import ZArith Reals Bool Lra Lia Psatz.
From Flocq Require Import Core BinarySingleNaN.
Require Import Verif.Float_Model Verif.Float_Spec Verif.Float_Proofs Verif.FloatAngle_Model Verif.FloatAngle_Proofs Verif.FloatColor_Model Verif.FloatColor_Spec.
Open Scope R_scope.

(** * Errors of the operations *)
Lemma big_ge : 1000000 <= big.
Proof. unfold big. apply Rle_trans with (bpow radix2 20); [cbn; lra|apply bpow_le; lia]. Qed.
Lemma u_tiny : u <= / 9000000000000000. Proof. rewrite u_val. lra. Qed.
Lemma rnd_near : forall r m, Rabs r <= m -> 0 <= m -> Rabs (rnd r - r) <= (m + 1) * u.
Proof. intros r m H M. pose proof (rnd_err r). pose proof eta_u. pose proof u_pos. nra. Qed.
Lemma about_is : forall x v, is x v -> about x v (0 * u).
Proof. intros x v [F V]. split; auto. rewrite V. replace (v - v) with 0 by ring. rewrite Rabs_R0. lra. Qed.
Lemma about_le : forall x v a b, a <= b -> about x v (a * u) -> about x v (b * u).
Proof. intros x v a b L [F E]. split; auto. pose proof u_pos. nra. Qed.
Lemma about_eq : forall x v w a, about x v a -> v = w -> about x w a. Proof. intros. now subst. Qed.
Lemma about_move : forall x v w a b, about x v (a * u) -> Rabs (v - w) <= b * u -> about x w ((a + b) * u).
Proof. intros x v w a b [F E] D. split; auto. replace (value x - w) with ((value x - v) + (v - w)) by ring. pose proof (Rabs_triang (value x - v) (v - w)). lra. Qed.
Lemma about_val : forall x v a, about x v (a * u) -> Rabs v <= 1000 -> 0 <= a <= 90000000 -> Rabs (value x) <= 1001.
Proof. intros x v a [F E] V A. pose proof u_tiny. pose proof u_pos. replace (value x) with ((value x - v) + v) by ring. pose proof (Rabs_triang (value x - v) v). nra. Qed.
Lemma op_about : forall z r v a m, is z (rnd r) -> Rabs (r - v) <= a * u -> Rabs v <= m -> 0 <= a <= 1000000000000 -> 0 <= m -> about z v ((a + m + 2) * u).
Proof.
  intros z r v a m [F V] E M A M0. split; auto. rewrite V. pose proof u_tiny. pose proof u_pos.
  assert (S : Rabs r <= m + 1) by (replace r with ((r - v) + v) by ring; pose proof (Rabs_triang (r - v) v); nra).
  pose proof (rnd_near r (m + 1) S ltac:(lra)). replace (rnd r - v) with ((rnd r - r) + (r - v)) by ring. pose proof (Rabs_triang (rnd r - r) (r - v)). lra.
Qed.
Section ops.
  Variables (x y : fl) (v w a b : R).
  Hypotheses (X : about x v (a * u)) (Y : about y w (b * u)) (A : 0 <= a <= 90000000) (B : 0 <= b <= 90000000).
  Lemma add_about : forall m, Rabs (v + w) <= m -> m <= 2000 -> about (fadd x y) (v + w) ((a + b + m + 2) * u).
  Proof.
    intros m M M2. destruct X as [FX EX], Y as [FY EY]. pose proof (Rabs_pos (v + w)). pose proof u_tiny. pose proof u_pos. pose proof big_ge.
    assert (D : Rabs (value x + value y - (v + w)) <= (a + b) * u) by (replace (value x + value y - (v + w)) with ((value x - v) + (value y - w)) by ring; pose proof (Rabs_triang (value x - v) (value y - w)); lra).
    apply (op_about _ (value x + value y)); auto; try lra. apply fadd_rnd; auto.
    replace (value x + value y) with ((value x + value y - (v + w)) + (v + w)) by ring. pose proof (Rabs_triang (value x + value y - (v + w)) (v + w)). nra.
  Qed.
  Lemma sub_about : forall m, Rabs (v - w) <= m -> m <= 2000 -> about (fsub x y) (v - w) ((a + b + m + 2) * u).
  Proof.
    intros m M M2. destruct X as [FX EX], Y as [FY EY]. pose proof (Rabs_pos (v - w)). pose proof u_tiny. pose proof u_pos. pose proof big_ge.
    assert (D : Rabs (value x - value y - (v - w)) <= (a + b) * u).
    { replace (value x - value y - (v - w)) with ((value x - v) + - (value y - w)) by ring. pose proof (Rabs_triang (value x - v) (- (value y - w))). rewrite Rabs_Ropp in H3. lra. }
    apply (op_about _ (value x - value y)); auto; try lra. apply fsub_rnd; auto.
    replace (value x - value y) with ((value x - value y - (v - w)) + (v - w)) by ring. pose proof (Rabs_triang (value x - value y - (v - w)) (v - w)). nra.
  Qed.
  Lemma mul_about : forall m n, Rabs v <= m -> Rabs w <= n -> m <= 2000 -> n <= 2000 -> a * n + b * m + 1 <= 1000000000000 -> about (fmul x y) (v * w) ((a * n + b * m + 1 + m * n + 2) * u).
  Proof.
    intros m n M N M2 N2 K. destruct X as [FX EX], Y as [FY EY]. pose proof (Rabs_pos v). pose proof (Rabs_pos w). pose proof u_tiny. pose proof u_pos. pose proof big_ge.
    assert (D : Rabs (value x * value y - v * w) <= (a * n + b * m + 1) * u).
    { replace (value x * value y - v * w) with ((value x - v) * (value y - w) + ((value x - v) * w + v * (value y - w))) by ring.
      pose proof (Rabs_triang ((value x - v) * (value y - w)) ((value x - v) * w + v * (value y - w))) as T1. pose proof (Rabs_triang ((value x - v) * w) (v * (value y - w))) as T2. rewrite (Rabs_mult (value x - v) (value y - w)) in T1. rewrite (Rabs_mult (value x - v) w), (Rabs_mult v) in T2.
      assert (P1 : Rabs (value x - v) * Rabs (value y - w) <= 1 * u).
      { apply Rle_trans with ((a * u) * (b * u)); [apply Rmult_le_compat; auto using Rabs_pos|]. assert (a * b <= 90000000 * 90000000) by (apply Rmult_le_compat; lra). assert (a * b * u <= 1) by nra. nra. }
      assert (P2 : Rabs (value x - v) * Rabs w <= (a * u) * n) by (apply Rmult_le_compat; auto using Rabs_pos).
      assert (P3 : Rabs v * Rabs (value y - w) <= m * (b * u)) by (apply Rmult_le_compat; auto using Rabs_pos). lra. }
    assert (VW : Rabs (v * w) <= m * n) by (rewrite Rabs_mult; apply Rmult_le_compat; auto using Rabs_pos).
    assert (MN : 0 <= m * n <= 2000 * 2000) by (split; [apply Rmult_le_pos; lra|apply Rmult_le_compat; lra]).
    apply (op_about _ (value x * value y)); auto; try lra; [|split; [|lra]; assert (0 <= a * n) by (apply Rmult_le_pos; lra); assert (0 <= b * m) by (apply Rmult_le_pos; lra); lra].
    apply fmul_rnd; auto. replace (value x * value y) with ((value x * value y - v * w) + v * w) by ring. pose proof (Rabs_triang (value x * value y - v * w) (v * w)).
    assert (big >= 10000000) by (unfold big; apply Rle_ge, Rle_trans with (bpow radix2 24); [cbn; lra|apply bpow_le; lia]). nra.
  Qed.
  Lemma div_about : forall m c k, Rabs (v / w) <= m -> m <= 2000 -> c <= Rabs w -> 0 < c -> b * u <= c / 2 -> (a + m * b) * 2 <= k * c -> k <= 1000000000000 -> about (fdiv x y) (v / w) ((k + m + 2) * u).
  Proof.
    intros m c k M M2 C C0 BC K K2. destruct X as [FX EX], Y as [FY EY]. pose proof (Rabs_pos (v / w)). pose proof u_tiny. pose proof u_pos. pose proof big_ge.
    assert (W0 : w <> 0) by (intros ->; rewrite Rabs_R0 in C; lra).
    assert (YC : c / 2 <= Rabs (value y)).
    { replace w with (value y + - (value y - w)) in C by ring. pose proof (Rabs_triang (value y) (- (value y - w))) as T. rewrite Rabs_Ropp in T. lra. }
    assert (Y0 : value y <> 0) by (intros Z; rewrite Z, Rabs_R0 in YC; lra).
    assert (MB : 0 <= m * b) by (apply Rmult_le_pos; lra).
    assert (KP : 0 <= k) by nra.
    assert (D : Rabs (value x / value y - v / w) <= k * u).
    { replace (value x / value y - v / w) with (((value x - v) + - (v / w * (value y - w))) / value y) by (field; auto).
      unfold Rdiv at 1. rewrite Rabs_mult, Rabs_inv. pose proof (Rabs_triang (value x - v) (- (v / w * (value y - w)))) as T. rewrite Rabs_Ropp, Rabs_mult in T.
      assert (P : Rabs (v / w) * Rabs (value y - w) <= m * (b * u)) by (apply Rmult_le_compat; auto using Rabs_pos).
      apply (Rmult_le_reg_r (Rabs (value y))); [lra|]. rewrite Rmult_assoc, Rinv_l, Rmult_1_r by lra.
      apply Rle_trans with ((a + m * b) * u); [lra|]. apply Rle_trans with (k * (c / 2) * u); [apply Rmult_le_compat_r; lra|]. assert (k * u * (c / 2) <= k * u * Rabs (value y)) by (apply Rmult_le_compat_l; [apply Rmult_le_pos; lra|lra]). lra. }
    apply (op_about _ (value x / value y)); auto; try lra. apply fdiv_rnd; auto.
    replace (value x / value y) with ((value x / value y - v / w) + v / w) by ring. pose proof (Rabs_triang (value x / value y - v / w) (v / w)). nra.
  Qed.
End ops.
Lemma flt_is : forall x y, finite x -> finite y -> flt x y = Rlt_bool (value x) (value y).
Proof. intros x y X Y. unfold flt, value. apply Bltb_correct; auto. Qed.
Lemma feq_is : forall x y, finite x -> finite y -> feq x y = Req_bool (value x) (value y).
Proof. intros x y X Y. unfold feq, value. apply Beqb_correct; auto. Qed.
Lemma small : forall z, (Z.abs z <= 1000000)%Z -> is (fz z) (IZR z).
Proof. intros z H. apply fz_is. lia. Qed.

(** * The shape of a channel as the hue goes round *)
Definition trap (y : R) : R := Rmax 0 (Rmin 1 (Rmin (6 * y) (4 - 6 * y))).
Definition T3 (x : R) : R := trap (x + 1) + trap x + trap (x - 1).
Ltac mm := unfold trap, Rmax, Rmin; repeat match goal with |- context [Rle_dec ?a ?b] => lazymatch a with context [Rle_dec] => fail | _ => lazymatch b with context [Rle_dec] => fail | _ => destruct (Rle_dec a b) end end end.
Lemma trap_up : forall y, 0 <= y <= / 6 -> trap y = 6 * y. Proof. intros. mm; lra. Qed.
Lemma trap_top : forall y, / 6 <= y <= / 2 -> trap y = 1. Proof. intros. mm; lra. Qed.
Lemma trap_down : forall y, / 2 <= y <= 2 / 3 -> trap y = 4 - 6 * y. Proof. intros. mm; lra. Qed.
Lemma trap_out : forall y, y <= 0 \/ 2 / 3 <= y -> trap y = 0. Proof. intros. mm; lra. Qed.
Lemma trap_unit : forall y, 0 <= trap y <= 1. Proof. intros. mm; lra. Qed.
Lemma trap_lip : forall a b e, Rabs (a - b) <= e -> Rabs (trap a - trap b) <= 6 * e.
Proof. intros a b e H. apply abs_ge in H. apply abs_le. mm; lra. Qed.
Lemma T3_lip : forall a b e, Rabs (a - b) <= e -> Rabs (T3 a - T3 b) <= 18 * e.
Proof.
  intros a b e H. unfold T3.
  assert (H1 := trap_lip (a + 1) (b + 1) e ltac:(replace (a + 1 - (b + 1)) with (a - b) by ring; auto)). assert (H2 := trap_lip a b e H). assert (H3 := trap_lip (a - 1) (b - 1) e ltac:(replace (a - 1 - (b - 1)) with (a - b) by ring; auto)).
  apply abs_ge in H1, H2, H3. apply abs_le. lra.
Qed.
Lemma T3_unit : forall x, 0 <= T3 x <= 1.
Proof.
  intros x. unfold T3. destruct (Rle_dec x (- (1 / 3))) as [L|L]; [rewrite (trap_out x), (trap_out (x - 1)) by lra; pose proof (trap_unit (x + 1)); lra|].
  rewrite (trap_out (x + 1)) by lra. destruct (Rle_dec x (2 / 3)) as [L'|L']; [rewrite (trap_out (x - 1)) by lra|rewrite (trap_out x) by lra]; [pose proof (trap_unit x)|pose proof (trap_unit (x - 1))]; lra.
Qed.
Lemma T3_turn : forall x, - (4 / 3) <= x <= 1 -> T3 (x + 1) = T3 x.
Proof. intros x H. unfold T3. rewrite (trap_out (x + 1 + 1)), (trap_out (x - 1)) by lra. replace (x + 1 - 1) with x by ring. ring. Qed.

(** The hue brought between 0 and 1. *)
Definition fwrap (vh : fl) : fl := let vh := if flt vh (fz 0) then fadd vh (fz 1) else vh in if flt (fz 1) vh then fsub vh (fz 1) else vh.
Lemma Rlt_bool_cases : forall a b, (Rlt_bool a b = true /\ a < b) \/ (Rlt_bool a b = false /\ b <= a).
Proof. intros a b. destruct (Rlt_bool_spec a b); auto. Qed.
Lemma wrap_is : forall x c, finite x -> 0 <= c <= 90000000 -> -1 - c * u <= value x <= 2 + c * u ->
  exists y, T3 (value x) = trap y /\ about (fwrap x) y (4 * u) /\ - c * u <= y <= 1 + c * u.
Proof.
  intros x c F C R. pose proof u_tiny. pose proof u_pos. pose proof big_ge. assert (CU : 0 <= c * u <= / 1000000) by nra. pose proof (small 0 ltac:(lia)) as [F0 V0]. pose proof (small 1 ltac:(lia)) as [F1 V1]. unfold fwrap. rewrite (flt_is x (fz 0)), V0 by auto.
  destruct (Rlt_bool_cases (value x) 0) as [[-> L]|[-> L]].
  - destruct (fadd_rnd x (fz 1)) as [FA VA]; auto; [rewrite V1; apply abs_le; lra|]. rewrite V1 in VA.
    assert (LE : value (fadd x (fz 1)) <= 1) by (rewrite VA; apply Rle_trans with (rnd 1); [apply rnd_le; lra|rewrite rnd_1; lra]). rewrite (flt_is (fz 1)), V1 by auto. rewrite Rlt_bool_false by auto.
    exists (value x + 1). split; [unfold T3; rewrite (trap_out (value x)), (trap_out (value x - 1)) by lra; ring|]. split; [|lra].
    apply (about_le _ _ 3); [lra|]. split; auto. rewrite VA. assert (Rabs (value x + 1) <= 1 + / 1000000) by (apply abs_le; lra). pose proof (rnd_near _ _ H2 ltac:(lra)). nra.
  - rewrite (flt_is (fz 1)), V1 by auto. destruct (Rlt_bool_cases 1 (value x)) as [[-> G]|[-> G]].
    + destruct (fsub_rnd x (fz 1)) as [FA VA]; auto; [rewrite V1; apply abs_le; lra|]. rewrite V1 in VA. exists (value x - 1). split; [unfold T3; rewrite (trap_out (value x)), (trap_out (value x + 1)) by lra; ring|]. split; [|lra].
      split; auto. rewrite VA. assert (Rabs (value x - 1) <= 2) by (apply abs_le; lra). pose proof (rnd_near _ _ H2 ltac:(lra)). nra.
    + exists (value x). split; [unfold T3; rewrite (trap_out (value x + 1)), (trap_out (value x - 1)) by lra; ring|]. split; [|lra]. split; auto. replace (value x - value x) with 0 by ring. rewrite Rabs_R0. lra.
Qed.

(** A channel between v1 and v2. *)
Section channel.
  Variables (v1 v2 : fl) (V1 V2 p : R).
  Hypotheses (A1 : about v1 V1 (p * u)) (A2 : about v2 V2 (p * u)) (B : 0 <= V1 <= V2) (B2 : V2 <= 1) (HP : 0 <= p <= 500000).
  Definition fbranch (vh : fl) : fl :=
    if flt (fmul (fz 6) vh) (fz 1) then fadd v1 (fmul (fmul (fsub v2 v1) (fz 6)) vh)
    else if flt (fmul (fz 2) vh) (fz 1) then v2
    else if flt (fmul (fz 3) vh) (fz 2) then fadd v1 (fmul (fmul (fsub v2 v1) (fsub (fdiv (fz 2) (fz 3)) vh)) (fz 6))
    else v1.
  Lemma D_about : about (fsub v2 v1) (V2 - V1) ((2 * p + 3) * u).
  Proof. eapply about_le; [|apply (sub_about v2 v1 V2 V1 p p A2 A1) with (m := 1)]; try lra. apply abs_le. lra. Qed.
  Lemma test : forall k j w, (Z.abs k <= 6)%Z -> (0 <= j <= 2)%Z -> finite w -> Rabs (value w) <= 2 ->
    (flt (fmul (fz k) w) (fz j) = true /\ IZR k * value w < IZR j) \/ (flt (fmul (fz k) w) (fz j) = false /\ IZR j - 13 * u <= IZR k * value w).
  Proof.
    intros k j w K J F W. pose proof u_pos. pose proof big_ge. destruct (small k) as [FK VK]; [lia|]. destruct (small j) as [FJ VJ]; [lia|].
    assert (KR : Rabs (IZR k * value w) <= 12). { rewrite Rabs_mult, <- abs_IZR. apply Rle_trans with (6 * 2); [apply Rmult_le_compat; auto using Rabs_pos; [apply IZR_le; lia|apply IZR_le; lia]|lra]. }
    destruct (fmul_rnd (fz k) w) as [FM VM]; auto; [rewrite VK; lra|]. rewrite VK in VM. rewrite (flt_is (fmul (fz k) w)), VM, VJ by auto.
    destruct (Rlt_bool_cases (rnd (IZR k * value w)) (IZR j)) as [[-> L]|[-> L]]; [left|right]; split; auto.
    - destruct (Rlt_dec (IZR k * value w) (IZR j)) as [|N]; auto. exfalso. assert (IZR j <= rnd (IZR k * value w)) by (rewrite <- (rnd_int j) by lia; apply rnd_le; lra). lra.
    - pose proof (rnd_near _ _ KR ltac:(lra)) as E. apply abs_ge in E. lra.
  Qed.
  Lemma branch_about : forall w c, finite w -> 0 <= c <= 90000000 -> - c * u <= value w <= 1 + c * u ->
    about (fbranch w) (V1 + (V2 - V1) * trap (value w)) ((40 * p + 6 * c + 300) * u).
  Proof.
    intros w c F C R. pose proof u_tiny. pose proof u_pos. assert (CU : 0 <= c * u <= / 1000000) by nra. assert (W : Rabs (value w) <= 2) by (apply abs_le; lra).
    assert (AW : about w (value w) (0 * u)) by (apply about_is; split; auto). pose proof D_about as AD. pose proof (about_is _ _ (small 6 ltac:(lia))) as A6.
    assert (HD : Rabs (V2 - V1) <= 1) by (apply abs_le; lra).
    unfold fbranch. destruct (test 6 1 w) as [[-> L]|[-> L]]; auto; try lia.
    - assert (E1 : about (fmul (fsub v2 v1) (fz 6)) ((V2 - V1) * 6) ((12 * p + 27) * u)).
      { eapply about_le; [|apply (mul_about _ _ _ _ (2 * p + 3) 0 AD A6) with (m := 1) (n := 6)]; try lra. rewrite Rabs_pos_eq; lra. }
      assert (E2 : about (fmul (fmul (fsub v2 v1) (fz 6)) w) ((V2 - V1) * 6 * value w) ((24 * p + 70) * u)).
      { eapply about_le; [|apply (mul_about _ _ _ _ (12 * p + 27) 0 E1 AW) with (m := 6) (n := 2)]; try lra. apply abs_le. lra. }
      assert (S : Rabs ((V2 - V1) * 6 * value w) <= 12). { rewrite !Rabs_mult, (Rabs_pos_eq 6) by lra. assert (Rabs (V2 - V1) * Rabs (value w) <= 1 * 2) by (apply Rmult_le_compat; auto using Rabs_pos). lra. }
      assert (E3 : about (fadd v1 (fmul (fmul (fsub v2 v1) (fz 6)) w)) (V1 + (V2 - V1) * 6 * value w) ((25 * p + 85) * u)).
      { eapply about_le; [|apply (add_about _ _ _ _ p (24 * p + 70) A1 E2) with (m := 13)]; try lra. apply abs_ge in S. apply abs_le. lra. }
      eapply about_le; [|apply (about_move _ _ _ _ (6 * c) E3)]; [lra|].
      destruct (Rle_dec 0 (value w)) as [P|P]; [rewrite trap_up by lra; replace (_ - _) with 0 by ring; rewrite Rabs_R0; lra|].
      rewrite trap_out by lra. replace (_ - _) with ((V2 - V1) * 6 * value w) by ring. rewrite !Rabs_mult, (Rabs_pos_eq 6), (Rabs_pos_eq (V2 - V1)), (Rabs_left (value w)) by lra. nra.
    - destruct (test 2 1 w) as [[-> L2]|[-> L2]]; auto; try lia.
      + eapply about_le; [|apply (about_move _ _ _ _ 13 A2)]; [lra|]. assert (T : 1 - 13 * u <= trap (value w) <= 1) by (mm; lra). replace (V2 - _) with ((V2 - V1) * (1 - trap (value w))) by ring.
        rewrite Rabs_pos_eq by (apply Rmult_le_pos; lra). nra.
      + destruct (test 3 2 w) as [[-> L3]|[-> L3]]; auto; try lia.
        * assert (E0 : about (fdiv (fz 2) (fz 3)) (2 / 3) (3 * u)).
          { eapply about_le; [|apply (div_about _ _ _ _ 0 0 (about_is _ _ (small 2 ltac:(lia))) (about_is _ _ (small 3 ltac:(lia)))) with (m := 1) (c := 3) (k := 0)]; try lra; rewrite Rabs_pos_eq; lra. }
          assert (E1 : about (fsub (fdiv (fz 2) (fz 3)) w) (2 / 3 - value w) ((8) * u)).
          { eapply about_le; [|apply (sub_about _ _ _ _ 3 0 E0 AW) with (m := 3)]; try lra. apply abs_ge in W. apply abs_le. lra. }
          assert (E2 : about (fmul (fsub v2 v1) (fsub (fdiv (fz 2) (fz 3)) w)) ((V2 - V1) * (2 / 3 - value w)) ((6 * p + 24) * u)).
          { eapply about_le; [|apply (mul_about _ _ _ _ (2 * p + 3) 8 AD E1) with (m := 1) (n := 3)]; try lra. apply abs_ge in W. apply abs_le. lra. }
          assert (S : Rabs ((V2 - V1) * (2 / 3 - value w)) <= 3). { rewrite Rabs_mult. assert (Rabs (2 / 3 - value w) <= 3) by (apply abs_ge in W; apply abs_le; lra). assert (Rabs (V2 - V1) * Rabs (2 / 3 - value w) <= 1 * 3) by (apply Rmult_le_compat; auto using Rabs_pos). lra. }
          assert (E3 : about (fmul (fmul (fsub v2 v1) (fsub (fdiv (fz 2) (fz 3)) w)) (fz 6)) ((V2 - V1) * (2 / 3 - value w) * 6) ((36 * p + 170) * u)).
          { eapply about_le; [|apply (mul_about _ _ _ _ (6 * p + 24) 0 E2 A6) with (m := 3) (n := 6)]; try lra. rewrite Rabs_pos_eq; lra. }
          assert (E4 : about (fadd v1 (fmul (fmul (fsub v2 v1) (fsub (fdiv (fz 2) (fz 3)) w)) (fz 6))) (V1 + (V2 - V1) * (2 / 3 - value w) * 6) ((37 * p + 200) * u)).
          { eapply about_le; [|apply (add_about _ _ _ _ p (36 * p + 170) A1 E3) with (m := 19)]; try lra. apply abs_ge in S. apply abs_le. lra. }
          eapply about_le; [|apply (about_move _ _ _ _ 50 E4)]; [lra|].
          assert (T : Rabs ((2 / 3 - value w) * 6 - trap (value w)) <= 50 * u). { apply abs_le. destruct (Rle_dec (/ 2) (value w)) as [P|P]; [rewrite trap_down by lra; lra|rewrite trap_top by lra; lra]. }
          replace (_ - _) with ((V2 - V1) * ((2 / 3 - value w) * 6 - trap (value w))) by ring. rewrite Rabs_mult. apply Rle_trans with (1 * (50 * u)); [apply Rmult_le_compat; auto using Rabs_pos|lra].
        * eapply about_le; [|apply (about_move _ _ _ _ 30 A1)]; [lra|]. assert (T : 0 <= trap (value w) <= 30 * u) by (split; [apply trap_unit|]; mm; lra).
          replace (_ - _) with (- ((V2 - V1) * trap (value w))) by ring. rewrite Rabs_Ropp, Rabs_pos_eq by (apply Rmult_le_pos; lra). nra.
  Qed.
  (** [x] being about X, between -1 and 2. *)
  Lemma channel_about : forall x X q, about x X (q * u) -> 0 <= q <= 50000 -> -1 <= X <= 2 -> about (fhue_2_rgb v1 v2 x) (V1 + (V2 - V1) * T3 X) ((40 * p + 25 * q + 400) * u).
  Proof.
    intros x X q [F E] Q R. pose proof u_tiny. pose proof u_pos. pose proof (abs_ge _ _ E) as E'. change (fhue_2_rgb v1 v2 x) with (fbranch (fwrap x)).
    destruct (wrap_is x q) as (y & TY & [FW EW] & RY); auto; try lra. pose proof (abs_ge _ _ EW) as EW'.
    eapply about_le; [|apply (about_move _ _ _ _ (24 + 18 * q) (branch_about (fwrap x) (q + 4) FW ltac:(lra) ltac:(lra)))]; [lra|].
    replace (_ - _) with ((V2 - V1) * (trap (value (fwrap x)) - T3 X)) by ring. rewrite Rabs_mult, (Rabs_pos_eq (V2 - V1)) by lra.
    assert (K : Rabs (trap (value (fwrap x)) - T3 X) <= (24 + 18 * q) * u).
    { replace (_ - _) with ((trap (value (fwrap x)) - trap y) + (T3 (value x) - T3 X)) by (rewrite TY; ring). pose proof (trap_lip _ _ _ EW). pose proof (T3_lip _ _ _ E). pose proof (Rabs_triang (trap (value (fwrap x)) - trap y) (T3 (value x) - T3 X)). lra. }
    apply Rle_trans with (1 * ((24 + 18 * q) * u)); [apply Rmult_le_compat; auto using Rabs_pos; lra|lra].
  Qed.
End channel.

(** * From hue, saturation and lightness to channels *)
Definition amp (s l : R) : R := s * Rmin l (1 - l).
Lemma amp_range : forall s l, 0 <= s <= 1 -> 0 <= l <= 1 -> 0 <= amp s l /\ amp s l <= l /\ amp s l <= 1 - l /\ amp s l <= s.
Proof.
  intros s l S L. unfold amp. assert (M : 0 <= Rmin l (1 - l) <= 1 /\ Rmin l (1 - l) <= l /\ Rmin l (1 - l) <= 1 - l) by (unfold Rmin; destruct (Rle_dec l (1 - l)); lra).
  destruct M as ((M0 & M1) & ML & ML'). assert (P := Rmult_le_pos s _ (proj1 S) M0). assert (Q : s * Rmin l (1 - l) <= 1 * Rmin l (1 - l)) by (apply Rmult_le_compat_r; lra).
  assert (Q2 : s * Rmin l (1 - l) <= s * 1) by (apply Rmult_le_compat_l; lra). lra.
Qed.
Lemma half_is : is fhalf (/ 2).
Proof.
  assert (V : value (fnorm 1 (-1)) = / 2) by (destruct (norm_is 1 (-1)) as [_ ->]; [lia|lia|change (bpow radix2 (-1)) with (/ 2); lra]). assert (F : is_finite fhalf = true) by (vm_compute; reflexivity).
  split; auto.
Qed.
Section hsl.
  Variables (h s l : fl) (H S L a : R).
  Hypotheses (AH : about h H (a * u)) (AS : about s S (a * u)) (AL : about l L (a * u)) (RH : - (2 / 3) <= H <= 5 / 3) (RS : 0 <= S <= 1) (RL : 0 <= L <= 1) (HA : 0 <= a <= 40000).
  Lemma v2_about : about (fv2 s l) (L + amp S L) ((8 * a + 20) * u).
  Proof.
    pose proof u_tiny. pose proof u_pos. pose proof (about_is _ _ (small 1 ltac:(lia))) as A1. pose proof half_is as [FH VH]. destruct (proj1 AS) as [], (proj1 AL) as [].
    assert (B : about (fadd (fz 1) s) (1 + S) ((a + 4) * u)). { eapply about_le; [|apply (add_about _ _ _ _ 0 a A1 AS) with (m := 2)]; try lra. apply abs_le. lra. }
    assert (C1 : about (fmul l (fadd (fz 1) s)) (L * (1 + S)) ((3 * a + 9) * u)). { eapply about_le; [|apply (mul_about _ _ _ _ a (a + 4) AL B) with (m := 1) (n := 2)]; try lra; apply abs_le; lra. }
    assert (C2 : about (fadd l s) (L + S) ((2 * a + 4) * u)). { eapply about_le; [|apply (add_about _ _ _ _ a a AL AS) with (m := 2)]; try lra. apply abs_le. lra. }
    assert (C3 : about (fmul s l) (S * L) ((2 * a + 4) * u)). { eapply about_le; [|apply (mul_about _ _ _ _ a a AS AL) with (m := 1) (n := 1)]; try lra; apply abs_le; lra. }
    assert (SL : 0 <= S * L <= 1) by nra.
    assert (C4 : about (fsub (fadd l s) (fmul s l)) (L + S - S * L) ((4 * a + 14) * u)). { eapply about_le; [|apply (sub_about _ _ _ _ (2 * a + 4) (2 * a + 4) C2 C3) with (m := 4)]; try lra. apply abs_le. lra. }
    pose proof (abs_ge _ _ (proj2 AL)) as EL. unfold fv2. rewrite flt_is, VH by (auto; apply AL). destruct (Rlt_bool_cases (value l) (/ 2)) as [[-> G]|[-> G]].
    - eapply about_le; [|apply (about_move _ _ _ _ (2 * a) C1)]; [lra|]. unfold amp, Rmin. destruct (Rle_dec L (1 - L)); [replace (_ - _) with 0 by ring; rewrite Rabs_R0; nra|].
      replace (_ - _) with (S * (2 * L - 1)) by ring. rewrite Rabs_pos_eq by (apply Rmult_le_pos; lra). apply Rle_trans with (1 * (2 * a * u)); [apply Rmult_le_compat; lra|lra].
    - eapply about_le; [|apply (about_move _ _ _ _ (2 * a) C4)]; [lra|]. unfold amp, Rmin. destruct (Rle_dec L (1 - L)); [|replace (_ - _) with 0 by ring; rewrite Rabs_R0; nra].
      replace (_ - _) with (S * (1 - 2 * L)) by ring. rewrite Rabs_pos_eq by (apply Rmult_le_pos; lra). apply Rle_trans with (1 * (2 * a * u)); [apply Rmult_le_compat; lra|lra].
  Qed.
  Lemma v1_about : about (fv1 s l) (L - amp S L) ((10 * a + 29) * u).
  Proof.
    pose proof (amp_range S L RS RL) as R. pose proof (about_is _ _ (small 2 ltac:(lia))) as A2.
    assert (B : about (fmul (fz 2) l) (2 * L) ((2 * a + 5) * u)). { eapply about_le; [|apply (mul_about _ _ _ _ 0 a A2 AL) with (m := 2) (n := 1)]; try lra; apply abs_le; lra. }
    unfold fv1. eapply about_eq; [eapply about_le; [|apply (sub_about _ _ _ _ (2 * a + 5) (8 * a + 20) B v2_about) with (m := 2)]; try lra; apply abs_le; lra|ring].
  Qed.
  Lemma channels_about : forall x X, about x X ((a + 8) * u) -> -1 <= X <= 2 ->
    about (fmul (fz 255) (fhue_2_rgb (fv1 s l) (fv2 s l) x)) (255 * (L - amp S L + 2 * amp S L * T3 X)) ((110000 * a + 500000) * u).
  Proof.
    intros x X AX RX. pose proof (amp_range S L RS RL) as R. pose proof (about_is _ _ (small 255 ltac:(lia))) as A5. pose proof (T3_unit X) as TU.
    pose proof v1_about as A1. pose proof (about_le _ _ (8 * a + 20) (10 * a + 29) ltac:(lra) v2_about) as A2.
    pose proof (channel_about _ _ _ _ _ A1 A2 ltac:(lra) ltac:(lra) ltac:(lra) x X (a + 8) AX ltac:(lra) RX) as C.
    assert (B : 0 <= amp S L * T3 X <= amp S L) by (split; [apply Rmult_le_pos; lra|rewrite <- (Rmult_1_r (amp S L)) at 2; apply Rmult_le_compat_l; lra]).
    eapply about_eq; [eapply about_le; [|apply (mul_about _ _ _ _ 0 (40 * (10 * a + 29) + 25 * (a + 8) + 400) A5 C) with (m := 255) (n := 1)]; try lra|]; [apply abs_le; lra| |ring].
    replace (_ + _) with (L - amp S L + 2 * (amp S L * T3 X)) by ring. apply abs_le. lra.
  Qed.
  Lemma third_about : about fthird (1 / 3) (3 * u).
  Proof. unfold fthird. eapply about_le; [|apply (div_about _ _ _ _ 0 0 (about_is _ _ (small 1 ltac:(lia))) (about_is _ _ (small 3 ltac:(lia)))) with (m := 1) (c := 3) (k := 0)]; try lra; rewrite Rabs_pos_eq; lra. Qed.
  Lemma rgb_about : exists r g b, fhsl_to_rgb h s l = (r, g, b) /\
    about r (255 * (L - amp S L + 2 * amp S L * T3 (H + 1 / 3))) ((110000 * a + 500000) * u) /\
    about g (255 * (L - amp S L + 2 * amp S L * T3 H)) ((110000 * a + 500000) * u) /\
    about b (255 * (L - amp S L + 2 * amp S L * T3 (H - 1 / 3))) ((110000 * a + 500000) * u).
  Proof.
    pose proof u_pos. destruct (small 0 ltac:(lia)) as [F0 V0]. unfold fhsl_to_rgb. rewrite feq_is, V0 by (auto; apply AS). pose proof third_about as A3. pose proof (amp_range S L RS RL) as R.
    destruct (Req_bool_spec (value s) 0) as [Z|Z].
    - exists (fmul (fz 255) l), (fmul (fz 255) l), (fmul (fz 255) l). split; auto. pose proof (about_is _ _ (small 255 ltac:(lia))) as A5.
      assert (B : about (fmul (fz 255) l) (255 * L) ((255 * a + 258) * u)). { eapply about_le; [|apply (mul_about _ _ _ _ 0 a A5 AL) with (m := 255) (n := 1)]; try lra; apply abs_le; lra. }
      assert (SZ : S <= a * u) by (destruct AS as [_ E]; rewrite Z in E; apply abs_ge in E; lra).
      assert (K : forall X, about (fmul (fz 255) l) (255 * (L - amp S L + 2 * amp S L * T3 X)) ((110000 * a + 500000) * u)); [|auto].
      intros X. eapply about_le; [|apply (about_move _ _ _ _ (255 * a) B)]; [lra|]. pose proof (T3_unit X) as T. replace (_ - _) with (255 * (amp S L * (1 - 2 * T3 X))) by ring.
      rewrite !Rabs_mult, (Rabs_pos_eq 255), (Rabs_pos_eq (amp S L)) by lra. assert (Rabs (1 - 2 * T3 X) <= 1) by (apply abs_le; lra). assert (amp S L * Rabs (1 - 2 * T3 X) <= amp S L * 1) by (apply Rmult_le_compat_l; lra). lra.
    - do 3 eexists. split; [reflexivity|]. split; [|split].
      + apply channels_about; [|lra]. eapply about_le; [|apply (add_about _ _ _ _ a 3 AH A3) with (m := 3)]; try lra. apply abs_le. lra.
      + apply channels_about; [|lra]. eapply about_le; [|exact AH]. lra.
      + apply channels_about; [|lra]. eapply about_le; [|apply (sub_about _ _ _ _ a 3 AH A3) with (m := 3)]; try lra. apply abs_le. lra.
  Qed.
End hsl.

(** The formula of CSS. *)
Lemma css_T3 : forall n H S L X (z : Z), -1 <= X <= 2 -> n + 12 * H = 12 * X - 4 + 12 * IZR z -> css_channel n H S L (L - amp S L + 2 * amp S L * T3 X).
Proof.
  intros n H S L X z RX E.
  assert (K : exists (k : R) (j : Z), 0 <= k < 12 /\ 12 * X - 4 = k + 12 * IZR j /\ (-2 <= j <= 1)%Z).
  { destruct (Rlt_dec X (- (2 / 3))); [exists (12 * X - 4 + 24), (-2)%Z|destruct (Rlt_dec X (1 / 3)); [exists (12 * X - 4 + 12), (-1)%Z|destruct (Rlt_dec X (4 / 3)); [exists (12 * X - 4), 0%Z|exists (12 * X - 4 - 12), 1%Z]]]; (split; [lra|split; [lra|lia]]). }
  destruct K as (k & j & K1 & K2 & K3). exists k, (j + z)%Z. split; auto. split; [rewrite plus_IZR; lra|].
  assert (T : T3 X = trap ((k + 4) / 12) + trap ((k + 4) / 12 - 1)).
  { assert (C : (j = -2 \/ j = -1 \/ j = 0 \/ j = 1)%Z) by lia. set (y := (k + 4) / 12) in *. assert (Y : 1 / 3 <= y < 4 / 3) by (unfold y; lra). unfold T3.
    destruct C as [-> | [-> | [-> | ->]]].
    - assert (XY : X = y - 2) by (unfold y; lra). assert (G : 1 <= y) by lra. rewrite XY. rewrite (trap_out y), (trap_out (y - 2)), (trap_out (y - 2 - 1)) by lra. replace (y - 2 + 1) with (y - 1) by ring. ring.
    - assert (XY : X = y - 1) by (unfold y; lra). rewrite XY. rewrite (trap_out (y - 1 - 1)) by lra. replace (y - 1 + 1) with y by ring. ring.
    - assert (XY : X = y) by (unfold y; lra). rewrite XY. rewrite (trap_out (y + 1)) by lra. ring.
    - assert (XY : X = y + 1) by (unfold y; lra). assert (G : y <= 1) by lra. rewrite XY. rewrite (trap_out (y + 1 + 1)), (trap_out (y + 1)), (trap_out (y - 1)) by lra. replace (y + 1 - 1) with y by ring. ring. }
  fold (amp S L). assert (W : 2 * T3 X - 1 = - Rmax (-1) (Rmin (Rmin (k - 3) (9 - k)) 1)).
  { rewrite T. destruct (Rle_dec k 8) as [B|B].
    - rewrite (trap_out ((k + 4) / 12 - 1)) by lra. mm; lra.
    - rewrite (trap_out ((k + 4) / 12)) by lra. mm; lra. }
  replace (L - amp S L + 2 * amp S L * T3 X) with (L + amp S L * (2 * T3 X - 1)) by ring. rewrite W. ring.
Qed.

(** * Bytes *)
Lemma btrunc_is : forall x, Btrunc x = Ztrunc (value x).
Proof. intros x. apply eq_IZR. rewrite (Btrunc_correct 53 1024 p1024). unfold round, F2R, scaled_mantissa, cexp, FIX_exp. cbn [Fnum Fexp]. change (bpow radix2 (-0)) with 1. change (bpow radix2 0) with 1. rewrite !Rmult_1_r. reflexivity. Qed.
Lemma crimp_cut : forall x, finite x -> cut (value x) (fcrimp_float x).
Proof.
  intros x F. destruct (small 0 ltac:(lia)) as [F0 V0], (small 255 ltac:(lia)) as [F5 V5]. unfold fcrimp_float. rewrite (flt_is (fz 255)), V5 by auto.
  destruct (Rlt_bool_cases 255 (value x)) as [[-> A]|[-> A]]; [split; [intros; lra|split; [auto|intros; lra]]|]. rewrite flt_is, V0 by auto.
  destruct (Rlt_bool_cases (value x) 0) as [[-> B]|[-> B]]; [split; [auto|split; [intros; lra|intros; lra]]|]. rewrite btrunc_is, Ztrunc_floor by auto.
  pose proof (Zfloor_lb (value x)). pose proof (Zfloor_ub (value x)). split; [|split; [|intros; lra]]; intros Z.
  - assert (E : value x = IZR 0) by (cbn; lra). rewrite E. apply Zfloor_IZR.
  - assert (E : value x = IZR 255) by (cbn; lra). rewrite E. apply Zfloor_IZR.
Qed.
Lemma cut_range : forall r n, cut r n -> (0 <= n <= 255)%Z.
Proof.
  intros r n (A & B & C). destruct (Rle_dec r 0); [rewrite A by auto; lia|]. destruct (Rle_dec 255 r); [rewrite B by auto; lia|]. destruct C; [lra|]. split; [apply Z.lt_pred_le, lt_IZR|apply le_IZR]; try lra. unfold Z.pred. rewrite plus_IZR. lra.
Qed.
(** A byte that is missed by less than one. *)
Lemma cut_near : forall r c n, cut r n -> (0 <= c <= 255)%Z -> Rabs (r - IZR c) < 1 -> n = c \/ n = (c - 1)%Z.
Proof.
  intros r c n K R E. apply Rabs_def2 in E. destruct K as (A & B & C). assert (R1 : 0 <= IZR c <= 255) by (split; apply IZR_le; lia).
  destruct (Rle_dec r 0); [rewrite A by auto; assert (c < 1)%Z by (apply lt_IZR; lra); lia|]. destruct (Rle_dec 255 r).
  { rewrite B by auto. assert (254 < c)%Z by (apply lt_IZR; lra). lia. }
  destruct C as [C1 C2]; [lra|]. assert (n < c + 1)%Z by (apply lt_IZR; rewrite plus_IZR; lra). assert (c - 1 < n + 1)%Z by (apply lt_IZR; rewrite plus_IZR, minus_IZR; lra). lia.
Qed.
