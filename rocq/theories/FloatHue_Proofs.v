(** Hue, saturation and lightness of a colour in floats, blending, and colours from text. *)
Require Import ZArith Reals Bool Lra Lia Psatz.
From Flocq Require Import Core BinarySingleNaN.
Require Import Verif.Float_Model Verif.Float_Spec Verif.Float_Proofs Verif.FloatAngle_Model Verif.FloatAngle_Proofs Verif.FloatMat_Proofs Verif.FloatColor_Model Verif.FloatColor_Spec Verif.FloatColor_Proofs.
Require Verif.Color_Model Verif.Color_Spec Verif.Color_Proofs.
Open Scope R_scope.

(** * Channels as fractions *)
Notation byte := Color_Spec.byte.
Definition part (z : Z) : R := IZR z / 255.
Lemma part_range : forall z, byte z -> 0 <= part z <= 1.
Proof. intros z [A B]. apply IZR_le in A, B. unfold part. lra. Qed.
Lemma part_about : forall z, byte z -> about (fchan01 z) (part z) (3 * u).
Proof.
  intros z B. pose proof (part_range z B) as R. unfold fchan01, part in *. destruct B.
  eapply about_le; [|apply (div_about _ _ _ _ 0 0 (about_is _ _ (small z ltac:(lia))) (about_is _ _ (small 255 ltac:(lia)))) with (m := 1) (c := 255) (k := 0)]; try lra; rewrite Rabs_pos_eq; lra.
Qed.
Lemma part_gap : forall a b, (a < b)%Z -> part a + / 255 <= part b.
Proof. intros a b L. assert (a + 1 <= b)%Z by lia. apply IZR_le in H. rewrite plus_IZR in H. unfold part. lra. Qed.
Lemma chan_lt : forall a b, byte a -> byte b -> (a < b)%Z -> value (fchan01 a) < value (fchan01 b).
Proof. intros a b A B L. pose proof (abs_ge _ _ (proj2 (part_about a A))). pose proof (abs_ge _ _ (proj2 (part_about b B))). pose proof (part_gap a b L). pose proof u_tiny. pose proof u_pos. lra. Qed.
Lemma chan_finite : forall a, byte a -> finite (fchan01 a). Proof. intros a A. apply (part_about a A). Qed.
Lemma chan_ltb : forall a b, byte a -> byte b -> flt (fchan01 a) (fchan01 b) = Z.ltb a b.
Proof.
  intros a b A B. rewrite flt_is by (apply chan_finite; auto). destruct (Z.ltb_spec a b); [apply Rlt_bool_true, chan_lt; auto|]. apply Rlt_bool_false.
  destruct (Z.eq_dec a b) as [-> | N]; [lra|]. apply Rlt_le, chan_lt; auto. lia.
Qed.
Lemma chan_eqb : forall a b, byte a -> byte b -> feq (fchan01 a) (fchan01 b) = Z.eqb a b.
Proof.
  intros a b A B. rewrite feq_is by (apply chan_finite; auto). destruct (Z.eqb_spec a b) as [-> | N]; [apply Req_bool_true; auto|]. apply Req_bool_false.
  assert (C : (a < b)%Z \/ (b < a)%Z) by lia. destruct C as [C|C]; [pose proof (chan_lt a b A B C)|pose proof (chan_lt b a B A C)]; lra.
Qed.
Lemma chan_max : forall a b, byte a -> byte b -> fmax (fchan01 a) (fchan01 b) = fchan01 (Z.max a b).
Proof. intros a b A B. unfold fmax. rewrite chan_ltb by auto. destruct (Z.ltb_spec a b); f_equal; lia. Qed.
Lemma chan_min : forall a b, byte a -> byte b -> fmin (fchan01 a) (fchan01 b) = fchan01 (Z.min a b).
Proof. intros a b A B. unfold fmin. rewrite chan_ltb by auto. destruct (Z.ltb_spec b a); f_equal; lia. Qed.
Definition hi (r g b : Z) : Z := Z.max (Z.max r g) b.
Definition lo (r g b : Z) : Z := Z.min (Z.min r g) b.
Lemma byte_hl : forall a b, byte a -> byte b -> byte (Z.max a b) /\ byte (Z.min a b).
Proof. unfold Color_Spec.byte. intros. lia. Qed.
Lemma chan_hi : forall r g b, byte r -> byte g -> byte b -> fmax3 (fchan01 r) (fchan01 g) (fchan01 b) = fchan01 (hi r g b) /\ fmin3 (fchan01 r) (fchan01 g) (fchan01 b) = fchan01 (lo r g b).
Proof.
  intros r g b R G B. destruct (byte_hl r g R G) as [X N]. split; unfold fmax3, fmin3; [rewrite (chan_max r g R G), chan_max|rewrite (chan_min r g R G), chan_min]; auto.
Qed.

(** * What is read from a colour *)
Section reading.
  Variables (r g b : Z).
  Hypotheses (Br : byte r) (Bg : byte g) (Bb : byte b).
  Definition M : R := part (hi r g b).
  Definition N : R := part (lo r g b).
  Definition D : R := M - N.
  Lemma bounds : N <= part r <= M /\ N <= part g <= M /\ N <= part b <= M /\ 0 <= N /\ M <= 1.
  Proof.
    unfold M, N, part. destruct Br, Bg, Bb. assert (HH : (lo r g b <= r <= hi r g b /\ lo r g b <= g <= hi r g b /\ lo r g b <= b <= hi r g b /\ 0 <= lo r g b /\ hi r g b <= 255)%Z) by (unfold lo, hi; lia).
    destruct HH as ((A1 & A2) & (A3 & A4) & (A5 & A6) & A7 & A8). apply IZR_le in A1, A2, A3, A4, A5, A6, A7, A8. lra.
  Qed.
  Lemma hl_bytes : byte (hi r g b) /\ byte (lo r g b).
  Proof. unfold hi, lo. destruct (byte_hl r g Br Bg). destruct (byte_hl _ b H Bb), (byte_hl _ b H0 Bb). auto. Qed.
  Lemma M_about : about (fchan01 (hi r g b)) M (3 * u). Proof. apply part_about, hl_bytes. Qed.
  Lemma N_about : about (fchan01 (lo r g b)) N (3 * u). Proof. apply part_about, hl_bytes. Qed.
  Definition fd : fl := fsub (fchan01 (hi r g b)) (fchan01 (lo r g b)).
  Lemma D_about : about fd D (9 * u).
  Proof. pose proof bounds. eapply about_le; [|apply (sub_about _ _ _ _ 3 3 M_about N_about) with (m := 1)]; try lra. apply abs_le. unfold M, N in *. lra. Qed.
  Definition L : R := (M + N) / 2.
  Lemma sum_about : about (fadd (fchan01 (hi r g b)) (fchan01 (lo r g b))) (M + N) (10 * u).
  Proof. pose proof bounds. eapply about_le; [|apply (add_about _ _ _ _ 3 3 M_about N_about) with (m := 2)]; try lra. apply abs_le. unfold M, N in *. lra. Qed.
  Lemma light_about : about (fdiv (fadd (fchan01 (hi r g b)) (fchan01 (lo r g b))) (fz 2)) L (13 * u).
  Proof.
    pose proof bounds. pose proof u_pos. unfold L. eapply about_le; [|apply (div_about _ _ _ _ 10 0 sum_about (about_is _ _ (small 2 ltac:(lia)))) with (m := 1) (c := 2) (k := 10)]; try lra; rewrite Rabs_pos_eq; lra.
  Qed.
  Hypothesis NG : (lo r g b < hi r g b)%Z.
  Lemma D_gap : / 255 <= D <= 1.
  Proof. pose proof bounds. pose proof (part_gap _ _ NG). unfold D, M, N in *. lra. Qed.
  (** Saturation. *)
  Definition S : R := if Rle_dec (M + N) 1 then D / (M + N) else D / (2 - M - N).
  Lemma S_amp : 0 <= S <= 1 /\ 0 <= L <= 1 /\ amp S L = D / 2.
  Proof.
    pose proof bounds as BB. pose proof D_gap as G. assert (DM : D <= M /\ D <= 1 - N) by (unfold D; lra). assert (R : 0 <= S <= 1).
    { unfold S. destruct (Rle_dec (M + N) 1); (split; [apply Rmult_le_pos; [lra|apply Rlt_le, Rinv_0_lt_compat; unfold D in *; lra]|]); unfold D in *; apply (Rmult_le_reg_r (if Rle_dec (M + N) 1 then M + N else 2 - M - N)); destruct (Rle_dec (M + N) 1); try lra; unfold Rdiv; rewrite Rmult_assoc, Rinv_l by lra; lra. }
    split; auto. split; [unfold L; lra|]. unfold amp, S, L, Rmin. destruct (Rle_dec (M + N) 1), (Rle_dec ((M + N) / 2) (1 - (M + N) / 2)); try lra; field; unfold D in *; lra.
  Qed.
  Lemma sat_about : about (if flt (fadd (fchan01 (hi r g b)) (fchan01 (lo r g b))) (fz 1) then fdiv fd (fadd (fchan01 (hi r g b)) (fchan01 (lo r g b)))
    else fdiv fd (fsub (fsub (fz 2) (fchan01 (hi r g b))) (fchan01 (lo r g b)))) S (15000 * u).
  Proof.
    pose proof bounds as BB. pose proof D_gap as G. pose proof u_tiny. pose proof u_pos. pose proof S_amp as (RS & _). destruct (small 1 ltac:(lia)) as [F1 V1].
    assert (MN : / 255 <= M + N /\ / 255 <= 2 - M - N) by (unfold D in *; lra).
    assert (Q1 : M + N <= 1 \/ M + N = 1 -> about (fdiv fd (fadd (fchan01 (hi r g b)) (fchan01 (lo r g b)))) S (15000 * u)).
    { intros C. assert (E : S = D / (M + N)) by (unfold S; destruct (Rle_dec (M + N) 1); auto; lra). rewrite E in *. eapply about_le; [|apply (div_about _ _ _ _ 9 10 D_about sum_about) with (m := 1) (c := / 255) (k := 10000)]; try lra; rewrite Rabs_pos_eq; lra. }
    assert (Q2 : 1 <= M + N -> about (fdiv fd (fsub (fsub (fz 2) (fchan01 (hi r g b))) (fchan01 (lo r g b)))) S (15000 * u)).
    { intros C. assert (E : S = D / (2 - M - N)) by (unfold S; destruct (Rle_dec (M + N) 1); auto; replace (2 - M - N) with (M + N) by lra; auto). rewrite E in *.
      assert (E1 : about (fsub (fz 2) (fchan01 (hi r g b))) (2 - M) (7 * u)). { eapply about_le; [|apply (sub_about _ _ _ _ 0 3 (about_is _ _ (small 2 ltac:(lia))) M_about) with (m := 2)]; try lra; apply abs_le; lra. }
      assert (E2 : about (fsub (fsub (fz 2) (fchan01 (hi r g b))) (fchan01 (lo r g b))) (2 - M - N) (14 * u)). { eapply about_le; [|apply (sub_about _ _ _ _ 7 3 E1 N_about) with (m := 2)]; try lra; apply abs_le; lra. }
      eapply about_le; [|apply (div_about _ _ _ _ 9 14 D_about E2) with (m := 1) (c := / 255) (k := 12000)]; try lra; rewrite Rabs_pos_eq; lra. }
    pose proof sum_about as [FS ES]. apply abs_ge in ES. rewrite flt_is, V1 by auto. destruct (Rlt_bool_cases (value (fadd (fchan01 (hi r g b)) (fchan01 (lo r g b)))) 1) as [[-> T]|[-> T]]; [apply Q1|apply Q2].
    - assert (K : (hi r g b + lo r g b < 256)%Z); [apply lt_IZR; rewrite plus_IZR; unfold M, N, part in *; lra|]. assert (K' : (hi r g b + lo r g b <= 255)%Z) by lia. apply IZR_le in K'. rewrite plus_IZR in K'. unfold M, N, part. lra.
    - assert (K : (254 < hi r g b + lo r g b)%Z); [apply lt_IZR; rewrite plus_IZR; unfold M, N, part in *; lra|]. assert (K' : (255 <= hi r g b + lo r g b)%Z) by lia. apply IZR_le in K'. rewrite plus_IZR in K'. unfold M, N, part. lra.
  Qed.
  (** Hue. *)
  Lemma fpart_about : forall x, byte x -> N <= part x <= M -> about (fpart (fchan01 (hi r g b)) fd (fchan01 x)) (/ 2 + (M - part x) / (6 * D)) (16000 * u).
  Proof.
    intros x B R. pose proof bounds as BB. pose proof D_gap as G. pose proof u_tiny. pose proof u_pos. unfold fpart.
    assert (X : 0 <= M - part x <= D) by (unfold D; lra).
    assert (E1 : about (fsub (fchan01 (hi r g b)) (fchan01 x)) (M - part x) (9 * u)). { eapply about_le; [|apply (sub_about _ _ _ _ 3 3 M_about (part_about x B)) with (m := 1)]; try lra; apply abs_le; lra. }
    assert (E2 : about (fdiv (fsub (fchan01 (hi r g b)) (fchan01 x)) (fz 6)) ((M - part x) / 6) (6 * u)). { eapply about_le; [|apply (div_about _ _ _ _ 9 0 E1 (about_is _ _ (small 6 ltac:(lia)))) with (m := 1) (c := 6) (k := 3)]; try lra; rewrite Rabs_pos_eq; lra. }
    assert (E3 : about (fdiv fd (fz 2)) (D / 2) (12 * u)). { eapply about_le; [|apply (div_about _ _ _ _ 9 0 D_about (about_is _ _ (small 2 ltac:(lia)))) with (m := 1) (c := 2) (k := 9)]; try lra; rewrite Rabs_pos_eq; lra. }
    assert (E4 : about (fadd (fdiv (fsub (fchan01 (hi r g b)) (fchan01 x)) (fz 6)) (fdiv fd (fz 2))) ((M - part x) / 6 + D / 2) (21 * u)). { eapply about_le; [|apply (add_about _ _ _ _ 6 12 E2 E3) with (m := 1)]; try lra; apply abs_le; lra. }
    assert (Q : 0 <= ((M - part x) / 6 + D / 2) / D <= 1). { split; [apply Rmult_le_pos; [lra|apply Rlt_le, Rinv_0_lt_compat; lra]|]. apply (Rmult_le_reg_r D); [lra|]. unfold Rdiv at 1. rewrite Rmult_assoc, Rinv_l by lra. lra. }
    eapply about_eq; [eapply about_le; [|apply (div_about _ _ _ _ 21 9 E4 D_about) with (m := 1) (c := / 255) (k := 15900)]; try lra; rewrite Rabs_pos_eq; lra|]. field. lra.
  Qed.
  (** The hue in turns, from minus a sixth on. *)
  Definition H0 : R := if Z.eqb r (hi r g b) then (part g - part b) / (6 * D) else if Z.eqb g (hi r g b) then 1 / 3 + (part b - part r) / (6 * D) else 2 / 3 + (part r - part g) / (6 * D).
  Definition fh0 : fl :=
    if feq (fchan01 r) (fchan01 (hi r g b)) then fsub (fpart (fchan01 (hi r g b)) fd (fchan01 b)) (fpart (fchan01 (hi r g b)) fd (fchan01 g))
    else if feq (fchan01 g) (fchan01 (hi r g b)) then fsub (fadd fthird (fpart (fchan01 (hi r g b)) fd (fchan01 r))) (fpart (fchan01 (hi r g b)) fd (fchan01 b))
    else fsub (fadd (fdiv (fz 2) (fz 3)) (fpart (fchan01 (hi r g b)) fd (fchan01 g))) (fpart (fchan01 (hi r g b)) fd (fchan01 r)).
  Lemma slope : forall x y, N <= x <= M -> N <= y <= M -> - (1 / 6) <= (x - y) / (6 * D) <= 1 / 6 /\ 0 <= (M - x) / (6 * D) <= 1 / 6.
  Proof.
    intros x y X Y. pose proof D_gap as G. assert (P : 0 < 6 * D) by lra. unfold D in *. split; split; apply (Rmult_le_reg_r (6 * (M - N))); try lra; unfold Rdiv; rewrite (Rmult_assoc _ (/ _) _), Rinv_l by lra; lra.
  Qed.
  Lemma two_thirds : about (fdiv (fz 2) (fz 3)) (2 / 3) (3 * u).
  Proof. eapply about_le; [|apply (div_about _ _ _ _ 0 0 (about_is _ _ (small 2 ltac:(lia))) (about_is _ _ (small 3 ltac:(lia)))) with (m := 1) (c := 3) (k := 0)]; try lra; rewrite Rabs_pos_eq; lra. Qed.
  Lemma h0_about : about fh0 H0 (32050 * u) /\ - (1 / 6) <= H0 <= 5 / 6.
  Proof.
    pose proof bounds as (BR & BG & BB & _). pose proof D_gap as G. destruct hl_bytes as [BH BL]. unfold fh0, H0. rewrite !chan_eqb by auto.
    assert (Pr := fpart_about r Br BR). assert (Pg := fpart_about g Bg BG). assert (Pb := fpart_about b Bb BB).
    pose proof (slope _ _ BG BB) as [S1 Sg]. pose proof (slope _ _ BB BR) as [S2 Sb]. pose proof (slope _ _ BR BG) as [S3 Sr].
    destruct (Z.eqb r (hi r g b)); [|destruct (Z.eqb g (hi r g b))].
    - split; [|lra]. eapply about_eq; [eapply about_le; [|apply (sub_about _ _ _ _ 16000 16000 Pb Pg) with (m := 1)]; try lra; apply abs_le; lra|]. field. lra.
    - split; [|lra]. assert (E : about (fadd fthird (fpart (fchan01 (hi r g b)) fd (fchan01 r))) (1 / 3 + (/ 2 + (M - part r) / (6 * D))) (16010 * u)). { eapply about_le; [|apply (add_about _ _ _ _ 3 16000 third_about Pr) with (m := 2)]; try lra; apply abs_le; lra. }
      eapply about_eq; [eapply about_le; [|apply (sub_about _ _ _ _ 16010 16000 E Pb) with (m := 2)]; try lra; apply abs_le; lra|]. field. lra.
    - split; [|lra]. assert (E : about (fadd (fdiv (fz 2) (fz 3)) (fpart (fchan01 (hi r g b)) fd (fchan01 g))) (2 / 3 + (/ 2 + (M - part g) / (6 * D))) (16010 * u)). { eapply about_le; [|apply (add_about _ _ _ _ 3 16000 two_thirds Pg) with (m := 2)]; try lra; apply abs_le; lra. }
      eapply about_eq; [eapply about_le; [|apply (sub_about _ _ _ _ 16010 16000 E Pr) with (m := 2)]; try lra; apply abs_le; lra|]. field. lra.
  Qed.
  (** The three channels at that hue. *)
  Lemma T3_near : forall t, - (1 / 6) <= t <= 1 / 6 -> T3 (t + 1 / 3) = 1 /\ T3 t = Rmax 0 (6 * t) /\ T3 (t - 1 / 3) = Rmax 0 (- (6 * t)).
  Proof.
    intros t R. unfold T3. split; [|split].
    - rewrite (trap_out (t + 1 / 3 + 1)), (trap_top (t + 1 / 3)), (trap_out (t + 1 / 3 - 1)) by lra. ring.
    - rewrite (trap_out (t + 1)), (trap_out (t - 1)) by lra. unfold Rmax. destruct (Rle_dec 0 (6 * t)); [rewrite trap_up by lra|rewrite trap_out by lra]; ring.
    - rewrite (trap_out (t - 1 / 3)), (trap_out (t - 1 / 3 - 1)) by lra. unfold Rmax. destruct (Rle_dec 0 (- (6 * t))); [rewrite trap_down by lra|rewrite trap_out by lra]; lra.
  Qed.
  Lemma T3_far : forall x, 1 / 2 <= x <= 7 / 6 -> T3 x = T3 (x - 1).
  Proof. intros x R. replace x with ((x - 1) + 1) at 1 by ring. apply T3_turn. lra. Qed.
  Lemma slope_mul : forall x y, D * (6 * ((x - y) / (6 * D))) = x - y.
  Proof. intros x y. pose proof D_gap. field. lra. Qed.
  Lemma max_part : forall x y, N <= x -> N <= y -> N = x \/ N = y -> N + D * Rmax 0 (6 * ((x - y) / (6 * D))) = x /\ N + D * Rmax 0 (- (6 * ((x - y) / (6 * D)))) = y.
  Proof.
    intros x y X Y C. pose proof D_gap as G. pose proof (slope_mul x y) as E. set (w := 6 * ((x - y) / (6 * D))) in *. clearbody w.
    unfold Rmax. destruct (Rle_dec 0 w) as [P|P], (Rle_dec 0 (- w)) as [Q|Q].
    - assert (w = 0) by lra. subst w. lra.
    - assert (0 < D * w) by (apply Rmult_lt_0_compat; lra). lra.
    - assert (0 < D * (- w)) by (apply Rmult_lt_0_compat; lra). lra.
    - lra.
  Qed.
  Lemma channels_at : N + D * T3 (H0 + 1 / 3) = part r /\ N + D * T3 H0 = part g /\ N + D * T3 (H0 - 1 / 3) = part b.
  Proof.
    pose proof bounds as (BR & BG & BB & _). pose proof D_gap as G. pose proof (slope _ _ BG BB) as [S1 _]. pose proof (slope _ _ BB BR) as [S2 _]. pose proof (slope _ _ BR BG) as [S3 _].
    assert (LO : lo r g b = r \/ lo r g b = g \/ lo r g b = b) by (unfold lo; lia). assert (HI : hi r g b = r \/ hi r g b = g \/ hi r g b = b) by (unfold hi; lia).
    assert (PM : forall z, hi r g b = z -> part z = M) by (intros z <-; reflexivity). assert (PN : forall z, lo r g b = z -> N = part z) by (intros z <-; reflexivity).
    unfold H0. destruct (Z.eqb_spec r (hi r g b)) as [E1|E1]; [|destruct (Z.eqb_spec g (hi r g b)) as [E2|E2]].
    - assert (C : N = part g \/ N = part b) by (destruct LO as [K|[K|K]]; [exfalso; lia|left|right]; apply PN; auto). destruct (T3_near _ S1) as (-> & -> & ->). destruct (max_part (part g) (part b)) as [-> ->]; try lra. rewrite (PM r) by auto. unfold D. lra.
    - assert (C : N = part b \/ N = part r) by (destruct LO as [K|[K|K]]; [right|exfalso; lia|left]; apply PN; auto). set (t := (part b - part r) / (6 * D)) in *. destruct (T3_near _ S2) as (T1 & T2 & T4). destruct (max_part (part b) (part r)) as [E3 E4]; try lra. fold t in E3, E4.
      rewrite (T3_far (1 / 3 + t + 1 / 3)) by lra. replace (1 / 3 + t + 1 / 3 - 1) with (t - 1 / 3) by lra. rewrite T4. replace (1 / 3 + t) with (t + 1 / 3) by ring. rewrite T1. replace (t + 1 / 3 - 1 / 3) with t by ring. rewrite T2. rewrite (PM g) by auto. unfold D in *. lra.
    - assert (E3 : hi r g b = b) by (destruct HI as [K|[K|K]]; [exfalso; lia|exfalso; lia|auto]). assert (C : N = part r \/ N = part g) by (destruct LO as [K|[K|K]]; [left|right|exfalso; lia]; apply PN; auto).
      set (t := (part r - part g) / (6 * D)) in *. destruct (T3_near _ S3) as (T1 & T2 & T4). destruct (max_part (part r) (part g)) as [E4 E5]; try lra. fold t in E4, E5.
      rewrite (T3_far (2 / 3 + t + 1 / 3)) by lra. replace (2 / 3 + t + 1 / 3 - 1) with t by lra. rewrite T2. replace (2 / 3 + t - 1 / 3) with (t + 1 / 3) by lra. rewrite T1, (PM b) by auto.
      rewrite (T3_far (2 / 3 + t)) by lra. replace (2 / 3 + t - 1) with (t - 1 / 3) by lra. rewrite T4. unfold D in *. lra.
  Qed.
  (** The hue brought to 0 to 1. *)
  Lemma hue_wrapped : exists k : Z, (k = 0 \/ k = 1)%Z /\ about (fwrap fh0) (H0 + IZR k) (32060 * u) /\ (k = 1%Z -> H0 <= 32050 * u) /\ 0 <= value (fwrap fh0) <= 1.
  Proof.
    destruct h0_about as [[F E] R]. pose proof u_tiny. pose proof u_pos. pose proof big_ge. apply abs_ge in E. destruct (small 0 ltac:(lia)) as [F0 V0], (small 1 ltac:(lia)) as [F1 V1]. unfold fwrap. rewrite (flt_is fh0 (fz 0)), V0 by auto.
    destruct (Rlt_bool_cases (value fh0) 0) as [[-> C]|[-> C]].
    - destruct (fadd_rnd fh0 (fz 1)) as [FA VA]; auto; [rewrite V1; apply abs_le; lra|]. rewrite V1 in VA.
      assert (LE : value (fadd fh0 (fz 1)) <= 1) by (rewrite VA; apply Rle_trans with (rnd 1); [apply rnd_le; lra|rewrite rnd_1; lra]). rewrite (flt_is (fz 1)), V1 by auto. rewrite Rlt_bool_false by auto.
      exists 1%Z. split; auto. split; [|split; [intros _; lra|split; [|exact LE]; rewrite VA, <- rnd_0; apply rnd_le; lra]]. assert (AA : Rabs (value fh0 + 1) <= 1) by (apply abs_le; lra). pose proof (abs_ge _ _ (rnd_near _ _ AA ltac:(lra))). split; auto. rewrite VA. apply abs_le. lra.
    - rewrite (flt_is (fz 1)), V1 by auto. rewrite Rlt_bool_false by lra. exists 0%Z. split; auto. split; [|split; [lia|lra]]. split; auto. apply abs_le. lra.
  Qed.
End reading.
Lemma T3_back : forall H k, (k = 0 \/ k = 1)%Z -> - (1 / 6) <= H <= 5 / 6 -> (k = 1%Z -> H <= 1 / 2) ->
  T3 (H + IZR k + 1 / 3) = T3 (H + 1 / 3) /\ T3 (H + IZR k) = T3 H /\ T3 (H + IZR k - 1 / 3) = T3 (H - 1 / 3).
Proof.
  intros H k [-> | ->] R K; [rewrite Rplus_0_r; auto|]. specialize (K eq_refl). split; [|split].
  - replace (H + 1 + 1 / 3) with (H + 1 / 3 + 1) by ring. apply T3_turn. lra.
  - apply T3_turn. lra.
  - replace (H + 1 - 1 / 3) with (H - 1 / 3 + 1) by ring. apply T3_turn. lra.
Qed.
(** What is read, and the channels that belong to it. *)
Definition fits (r g b : Z) (H S L : R) : Prop :=
  - (2 / 3) <= H <= 5 / 3 /\ 0 <= S <= 1 /\ 0 <= L <= 1 /\ L - amp S L + 2 * amp S L * T3 (H + 1 / 3) = part r /\ L - amp S L + 2 * amp S L * T3 H = part g /\ L - amp S L + 2 * amp S L * T3 (H - 1 / 3) = part b.
Notation vr v := (Color_Spec.cR (Color_Spec.unpack v)).
Notation vg v := (Color_Spec.cG (Color_Spec.unpack v)).
Notation vb v := (Color_Spec.cB (Color_Spec.unpack v)).
Notation va v := (Color_Spec.cA (Color_Spec.unpack v)).
Lemma bytes : forall v, byte (vr v) /\ byte (vg v) /\ byte (vb v) /\ byte (va v).
Proof. intros v. rewrite <- Color_Proofs.get_red_arith, <- Color_Proofs.get_green_arith, <- Color_Proofs.get_blue_arith, <- Color_Proofs.get_alpha_arith. auto using Color_Proofs.byte_red, Color_Proofs.byte_green, Color_Proofs.byte_blue, Color_Proofs.byte_alpha. Qed.
Lemma hsl_read : forall v, exists H S L, fits (vr v) (vg v) (vb v) H S L /\ -1/6 <= H <= 5/4 /\ (0 <= value (fhue_turns v) <= 1 /\ about (fhue_turns v) H (32060 * u)) /\ about (fsaturation v) S (15000 * u) /\ about (flightness v) L (13 * u).
Proof.
  intros v. destruct (bytes v) as (BR & BG & BB & _). unfold fhue_turns, fsaturation, flightness. rewrite Color_Proofs.get_red_arith, Color_Proofs.get_green_arith, Color_Proofs.get_blue_arith.
  set (r := vr v) in *. set (g := vg v) in *. set (b := vb v) in *. clearbody r g b. cbv zeta. destruct (chan_hi r g b BR BG BB) as [-> ->]. destruct (hl_bytes r g b BR BG BB) as [BH BL]. rewrite (chan_eqb (hi r g b) (lo r g b)) by auto.
  destruct (Z.eqb_spec (hi r g b) (lo r g b)) as [E|NE].
  - exists 0, 0, (L r g b). assert (EE : r = g /\ b = g) by (unfold hi, lo in E; lia). destruct EE as [-> ->].
    assert (LL : L g g g = part g) by (unfold L, M, N; replace (hi g g g) with g by (unfold hi; lia); replace (lo g g g) with g by (unfold lo; lia); lra). pose proof (part_range g BG).
    split; [|split; [lra|split; [|split; [|apply light_about; auto]]]].
    + unfold fits, amp. rewrite LL, !Rmult_0_l, !Rmult_0_r, !Rmult_0_l, Rminus_0_r, Rplus_0_r. repeat split; lra.
    + pose proof (D_about g g g BG BG BG) as [F _]. unfold fd in F. rewrite E in *. destruct (fsub_rnd (fchan01 (lo g g g)) (fchan01 (lo g g g))) as [F' V]; auto using chan_finite; [apply abs_le; pose proof big_ge; lra|].
      rewrite feq_zero by auto. replace (value (fchan01 (lo g g g)) - value (fchan01 (lo g g g))) with 0 in V by ring. rewrite V, rnd_0. rewrite Req_bool_true by auto. split; [destruct (small 0 ltac:(lia)) as [_ ->]; lra|]. eapply about_le; [|apply about_is, (small 0); lia]. lra.
    + eapply about_le; [|apply about_is, (small 0); lia]. lra.
  - assert (NG : (lo r g b < hi r g b)%Z) by (unfold hi, lo in *; lia). destruct (hue_wrapped r g b BR BG BB NG) as (k & K & A & B & UN). destruct (h0_about r g b BR BG BB NG) as [_ RH]. destruct (S_amp r g b BR BG BB NG) as (RS & RL & EA). pose proof u_tiny. pose proof u_pos.
    exists (H0 r g b + IZR k), (S r g b), (L r g b). destruct (T3_back (H0 r g b) k K RH) as (T1 & T2 & T4); [intros Q; specialize (B Q); lra|]. destruct (channels_at r g b BR BG BB NG) as (C1 & C2 & C3).
    split; [|split; [|split; [|split; [apply sat_about; auto|apply light_about; auto]]]].
    + unfold fits. rewrite T1, T2, T4, EA. assert (LN : L r g b - D r g b / 2 = N r g b) by (unfold L, D; lra). rewrite LN. replace (2 * (D r g b / 2)) with (D r g b) by field. repeat split; auto; try lra; destruct K as [-> | ->]; try specialize (B eq_refl); lra.
    + destruct K as [-> | ->]; [lra|]. specialize (B eq_refl). lra.
    + pose proof (D_about r g b BR BG BB) as [F E]. unfold fd in F, E. apply abs_ge in E. pose proof (D_gap r g b BR BG BB NG). rewrite feq_zero by auto. rewrite Req_bool_false by lra. split; [exact UN|exact A].
Qed.
Lemma fits_hsl : forall r g b H S L, fits r g b H S L -> hsl_of r g b H S L.
Proof.
  intros r g b H S L (RH & RS & RL & E1 & E2 & E3). unfold hsl_of. fold (part r) (part g) (part b). rewrite <- E1, <- E2, <- E3. split; auto. split; auto. split; [|split].
  - apply css_T3 with (z := 0%Z); lra.
  - apply css_T3 with (z := 1%Z); lra.
  - apply css_T3 with (z := 1%Z); lra.
Qed.
(** * Packing *)
Lemma alpha_one : fopacity_byte (fz 1) = 255%Z. Proof. vm_compute. reflexivity. Qed.
Lemma opacity_byte : forall o, byte (fopacity_byte o).
Proof. intros o. unfold fopacity_byte, fcrimp, Color_Spec.byte. repeat match goal with |- context [Z.ltb ?a ?b] => destruct (Z.ltb_spec a b) end; lia. Qed.
Lemma packed : forall r g b o, finite r -> finite g -> finite b -> let c := Color_Spec.unpack (frgb_to_int r g b o) in
  cut (value r) (Color_Spec.cR c) /\ cut (value g) (Color_Spec.cG c) /\ cut (value b) (Color_Spec.cB c) /\ Color_Spec.cA c = fopacity_byte o.
Proof.
  intros r g b o R G B. cbv zeta. unfold frgb_to_int. pose proof (crimp_cut r R) as CR. pose proof (crimp_cut g G) as CG. pose proof (crimp_cut b B) as CB.
  rewrite Color_Proofs.lor_pack; try (eapply cut_range; eassumption); [|apply opacity_byte]. rewrite Color_Proofs.unpack_pack; [cbn; auto|]. repeat split; cbn; try (eapply cut_range; eassumption); apply opacity_byte.
Qed.
Lemma back_close : forall v, exists c, c = Color_Spec.unpack (fset_hsl (fhue_turns v) (fsaturation v) (flightness v)) /\
  (Color_Spec.cR c = vr v \/ Color_Spec.cR c = vr v - 1)%Z /\ (Color_Spec.cG c = vg v \/ Color_Spec.cG c = vg v - 1)%Z /\ (Color_Spec.cB c = vb v \/ Color_Spec.cB c = vb v - 1)%Z /\ Color_Spec.cA c = 255%Z.
Proof.
  intros v. eexists. split; [reflexivity|]. destruct (bytes v) as (BR & BG & BB & _). destruct (hsl_read v) as (H & S & L & (RH & RS & RL & E1 & E2 & E3) & _ & [_ AH] & AS & AL).
  apply (about_le _ _ _ 40000) in AH; [|lra]. apply (about_le _ _ _ 40000) in AS; [|lra]. apply (about_le _ _ _ 40000) in AL; [|lra].
  destruct (rgb_about _ _ _ H S L 40000 AH AS AL RH RS RL ltac:(lra)) as (r & g & b & E & AR & AG & AB). unfold fset_hsl, fhsl_to_int. rewrite E. cbn [fst snd].
  destruct (packed r g b (fz 1) (proj1 AR) (proj1 AG) (proj1 AB)) as (C1 & C2 & C3 & ->). rewrite alpha_one. pose proof u_tiny. pose proof u_pos.
  assert (Z : forall z x, about x (255 * part z) ((110000 * 40000 + 500000) * u) -> Rabs (value x - IZR z) < 1).
  { intros z x [_ Q]. replace (255 * part z) with (IZR z) in Q by (unfold part; field). lra. }
  rewrite E1 in AR. rewrite E2 in AG. rewrite E3 in AB. split; [|split; [|split; auto]]; eapply cut_near; eauto.
Qed.
(** * Hue in degrees *)
Lemma tau_about : about ftau (2 * PI) (4 * u) /\ 6 <= 2 * PI <= 7.
Proof. pose proof pi_bounds. destruct tau_is as [F V]. pose proof tau_close. pose proof u_pos. split; [|lra]. split; auto. rewrite V. eapply Rle_trans; [apply tau_close|]. assert (PI * u <= 4 * u) by (apply Rmult_le_compat_r; lra). lra. Qed.
Lemma hue_degrees : forall x H, about x H (32060 * u) -> -1/6 <= H <= 5/4 -> Rabs (value (fas_degrees (fturns x)) - 360 * H) <= / 100000000.
Proof.
  intros x H A R. destruct tau_about as [TA TR]. pose proof u_tiny. pose proof u_pos. unfold fas_degrees, fturns.
  assert (HT : Rabs (2 * PI * H) <= 9). { rewrite Rabs_mult. apply Rle_trans with (7 * (5 / 4)); [|lra]. apply Rmult_le_compat; try apply Rabs_pos; apply abs_le; lra. }
  assert (E1 : about (fmul ftau x) (2 * PI * H) (224450 * u)). { eapply about_le; [|apply (mul_about _ _ _ _ 4 32060 TA A) with (m := 7) (n := 5 / 4)]; try lra; apply abs_le; lra. }
  assert (E2 : about (fmul (fmul ftau x) (fz 360)) (2 * PI * H * 360) (80900000 * u)). { eapply about_le; [|apply (mul_about _ _ _ _ 224450 0 E1 (about_is _ _ (small 360 ltac:(lia)))) with (m := 9) (n := 360)]; try lra. rewrite Rabs_pos_eq; lra. }
  assert (E3 : about (fdiv (fmul (fmul ftau x) (fz 360)) ftau) (2 * PI * H * 360 / (2 * PI)) (28000000 * u)).
  { eapply about_le; [|apply (div_about _ _ _ _ 80900000 4 E2 TA) with (m := 450) (c := 6) (k := 27000000)]; try lra; [replace (2 * PI * H * 360 / (2 * PI)) with (H * 360) by (field; lra); apply abs_le; lra|rewrite Rabs_pos_eq; lra]. }
  destruct E3 as [_ E3]. replace (2 * PI * H * 360 / (2 * PI)) with (360 * H) in E3 by (field; lra). lra.
Qed.
(** * Blending *)
(** Whole numbers divided: the byte is that of the exact quotient. *)
Lemma div_byte : forall x y a b, is x (IZR a) -> is y (IZR b) -> (0 <= a)%Z -> (0 < b <= 100000)%Z -> (a <= 255 * b)%Z -> finite (fdiv x y) /\ forall n, cut (value (fdiv x y)) n -> n = (a / b)%Z.
Proof.
  intros x y a b [FX VX] [FY VY] A B AB. assert (BP : 0 < IZR b) by (apply IZR_lt; lia). pose proof u_tiny. pose proof u_pos. pose proof big_ge.
  assert (Q : 0 <= IZR a / IZR b <= 255). { apply IZR_le in A, AB. rewrite mult_IZR in AB. split; apply (Rmult_le_reg_r (IZR b)); auto; unfold Rdiv; rewrite ?Rmult_assoc, ?Rinv_l by lra; lra. }
  destruct (fdiv_rnd x y) as [F V]; auto; [rewrite VY; lra|rewrite VX, VY; apply abs_le; lra|]. split; auto. rewrite V, VX, VY. clear V F FX FY VX VY. intros n (C0 & C1 & C2).
  assert (K : (b * (a / b) <= a <= b * (a / b) + (b - 1))%Z) by (Z.to_euclidean_division_equations; lia). assert (K3 : (0 <= a / b <= 255)%Z) by (Z.to_euclidean_division_equations; nia).
  set (k := (a / b)%Z) in *. clearbody k. destruct K as [K1 K2]. apply IZR_le in K1, K2. rewrite plus_IZR, minus_IZR, mult_IZR in K2. rewrite mult_IZR in K1.
  assert (L1 : IZR k <= IZR a / IZR b). { apply (Rmult_le_reg_r (IZR b)); auto. unfold Rdiv. rewrite Rmult_assoc, Rinv_l by lra. lra. }
  assert (L2 : IZR a / IZR b <= IZR k + 1 - / IZR b). { apply (Rmult_le_reg_r (IZR b)); auto. unfold Rdiv. rewrite Rmult_assoc, Rinv_l, Rmult_minus_distr_r, Rinv_l by lra. lra. }
  assert (R1 : IZR k <= rnd (IZR a / IZR b)). { rewrite <- (rnd_int k) by lia. apply rnd_le; auto. }
  assert (R2 : rnd (IZR a / IZR b) <= 255). { apply Rle_trans with (rnd 255); [apply rnd_le; lra|rewrite (rnd_int 255) by lia; lra]. }
  assert (RB : / 100000 <= / IZR b) by (apply Rinv_le_contravar; auto; apply (IZR_le b 100000); lia).
  assert (AA : Rabs (IZR a / IZR b) <= 255) by (apply abs_le; lra). pose proof (abs_ge _ _ (rnd_near _ _ AA ltac:(lra))) as NR.
  assert (R3 : rnd (IZR a / IZR b) < IZR k + 1) by lra. destruct K3 as [K3 _]. apply IZR_le in K3.
  assert (G := C2 ltac:(lra)). destruct G as [G1 G2]. assert ((n < k + 1)%Z) by (apply lt_IZR; rewrite plus_IZR; lra). assert ((k < n + 1)%Z) by (apply lt_IZR; rewrite plus_IZR; lra). lia.
Qed.
Lemma over_alpha : forall x s, is x (IZR s) -> (0 <= s <= 65025)%Z -> (Z.abs (255 * fopacity_byte (fdiv x (fmul (fz 255) (fz 255))) - s) <= 127)%Z.
Proof.
  intros x s [FX VX] B. destruct (mul_whole (fz 255) (fz 255) 255 255 (small 255 ltac:(lia)) (small 255 ltac:(lia)) ltac:(lia)) as [FM VM]. change (255 * 255)%Z with 65025%Z in VM. pose proof u_tiny. pose proof u_pos. pose proof big_ge. assert (SB := B). destruct SB as [S1 S2]. apply IZR_le in S1, S2.
  assert (Q : 0 <= IZR s / 65025 <= 1) by lra. destruct (fdiv_rnd x (fmul (fz 255) (fz 255))) as [F V]; auto; [rewrite VM; lra|rewrite VX, VM; apply abs_le; lra|]. rewrite VX, VM in V.
  set (o := fdiv x (fmul (fz 255) (fz 255))) in *. clearbody o. destruct (small 1 ltac:(lia)) as [F1 V1], (small 0 ltac:(lia)) as [F0 V0], (small 255 ltac:(lia)) as [F5 V5].
  assert (O : 0 <= value o <= 1). { rewrite V. split; [rewrite <- rnd_0 at 1; apply rnd_le; lra|apply Rle_trans with (rnd 1); [apply rnd_le; lra|rewrite rnd_1; lra]]. }
  unfold fopacity_byte. rewrite (flt_is (fz 1) o), V1 by auto. rewrite (Rlt_bool_false 1 (value o)) by lra. rewrite (flt_is o (fz 0)), V0 by auto. rewrite (Rlt_bool_false (value o) 0) by lra.
  destruct (fmul_rnd o (fz 255)) as [FQ VQ]; auto; [rewrite V5; apply abs_le; lra|]. rewrite V5 in VQ. rewrite fround_is, VQ.
  assert (A1 : Rabs (IZR s / 65025) <= 1) by (apply abs_le; lra). assert (N1 := abs_ge _ _ (rnd_near _ _ A1 ltac:(lra))). rewrite <- V in N1. assert (A2 : Rabs (value o * 255) <= 255) by (apply abs_le; lra). assert (N2 := abs_ge _ _ (rnd_near _ _ A2 ltac:(lra))).
  set (n := ((2 * s + 255) / 510)%Z). assert (NB : (510 * n <= 2 * s + 255 <= 510 * n + 509)%Z) by (unfold n; Z.to_euclidean_division_equations; lia). assert (NB2 : (-127 <= s - 255 * n <= 127)%Z) by lia. assert (NB3 : (0 <= n <= 255)%Z) by lia. clearbody n.
  assert (E : ZnearestE (rnd (value o * 255)) = n). { apply Znearest_imp. destruct NB2 as [P1 P2]. apply IZR_le in P1, P2. rewrite minus_IZR, mult_IZR in P1, P2. apply Rabs_def1; lra. }
  rewrite E. unfold fcrimp. repeat match goal with |- context [Z.ltb ?a ?b] => destruct (Z.ltb_spec a b) end; lia.
Qed.
Lemma zsub_whole : forall a, byte a -> is (fsub (fz 255) (fz a)) (IZR (255 - a)).
Proof.
  intros a [A B]. destruct (small 255 ltac:(lia)) as [F5 V5], (small a ltac:(lia)) as [FA VA]. pose proof big_ge. apply IZR_le in A, B. destruct (fsub_rnd (fz 255) (fz a)) as [F V]; auto; [rewrite V5, VA; apply abs_le; lra|].
  rewrite V5, VA, <- minus_IZR, rnd_int in V by (apply le_IZR in A, B; lia). split; auto.
Qed.
Lemma mixed : forall x y a1 a2, byte x -> byte y -> byte a1 -> byte a2 -> is (fadd (fmul (fz (x * a1)) (fz 255)) (fmul (fz (y * a2)) (fsub (fz 255) (fz a1)))) (IZR (x * a1 * 255 + y * a2 * (255 - a1))).
Proof.
  intros x y a1 a2 X Y A1 A2. assert (B1 : (0 <= x * a1 <= 65025)%Z) by (unfold Color_Spec.byte in *; nia). assert (B2 : (0 <= y * a2 <= 65025)%Z) by (unfold Color_Spec.byte in *; nia). assert (B3 : (0 <= 255 - a1 <= 255)%Z) by (unfold Color_Spec.byte in *; lia).
  assert (B4 : (0 <= y * a2 * (255 - a1) <= 65025 * 255)%Z) by nia. apply add_whole; [apply mul_whole; try apply small; lia|apply mul_whole; [apply small; lia|apply zsub_whole; auto|lia]|lia].
Qed.
Lemma sum_alpha : forall a1 a2, byte a1 -> byte a2 -> is (fadd (fmul (fz a1) (fz 255)) (fmul (fz a2) (fsub (fz 255) (fz a1)))) (IZR (a1 * 255 + a2 * (255 - a1))) /\ (0 <= a1 * 255 + a2 * (255 - a1) <= 65025)%Z.
Proof.
  intros a1 a2 A1 A2. assert (B3 : (0 <= 255 - a1 <= 255)%Z) by (unfold Color_Spec.byte in *; lia). assert (B4 : (0 <= a2 * (255 - a1) <= 255 * (255 - a1))%Z) by (unfold Color_Spec.byte in *; nia). unfold Color_Spec.byte in A1.
  split; [|lia]. apply add_whole; [apply mul_whole; try apply small; lia|apply mul_whole; [apply small; unfold Color_Spec.byte in *; lia|apply zsub_whole; auto|lia]|lia].
Qed.
Lemma mix_byte : forall x y a1 a2, byte x -> byte y -> byte a1 -> byte a2 -> a1 <> 0%Z ->
  let f := fdiv (fadd (fmul (fz (x * a1)) (fz 255)) (fmul (fz (y * a2)) (fsub (fz 255) (fz a1)))) (fadd (fmul (fz a1) (fz 255)) (fmul (fz a2) (fsub (fz 255) (fz a1)))) in
  finite f /\ forall n, cut (value f) n -> n = ((x * a1 * 255 + y * a2 * (255 - a1)) / (a1 * 255 + a2 * (255 - a1)))%Z.
Proof.
  intros x y a1 a2 X Y A1 A2 Z. cbv zeta. destruct (sum_alpha a1 a2 A1 A2) as [S R]. pose proof (mixed x y a1 a2 X Y A1 A2) as Q. unfold Color_Spec.byte in *.
  assert (P1 : (0 <= x * a1 <= 255 * a1)%Z) by nia. assert (P2 : (0 <= y * a2 <= 255 * a2)%Z) by nia. assert (P3 : (0 <= y * a2 * (255 - a1) <= 255 * a2 * (255 - a1))%Z) by nia. assert (P4 : (0 <= a2 * (255 - a1))%Z) by nia. apply div_byte; auto; lia.
Qed.
Lemma over_bytes : forall v1 v2, (0 < va v1 < 255)%Z -> let c := Color_Spec.unpack (fover v1 v2) in
  let sa := (va v1 * 255 + va v2 * (255 - va v1))%Z in let mix x y := ((x * va v1 * 255 + y * va v2 * (255 - va v1)) / sa)%Z in
  Color_Spec.cR c = mix (vr v1) (vr v2) /\ Color_Spec.cG c = mix (vg v1) (vg v2) /\ Color_Spec.cB c = mix (vb v1) (vb v2) /\ (Z.abs (255 * Color_Spec.cA c - sa) <= 127)%Z.
Proof.
  intros v1 v2 A. cbv zeta. destruct (bytes v1) as (R1 & G1 & B1 & A1), (bytes v2) as (R2 & G2 & B2 & A2). unfold fover. rewrite !Color_Proofs.get_red_arith, !Color_Proofs.get_green_arith, !Color_Proofs.get_blue_arith, !Color_Proofs.get_alpha_arith. cbv zeta.
  destruct (Z.eqb_spec (va v1) 255) as [E|_]; [lia|]. destruct (Z.eqb_spec (va v1) 0) as [E|NZ]; [lia|].
  destruct (mix_byte _ _ _ _ R1 R2 A1 A2 NZ) as [FR CR], (mix_byte _ _ _ _ G1 G2 A1 A2 NZ) as [FG CG], (mix_byte _ _ _ _ B1 B2 A1 A2 NZ) as [FB CB]. destruct (packed _ _ _ (fdiv (fadd (fmul (fz (va v1)) (fz 255)) (fmul (fz (va v2)) (fsub (fz 255) (fz (va v1))))) (fmul (fz 255) (fz 255))) FR FG FB) as (P1 & P2 & P3 & P4).
  split; [apply CR; exact P1|]. split; [apply CG; exact P2|]. split; [apply CB; exact P3|]. rewrite P4. destruct (sum_alpha _ _ A1 A2). apply over_alpha; auto.
Qed.
(** * Percentages *)
Lemma ratio_about : about (fdiv (fz 255) (fz 100)) (255 / 100) (5 * u).
Proof. eapply about_le; [|apply (div_about _ _ _ _ 0 0 (about_is _ _ (small 255 ltac:(lia))) (about_is _ _ (small 100 ltac:(lia)))) with (m := 3) (c := 100) (k := 0)]; try lra; rewrite Rabs_pos_eq; lra. Qed.
Lemma fin_about : forall x, finite x -> about x (value x) (0 * u).
Proof. intros x F. split; auto. replace (value x - value x) with 0 by ring. rewrite Rabs_R0. lra. Qed.
Lemma percent_near : forall p, finite p -> 0 <= value p <= 100 -> (0 <= fpercent p <= 255)%Z /\ Rabs (IZR (fpercent p) - 255 / 100 * value p) <= / 2 + / 10000000000000.
Proof.
  intros p F R. pose proof u_tiny. pose proof u_pos. assert (A : about (fmul p (fdiv (fz 255) (fz 100))) (value p * (255 / 100)) (820 * u)). { eapply about_le; [|apply (mul_about _ _ _ _ 0 5 (fin_about p F) ratio_about) with (m := 100) (n := 3)]; try lra; rewrite Rabs_pos_eq; lra. }
  destruct A as [_ A]. unfold fpercent. rewrite fround_is. set (w := value (fmul p (fdiv (fz 255) (fz 100)))) in *. clearbody w. pose proof (abs_ge _ _ (near_half w)) as N. apply abs_ge in A. assert (B : (-1 < ZnearestE w < 256)%Z) by (split; apply lt_IZR; lra).
  assert (E : fcrimp (ZnearestE w) = ZnearestE w) by (unfold fcrimp; repeat match goal with |- context [Z.ltb ?a ?b] => destruct (Z.ltb_spec a b) end; lia). rewrite E. split; [lia|]. apply abs_le. lra.
Qed.
Lemma percent_out : forall p, finite p -> Rabs (value p) <= bpow radix2 900 -> (value p <= 0 -> fpercent p = 0%Z) /\ (100 <= value p -> fpercent p = 255%Z).
Proof.
  intros p F R2. destruct ratio_about as [FR ER]. pose proof u_tiny. pose proof u_pos. apply abs_ge in ER. unfold fpercent. rewrite fround_is. destruct (fmul_rnd p (fdiv (fz 255) (fz 100))) as [FM VM]; auto.
  { rewrite Rabs_mult. unfold big. apply Rle_trans with (bpow radix2 900 * bpow radix2 2); [apply Rmult_le_compat; auto using Rabs_pos; assert (B4 : bpow radix2 2 = 4) by (cbn; lra); rewrite B4; apply abs_le; lra|]. rewrite <- bpow_plus. apply bpow_le. lia. }
  rewrite VM. split.
  - intros R. assert (W : rnd (value p * value (fdiv (fz 255) (fz 100))) <= 0) by (rewrite <- rnd_0; apply rnd_le; nra).
    set (w := rnd _) in *. clearbody w. assert (ZnearestE w <= 0)%Z. { apply Z.lt_succ_r, lt_IZR. pose proof (abs_ge _ _ (near_half w)). change (Z.succ 0) with 1%Z. lra. }
    unfold fcrimp. repeat match goal with |- context [Z.ltb ?a ?b] => destruct (Z.ltb_spec a b) end; lia.
  - intros R. assert (K : 100 * value (fdiv (fz 255) (fz 100)) <= value p * value (fdiv (fz 255) (fz 100))) by (apply Rmult_le_compat_r; lra).
    assert (Q : rnd (100 * value (fdiv (fz 255) (fz 100))) <= rnd (value p * value (fdiv (fz 255) (fz 100)))) by (apply rnd_le; auto). assert (A : Rabs (100 * value (fdiv (fz 255) (fz 100))) <= 256) by (apply abs_le; lra). pose proof (abs_ge _ _ (rnd_near _ _ A ltac:(lra))) as N.
    set (w := rnd (value p * value (fdiv (fz 255) (fz 100)))) in *. clearbody w. assert (254 < ZnearestE w)%Z. { apply lt_IZR. pose proof (abs_ge _ _ (near_half w)). lra. }
    unfold fcrimp. repeat match goal with |- context [Z.ltb ?a ?b] => destruct (Z.ltb_spec a b) end; lia.
Qed.
(** * hsl() *)
Lemma turns_about : forall d, finite d -> -240 <= value d <= 600 -> about (fas_turns (fdegrees d)) (value d / 360) (30 * u).
Proof.
  intros d F R. destruct tau_about as [TA TR]. pose proof u_tiny. pose proof u_pos. unfold fas_turns, fdegrees.
  assert (HT : Rabs (2 * PI * value d) <= 4200). { rewrite Rabs_mult. apply Rle_trans with (7 * 600); [|lra]. apply Rmult_le_compat; try apply Rabs_pos; apply abs_le; lra. }
  assert (E1 : about (fmul ftau d) (2 * PI * value d) (6610 * u)). { eapply about_le; [|apply (mul_about _ _ _ _ 4 0 TA (fin_about d F)) with (m := 7) (n := 600)]; try lra; apply abs_le; lra. }
  assert (E2 : about (fdiv (fmul ftau d) (fz 360)) (2 * PI * value d / 360) (52 * u)).
  { eapply about_le; [|apply (div_about _ _ _ _ 6610 0 E1 (about_is _ _ (small 360 ltac:(lia)))) with (m := 12) (c := 360) (k := 37)]; try lra; [apply abs_le; apply abs_ge in HT; lra|rewrite Rabs_pos_eq; lra]. }
  eapply about_eq; [eapply about_le; [|apply (div_about _ _ _ _ 52 4 E2 TA) with (m := 2) (c := 6) (k := 20)]; try lra; [replace (2 * PI * value d / 360 / (2 * PI)) with (value d / 360) by (field; lra); apply abs_le; lra|rewrite Rabs_pos_eq; lra]|]. field. lra.
Qed.
Lemma clamp_about : forall p, finite p -> Rabs (value p) <= bpow radix2 900 -> exists x, unit_part (value p) x /\ 0 <= x <= 1 /\ about (fclamp1 p) x (3 * u).
Proof.
  intros p F BG. destruct (small 100 ltac:(lia)) as [F5 V5], (small 1 ltac:(lia)) as [F1 V1], (small 0 ltac:(lia)) as [F0 V0]. pose proof u_tiny. pose proof u_pos.
  destruct (fdiv_rnd p (fz 100)) as [FD VD]; auto; [rewrite V5; lra|rewrite V5; unfold big; apply Rle_trans with (bpow radix2 900); [apply abs_ge in BG; apply abs_le; lra|apply bpow_le; lia]|]. rewrite V5 in VD. unfold fclamp1. rewrite (flt_is (fz 1)), V1, VD by auto.
  assert (Z : about (fz 0) 0 (3 * u)) by (eapply about_le; [|apply about_is, (small 0); lia]; lra). assert (O : about (fz 1) 1 (3 * u)) by (eapply about_le; [|apply about_is, (small 1); lia]; lra).
  destruct (Rle_dec (value p) 0) as [C|C]; [|destruct (Rle_dec 100 (value p)) as [C2|C2]].
  - exists 0. split; [unfold unit_part; lra|]. split; [lra|]. assert (K : rnd (value p / 100) <= 0) by (rewrite <- rnd_0; apply rnd_le; lra). rewrite Rlt_bool_false by lra. rewrite flt_is, V0, VD by auto. destruct (Rlt_bool_cases (rnd (value p / 100)) 0) as [[-> _]|[-> C3]]; auto.
    split; auto. rewrite VD. replace (rnd (value p / 100)) with 0 by lra. rewrite Rminus_0_r, Rabs_R0. lra.
  - exists 1. split; [unfold unit_part; lra|]. split; [lra|]. assert (K : 1 <= rnd (value p / 100)) by (apply Rle_trans with (rnd 1); [rewrite rnd_1; lra|apply rnd_le; lra]). destruct (Rlt_bool_cases 1 (rnd (value p / 100))) as [[-> _]|[-> C3]].
    + rewrite flt_is, V0, V1 by auto. rewrite Rlt_bool_false by lra. auto.
    + rewrite flt_is, V0, VD by auto. rewrite Rlt_bool_false by lra. split; auto. rewrite VD. replace (rnd (value p / 100)) with 1 by lra. replace (1 - 1) with 0 by ring. rewrite Rabs_R0. lra.
  - exists (value p / 100). split; [unfold unit_part; lra|]. split; [lra|]. assert (K1 : rnd (value p / 100) <= 1) by (apply Rle_trans with (rnd 1); [apply rnd_le; lra|rewrite rnd_1; lra]). assert (K0 : 0 <= rnd (value p / 100)) by (rewrite <- rnd_0; apply rnd_le; lra). rewrite Rlt_bool_false by lra. rewrite flt_is, V0, VD by auto. rewrite Rlt_bool_false by lra.
    split; auto. rewrite VD. assert (AA : Rabs (value p / 100) <= 1) by (apply abs_le; lra). pose proof (rnd_near _ _ AA ltac:(lra)). lra.
Qed.
Lemma alpha_near : forall o, finite o -> (value o <= 0 -> fopacity_byte o = 0%Z) /\ (1 <= value o -> fopacity_byte o = 255%Z) /\ (0 <= value o <= 1 -> Rabs (IZR (fopacity_byte o) - 255 * value o) <= / 2 + / 10000000000000).
Proof.
  intros o F. destruct (small 255 ltac:(lia)) as [F5 V5], (small 1 ltac:(lia)) as [F1 V1], (small 0 ltac:(lia)) as [F0 V0]. pose proof u_tiny. pose proof u_pos. unfold fopacity_byte. rewrite (flt_is (fz 1) o), V1 by auto.
  assert (K : forall w, finite w -> 0 <= value w <= 1 -> Rabs (IZR (fcrimp (fround (fmul w (fz 255)))) - 255 * value w) <= / 2 + / 10000000000000).
  { intros w FW R. assert (A : about (fmul w (fz 255)) (value w * 255) (260 * u)). { eapply about_le; [|apply (mul_about _ _ _ _ 0 0 (fin_about w FW) (about_is _ _ (small 255 ltac:(lia)))) with (m := 1) (n := 255)]; try lra; rewrite Rabs_pos_eq; lra. }
    destruct A as [_ A]. rewrite fround_is. set (q := value (fmul w (fz 255))) in *. clearbody q. pose proof (abs_ge _ _ (near_half q)) as N. apply abs_ge in A. assert (B : (-1 < ZnearestE q < 256)%Z) by (split; apply lt_IZR; lra).
    assert (E : fcrimp (ZnearestE q) = ZnearestE q) by (unfold fcrimp; repeat match goal with |- context [Z.ltb ?a ?b] => destruct (Z.ltb_spec a b) end; lia). rewrite E. apply abs_le. lra. }
  assert (K0 : forall w, finite w -> value w = 0 -> fcrimp (fround (fmul w (fz 255))) = 0%Z). { intros w FW E. pose proof (abs_ge _ _ (K w FW ltac:(lra))) as Q. rewrite E in Q. assert (-1 < fcrimp (fround (fmul w (fz 255))) < 1)%Z by (split; apply lt_IZR; lra). lia. }
  assert (K1 : forall w, finite w -> value w = 1 -> fcrimp (fround (fmul w (fz 255))) = 255%Z). { intros w FW E. pose proof (abs_ge _ _ (K w FW ltac:(lra))) as Q. rewrite E in Q. assert (254 < fcrimp (fround (fmul w (fz 255))) < 256)%Z by (split; apply lt_IZR; lra). lia. }
  destruct (Rlt_bool_cases 1 (value o)) as [[-> C]|[-> C]].
  - rewrite (flt_is (fz 1) (fz 0)), V0, V1 by auto. rewrite Rlt_bool_false by lra. split; [intros; lra|]. split; [auto|intros; lra].
  - rewrite (flt_is o (fz 0)), V0 by auto. destruct (Rlt_bool_cases (value o) 0) as [[-> C2]|[-> C2]].
    + split; [auto|]. split; intros; lra.
    + split; [intros; apply K0; auto; lra|]. split; [intros; apply K1; auto; lra|auto].
Qed.
