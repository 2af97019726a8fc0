(** C100-C104: segments, transforms, tolerance, relative steps and opacity in binary floating point. *)
Require Import ZArith Reals List Bool Lra Lia Psatz.
From Flocq Require Import Core BinarySingleNaN.
Require Import Verif.Point_Model Verif.Curve_Spec Verif.Float_Model Verif.Float_Spec Verif.Float_Proofs Verif.FloatBox_Proofs Verif.FloatMat_Proofs.
Import ListNotations.
Open Scope R_scope.

(** The float m * 2^e, for examples. *)
Definition fd (m e : Z) : fl := binary_normalize 53 1024 p53 p1024 mode_NE m e false.
Lemma fd_is : forall m e, (Z.abs m < 2 ^ 53)%Z -> (-1074 <= e <= 900)%Z -> is (fd m e) (IZR m * bpow radix2 e).
Proof.
  intros m e HM HE. pose proof (binary_normalize_correct 53 1024 p53 p1024 mode_NE m e false) as H. cbv zeta in H. fold (fd m e) in H. change (round_mode mode_NE) with ZnearestE in H.
  set (r := F2R {| Fnum := m; Fexp := e |}) in *. assert (E : r = IZR m * bpow radix2 e) by reflexivity.
  assert (G : round radix2 (SpecFloat.fexp 53 1024) ZnearestE r = r).
  { apply round_generic; [typeclasses eauto|]. change (SpecFloat.fexp 53 1024) with (FLT_exp (-1074) 53). apply generic_format_FLT. exists (Float radix2 m e); cbn; [reflexivity|lia|lia]. }
  rewrite G in H. rewrite Rlt_bool_true in H; [destruct H as (A & B & _); split; [exact B|unfold value; rewrite A; exact E]|].
  rewrite E, Rabs_mult, (Rabs_right (bpow radix2 e)) by (pose proof (bpow_gt_0 radix2 e); lra). rewrite <- abs_IZR.
  apply Rle_lt_trans with (bpow radix2 53 * bpow radix2 e); [apply Rmult_le_compat_r; [apply bpow_ge_0|]; change (bpow radix2 53) with (IZR (2 ^ 53)); apply IZR_le; lia|]. rewrite <- bpow_plus. apply bpow_lt. lia.
Qed.
Definition tolerance (M : R) : R := bpow radix2 (-46) * M + bpow radix2 (-1068).
Lemma tolerance_D : forall M, 128 * D M = tolerance M.
Proof.
  intros M. unfold D, u, eta, tolerance. change (-46)%Z with (7 + -53)%Z. change (-1068)%Z with (7 + -1075)%Z. rewrite !bpow_plus. change (bpow radix2 7) with 128. ring.
Qed.
Lemma controls_ok : forall M s p, (forall q, In q (controls s) -> within M q) -> In p (controls s) -> ok M (fx p) /\ ok M (fy p).
Proof. intros M s p H I. destruct (H p I) as ([A B] & C & E). split; split; auto. Qed.

Lemma about_weaken : forall M x v w k, 0 <= M -> finite x -> Rabs (value x - v) <= k * D M -> v = w -> k <= 128 -> about x w (128 * D M).
Proof. intros M x v w k MP F E <- K. pose proof (D_pos M MP). split; auto. nra. Qed.

(** C100. Every computed point of a line, quadratic or cubic curve is the point of the curve, but for an error of about 2^-46
    times the size of the coordinates, whatever ** is used that is right to two units in the last place, with numpy or not. *)
Theorem float_points_close : forall pow np s t M, good_pow pow -> 0 <= M <= bpow radix2 1000 -> (forall q, In q (controls s) -> within M q) -> finite t -> 0 <= value t <= 1 ->
  about_pt (fpoint pow np s t) (exact_point s (value t)) (tolerance M).
Proof.
  intros pow np s t M GP [MP MB] W FT T. rewrite <- tolerance_D. pose proof (D_pos M MP) as DP. pose proof (fun p => controls_ok M s p W) as O. destruct s as [a b|a c b|a c d b]; cbn [controls] in O; cbn [fpoint exact_point].
  - destruct (O a) as [AX AY]; [left; auto|]. destruct (O b) as [BX BY]; [right; left; auto|].
    destruct (line_about M MP MB np _ _ t AX BX FT T) as [F1 E1]. destruct (line_about M MP MB np _ _ t AY BY FT T) as [F2 E2].
    split; [eapply (about_weaken M _ _ _ _ MP F1 E1)|eapply (about_weaken M _ _ _ _ MP F2 E2)]; solve [reflexivity|lra].
  - destruct (O a) as [AX AY]; [left; auto|]. destruct (O c) as [CX CY]; [right; left; auto|]. destruct (O b) as [BX BY]; [right; right; left; auto|].
    destruct (quad_about M MP MB pow GP _ _ _ t AX CX BX FT T) as (F1 & _ & E1). destruct (quad_about M MP MB pow GP _ _ _ t AY CY BY FT T) as (F2 & _ & E2).
    split; [eapply (about_weaken M _ _ _ _ MP F1 E1)|eapply (about_weaken M _ _ _ _ MP F2 E2)]; try lra; cbn [casteljau2 mix px py place]; ring.
  - destruct (O a) as [AX AY]; [left; auto|]. destruct (O c) as [CX CY]; [right; left; auto|]. destruct (O d) as [DX DY]; [right; right; left; auto|]. destruct (O b) as [BX BY]; [right; right; right; left; auto|].
    destruct (cubic_about M MP MB pow GP _ _ _ _ t AX CX DX BX FT T) as (F1 & _ & E1). destruct (cubic_about M MP MB pow GP _ _ _ _ t AY CY DY BY FT T) as (F2 & _ & E2).
    split; [eapply (about_weaken M _ _ _ _ MP F1 E1)|eapply (about_weaken M _ _ _ _ MP F2 E2)]; try lra; cbn [casteljau3 casteljau2 mix px py place]; ring.
Qed.
Example float_points_ex : good_pow rep_pow /\ 0 <= 100 <= bpow radix2 1000 /\
  (forall q, In q (controls (FQuad (FP (fz 0) (fz 10)) (FP (fd 3602879701896397 (-55)) (fz 100)) (FP (fz 50) (fz 0)))) -> within 100 q) /\ is (fd 1 (-2)) (/ 4).
Proof.
  assert (Z : forall z, (Z.abs z <= 100)%Z -> finite (fz z) /\ Rabs (value (fz z)) <= 100) by (intros z H; destruct (fz_is z) as [F V]; [lia|]; split; [exact F|]; rewrite V, <- abs_IZR; apply IZR_le; lia).
  split; [apply rep_pow_good|]. split; [split; [lra|]; apply Rle_trans with (bpow radix2 7); [change (bpow radix2 7) with 128; lra|apply bpow_le; lia]|]. split.
  - assert (Y : finite (fd 3602879701896397 (-55)) /\ Rabs (value (fd 3602879701896397 (-55))) <= 100).
    { split; [vm_compute; reflexivity|]. apply Rle_trans with (value (fz 1)); [|rewrite (proj2 fz1); lra].
      rewrite Rabs_right; [apply fle_spec; vm_compute; reflexivity|]. rewrite <- (proj2 fz0). apply Rle_ge. apply fle_spec; vm_compute; reflexivity. }
    cbn [controls]. intros q [<- |[<- |[<- |[]]]]; unfold within, finite_pt; cbn [fx fy]; (split; [split|split]); solve [apply Y|apply Z; lia].
  - replace (/ 4) with (1 * bpow radix2 (-2)) by (change (bpow radix2 (-2)) with (/ 4); lra). apply (fd_is 1 (-2)); lia.
Qed.
Print Assumptions float_points_close.

(** At 0 and 1 the points are the ends, with no error at all. Full statement: of every segment; without numpy the points of
    lines are computed differently and the end can be missed, see below. *)
Theorem float_ends_partial : forall pow np s t, good_pow pow -> (forall q, In q (controls s) -> finite_pt q) -> finite t -> (np = true \/ forall a b, s <> FLine a b) ->
  (value t = 0 -> is_pt (fpoint pow np s t) (place (seg_start s))) /\ (value t = 1 -> is_pt (fpoint pow np s t) (place (seg_end s))).
Proof.
  intros pow np s t GP W FT N. destruct s as [a b|a c b|a c d b]; cbn [controls] in W; cbn [fpoint seg_start seg_end].
  - destruct N as [-> |N]; [|exfalso; eapply N; reflexivity]. cbn [flin1]. destruct (W a) as [AX AY]; [left; auto|]. destruct (W b) as [BX BY]; [right; left; auto|].
    destruct (interp_ends (fx a) (fx b) t FT) as [X0 X1]. destruct (interp_ends (fy a) (fy b) t FT) as [Y0 Y1]. unfold is_pt. cbn [fx fy]. split; intros V; [rewrite X0, Y0 by auto|rewrite X1, Y1 by auto]; repeat split; auto.
  - destruct (W a) as [AX AY]; [left; auto|]. destruct (W c) as [CX CY]; [right; left; auto|]. destruct (W b) as [BX BY]; [right; right; left; auto|].
    destruct (quad_ends pow GP (fx a) (fx c) (fx b) t AX CX BX) as [X0 X1]. destruct (quad_ends pow GP (fy a) (fy c) (fy b) t AY CY BY) as [Y0 Y1].
    split; intros V; (split; cbn [fx fy place px py]; [apply X0 || apply X1|apply Y0 || apply Y1]; split; auto).
  - destruct (W a) as [AX AY]; [left; auto|]. destruct (W c) as [CX CY]; [right; left; auto|]. destruct (W d) as [DX DY]; [right; right; left; auto|]. destruct (W b) as [BX BY]; [right; right; right; left; auto|].
    destruct (cubic_ends pow GP (fx a) (fx c) (fx d) (fx b) t AX CX DX BX) as [X0 X1]. destruct (cubic_ends pow GP (fy a) (fy c) (fy d) (fy b) t AY CY DY BY) as [Y0 Y1].
    split; intros V; (split; cbn [fx fy place px py]; [apply X0 || apply X1|apply Y0 || apply Y1]; split; auto).
Qed.
Example float_ends_ex : (forall q, In q (controls (FLine (FP (fz 1) (fz 3)) (FP (fd 1 (-60)) (fz 7)))) -> finite_pt q) /\ finite (fz 1) /\ value (fz 1) = 1.
Proof. split; [cbn [controls]; intros q [<- |[<- |[]]]; split; vm_compute; reflexivity|apply fz1]. Qed.
Print Assumptions float_ends_partial.
(** Without numpy, point(1) of the line from 1 to 2^-60 is 0. *)
Theorem float_ends_refuted : exists a b, finite_pt a /\ finite_pt b /\ forall pow, value (fx (fpoint pow false (FLine a b) (fz 1))) <> value (fx b).
Proof.
  exists (FP (fz 1) (fz 0)), (FP (fd 1 (-60)) (fz 0)). split; [split; vm_compute; reflexivity|]. split; [split; vm_compute; reflexivity|]. intros pow. cbn [fpoint flin1 fx]. apply Rlt_not_eq. apply flt_spec; vm_compute; reflexivity.
Qed.
Print Assumptions float_ends_refuted.

(** With numpy the computed points of a line never leave its box, not even by a rounding error. Full statement: of every
    segment; without numpy, and for quadratic curves, they can, see below. *)
Theorem float_line_in_box_partial : forall pow a b t, finite_pt a -> finite_pt b -> Rabs (value (fx b) - value (fx a)) <= bpow radix2 1023 -> Rabs (value (fy b) - value (fy a)) <= bpow radix2 1023 ->
  finite t -> 0 <= value t <= 1 ->
  let p := fpoint pow true (FLine a b) t in
  finite_pt p /\ value (fst (fline_range (fx a) (fx b))) <= value (fx p) <= value (snd (fline_range (fx a) (fx b))) /\
  value (fst (fline_range (fy a) (fy b))) <= value (fy p) <= value (snd (fline_range (fy a) (fy b))).
Proof.
  intros pow a b t [AX AY] [BX BY] X Y FT T. cbn [fpoint flin1 fx fy fline_range fst snd]. destruct (interp_between (fx a) (fx b) t AX BX X FT T) as [F1 I1]. destruct (interp_between (fy a) (fy b) t AY BY Y FT T) as [F2 I2].
  rewrite (proj2 (fmin_spec _ _ AX BX)), (proj2 (fmax_spec _ _ AX BX)), (proj2 (fmin_spec _ _ AY BY)), (proj2 (fmax_spec _ _ AY BY)). split; [split; assumption|]. split; assumption.
Qed.
Example float_line_in_box_ex : finite_pt (FP (fd 3602879701896397 (-55)) (fz 3)) /\ finite_pt (FP (fz 7) (fz (-5))) /\ value (fz (-5)) = -5.
Proof. split; [split; vm_compute; reflexivity|]. split; [split; vm_compute; reflexivity|]. apply (fz_is (-5)). lia. Qed.
Print Assumptions float_line_in_box_partial.
(** -6.9 to 19.3 without numpy: point(1) is 19.300000000000004. And the quadratic curve that stays at 1/3 is computed to be
    above 1/3 at 45/64. *)
Theorem float_in_box_refuted :
  (exists a b, finite a /\ finite b /\ value (snd (fline_range a b)) < value (flin1 false a b (fz 1))) /\
  (exists x t, finite x /\ finite t /\ 0 <= value t <= 1 /\ value (snd (fquad_range rep_pow x x x)) < value (fquad1 rep_pow x x x t)).
Proof.
  split.
  - exists (fd (-7768709357214106) (-50)), (fd 5432463925515661 (-48)). split; [vm_compute; reflexivity|]. split; [vm_compute; reflexivity|]. apply flt_spec; vm_compute; reflexivity.
  - exists (fd 6004799503160661 (-54)), (fd 45 (-6)). split; [vm_compute; reflexivity|]. split; [vm_compute; reflexivity|]. split.
    + rewrite <- (proj2 fz0), <- (proj2 fz1). split; apply fle_spec; vm_compute; reflexivity.
    + apply flt_spec; vm_compute; reflexivity.
Qed.
Print Assumptions float_in_box_refuted.
(** When the ends are too far apart, numpy's slope is infinite, and so are the points. *)
Theorem float_line_overflow_refuted : exists a b t, finite a /\ finite b /\ finite t /\ 0 <= value t <= 1 /\ ~ finite (flin1 true a b t).
Proof.
  exists (fd (-1) 1023), (fd 1 1023), (fd 1 (-1)). split; [vm_compute; reflexivity|]. split; [vm_compute; reflexivity|]. split; [vm_compute; reflexivity|]. split.
  - rewrite <- (proj2 fz0), <- (proj2 fz1). split; apply fle_spec; vm_compute; reflexivity.
  - vm_compute. discriminate.
Qed.
Print Assumptions float_line_overflow_refuted.

(** The computed box of a line is exact. *)
Theorem float_line_box : forall a b, finite_pt a -> finite_pt b ->
  (exists lo hi, is (fst (fline_range (fx a) (fx b))) lo /\ is (snd (fline_range (fx a) (fx b))) hi /\ extent (FLine a b) px lo hi 0) /\
  (exists lo hi, is (fst (fline_range (fy a) (fy b))) lo /\ is (snd (fline_range (fy a) (fy b))) hi /\ extent (FLine a b) py lo hi 0).
Proof.
  intros a b [AX AY] [BX BY].
  assert (L : forall axis v w, (forall t, axis (mix t (place a) (place b)) = (1 - t) * v + t * w) -> extent (FLine a b) axis (Rmin v w) (Rmax v w) 0).
  { intros axis v w E. unfold extent. cbn [exact_point]. split; [|split].
    - intros t T. rewrite E. pose proof (chord_between v w t T). lra.
    - destruct (min_cases v w) as [-> | ->]; [exists 0|exists 1]; (split; [lra|]); rewrite E; apply abs_le; lra.
    - destruct (max_cases v w) as [-> | ->]; [exists 0|exists 1]; (split; [lra|]); rewrite E; apply abs_le; lra. }
  split; (eexists; eexists; split; [apply fmin_spec; assumption|split; [apply fmax_spec; assumption|apply L; intros; reflexivity]]).
Qed.
Print Assumptions float_line_box.
(** The computed box of a quadratic curve has the whole curve but for the tolerance, and each of its sides is that close to a
    point of the curve. This holds however the quotient in bbox() is rounded, and when it overflows. *)
Theorem float_quad_box : forall pow a c b M, good_pow pow -> 0 <= M <= bpow radix2 1000 -> (forall q, In q (controls (FQuad a c b)) -> within M q) ->
  (exists lo hi, is (fst (fquad_range pow (fx a) (fx c) (fx b))) lo /\ is (snd (fquad_range pow (fx a) (fx c) (fx b))) hi /\ extent (FQuad a c b) px lo hi (tolerance M)) /\
  (exists lo hi, is (fst (fquad_range pow (fy a) (fy c) (fy b))) lo /\ is (snd (fquad_range pow (fy a) (fy c) (fy b))) hi /\ extent (FQuad a c b) py lo hi (tolerance M)).
Proof.
  intros pow a c b M GP [MP MB] W. pose proof (fun p => controls_ok M _ p W) as O. cbn [controls] in O.
  destruct (O a) as [AX AY]; [left; auto|]. destruct (O c) as [CX CY]; [right; left; auto|]. destruct (O b) as [BX BY]; [right; right; left; auto|]. rewrite <- tolerance_D.
  assert (L : forall axis x0 x1 x2, ok M x0 -> ok M x1 -> ok M x2 -> (forall t, axis (casteljau2 (place a) (place c) (place b) t) = bez2 (value x0) (value x1) (value x2) t) ->
    exists lo hi, is (fst (fquad_range pow x0 x1 x2)) lo /\ is (snd (fquad_range pow x0 x1 x2)) hi /\ extent (FQuad a c b) axis lo hi (128 * D M)).
  { intros axis x0 x1 x2 O0 O1 O2 E. destruct (quad_range_near M MP MB pow GP x0 x1 x2 O0 O1 O2) as (lo & hi & A & B & N1 & (t1 & T1 & N2) & (t2 & T2 & N3)). exists lo, hi. split; [exact A|]. split; [exact B|].
    unfold extent. cbn [exact_point]. split; [|split].
    - intros t T. rewrite E. apply N1. exact T.
    - exists t1. rewrite E. auto.
    - exists t2. rewrite E. auto. }
  split; apply L; auto; intros t; unfold bez2; cbn [casteljau2 mix px py place]; ring.
Qed.
(** Controls 0, 10 and 5: the box is from 0 to 6 2/3. *)
Example float_quad_box_ex : (forall q, In q (controls (FQuad (FP (fz 0) (fz 0)) (FP (fz 10) (fz 0)) (FP (fz 5) (fz 1)))) -> within 10 q) /\
  6.6 < value (snd (fquad_range rep_pow (fz 0) (fz 10) (fz 5))) < 6.7.
Proof.
  assert (Z : forall z, (Z.abs z <= 10)%Z -> finite (fz z) /\ Rabs (value (fz z)) <= 10) by (intros z H; destruct (fz_is z) as [F V]; [lia|]; split; [exact F|]; rewrite V, <- abs_IZR; apply IZR_le; lia).
  split.
  - cbn [controls]. intros q [<- |[<- |[<- |[]]]]; unfold within, finite_pt; cbn [fx fy]; repeat split; apply Z; lia.
  - split; [apply Rlt_trans with (value (fd 53 (-3)))|apply Rlt_trans with (value (fd 427 (-6)))]; try (apply flt_spec; vm_compute; reflexivity); [rewrite (proj2 (fd_is 53 (-3) ltac:(lia) ltac:(lia))); change (bpow radix2 (-3)) with (/ 8)|rewrite (proj2 (fd_is 427 (-6) ltac:(lia) ltac:(lia))); change (bpow radix2 (-6)) with (/ 64)]; lra.
Qed.
Print Assumptions float_quad_box.

(** C101. Applying a matrix is right but for an error of about 2^-49 times the size of what is added up. *)
Theorem float_apply_close : forall m p S, finite_mx m -> finite_pt p -> sizes m (place p) S -> S <= bpow radix2 1000 ->
  about_pt (fapply m p) (image m (place p)) (bpow radix2 (-49) * S + bpow radix2 (-1071)).
Proof.
  intros m p S (A & B & C & D' & E & F) [X Y] [S1 S2] SB.
  assert (SP : 0 <= S) by (eapply Rle_trans; [|exact S1]; repeat apply Rplus_le_le_0_compat; apply Rabs_pos).
  replace (bpow radix2 (-49) * S + bpow radix2 (-1071)) with (16 * D S).
  2:{ unfold D, u, eta. change (-49)%Z with (4 + -53)%Z. change (-1071)%Z with (4 + -1075)%Z. rewrite !bpow_plus. change (bpow radix2 4) with 16. ring. }
  unfold about_pt, image, fapply. cbn [fx fy px py place]. split; apply (apply1_about S SP SB); assumption.
Qed.
Example float_apply_ex : finite_mx (FM (fz 2) (fz 0) (fz 1) (fz 3) (fd 3602879701896397 (-55)) (fz 5)) /\ finite_pt (FP (fz 3) (fz 4)) /\
  sizes (FM (fz 2) (fz 0) (fz 1) (fz 3) (fz 7) (fz 5)) (place (FP (fz 3) (fz 4))) 17.
Proof.
  split; [repeat split; vm_compute; reflexivity|]. split; [split; vm_compute; reflexivity|]. assert (Z : forall z, (Z.abs z <= 100)%Z -> value (fz z) = IZR z) by (intros z H; apply fz_is; lia).
  unfold sizes, place. cbn [fma fmb fmc fmd fme fmf fx fy px py]. rewrite !Z by lia. rewrite <- !mult_IZR, <- !abs_IZR, <- !plus_IZR. split; apply IZR_le; cbn; lia.
Qed.
Print Assumptions float_apply_close.
(** Integers are mapped exactly, as long as nothing passes 2^53. *)
Theorem float_apply_whole : forall m p N, whole_mx (2 ^ 53) m -> whole_pt (2 ^ 53) p -> sizes m (place p) N -> N <= IZR (2 ^ 53) -> is_pt (fapply m p) (image m (place p)) /\ whole_pt (2 ^ 53) (fapply m p).
Proof.
  intros m p N ((za & A & _) & (zb & B & _) & (zc & C & _) & (zd & D' & _) & (ze & E & _) & (zf & F & _)) ((zx & X & _) & (zy & Y & _)) [S1 S2] HN.
  unfold place in S1, S2. cbn [px py] in S1, S2. rewrite (proj2 A), (proj2 C), (proj2 E), (proj2 X), (proj2 Y) in S1. rewrite (proj2 B), (proj2 D'), (proj2 F), (proj2 X), (proj2 Y) in S2.
  rewrite <- !mult_IZR, <- !abs_IZR, <- !plus_IZR in S1, S2. pose proof (le_IZR _ _ (Rle_trans _ _ _ S1 HN)) as H1. pose proof (le_IZR _ _ (Rle_trans _ _ _ S2 HN)) as H2.
  destruct (apply_whole m p za zb zc zd ze zf zx zy A B C D' E F X Y) as [P Q]; [rewrite (Z.mul_comm zx), (Z.mul_comm zy); exact H1|rewrite (Z.mul_comm zx), (Z.mul_comm zy); exact H2|].
  split.
  - unfold is_pt, image, place. cbn [px py]. rewrite (proj2 A), (proj2 B), (proj2 C), (proj2 D'), (proj2 E), (proj2 F), (proj2 X), (proj2 Y). split; [split; [apply P|]|split; [apply Q|]].
    + rewrite (proj2 P), !plus_IZR, !mult_IZR. ring.
    + rewrite (proj2 Q), !plus_IZR, !mult_IZR. ring.
  - split; [exists (zx * za + zy * zc + ze)%Z|exists (zx * zb + zy * zd + zf)%Z]; (split; [assumption|]); lia.
Qed.
Example float_apply_whole_ex : whole_mx (2 ^ 53) (FM (fz 2) (fz 0) (fz 1) (fz 3) (fz 7) (fz 5)) /\ whole_pt (2 ^ 53) (FP (fz 3) (fz 4)) /\ 17 <= IZR (2 ^ 53).
Proof.
  assert (Z : forall z, (Z.abs z <= 100)%Z -> whole (2 ^ 53) (fz z)) by (intros z H; exists z; split; [apply fz_is|]; lia).
  split; [repeat split; apply Z; lia|]. split; [split; apply Z; lia|apply IZR_le; lia].
Qed.
Print Assumptions float_apply_whole.
Section Sizes.
  Local Open Scope Z_scope.
  Lemma PB : forall a b N K, Z.abs a <= N -> Z.abs b <= K -> 0 <= N -> Z.abs (a * b) <= N * K.
  Proof. intros. rewrite Z.abs_mul. apply Z.mul_le_mono_nonneg; lia. Qed.
  Lemma P3 : forall a b, Z.abs a <= 65536 -> Z.abs b <= 8590000128 -> Z.abs (a * b) <= 562954248388608.
  Proof. intros a b HA HB. apply (PB a b 65536 8590000128); lia. Qed.
  Lemma DOT : forall u v w t k l, Z.abs u <= 65536 -> Z.abs v <= 65536 -> Z.abs w <= 65536 -> Z.abs t <= 65536 -> Z.abs k <= 65536 -> Z.abs l <= 1 -> Z.abs (u * v) + Z.abs (w * t) + Z.abs (k * l) <= 8590000128.
  Proof. intros u v w t k l U V W T K L. pose proof (PB u v _ _ U V). pose proof (PB w t _ _ W T). pose proof (PB k l 65536 1 K L). lia. Qed.
  Lemma DOT1 : forall u v w t k, Z.abs u <= 65536 -> Z.abs v <= 65536 -> Z.abs w <= 65536 -> Z.abs t <= 65536 -> Z.abs k <= 65536 -> Z.abs (u * v) + Z.abs (w * t) + Z.abs k <= 2 ^ 53 /\ Z.abs (u * v + w * t + k) <= 8590000128.
  Proof. intros u v w t k U V W T K. pose proof (DOT u v w t k 1 U V W T K). rewrite Z.mul_1_r in H. lia. Qed.
  Lemma SUM3 : forall x v y w e, Z.abs x <= 65536 -> Z.abs v <= 8590000128 -> Z.abs y <= 65536 -> Z.abs w <= 8590000128 -> Z.abs e <= 8590000128 -> Z.abs (x * v) + Z.abs (y * w) + Z.abs e <= 2 ^ 53.
  Proof. intros x v y w e X V Y W E. pose proof (P3 x v X V). pose proof (P3 y w Y W). lia. Qed.
  Lemma W64 : forall a, Z.abs a <= 65536 -> Z.abs a <= 8590000128. Proof. lia. Qed.
  Lemma Q : forall a b c d e k (fa fb fc fdd fe : fl), is fa (IZR a) -> is fb (IZR b) -> is fc (IZR c) -> is fdd (IZR d) -> is fe (IZR e) -> Z.abs a <= 65536 -> Z.abs b <= 65536 -> Z.abs c <= 65536 -> Z.abs d <= 65536 -> Z.abs e <= 65536 -> 0 <= k <= 1 ->
     is (fadd (fadd (fmul fa fb) (fmul fc fdd)) (fmul fe (fz k))) (IZR (a * b + c * d + e * k)) /\ Z.abs (a * b + c * d + e * k) <= 8590000128.
  Proof.
    intros a b c d e k fa fb fc fdd fe FA FB FC FDD FE HA HB HC HD HE HK. assert (K1 : Z.abs k <= 1) by lia. pose proof (DOT a b c d e k HA HB HC HD HE K1) as H. split.
    - apply dot_whole; auto; [apply fz_is; lia|clear - H; lia].
    - clear - H. lia.
  Qed.
  Lemma K0 : 0 <= 0 <= 1. Proof. lia. Qed.
  Lemma K1 : 0 <= 1 <= 1. Proof. lia. Qed.
End Sizes.
(** Multiplying matrices and applying them one after the other is the same, and exact, for integers up to 65536. *)
Theorem float_compose_partial : forall m s p, whole_mx 65536 m -> whole_mx 65536 s -> whole_pt 65536 p ->
  is_pt (fapply (fmul_mx m s) p) (image s (image m (place p))) /\ is_pt (fapply s (fapply m p)) (image s (image m (place p))).
Proof.
  intros m s p ((ma & MA & MA') & (mb & MB & MB') & (mc & MC & MC') & (md & MD & MD') & (me & ME & ME') & (mf & MF & MF')) ((sa & SA & SA') & (sb & SB & SB') & (sc & SC & SC') & (sd & SD & SD') & (se & SE & SE') & (sf & SF & SF')) ((x & X & X') & (y & Y & Y')).
  destruct (apply_whole m p ma mb mc md me mf x y MA MB MC MD ME MF X Y) as [A1 A2].
  { apply DOT1; assumption. }
  { apply DOT1; assumption. }
  assert (B1 : (Z.abs (x * ma + y * mc + me) <= 8590000128)%Z) by (apply DOT1; assumption).
  assert (B2 : (Z.abs (x * mb + y * md + mf) <= 8590000128)%Z) by (apply DOT1; assumption).
  destruct (apply_whole s (fapply m p) sa sb sc sd se sf _ _ SA SB SC SD SE SF A1 A2) as [C1 C2].
  { rewrite (Z.mul_comm _ sa), (Z.mul_comm _ sc). apply SUM3; auto using W64. }
  { rewrite (Z.mul_comm _ sb), (Z.mul_comm _ sd). apply SUM3; auto using W64. }
  assert (V : image s (image m (place p)) = P (IZR ((x * ma + y * mc + me) * sa + (x * mb + y * md + mf) * sc + se)) (IZR ((x * ma + y * mc + me) * sb + (x * mb + y * md + mf) * sd + sf))).
  { unfold image, place. cbn [px py]. rewrite (proj2 MA), (proj2 MB), (proj2 MC), (proj2 MD), (proj2 ME), (proj2 MF), (proj2 SA), (proj2 SB), (proj2 SC), (proj2 SD), (proj2 SE), (proj2 SF), (proj2 X), (proj2 Y). f_equal; rewrite ?plus_IZR, ?mult_IZR, ?plus_IZR, ?mult_IZR; ring. }
  rewrite V. split; [|split; assumption].
  destruct (Q sa ma sc mb se 0 _ _ _ _ _ SA MA SC MB SE SA' MA' SC' MB' SE' K0) as [QA QA']. destruct (Q sb ma sd mb sf 0 _ _ _ _ _ SB MA SD MB SF SB' MA' SD' MB' SF' K0) as [QB QB'].
  destruct (Q sa mc sc md se 0 _ _ _ _ _ SA MC SC MD SE SA' MC' SC' MD' SE' K0) as [QC QC']. destruct (Q sb mc sd md sf 0 _ _ _ _ _ SB MC SD MD SF SB' MC' SD' MD' SF' K0) as [QD QD'].
  destruct (Q sa me sc mf se 1 _ _ _ _ _ SA ME SC MF SE SA' ME' SC' MF' SE' K1) as [QE QE']. destruct (Q sb me sd mf sf 1 _ _ _ _ _ SB ME SD MF SF SB' ME' SD' MF' SF' K1) as [QF QF'].
  destruct (apply_whole (fmul_mx m s) p _ _ _ _ _ _ x y QA QB QC QD QE QF X Y) as [R1 R2].
  { apply SUM3; assumption. }
  { apply SUM3; assumption. }
  unfold is_pt. cbn [px py].
  match goal with |- is _ (IZR ?a) /\ is _ (IZR ?b) => match type of R1 with is _ (IZR ?c) => replace a with c by ring end; match type of R2 with is _ (IZR ?d) => replace b with d by ring end end. split; assumption.
Qed.
Example float_compose_ex : whole_mx 65536 (FM (fz 2) (fz 0) (fz 1) (fz 3) (fz 7) (fz 5)) /\ whole_mx 65536 (FM (fz 0) (fz 1) (fz (-1)) (fz 0) (fz 65536) (fz 0)) /\ whole_pt 65536 (FP (fz 3) (fz 4)).
Proof.
  assert (Z : forall z, (Z.abs z <= 65536)%Z -> whole 65536 (fz z)) by (intros z H; exists z; split; [apply fz_is|]; lia).
  split; [repeat split; apply Z; lia|]. split; [repeat split; apply Z; lia|split; apply Z; lia].
Qed.
Print Assumptions float_compose_partial.
(** With fractions neither holds: scaling 7 by 0.1 and then by 3 is 2.1, scaling it by their product is 2.1000000000000005. *)
Theorem float_compose_refuted : exists m s p, finite_mx m /\ finite_mx s /\ finite_pt p /\ value (fx (fapply s (fapply m p))) < value (fx (fapply (fmul_mx m s) p)).
Proof.
  exists (FM (fd 3602879701896397 (-55)) (fz 0) (fz 0) (fz 1) (fz 0) (fz 0)), (FM (fz 3) (fz 0) (fz 0) (fz 1) (fz 0) (fz 0)), (FP (fz 7) (fz 0)).
  split; [repeat split; vm_compute; reflexivity|]. split; [repeat split; vm_compute; reflexivity|]. split; [split; vm_compute; reflexivity|]. apply flt_spec; vm_compute; reflexivity.
Qed.
Print Assumptions float_compose_refuted.
(** And undoing a transform need not lead back, not even up to the tolerance of ==: scaling (12345.75, 1) by 49 and applying
    the inverse gives 12345.750000000002. *)
Theorem float_inverse_refuted : exists m i p, finverse m = Some i /\ finite_pt p /\ fpt_eq (fapply i (fapply m p)) p = false.
Proof.
  set (m := FM (fz 49) (fz 0) (fz 0) (fz 49) (fz 0) (fz 0)). set (p := FP (fd 49383 (-2)) (fz 1)).
  assert (B : match finverse m with Some j => fpt_eq (fapply j (fapply m p)) p | None => true end = false) by (vm_compute; reflexivity).
  destruct (finverse m) as [i|] eqn:E; [|discriminate]. exists m, i, p. split; [exact E|]. split; [split; vm_compute; reflexivity|exact B].
Qed.
Print Assumptions float_inverse_refuted.

(** C102. Points with coordinates of at least 8192 in size are equal only when they are the same: there the tolerance of
    1e-12 is less than the distance of two floats. *)
Theorem float_eq_large : forall p q, finite_pt p -> finite_pt q -> (forall r, In r [fx p; fy p; fx q; fy q] -> 8192 <= Rabs (value r)) ->
  fpt_eq p q = true <-> place p = place q.
Proof.
  intros p q [PX PY] [QX QY] H. assert (B : bpow radix2 13 = 8192) by reflexivity. cbn [In] in H. unfold fpt_eq. split.
  - intros E. apply andb_prop in E. destruct E as [E1 E2]. unfold place. f_equal; apply eq_large; auto; rewrite B; apply H; auto.
  - intros E. injection E as E1 E2. assert (Z : forall x y, finite x -> finite y -> value x = value y -> fle (fabs (fsub x y)) ferror = true).
    { intros x y FX FY V. destruct (fsub_rnd x y FX FY) as [FS VS]; [rewrite Rminus_diag_eq, Rabs_R0 by auto; pose proof one_big; lra|]. apply fle_spec; [unfold finite, fabs; rewrite is_finite_Babs; exact FS|apply ferror_is|].
      assert (VA : value (fabs (fsub x y)) = Rabs (value (fsub x y))) by apply B2R_Babs. rewrite VA, VS, Rminus_diag_eq, rnd_0, Rabs_R0, (proj2 ferror_is) by auto. apply Rmult_le_pos; [lra|apply bpow_ge_0]. }
    rewrite (Z (fx p) (fx q)), (Z (fy p) (fy q)) by auto. reflexivity.
Qed.
Example float_eq_large_ex : (forall r, In r [fz 8192; fz (-9000); fz 8193; fz 70000] -> 8192 <= Rabs (value r)).
Proof.
  assert (Z : forall z, (8192 <= Z.abs z <= 100000)%Z -> 8192 <= Rabs (value (fz z))) by (intros z H; destruct (fz_is z) as [_ ->]; [lia|]; rewrite <- abs_IZR; apply IZR_le; lia).
  intros r [<- |[<- |[<- |[<- |[]]]]]; apply Z; lia.
Qed.
Print Assumptions float_eq_large.
(** In general the tolerance is 1e-12, but for a relative error of 1e-12 of its own. *)
Theorem float_eq_close : forall p q, finite_pt p -> finite_pt q ->
  (Rabs (value (fx p) - value (fx q)) <= 0.999999999999e-12 -> Rabs (value (fy p) - value (fy q)) <= 0.999999999999e-12 -> fpt_eq p q = true) /\
  (fpt_eq p q = true -> Rabs (value (fx p) - value (fx q)) <= 1.000000000001e-12 /\ Rabs (value (fy p) - value (fy q)) <= 1.000000000001e-12).
Proof.
  intros p q [PX PY] [QX QY]. assert (EV : value ferror = 4951760157141521 * / 4951760157141521099596496896) by (rewrite (proj2 ferror_is); reflexivity).
  assert (FE : finite ferror) by apply ferror_is. assert (AB : forall x, finite x -> is (fabs x) (Rabs (value x))) by (intros x F; split; [unfold finite, fabs; rewrite is_finite_Babs; exact F|apply B2R_Babs]).
  assert (RA : forall z, Rabs (rnd z) = rnd (Rabs z)).
  { intros z. destruct (Rle_or_lt 0 z) as [L|L].
    - rewrite (Rabs_right z) by lra. apply rnd_le in L. rewrite rnd_0 in L. rewrite Rabs_right; lra.
    - rewrite (Rabs_left z) by lra. rewrite rnd_opp. apply Rlt_le, rnd_le in L. rewrite rnd_0 in L. apply Rabs_left1. lra. }
  assert (A : forall x y, finite x -> finite y -> Rabs (value x - value y) <= 0.999999999999e-12 -> fle (fabs (fsub x y)) ferror = true).
  { intros x y X Y H. destruct (fsub_rnd x y X Y) as [F V]; [pose proof one_big; lra|]. apply fle_spec; [apply AB; exact F|exact FE|]. rewrite (proj2 (AB _ F)), V, RA.
    assert (G : Rabs (value x - value y) <= value ferror) by lra. apply rnd_le in G. rewrite rnd_format in G. exact G. }
  assert (B : forall x y, finite x -> finite y -> fle (fabs (fsub x y)) ferror = true -> Rabs (value x - value y) <= 1.000000000001e-12).
  { intros x y X Y H. destruct (fsub_cases x y X Y) as [[F V]|[[s E] _]]; [|rewrite E, inf_not_equal in H; discriminate]. apply fle_spec in H; [|apply AB; exact F|exact FE]. rewrite (proj2 (AB _ F)), V, RA in H.
    pose proof (rnd_err (Rabs (value x - value y))) as R. rewrite Rabs_Rabsolu in R. apply abs_mid in R. pose proof (Rabs_pos (value x - value y)).
    assert (eta <= / 4951760157141521099596496896 * / 4951760157141521099596496896) by (change (/ 4951760157141521099596496896) with (bpow radix2 (-92)); rewrite <- bpow_plus; apply bpow_le; lia). rewrite u_val in R. lra. }
  unfold fpt_eq. split.
  - intros H1 H2. rewrite !A; auto.
  - intros H. apply andb_prop in H. destruct H as [H1 H2]. split; apply B; assumption.
Qed.
Example float_eq_close_ex : Rabs (value (fz 3) - value (fz 3)) <= 0.999999999999e-12.
Proof. rewrite Rminus_diag_eq, Rabs_R0 by reflexivity. lra. Qed.
Print Assumptions float_eq_close.
(** Just below 8192 two different floats are equal points. *)
Theorem float_eq_refuted : exists p q, finite_pt p /\ finite_pt q /\ value (fx p) < value (fx q) /\ fpt_eq p q = true.
Proof.
  exists (FP (fd 9007199254740991 (-40)) (fz 0)), (FP (fz 8192) (fz 0)). split; [split; vm_compute; reflexivity|]. split; [split; vm_compute; reflexivity|]. split; [apply flt_spec; vm_compute; reflexivity|vm_compute; reflexivity].
Qed.
Print Assumptions float_eq_refuted.

(** C103. Relative steps drift: after n of them the current point is off by at most 2n(2^-53 M + 2^-1075), where M bounds all
    the places on the way. Full statement: it is where the steps lead; only so for integers, see below. *)
Lemma pen_axis : forall steps start, fx (fpen start steps) = fold_left (fun p s => fadd s p) (map fx steps) (fx start) /\ fy (fpen start steps) = fold_left (fun p s => fadd s p) (map fy steps) (fy start).
Proof. unfold fpen. induction steps as [|s steps IH]; intros start; [split; reflexivity|]. cbn [fold_left map]. destruct (IH (frcoord s start)) as [A B]. split; [rewrite A|rewrite B]; reflexivity. Qed.
Lemma moved_axis : forall steps p, px (moved p steps) = px p + fold_right Rplus 0 (map value (map fx steps)) /\ py (moved p steps) = py p + fold_right Rplus 0 (map value (map fy steps)).
Proof. induction steps as [|s steps IH]; intros p; cbn [moved fold_right map]; [rewrite !Rplus_0_r; auto|]. destruct (IH p) as [A B]. unfold moved in *. cbn [fold_right px py]. rewrite A, B. split; ring. Qed.
Theorem float_steps_partial : forall start steps M, finite_pt start -> (forall s, In s steps -> finite_pt s) -> 0 <= M <= bpow radix2 1000 ->
  (forall n, (n <= length steps)%nat -> Rabs (px (moved (place start) (firstn n steps))) <= M /\ Rabs (py (moved (place start) (firstn n steps))) <= M) ->
  let drift := 2 * INR (length steps) * (bpow radix2 (-53) * M + bpow radix2 (-1075)) in drift <= M ->
  about_pt (fpen start steps) (moved (place start) steps) drift.
Proof.
  intros start steps M [SX SY] FS [MP MB] B drift DM. unfold drift in *. change (bpow radix2 (-53) * M + bpow radix2 (-1075)) with (D M) in *.
  destruct (pen_axis steps start) as [E1 E2]. destruct (moved_axis steps (place start)) as [V1 V2]. unfold about_pt. rewrite E1, E2, V1, V2. cbn [place px py].
  assert (Z : forall x, Rabs (value x - value x) <= 0) by (intros x; rewrite Rminus_diag_eq, Rabs_R0 by auto; lra).
  pose proof (steps_about M MP MB (map fx steps) (fx start) (value (fx start)) 0 SX (Z _) (Rle_refl 0)) as X. pose proof (steps_about M MP MB (map fy steps) (fy start) (value (fy start)) 0 SY (Z _) (Rle_refl 0)) as Y.
  rewrite map_length in X, Y. rewrite Rplus_0_l in X, Y. split; [apply X|apply Y]; auto.
  - intros s I. apply in_map_iff in I. destruct I as (q & <- & I). apply FS. exact I.
  - intros n N. destruct (B n) as [H _]; [lia|]. destruct (moved_axis (firstn n steps) (place start)) as [W _]. rewrite W in H. rewrite firstn_map. exact H.
  - intros s I. apply in_map_iff in I. destruct I as (q & <- & I). apply FS. exact I.
  - intros n N. destruct (B n) as [_ H]; [lia|]. destruct (moved_axis (firstn n steps) (place start)) as [_ W]. rewrite W in H. rewrite firstn_map. exact H.
Qed.
Example float_steps_ex : let steps := [FP (fz 3) (fz 0); FP (fz 0) (fz 4); FP (fz (-3)) (fz (-4))] in
  forall n, (n <= length steps)%nat -> Rabs (px (moved (P 0 0) (firstn n steps))) <= 4 /\ Rabs (py (moved (P 0 0) (firstn n steps))) <= 4.
Proof.
  assert (Z : forall z, (Z.abs z <= 100)%Z -> value (fz z) = IZR z) by (intros z H; apply fz_is; lia).
  intros steps n N. cbn [steps length] in N. destruct n as [|[|[|[|n]]]]; [| | | |lia]; unfold steps, moved; cbn [firstn fold_right px py fx fy]; rewrite ?Z by lia; split; apply Rabs_le; lra.
Qed.
Print Assumptions float_steps_partial.
(** Integer steps do not drift. *)
Theorem float_steps_whole : forall start steps, whole_pt (2 ^ 53) start -> (forall s, In s steps -> whole_pt (2 ^ 53) s) ->
  (forall n, (n <= length steps)%nat -> Rabs (px (moved (place start) (firstn n steps))) <= IZR (2 ^ 53) /\ Rabs (py (moved (place start) (firstn n steps))) <= IZR (2 ^ 53)) ->
  is_pt (fpen start steps) (moved (place start) steps).
Proof.
  intros start steps [(x & X & X') (y & Y & Y')] W B. destruct (pen_axis steps start) as [E1 E2]. destruct (moved_axis steps (place start)) as [V1 V2]. unfold is_pt. rewrite E1, E2, V1, V2. cbn [place px py]. rewrite (proj2 X), (proj2 Y).
  split; apply steps_whole; auto.
  - intros s I. apply in_map_iff in I. destruct I as (q & <- & I). destruct (W q I) as [(k & K & _) _]. eauto.
  - intros n N. rewrite map_length in N. destruct (B n N) as [H _]. destruct (moved_axis (firstn n steps) (place start)) as [G _]. rewrite G in H. cbn [place px] in H. rewrite (proj2 X) in H. rewrite firstn_map. exact H.
  - intros s I. apply in_map_iff in I. destruct I as (q & <- & I). destruct (W q I) as [_ (k & K & _)]. eauto.
  - intros n N. rewrite map_length in N. destruct (B n N) as [_ H]. destruct (moved_axis (firstn n steps) (place start)) as [_ G]. rewrite G in H. cbn [place py] in H. rewrite (proj2 Y) in H. rewrite firstn_map. exact H.
Qed.
Example float_steps_whole_ex : whole_pt (2 ^ 53) (FP (fz 1) (fz 2)) /\ (forall s, In s [FP (fz 3) (fz (-7))] -> whole_pt (2 ^ 53) s).
Proof.
  assert (Z : forall z, (Z.abs z <= 100)%Z -> whole (2 ^ 53) (fz z)) by (intros z H; exists z; split; [apply fz_is|]; lia).
  split; [split; apply Z; lia|]. intros s [<- |[]]; split; apply Z; lia.
Qed.
Print Assumptions float_steps_whole.
(** A thousand steps of 0.1 and one of -100: the steps lead back to within 1e-14, but the computed last point is not even equal
    to the first up to the tolerance of ==. *)
Lemma sum_repeat : forall (v : R) n, fold_right Rplus 0 (repeat v n) = INR n * v.
Proof. induction n as [|n IH]; [cbn; ring|]. rewrite S_INR. cbn [repeat fold_right]. rewrite IH. ring. Qed.
Lemma map_repeat : forall (A B : Type) (f : A -> B) v n, map f (repeat v n) = repeat (f v) n.
Proof. induction n as [|n IH]; cbn; [reflexivity|now rewrite IH]. Qed.
Theorem float_steps_refuted : exists start steps, finite_pt start /\ (forall s, In s steps -> finite_pt s) /\
  Rabs (px (moved (place start) steps) - value (fx start)) <= / 100000000000000 /\ py (moved (place start) steps) = value (fy start) /\ fpt_eq (fpen start steps) start = false.
Proof.
  exists (FP (fz 0) (fz 0)), (repeat (FP (fd 3602879701896397 (-55)) (fz 0)) 1000 ++ [FP (fz (-100)) (fz 0)]). split; [split; vm_compute; reflexivity|]. split; [|split; [|split]].
  - intros s I. apply in_app_or in I. destruct I as [I|[<- |[]]]; [apply repeat_spec in I; subst s|]; split; vm_compute; reflexivity.
  - rewrite (proj1 (moved_axis _ _)), !map_app, fold_right_app, !map_repeat. cbn [map fold_right place px fx].
    assert (E : forall l c, fold_right Rplus c l = fold_right Rplus 0 l + c) by (induction l as [|v l IH]; intros c; cbn; [ring|rewrite IH; ring]).
    rewrite E, sum_repeat. destruct (fz_is (-100)) as [_ ->]; [lia|]. destruct (fd_is 3602879701896397 (-55)) as [_ ->]; [lia|lia|]. rewrite (proj2 fz0).
    replace (INR 1000) with 1000 by (rewrite INR_IZR_INZ; reflexivity). change (bpow radix2 (-55)) with (/ 36028797018963968). apply Rabs_le. lra.
  - rewrite (proj2 (moved_axis _ _)), !map_app, fold_right_app, !map_repeat. cbn [map fold_right place py fy]. assert (E : forall n, fold_right Rplus (value (fz 0) + 0) (repeat (value (fz 0)) n) = 0) by (rewrite (proj2 fz0); induction n as [|n IH]; cbn [repeat fold_right]; [ring|rewrite IH; ring]).
    rewrite E, (proj2 fz0). ring.
  - vm_compute. reflexivity.
Qed.
Print Assumptions float_steps_refuted.

(** C104. Every alpha is read as an opacity that sets the same alpha again, and Color(r, g, b, a) has alpha a. *)
Theorem float_alpha_kept : forall a, (0 <= a <= 255)%Z -> fset_opacity (fget_opacity a) = a /\ frgb_alpha (fz a) = a.
Proof.
  assert (A : forallb (fun k => Z.eqb (fset_opacity (fget_opacity (Z.of_nat k))) (Z.of_nat k) && Z.eqb (frgb_alpha (fz (Z.of_nat k))) (Z.of_nat k)) (seq 0 256) = true) by (vm_compute; reflexivity).
  intros a H. rewrite forallb_forall in A. specialize (A (Z.to_nat a)). rewrite Z2Nat.id in A by lia. apply andb_prop in A; [|apply in_seq; lia]. destruct A as [A B]. apply Z.eqb_eq in A, B. auto.
Qed.
Print Assumptions float_alpha_kept.
(** An opacity from 0 to 1 is kept to within half a step of 1/255. *)
Theorem float_opacity_close : forall o, finite o -> 0 <= value o <= 1 -> (0 <= fset_opacity o <= 255)%Z /\ Rabs (IZR (fset_opacity o) / 255 - value o) <= / 510 + bpow radix2 (-52).
Proof.
  intros o F O. destruct (fz_is 255) as [F2 V2]; [lia|]. destruct (fmul_rnd o (fz 255) F F2) as [FM VM]; [rewrite V2; apply abs_le; pose proof one_big; pose proof (bpow_le radix2 8 1023 ltac:(lia)) as Q; change (bpow radix2 8) with 256 in Q; fold big in Q; lra|].
  rewrite V2 in VM. assert (R : 0 <= rnd (value o * 255) <= 255).
  { split; [rewrite <- rnd_0; apply rnd_le; lra|]. apply Rle_trans with (rnd 255); [apply rnd_le; lra|]. right. apply (rnd_int 255). lia. }
  unfold fset_opacity. rewrite fround_is, VM. pose proof (near_half (rnd (value o * 255))) as N. set (z := ZnearestE (rnd (value o * 255))) in *. apply abs_mid in N.
  assert (Z : (0 <= z <= 255)%Z) by (split; apply Z.lt_succ_r; apply lt_IZR; rewrite ?succ_IZR; lra).
  assert (C : fcrimp z = z) by (unfold fcrimp; destruct (Z.ltb_spec 255 z); [lia|]; destruct (Z.ltb_spec z 0); lia). rewrite C. split; [exact Z|].
  pose proof (rnd_err (value o * 255)) as E. rewrite (Rabs_right (value o * 255)) in E by lra. apply abs_mid in E. pose proof eta_u. assert (U : u = / 2 * bpow radix2 (-52)) by (unfold u; change (-53)%Z with (-1 + -52)%Z; rewrite bpow_plus; reflexivity). pose proof u_pos.
  apply abs_le. split; nra.
Qed.
Example float_opacity_ex : finite (fd 1 (-1)) /\ fset_opacity (fd 1 (-1)) = 128%Z.
Proof. split; vm_compute; reflexivity. Qed.
Print Assumptions float_opacity_close.
