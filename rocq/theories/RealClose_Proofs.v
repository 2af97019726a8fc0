(** The points of the curves made of an arc are close to points of the arc itself. *)
Require Import Reals ZArith List Bool Lra Lia Psatz.
Require Import Verif.Base Verif.Angle_Model Verif.Angle_Proofs Verif.Point_Model Verif.Point_Proofs Verif.Matrix_Model Verif.Curve_Model Verif.Curve_Spec Verif.CurveLen_Proofs.
Require Import Verif.Arc_Model Verif.Arc_Spec Verif.Arc_Proofs Verif.ArcCurves_Proofs Verif.ArcClose_Spec Verif.ArcClose_Proofs Verif.Arc_Thms Verif.ArcClose_Thms.
Require Import Verif.PathBox_Model Verif.RealPath_Model Verif.RealPath_Spec Verif.RealPath_Proofs.
Import ListNotations.
Open Scope R_scope.

(** * Directions *)
(** A point in the cone of half angle [h] about the first axis. *)
Lemma polar_in : forall x y h, - (PI / 2) < h < PI / 2 -> 0 < x -> Rabs y * cos h <= x * Rabs (sin h) ->
  exists p l, - Rabs h <= p <= Rabs h /\ 0 < l /\ l * l = x * x + y * y /\ x = l * cos p /\ y = l * sin p.
Proof.
  intros x y h H X C. set (z := y / x). set (l := x * sqrt (1 + z²)).
  assert (Z0 : 0 < 1 + z²) by (pose proof (Rle_0_sqr z); lra). assert (S0 : 0 < sqrt (1 + z²)) by (apply sqrt_lt_R0; auto).
  assert (AH : 0 <= Rabs h < PI / 2) by (split; [apply Rabs_pos|apply Rabs_def1; lra]).
  assert (CH : cos (Rabs h) = cos h) by (unfold Rabs; destruct (Rcase_abs h); [apply cos_neg|auto]).
  assert (SH : sin (Rabs h) = Rabs (sin h)).
  { unfold Rabs at 1. destruct (Rcase_abs h).
    - rewrite sin_neg. symmetry. apply Rabs_left1. assert (0 <= sin (- h)) by (apply sin_ge_0; lra). rewrite sin_neg in H0. lra.
    - symmetry. apply Rabs_right. apply Rle_ge, sin_ge_0; lra. }
  assert (C0 : 0 < cos h) by (apply cos_gt_0; lra).
  assert (T : Rabs z <= tan (Rabs h)).
  { unfold tan, z, Rdiv. rewrite CH, SH, Rabs_mult, Rabs_inv, (Rabs_right x) by lra. apply Rmult_le_reg_r with (x * cos h); [nra|].
    replace (Rabs y * / x * (x * cos h)) with (Rabs y * cos h) by (field; lra). replace (Rabs (sin h) * / cos h * (x * cos h)) with (x * Rabs (sin h)) by (field; lra). exact C. }
  assert (AT : atan (tan (Rabs h)) = Rabs h) by (apply atan_tan; lra).
  assert (LE : forall a b, a <= b -> atan a <= atan b) by (intros a b [L|L]; [left; now apply atan_increasing|right; now f_equal]).
  exists (atan z), l. split; [|split; [|split; [|split]]].
  - pose proof (RRle_abs z). pose proof (RRle_abs (- z)) as K. rewrite Rabs_Ropp in K. assert (A1 : atan z <= atan (tan (Rabs h))) by (apply LE; lra). assert (A2 : atan (- z) <= atan (tan (Rabs h))) by (apply LE; lra). rewrite atan_opp in A2. lra.
  - unfold l. nra.
  - unfold l. replace (x * sqrt (1 + z²) * (x * sqrt (1 + z²))) with (x * x * (sqrt (1 + z²) * sqrt (1 + z²))) by ring. rewrite sqrt_sqrt by lra. unfold z, Rsqr. field. lra.
  - rewrite cos_atan. unfold l. field. lra.
  - rewrite sin_atan. unfold l. fold z. transitivity (x * z); [unfold z; field; lra|field; lra].
Qed.
Lemma toward : forall h, - (PI / 2) < h < PI / 2 -> forall u, 0 <= u <= 1 ->
  exists p l, - Rabs h <= p <= Rabs h /\ 0 < l <= 1 /\ 1 - slack h <= l * l /\ bx h u = l * cos p /\ by_ h u = l * sin p.
Proof.
  intros h H u U. pose proof (c_pos h H) as C. pose proof (cs_one h) as CS. pose proof (bx_pos h H u U) as BP. pose proof (k_ge h H) as KG. pose proof (k_sq h) as KS. pose proof (alpha_k h H) as AK. cbv zeta in *.
  destruct (polar_in (bx h u) (by_ h u) h H BP) as (p & l & HP & L & LL & X & Y).
  - set (c := cos h) in *. set (s := sin h) in *. set (k := sqrt (c * c + 3)) in *. unfold bx, by_. fold c s. cbv zeta. set (al := sin (2 * h) * (sqrt (4 + 3 * tan h ^ 2) - 1) / 3) in *. rewrite AK.
    set (w := u * (1 - u)). assert (W0 : 0 <= w) by (unfold w; nra). assert (W1 : w <= / 4) by (unfold w; pose proof (sq_pos (2 * u - 1)); lra).
    set (d := 2 - 2 * c * (k - c)). assert (D0 : 0 <= d <= 2).
    { unfold d. split; [|nra]. assert (c * k <= 1 + c * c); [|lra]. assert (0 <= k) by apply sqrt_pos. assert (CC : c * c <= 1) by (pose proof (sq_pos s); lra). apply Rsqr_incr_0_var; [|nra]. unfold Rsqr. replace (c * k * (c * k)) with (c * c * (k * k)) by ring. rewrite KS. nra. }
    replace (s + w * (2 * s - 3 * (2 * s * (k - c) / 3) * c)) with (s * (1 + w * d)) by (unfold d; field).
    replace (c + 3 * w * (2 * s * (k - c) / 3 * s)) with (c + 2 * w * (k - c) * (s * s)) by field.
    rewrite !Rabs_mult, (Rabs_right (1 + w * d)) by nra.
    assert (M : Rabs (2 * u - 1) <= 1 - 2 * w).
    { apply Rabs_le. unfold w. split; nra. }
    pose proof (Rabs_pos s) as S0. pose proof (Rabs_pos (2 * u - 1)) as M0. assert (0 <= w * d) by nra.
    assert (Q : Rabs (2 * u - 1) * (1 + w * d) * c <= c).
    { assert (Rabs (2 * u - 1) * (1 + w * d) <= (1 - 2 * w) * (1 + w * d)) by (apply Rmult_le_compat_r; lra). assert ((1 - 2 * w) * (1 + w * d) <= 1) by nra. nra. }
    assert (R : c <= c + 2 * w * (k - c) * (s * s)). { assert (0 <= 2 * w * (k - c)) by nra. pose proof (sq_pos s). nra. }
    replace (Rabs (2 * u - 1) * (Rabs s * (1 + w * d)) * c) with (Rabs (2 * u - 1) * (1 + w * d) * c * Rabs s) by ring. apply Rmult_le_compat_r; lra.
  - pose proof (level_range h H u U) as LR. rewrite <- LL in LR. exists p, l. split; auto. split; [split; auto; nra|]. split; [lra|]. auto.
Qed.
Lemma quad_toward : forall h, - (PI / 2) < h < PI / 2 -> 3 <= 2 * cos h * cos h + 2 * cos h -> forall u, 0 <= u <= 1 ->
  exists p l, - Rabs h <= p <= Rabs h /\ 1 <= l <= 1 + bulge h /\ qx h u = l * cos p /\ qy h u = l * sin p.
Proof.
  intros h H N u U. pose proof (c_range h H N) as CR. pose proof (k_c h) as KC. cbv zeta in *. set (c := cos h) in *. set (s := sin h) in *.
  assert (W0 : 0 <= u * (1 - u)) by nra. assert (QG : c <= qx h u). { unfold qx. fold c. cbv zeta. rewrite KC. assert (0 <= (5 - 2 * (c * c)) / 3 - c) by nra. nra. }
  destruct (polar_in (qx h u) (qy h u) h H ltac:(lra)) as (p & l & HP & L & LL & X & Y).
  - unfold qy. fold s c. rewrite Rabs_mult. pose proof (Rabs_pos s). assert (Rabs (2 * u - 1) <= 1) by (apply Rabs_le; lra). assert (Rabs (2 * u - 1) * Rabs s <= Rabs s) by nra. nra.
  - pose proof (quad_level h H N u U) as LR. pose proof (bulge_pos h H N) as BP. rewrite <- LL in LR. exists p, l. split; auto. split; [split; nra|auto].
Qed.

(** * One piece *)
Lemma piece_back : forall (sw : R) n i t0 p, (0 < n)%nat -> let h := sw / INR n / 2 in let m := t0 + (INR i + / 2) * (sw / INR n) in
  - Rabs h <= p <= Rabs h -> exists x, INR i / INR n <= x <= INR (S i) / INR n /\ t0 + x * sw = m + p.
Proof.
  intros sw n i t0 p N h m HP. assert (NP : 0 < INR n) by (apply lt_0_INR; auto). rewrite S_INR. set (z := sw / INR n) in *.
  assert (Y : exists y, - / 2 <= y <= / 2 /\ p = y * z).
  { destruct (Req_dec z 0) as [Z|Z].
    - exists 0. split; [lra|]. assert (h = 0) by (unfold h; rewrite Z; field). rewrite H, Rabs_R0 in HP. lra.
    - exists (p / z). split; [|field; auto]. assert (PB : Rabs p <= Rabs z / 2). { replace (Rabs z / 2) with (Rabs h) by (unfold h, Rdiv; rewrite Rabs_mult, (Rabs_right (/ 2)); lra). apply Rabs_le. lra. }
      assert (ZP : 0 < Rabs z) by (now apply Rabs_pos_lt). assert (Q : Rabs (p / z) <= / 2). { unfold Rdiv. rewrite Rabs_mult, Rabs_inv. apply Rmult_le_reg_r with (Rabs z); auto. rewrite Rmult_assoc, Rinv_l by lra. lra. }
      pose proof (RRle_abs (p / z)). pose proof (RRle_abs (- (p / z))) as K. rewrite Rabs_Ropp in K. lra. }
  destruct Y as (y & YB & ->). exists ((INR i + / 2 + y) / INR n). split.
  - split; apply Rmult_le_compat_r; try lra; left; now apply Rinv_0_lt_compat.
  - unfold m, z. field. lra.
Qed.
Lemma nth_length : forall {A} (l : list A) i x, nth_error l i = Some x -> (i < length l)%nat.
Proof. intros A l i x H. apply nth_error_Some. congruence. Qed.
Lemma cubics_back : forall A t0 n i g u, proper_at A t0 -> Rabs (a_sweep A) < INR n * PI -> nth_error (as_cubic_curves_n A n) i = Some g -> 0 <= u <= 1 ->
  let s := sin (a_sweep A / INR n / 2) in let e := s ^ 6 / (4 * (4 - 3 * s ^ 2) ^ 2) in
  exists x, INR i / INR n <= x <= INR (S i) / INR n /\ forall np, dist (point np g u) (arc_point A x) <= e * Rmax (arx A) (ary A).
Proof.
  intros A t0 n i g u PA SW NT U s e. assert (I : (i < n)%nat) by (apply nth_length in NT; unfold as_cubic_curves_n in NT; now rewrite cubic_slices_length in NT).
  assert (N0 : (0 < n)%nat) by lia. destruct (arc_cubics_touch A t0 n i PA I) as (al & NE & AL & _). rewrite NT in NE. injection NE as ->.
  pose proof (arc_runs_own A t0 PA) as RU. destruct (piece (a_sweep A) n i t0 N0) as (M0 & M1 & _). pose proof (fun p => piece_back (a_sweep A) n i t0 p N0) as MX. cbv zeta in MX. set (h := a_sweep A / INR n / 2) in *. set (m := t0 + (INR i + / 2) * (a_sweep A / INR n)) in *.
  pose proof (half_turn _ _ N0 SW) as HT. fold h in HT. pose proof PA as (X & Y & _).
  assert (AE : al = sin (2 * h) * (sqrt (4 + 3 * tan h ^ 2) - 1) / 3) by (rewrite AL; fold h; replace (2 * h) with (a_sweep A / INR n) by (unfold h; field; apply not_0_INR; lia); reflexivity).
  destruct (toward h HT u U) as (p & l & HP & L & LS & BX & BY). destruct (MX p HP) as (x & XI & TE). exists x. split; auto. intros np.
  cbn [point]. change (match i with 0%nat => 1 | S _ => INR i + 1 end) with (INR (S i)).
  rewrite !RU, M0, M1, AE, TE. pose proof (cubic_local h (a_center A) (arx A) (ary A) (rotation A) m u) as CL. cbv zeta in CL. rewrite CL, BX, BY, local_at, dist_sym.
  unfold slack in LS. fold s e in LS. eapply Rle_trans; [apply local_dist; auto; apply cs1|]. apply Rmult_le_compat_r; [apply Rle_trans with (arx A); [lra|apply Rmax_l]|]. rewrite Rabs_right by lra. nra.
Qed.
Lemma quads_back : forall A t0 n i g u, proper_at A t0 -> Rabs (a_sweep A) < INR n * PI -> nth_error (as_quad_curves_n A n) i = Some g -> 0 <= u <= 1 ->
  let c := cos (a_sweep A / INR n / 2) in let e := (2 * c - 1) * (1 - c) / 6 in 3 <= 2 * c * c + 2 * c ->
  exists x, INR i / INR n <= x <= INR (S i) / INR n /\ forall np, dist (point np g u) (arc_point A x) <= e * Rmax (arx A) (ary A).
Proof.
  intros A t0 n i g u PA SW NT U c e CN. assert (I : (i < n)%nat) by (apply nth_length in NT; unfold as_quad_curves_n in NT; now rewrite quad_slices_length in NT).
  assert (N0 : (0 < n)%nat) by lia. destruct (arc_quads_meet A t0 n i PA I) as (k & _ & KE & NE). rewrite NT in NE. injection NE as ->.
  pose proof (arc_runs_own A t0 PA) as RU. destruct (piece (a_sweep A) n i t0 N0) as (M0 & M1 & _). pose proof (fun p => piece_back (a_sweep A) n i t0 p N0) as MX. cbv zeta in MX. set (h := a_sweep A / INR n / 2) in *. set (m := t0 + (INR i + / 2) * (a_sweep A / INR n)) in *.
  pose proof (half_turn _ _ N0 SW) as HT. fold h in HT. pose proof PA as (X & Y & _).
  assert (KH : k = (4 - cos (2 * h)) / 3) by (rewrite KE; replace (2 * h) with (a_sweep A / INR n) by (unfold h; field; apply not_0_INR; lia); reflexivity).
  destruct (quad_toward h HT CN u U) as (p & l & HP & L & BX & BY). destruct (MX p HP) as (x & XI & TE). exists x. split; auto. intros np.
  cbn [point]. rewrite <- (S_INR i), !RU, M0, M1, TE. replace (t0 + (INR i + / 2) / INR n * a_sweep A) with m by (unfold m; field; apply not_0_INR; lia).
  replace (towards (a_center A) (ellipse_at (a_center A) (arx A) (ary A) (rotation A) m) k) with (ellipse_at (a_center A) (k * arx A) (k * ary A) (rotation A) m) by (unfold towards, ellipse_at, frame; apply pt_ext; cbn [px py]; ring).
  rewrite KH. pose proof (quad_local h (a_center A) (arx A) (ary A) (rotation A) m u) as CL. cbv zeta in CL. rewrite CL, BX, BY, local_at, dist_sym.
  unfold bulge in L. fold c e in L. eapply Rle_trans; [apply local_dist; auto; apply cs1|]. apply Rmult_le_compat_r; [apply Rle_trans with (arx A); [lra|apply Rmax_l]|]. rewrite Rabs_left1; lra.
Qed.

(** * The number of pieces *)
Lemma pieces_spec : forall f A, 0 < f -> let n := r_pieces f A in
  (a_sweep A <> 0 -> (0 < n)%nat) /\ (a_sweep A = 0 -> n = 0%nat) /\ Rabs (a_sweep A) <= INR n * (2 * PI * f).
Proof.
  intros f A F. cbv zeta. unfold r_pieces, tau. pose proof PI_RGT_0. set (w := 2 * PI * f). assert (W : 0 < w) by (unfold w; nra). set (x := Rabs (a_sweep A) / w).
  assert (X0 : 0 <= x). { unfold x. apply Rmult_le_pos; [apply Rabs_pos|]. left. now apply Rinv_0_lt_compat. }
  pose proof (ceil_spec x) as C. assert (Z0 : (0 <= ceil x)%Z) by (apply le_IZR; lra).
  assert (N : INR (Z.to_nat (ceil x)) = IZR (ceil x)) by (rewrite INR_IZR_INZ, Z2Nat.id; auto).
  assert (XE : x * w = Rabs (a_sweep A)) by (unfold x; field; lra).
  split; [|split].
  - intros S. pose proof (Rabs_pos_lt _ S). destruct (Z.to_nat (ceil x)) eqn:E; [|lia]. exfalso. cbn in N. assert (x = 0) by lra. subst x. nra.
  - intros E. assert (x = 0) by (unfold x; rewrite E, Rabs_R0; unfold Rdiv; ring). assert (K : IZR (ceil x) < 1) by lra. apply lt_IZR in K. replace (ceil x) with 0%Z by lia. reflexivity.
  - rewrite N, <- XE. apply Rmult_le_compat_r; lra.
Qed.
Lemma half_bound : forall sw n f, (0 < n)%nat -> 0 < f -> Rabs sw <= INR n * (2 * PI * f) -> - (PI * f) <= sw / INR n / 2 <= PI * f.
Proof.
  intros sw n f N F B. assert (NP : 0 < INR n) by (apply lt_0_INR; auto). assert (E : Rabs (sw / INR n) <= 2 * PI * f). { unfold Rdiv. rewrite Rabs_mult, Rabs_inv, (Rabs_right (INR n)) by lra. apply Rmult_le_reg_r with (INR n); auto. rewrite Rmult_assoc, Rinv_l by lra. lra. }
  pose proof (RRle_abs (sw / INR n)). pose proof (RRle_abs (- (sw / INR n))) as K. rewrite Rabs_Ropp in K. lra.
Qed.
Lemma sin_sq_mono : forall h w, - w <= h <= w -> w <= PI / 2 -> sin h ^ 2 <= sin w ^ 2.
Proof.
  intros h w H W. assert (0 <= sin w) by (apply sin_ge_0; pose proof PI_RGT_0; lra). assert (sin h <= sin w) by (apply sin_incr_1; lra). assert (sin (- w) <= sin h) by (apply sin_incr_1; lra). rewrite sin_neg in H2. nra.
Qed.
Lemma gap_mono : forall x y, 0 <= x <= y -> y <= 1 -> x * (x * x) / (4 * (4 - 3 * x) ^ 2) <= y * (y * y) / (4 * (4 - 3 * y) ^ 2).
Proof.
  intros x y X Y. assert (XX : 0 <= x * x <= y * y) by nra. assert (X3 : 0 <= x * (x * x) <= y * (y * y)) by nra. assert (D : 1 <= (4 - 3 * y) ^ 2 <= (4 - 3 * x) ^ 2) by nra.
  apply Rmult_le_compat; [lra| |lra|]; [left; apply Rinv_0_lt_compat; lra|apply Rinv_le_contravar; lra].
Qed.
Lemma cubic_gap_bound : forall sw n f, (0 < n)%nat -> 0 < f <= / 2 -> Rabs sw <= INR n * (2 * PI * f) ->
  let s := sin (sw / INR n / 2) in s ^ 6 / (4 * (4 - 3 * s ^ 2) ^ 2) <= cubic_gap f.
Proof.
  intros sw n f N F B s. pose proof PI_RGT_0. pose proof (half_bound sw n f N (proj1 F) B) as H1. assert (W : PI * f <= PI / 2) by nra. pose proof (sin_sq_mono _ _ H1 W) as SQ. fold s in SQ. unfold cubic_gap.
  pose proof (cs1 (PI * f)) as C1. set (q := sin (PI * f)) in *. assert (q ^ 2 <= 1) by (pose proof (sq_pos (cos (PI * f))); replace (q ^ 2) with (q * q) by ring; lra).
  replace (s ^ 6) with (s ^ 2 * (s ^ 2 * s ^ 2)) by ring. replace (q ^ 6) with (q ^ 2 * (q ^ 2 * q ^ 2)) by ring. apply gap_mono; auto. split; auto. rewrite <- Rsqr_pow2. apply Rle_0_sqr.
Qed.
Lemma quad_gap_bound : forall sw n f, (0 < n)%nat -> 0 < f <= / 6 -> Rabs sw <= INR n * (2 * PI * f) ->
  let c := cos (sw / INR n / 2) in 3 <= 2 * c * c + 2 * c /\ (2 * c - 1) * (1 - c) / 6 <= quad_gap f.
Proof.
  intros sw n f N F B c. pose proof PI_RGT_0. pose proof (half_bound sw n f N (proj1 F) B) as H1. assert (W : PI * f <= PI / 6) by nra. unfold quad_gap.
  set (w := PI * f) in *. assert (W0 : 0 < w) by (unfold w; nra). set (h := sw / INR n / 2) in *.
  assert (C1 : cos w <= c). { unfold c. destruct (Rle_dec 0 h); [|rewrite <- (cos_neg h)]; apply cos_decr_1; lra. }
  assert (C2 : cos (PI / 6) <= cos w) by (apply cos_decr_1; lra). rewrite cos_PI6 in C2. pose proof (COS_bound h) as CB. fold c in CB.
  assert (S3 : sqrt 3 * sqrt 3 = 3) by (apply sqrt_sqrt; lra). assert (0 < sqrt 3) by (apply sqrt_lt_R0; lra). assert (17320 / 10000 <= sqrt 3) by nra. assert (866 / 1000 <= cos w) by lra.
  split; nra.
Qed.

(** * Closeness of an arc and its curves *)
Lemma dist_scale : forall a b e E r, dist a b <= e * Rmax (arx r) (ary r) -> forall R0, e <= E -> 0 < arx r -> arx r <= R0 -> ary r <= R0 -> 0 <= E -> dist a b <= E * R0.
Proof.
  intros a b e E r D R0 LE X1 X2 Y2 E0. eapply Rle_trans; [exact D|]. assert (0 < Rmax (arx r) (ary r)) by (apply Rlt_le_trans with (arx r); [auto|apply Rmax_l]). assert (Rmax (arx r) (ary r) <= R0) by (apply Rmax_lub; auto). nra.
Qed.
Lemma cubic_gap_pos : forall f, 0 <= cubic_gap f.
Proof.
  intros f. unfold cubic_gap. pose proof (cs1 (PI * f)) as C1. set (q := sin (PI * f)) in *. assert (Q : 0 <= q ^ 2 <= 1) by (pose proof (sq_pos (cos (PI * f))); pose proof (sq_pos q); replace (q ^ 2) with (q * q) by ring; lra).
  replace (q ^ 6) with (q ^ 2 * (q ^ 2 * q ^ 2)) by ring. apply Rmult_le_pos; [nra|]. left. apply Rinv_0_lt_compat. nra.
Qed.
Lemma quad_gap_pos : forall f, 0 < f <= / 6 -> 0 <= quad_gap f.
Proof.
  intros f F. unfold quad_gap. pose proof PI_RGT_0. assert (cos (PI / 6) <= cos (PI * f)) by (apply cos_decr_1; nra). rewrite cos_PI6 in H0. assert (S3 : sqrt 3 * sqrt 3 = 3) by (apply sqrt_sqrt; lra). assert (0 < sqrt 3) by (apply sqrt_lt_R0; lra). assert (1 <= sqrt 3) by nra. pose proof (COS_bound (PI * f)). nra.
Qed.
Definition arc_within (f : R) (E : R) (A : arc) (gs : list gseg) : Prop :=
  (forall g u, In g gs -> 0 <= u <= 1 -> exists x, 0 <= x <= 1 /\ forall np, dist (point np g u) (arc_point A x) <= E) /\
  (forall x, 0 <= x <= 1 -> exists g u, In g gs /\ 0 <= u <= 1 /\ forall np, dist (arc_point A x) (point np g u) <= E).
Lemma slot_in : forall i n x, (i < n)%nat -> INR i / INR n <= x <= INR (S i) / INR n -> 0 <= x <= 1.
Proof.
  intros i n x I X. assert (NP : 0 < INR n) by (apply lt_0_INR; lia). split.
  - apply Rle_trans with (INR i / INR n); [|lra]. apply Rmult_le_pos; [apply pos_INR|left; now apply Rinv_0_lt_compat].
  - apply Rle_trans with (INR (S i) / INR n); [lra|]. apply Rmult_le_reg_r with (INR n); auto. unfold Rdiv. rewrite Rmult_assoc, Rinv_l by lra. rewrite Rmult_1_r, Rmult_1_l. apply le_INR. lia.
Qed.
Lemma cubics_within : forall f R0 A, 0 < f < / 2 -> (exists t0, proper_at A t0) -> a_sweep A <> 0 -> arx A <= R0 -> ary A <= R0 ->
  arc_within f (cubic_gap f * R0) A (as_cubic_curves_n A (r_pieces f A)).
Proof.
  intros f R0 A F (t0 & PA) SW X Y. pose proof PI_RGT_0 as PP. destruct (pieces_spec f A (proj1 F)) as (N0 & _ & B). specialize (N0 SW). set (n := r_pieces f A) in *. assert (NP : 0 < INR n) by (apply lt_0_INR; auto).
  assert (B2 : Rabs (a_sweep A) < INR n * PI) by (eapply Rle_lt_trans; [exact B|apply Rmult_lt_compat_l; nra]). pose proof (cubic_gap_bound (a_sweep A) n f N0 ltac:(lra) B) as GB. cbv zeta in GB. pose proof PA as (X0 & _). split.
  - intros g u IN U. apply In_nth_error in IN. destruct IN as (i & IN). destruct (cubics_back A t0 n i g u PA B2 IN U) as (x & XI & D). exists x. split.
    + apply nth_length in IN. unfold as_cubic_curves_n in IN. rewrite cubic_slices_length in IN. eapply slot_in; eauto.
    + intros np. eapply dist_scale; [apply D| | | | |]; auto. apply cubic_gap_pos.
  - intros x XI. destruct (slot n x N0 XI) as (i & I & XS). destruct (nth_error (as_cubic_curves_n A n) i) as [g|] eqn:NT.
    + destruct (arc_cubics_close A t0 n i g PA B2 NT) as [_ H2]. destruct (H2 x XS) as (u & U & D). exists g, u. split; [now apply nth_error_In with i|]. split; auto. intros np. eapply dist_scale; [apply D| | | | |]; auto. apply cubic_gap_pos.
    + apply nth_error_None in NT. unfold as_cubic_curves_n in NT. rewrite cubic_slices_length in NT. lia.
Qed.
Lemma quads_within : forall f R0 A, 0 < f <= / 6 -> (exists t0, proper_at A t0) -> a_sweep A <> 0 -> arx A <= R0 -> ary A <= R0 ->
  arc_within f (quad_gap f * R0) A (as_quad_curves_n A (r_pieces f A)).
Proof.
  intros f R0 A F (t0 & PA) SW X Y. pose proof PI_RGT_0 as PP. destruct (pieces_spec f A (proj1 F)) as (N0 & _ & B). specialize (N0 SW). set (n := r_pieces f A) in *. assert (NP : 0 < INR n) by (apply lt_0_INR; auto).
  assert (B2 : Rabs (a_sweep A) < INR n * PI) by (eapply Rle_lt_trans; [exact B|apply Rmult_lt_compat_l; nra]). destruct (quad_gap_bound (a_sweep A) n f N0 F B) as [CN GB]. pose proof PA as (X0 & _). split.
  - intros g u IN U. apply In_nth_error in IN. destruct IN as (i & IN). destruct (quads_back A t0 n i g u PA B2 IN U CN) as (x & XI & D). exists x. split.
    + apply nth_length in IN. unfold as_quad_curves_n in IN. rewrite quad_slices_length in IN. eapply slot_in; eauto.
    + intros np. eapply dist_scale; [apply D| | | | |]; auto. now apply quad_gap_pos.
  - intros x XI. destruct (slot n x N0 XI) as (i & I & XS). destruct (nth_error (as_quad_curves_n A n) i) as [g|] eqn:NT.
    + destruct (arc_quads_close A t0 n i g PA B2 NT CN) as [_ H2]. destruct (H2 x XS) as (u & U & D). exists g, u. split; [now apply nth_error_In with i|]. split; auto. intros np. eapply dist_scale; [apply D| | | | |]; auto. now apply quad_gap_pos.
    + apply nth_error_None in NT. unfold as_quad_curves_n in NT. rewrite quad_slices_length in NT. lia.
Qed.

(** * Whole paths *)
Lemma cubic_slices_sort : forall A n ts cur p, Forall is_cubic (cubic_slices A n ts cur p).
Proof. induction n as [|n IH]; intros ts cur p; cbn [cubic_slices]; constructor; [repeat eexists|apply IH]. Qed.
Lemma quad_slices_sort : forall A n ts cur p, Forall is_quad (quad_slices A n ts cur p).
Proof. induction n as [|n IH]; intros ts cur p; cbn [quad_slices]; constructor; [repeat eexists|apply IH]. Qed.
Lemma sort_curve : forall g, is_cubic g \/ is_quad g -> curve g.
Proof. intros g [(a & c & d & b & ->)|(a & c & b & ->)]; exact I. Qed.
Definition first_not_arc (p : list aseg) : Prop := match p with AArc _ :: _ => False | _ => True end.
Lemma sub_replaced : forall sort conv p, (forall A, In (AArc A) p -> conv A <> [] /\ Forall sort (conv A) /\ chain (a_start A) (conv A) (a_end A)) -> Forall2 (replaced sort) p (map (sub_arcs conv) p).
Proof.
  intros sort conv p. induction p as [|s p IH]; intros G; cbn [map]; constructor; [|apply IH; intros A I; apply G; right; auto].
  destruct s as [g|A]; [reflexivity|]. destruct (G A) as (N & F & C); [left; auto|]. exists (conv A). auto.
Qed.
Lemma last_end : forall sort conv p d, (forall A, In (AArc A) p -> conv A <> [] /\ Forall sort (conv A) /\ chain (a_start A) (conv A) (a_end A)) -> (forall g, sort g -> curve g) ->
  last (map r_end (flat_map (sub_arcs conv) p)) d = last (map r_end p) d.
Proof.
  intros sort conv p d G SC. destruct p as [|s p] using rev_ind; [reflexivity|]. rewrite flat_map_app, !map_app. cbn [flat_map map]. rewrite app_nil_r, last_last.
  destruct s as [g|A]; [cbn [sub_arcs map]; apply last_last|]. destruct (G A) as (N & F & C); [apply in_or_app; cbn; auto|]. cbn [sub_arcs r_end].
  assert (F' : Forall curve (conv A)) by (eapply Forall_impl; eauto). destruct (chain_J (conv A) _ (a_start A) (a_start A) _ F' C (together_refl _) N) as (_ & _ & E).
  destruct (exists_last N) as (l & x & EL). rewrite EL in E |- *. rewrite map_app in E |- *. cbn [map] in E |- *. rewrite eof_app in E. cbn [eof fold_left] in E. rewrite map_app, app_assoc. cbn [map]. rewrite last_last. exact E.
Qed.
Lemma approximate_spec : forall (curves : arc -> nat -> list gseg) (sort : gseg -> Prop) error p, 0 < error -> connected p -> may_begin p -> (forall g, sort g -> curve g) ->
  (forall A n, (0 < n)%nat -> curves A n <> [] /\ Forall sort (curves A n) /\ chain (a_start A) (curves A n) (a_end A)) -> (forall A, In (AArc A) p -> a_sweep A <> 0) ->
  let q := flat_map (sub_arcs (fun A => curves A (r_pieces error A))) p in
  r_approximate curves error p = Ok q /\ connected q /\ Forall no_arc q /\ (exists ls, Forall2 (replaced sort) p ls /\ q = concat ls) /\ forall d, last (map r_end q) d = last (map r_end p) d.
Proof.
  intros curves sort error p E0 C N SC G SW q. set (conv := fun A => curves A (r_pieces error A)) in *.
  assert (GC : forall A, In (AArc A) p -> conv A <> [] /\ Forall sort (conv A) /\ chain (a_start A) (conv A) (a_end A)) by (intros A I; apply G; apply (pieces_spec error A E0); auto).
  assert (GC' : good_conv conv p) by (intros A I; destruct (GC A I) as (A1 & A2 & A3); split; auto; split; auto; eapply Forall_impl; eauto).
  destruct (approximate_at conv p C GC' N) as [AE AC]. split; [|split; [exact AC|split; [|split; [|intros d; now apply last_end with sort]]]].
  - unfold r_approximate. destruct (existsb r_is_arc p) eqn:EX.
    + destruct (Req_EM_T error 0); [lra|]. fold conv. now rewrite AE.
    + f_equal. unfold q. clear - EX. induction p as [|s p IH]; [reflexivity|]. cbn [existsb] in EX. apply orb_false_iff in EX. destruct EX as [E1 E2]. cbn [flat_map]. rewrite <- IH by auto. destruct s; [reflexivity|discriminate].
  - apply Forall_forall. intros x I. apply in_flat_map in I. destruct I as (s & _ & I). destruct s as [g|A]; cbn [sub_arcs] in I.
    + destruct I as [<-|[]]. intros A K. discriminate K.
    + apply in_map_iff in I. destruct I as (g & <- & _). intros B K. discriminate K.
  - exists (map (sub_arcs conv) p). split; [now apply sub_replaced|]. apply flat_map_concat_map.
Qed.
Lemma approximate_within : forall np (curves : arc -> nat -> list gseg) (sort : gseg -> Prop) f E p, (forall A n, Forall sort (curves A n)) -> (forall g, sort g -> curve g) -> 0 <= E ->
  (forall A, In (AArc A) p -> arc_within f E A (curves A (r_pieces f A))) ->
  let q := flat_map (sub_arcs (fun A => curves A (r_pieces f A))) p in within np E q p /\ within np E p q.
Proof.
  intros np curves sort f E p GS SC E0 W q.
  assert (ZD : forall x, dist x x = 0) by (intros x; unfold dist; rewrite !Rminus_eq_0; replace (0 ^ 2 + 0 ^ 2) with 0 by ring; apply sqrt_0). split.
  - intros x (s & t & I & NM & T & ->). unfold q in I. apply in_flat_map in I. destruct I as (s0 & I0 & I). destruct s0 as [g|A]; cbn [sub_arcs] in I.
    + destruct I as [<-|[]]. exists (r_point np (ASeg g) t). split; [exists (ASeg g), t; auto|]. rewrite ZD. auto.
    + apply in_map_iff in I. destruct I as (g & <- & I). destruct (proj1 (W A I0) g t I T) as (y & Y & D). exists (r_point np (AArc A) y). split; [|apply (D np)]. exists (AArc A), y. split; auto. split; [intros o e K; discriminate K|auto].
  - intros x (s & t & I & NM & T & ->). destruct s as [g|A].
    + exists (r_point np (ASeg g) t). split; [|rewrite ZD; auto]. exists (ASeg g), t. split; auto. unfold q. apply in_flat_map. exists (ASeg g). split; auto. left. auto.
    + destruct (proj2 (W A I) t T) as (g & u & G & U & D). exists (r_point np (ASeg g) u). split; [|apply (D np)]. exists (ASeg g), u. split.
      * unfold q. apply in_flat_map. exists (AArc A). split; auto. cbn [sub_arcs]. now apply in_map.
      * split; auto. assert (CG : curve g) by (apply SC; specialize (GS A (r_pieces f A)); rewrite Forall_forall in GS; auto). intros o e K. injection K as ->. exact CG.
Qed.
(** A tenth of a turn. *)
Lemma sin18 : let s := sin (PI * / 10) in 4 * s * s + 2 * s = 1 /\ 0 < s.
Proof.
  intros s. pose proof PI_RGT_0. set (x := PI * / 10) in *. assert (C : 0 < cos x) by (apply cos_gt_0; unfold x; lra). assert (S0 : 0 < s) by (apply sin_gt_0; unfold x; lra). split; auto.
  assert (E : sin (2 * x) = cos (3 * x)). { rewrite <- cos_shift. f_equal. unfold x. field. }
  rewrite sin_2a in E. fold s in E. replace (3 * x) with (2 * x + x) in E by ring. rewrite cos_plus, cos_2a, sin_2a in E. fold s in E. pose proof (cs1 x) as CS. fold s in CS. set (c := cos x) in *.
  assert (E2 : c * (4 * s * s + 2 * s - 1) = 0) by nra. apply Rmult_integral in E2. lra.
Qed.
Lemma cubic_gap_tenth : cubic_gap (/ 10) <= / 63000.
Proof.
  destruct sin18 as [E S]. unfold cubic_gap. set (s := sin (PI * / 10)) in *. assert (S1 : 30901 / 100000 < s < 30902 / 100000) by (split; nra). set (z := s ^ 2). assert (Z : z <= 95494 / 1000000) by (unfold z; nra). assert (Z0 : 0 <= z) by (unfold z; nra).
  replace (s ^ 6) with (z * (z * z)) by (unfold z; ring). assert (D : 3713518 / 1000000 * (3713518 / 1000000) <= (4 - 3 * z) ^ 2) by (simpl; nra). assert (z * z <= 95494 / 1000000 * (95494 / 1000000)) by nra. assert (z * (z * z) <= 95494 / 1000000 * (95494 / 1000000 * (95494 / 1000000))) by nra.
  apply Rmult_le_reg_r with (4 * (4 - 3 * z) ^ 2); [lra|]. replace (z * (z * z) / (4 * (4 - 3 * z) ^ 2) * (4 * (4 - 3 * z) ^ 2)) with (z * (z * z)) by (field; lra). lra.
Qed.
Lemma quad_gap_tenth : quad_gap (/ 10) <= / 135.
Proof.
  destruct sin18 as [E S]. unfold quad_gap. pose proof PI_RGT_0. assert (C0 : 0 < cos (PI * / 10)) by (apply cos_gt_0; lra). pose proof (cs1 (PI * / 10)) as CS. set (s := sin (PI * / 10)) in *. set (c := cos (PI * / 10)) in *.
  assert (S1 : 30901 / 100000 < s < 30902 / 100000) by (split; nra). assert (C1 : 95105 / 100000 <= c) by nra. nra.
Qed.
