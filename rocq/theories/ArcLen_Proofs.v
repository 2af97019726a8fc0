(** Proofs about the length of arcs. *)
Require Import Reals ZArith List Bool Lra Lia Psatz.
From Coquelicot Require Import Coquelicot.
Require Import Verif.Base Verif.Angle_Model Verif.Angle_Proofs Verif.Point_Model Verif.Point_Proofs Verif.Curve_Model Verif.Curve_Spec Verif.Curve_Proofs Verif.CurveLen_Proofs.
Require Import Verif.Arc_Model Verif.Arc_Spec Verif.Arc_Proofs.
Import ListNotations.
Open Scope R_scope.

Lemma runs_moves : forall f c a b r t0 sw, runs f c a b r t0 sw ->
  moves f (fun t => sw * (- a * sin (t0 + t * sw) * cos r - b * cos (t0 + t * sw) * sin r))
          (fun t => sw * (- a * sin (t0 + t * sw) * sin r + b * cos (t0 + t * sw) * cos r)).
Proof.
  intros f c a b r t0 sw H. split; [|split; [|split]]; intros t.
  - apply (is_derive_ext (fun u => px c + cos r * (a * cos (t0 + u * sw)) - sin r * (b * sin (t0 + u * sw)))); [intros u; rewrite (H u); reflexivity|].
    auto_derive; auto. ring.
  - apply (is_derive_ext (fun u => py c + sin r * (a * cos (t0 + u * sw)) + cos r * (b * sin (t0 + u * sw)))); [intros u; rewrite (H u); reflexivity|].
    auto_derive; auto. ring.
  - apply cont_of_derive. auto_derive. auto.
  - apply cont_of_derive. auto_derive. auto.
Qed.
(** The speed on an ellipse. *)
Definition espeed (a b x : R) : R := sqrt ((a * sin x) ^ 2 + (b * cos x) ^ 2).
Lemma turn_hypot : forall r x y, hypot (x * cos r - y * sin r) (x * sin r + y * cos r) = hypot x y.
Proof. intros r x y. unfold hypot. f_equal. pose proof (cs1 r) as C. transitivity ((cos r * cos r + sin r * sin r) * (x * x + y * y)); [ring|rewrite C; ring]. Qed.
Lemma hypot_abs : forall k x y, hypot (k * x) (k * y) = Rabs k * hypot x y.
Proof.
  intros k x y. rewrite <- (hypot_scal (Rabs k)) by apply Rabs_pos. unfold hypot. f_equal.
  assert (A : Rabs k * Rabs k = k * k) by (rewrite <- Rabs_mult; apply Rabs_right; pose proof (sqr_nn k); lra).
  transitivity (Rabs k * Rabs k * (x * x + y * y)); [rewrite A; ring|ring].
Qed.
Lemma runs_speed : forall f c a b r t0 sw, runs f c a b r t0 sw -> forall t, speed f t = Rabs sw * espeed a b (t0 + t * sw).
Proof.
  intros f c a b r t0 sw H t. rewrite (moves_speed _ _ _ (runs_moves _ _ _ _ _ _ _ H)), hypot_abs. f_equal.
  rewrite turn_hypot. unfold hypot, espeed. f_equal. ring.
Qed.
Lemma espeed_range : forall a b x, 0 <= a -> 0 <= b -> Rmin a b <= espeed a b x <= Rmax a b.
Proof.
  intros a b x A B. pose proof (cs1 x) as C. pose proof (sqr_nn (sin x)) as S0. pose proof (sqr_nn (cos x)) as C0. unfold espeed.
  assert (M : 0 <= Rmin a b) by (apply Rmin_glb; auto). assert (N : 0 <= Rmax a b) by (eapply Rle_trans; [exact A|apply Rmax_l]).
  pose proof (Rmin_l a b). pose proof (Rmin_r a b). pose proof (Rmax_l a b). pose proof (Rmax_r a b).
  assert (E : forall m, m * m * (sin x * sin x) + m * m * (cos x * cos x) = m * m) by (intros m; transitivity (m * m * (cos x * cos x + sin x * sin x)); [ring|rewrite C; ring]).
  replace ((a * sin x) ^ 2 + (b * cos x) ^ 2) with (a * a * (sin x * sin x) + b * b * (cos x * cos x)) by ring.
  split.
  - rewrite <- (sqrt_square (Rmin a b)) by auto. apply sqrt_le_1_alt. rewrite <- (E (Rmin a b)). apply Rplus_le_compat; apply Rmult_le_compat_r; auto; apply Rmult_le_compat; auto.
  - rewrite <- (sqrt_square (Rmax a b)) by auto. apply sqrt_le_1_alt. rewrite <- (E (Rmax a b)). apply Rplus_le_compat; apply Rmult_le_compat_r; auto; apply Rmult_le_compat; auto.
Qed.
Lemma int_const : forall k : R, is_RInt (fun _ : R => k) 0 1 k.
Proof. intros k. pose proof (is_RInt_const (V := R_NormedModule) 0 1 k) as H. assert (E : (1 - 0) * k = k) by ring. exact (eq_ind ((1 - 0) * k) (fun z : R => is_RInt (fun _ : R => k) 0 1 z) H k E). Qed.
Lemma runs_length : forall f c a b r t0 sw, runs f c a b r t0 sw -> 0 <= a -> 0 <= b ->
  exists L, arc_length f L /\ Rabs sw * Rmin a b <= L <= Rabs sw * Rmax a b.
Proof.
  intros f c a b r t0 sw H A B. destruct (moves_length _ _ _ (runs_moves _ _ _ _ _ _ _ H) 0 1 Rle_0_1) as (L & I & _). exists L. split; auto.
  assert (SP : forall x, 0 < x < 1 -> Rabs sw * Rmin a b <= speed f x <= Rabs sw * Rmax a b).
  { intros x _. rewrite (runs_speed _ _ _ _ _ _ _ H). pose proof (espeed_range a b (t0 + x * sw) A B) as [E1 E2]. split; apply Rmult_le_compat_l; auto; apply Rabs_pos. }
  split.
  - apply (is_RInt_le _ _ 0 1 _ _ Rle_0_1 (int_const _) I). intros x X. now apply SP.
  - apply (is_RInt_le _ _ 0 1 _ _ Rle_0_1 I (int_const _)). intros x X. now apply SP.
Qed.
Lemma arc_length_unique : forall f (L L' : R), arc_length f L -> arc_length f L' -> L = L'.
Proof. intros f L L' A B. apply J_unique in A. apply J_unique in B. congruence. Qed.

(** ** The fallback on subdivision *)
Lemma sin_abs_le : forall x, Rabs (sin x) <= Rabs x.
Proof.
  assert (P : forall x, 0 <= x -> Rabs (sin x) <= x).
  { intros x X. destruct (Req_dec x 0) as [->|N]; [rewrite sin_0, Rabs_R0; lra|]. assert (X0 : 0 < x) by lra.
    apply Rabs_le. split; [|left; apply sin_lt_x; auto]. destruct (Rle_lt_dec x 1).
    - assert (0 < sin x); [apply sin_gt_0; [auto|]|lra]. pose proof PI2_1. lra.
    - pose proof (SIN_bound x). lra. }
  intros x. destruct (Rle_lt_dec 0 x) as [X|X]; [rewrite (Rabs_right x) by lra; auto|].
  rewrite (Rabs_left x) by lra. rewrite <- Rabs_Ropp, <- sin_neg. apply P. lra.
Qed.
Lemma espeed_hypot : forall a b x, hypot (a * sin x) (b * cos x) = espeed a b x.
Proof. intros. unfold hypot, espeed. f_equal. ring. Qed.
Lemma runs_velocity : forall a b r t0 sw u v, 0 <= a -> 0 <= b -> 0 <= u -> u <= v -> v <= 1 ->
  let dx t := sw * (- a * sin (t0 + t * sw) * cos r - b * cos (t0 + t * sw) * sin r) in
  let dy t := sw * (- a * sin (t0 + t * sw) * sin r + b * cos (t0 + t * sw) * cos r) in
  hypot (dx v - dx u) (dy v - dy u) <= (sw * sw * Rmax a b) * (v - u).
Proof.
  intros a b r t0 sw u v A B U UV V. cbv beta zeta. set (p := t0 + v * sw). set (q := t0 + u * sw). set (h := (p - q) / 2). set (m := (p + q) / 2).
  assert (SD : sin p - sin q = 2 * cos m * sin h) by (unfold m, h; rewrite form4; ring).
  assert (CD : cos p - cos q = -2 * sin m * sin h) by (unfold m, h; rewrite form2; ring).
  match goal with |- hypot ?X ?Y <= _ => replace X with
    ((-2 * sw * sin h) * ((a * cos m) * cos r - (b * sin m) * sin r)) by (transitivity (sw * (- a * (sin p - sin q) * cos r - b * (cos p - cos q) * sin r)); [rewrite SD, CD; ring|ring]);
  replace Y with
    ((-2 * sw * sin h) * ((a * cos m) * sin r + (b * sin m) * cos r)) by (transitivity (sw * (- a * (sin p - sin q) * sin r + b * (cos p - cos q) * cos r)); [rewrite SD, CD; ring|ring]) end.
  rewrite hypot_abs, turn_hypot. assert (HM : hypot (a * cos m) (b * sin m) <= Rmax a b).
  { replace (hypot (a * cos m) (b * sin m)) with (espeed b a m); [rewrite Rmax_comm; apply espeed_range; auto|]. rewrite <- espeed_hypot. unfold hypot. f_equal. ring. }
  assert (N : 0 <= Rmax a b) by (eapply Rle_trans; [exact A|apply Rmax_l]).
  assert (HH : Rabs (-2 * sw * sin h) <= sw * sw * (v - u)).
  { rewrite Rabs_mult. pose proof (sin_abs_le h) as SL. assert (Rabs h = Rabs sw * (v - u) / 2). { unfold h, p, q. replace ((t0 + v * sw - (t0 + u * sw)) / 2) with (sw * ((v - u) / 2)) by field. rewrite Rabs_mult, (Rabs_right ((v - u) / 2)) by lra. field. }
    replace (Rabs (-2 * sw)) with (2 * Rabs sw) by (rewrite Rabs_mult, (Rabs_left (-2)) by lra; ring). pose proof (Rabs_pos sw). assert (SS : sw * sw = Rabs sw * Rabs sw) by (rewrite <- Rabs_mult, Rabs_right; auto; pose proof (sqr_nn sw); lra).
    rewrite SS. apply Rle_trans with (2 * Rabs sw * (Rabs sw * (v - u) / 2)); [apply Rmult_le_compat_l; lra|lra]. }
  apply Rle_trans with ((sw * sw * (v - u)) * Rmax a b); [|lra]. apply Rmult_le_compat; auto; [apply Rabs_pos|apply hypot_nn].
Qed.
Lemma runs_line_length : forall f c a b r t0 sw err md k n, runs f c a b r t0 sw -> 0 <= a -> 0 <= b -> 0 < err -> Rabs sw * Rmax a b <= err * 2 ^ k -> (Nat.max md k < n)%nat ->
  exists l L, line_length n f err md = Some l /\ arc_length f L /\ dist (f 0) (f 1) <= l <= L /\ L - l <= sw * sw * Rmax a b / 2 ^ S md.
Proof.
  intros f c a b r t0 sw err md k n H A B E K N. pose proof (runs_moves _ _ _ _ _ _ _ H) as MV. assert (N0 : 0 <= Rmax a b) by (eapply Rle_trans; [exact A|apply Rmax_l]).
  destruct (line_length_smooth f _ _ (Rabs sw * Rmax a b) (sw * sw * Rmax a b) err md k n MV) as (l & L & H1 & H2 & H3 & H4 & _); auto.
  - apply Rmult_le_pos; auto. apply sqr_nn.
  - intros t T. rewrite <- (moves_speed _ _ _ MV), (runs_speed _ _ _ _ _ _ _ H). apply Rmult_le_compat_l; [apply Rabs_pos|]. now apply espeed_range.
  - intros u v U UV V. now apply (runs_velocity a b r t0 sw).
  - exists l, L. auto.
Qed.

(** ** The elliptic integral *)
Lemma exact_runs : forall (f : R -> pt) (E : R -> R -> R) c a b r t0 phi sw, runs f c a b r t0 sw -> 0 < a -> 0 < b -> sw <> 0 -> cos phi = cos t0 -> sin phi = sin t0 ->
  (forall x m, m < 1 -> is_RInt (fun t => sqrt (1 - m * sin t ^ 2)) 0 x (E x m)) ->
  arc_length f (b * Rabs (E (phi + sw) (1 - (a / b) ^ 2) - E phi (1 - (a / b) ^ 2))).
Proof.
  intros f E c a b r t0 phi sw H A B NZ CP SP HE. set (m := 1 - (a / b) ^ 2). assert (M : m < 1). { unfold m. assert (0 < a / b) by (apply Rdiv_lt_0_compat; auto). nra. }
  set (g t := sqrt (1 - m * sin t ^ 2)). set (D := E (phi + sw) m - E phi m).
  assert (ID : is_RInt g phi (phi + sw) D).
  { unfold D. replace (E (phi + sw) m - E phi m) with (plus (opp (E phi m)) (E (phi + sw) m)) by (unfold plus, opp; simpl; ring).
    apply (is_RInt_Chasles (V := R_NormedModule)) with 0; [|apply HE; auto]. apply (is_RInt_swap (V := R_NormedModule)). apply HE. auto. }
  assert (IS : is_RInt (fun y => sw * g (phi + y * sw)) 0 1 D).
  { assert (I2 : is_RInt g (sw * 0 + phi) (sw * 1 + phi) D) by (replace (sw * 0 + phi) with phi by ring; replace (sw * 1 + phi) with (phi + sw) by ring; exact ID).
    apply (is_RInt_comp_lin (V := R_NormedModule) g sw phi 0 1) in I2. eapply is_RInt_ext; [|exact I2]. intros x _. unfold scal. simpl. unfold mult. simpl. do 2 f_equal. ring. }
  assert (EG : forall t, espeed a b (t0 + t * sw) = b * g (phi + t * sw)).
  { intros t. destruct (cs_add _ _ (t * sw) CP SP) as [C1 S1]. unfold espeed, g. rewrite <- C1, <- S1. set (y := phi + t * sw). rewrite <- (sqrt_square b) at 2 by lra. rewrite <- sqrt_mult_alt by (apply sqr_nn).
    f_equal. pose proof (cs1 y) as C. unfold m. replace (b * b * (1 - (1 - (a / b) ^ 2) * sin y ^ 2)) with (b * b * (1 - sin y * sin y) + a * a * (sin y * sin y)) by (field; lra). replace (1 - sin y * sin y) with (cos y * cos y) by lra. ring. }
  destruct (runs_length f c a b r t0 sw H) as (L & AL & LB); try lra. assert (L0 : 0 <= L). { pose proof (Rabs_pos sw). assert (0 <= Rmin a b) by (apply Rmin_glb; lra). nra. }
  assert (LE : L = b * Rabs D); [|rewrite <- LE; exact AL].
  destruct (Rlt_le_dec 0 sw) as [S|S].
  - assert (I3 : arc_length f (b * D)). { apply (is_RInt_ext (fun y => b * (sw * g (phi + y * sw)))); [|apply int_scal; exact IS]. intros x _. rewrite (runs_speed _ _ _ _ _ _ _ H), EG, (Rabs_right sw) by lra. match goal with |- ?x = ?y => change (x = y :> R) end; ring. }
    rewrite (arc_length_unique _ _ _ AL I3) in *. rewrite Rabs_right; auto. apply Rle_ge. apply (Rmult_le_reg_l b); lra.
  - assert (I3 : arc_length f ((- b) * D)). { apply (is_RInt_ext (fun y => (- b) * (sw * g (phi + y * sw)))); [|apply int_scal; exact IS]. intros x _. rewrite (runs_speed _ _ _ _ _ _ _ H), EG, (Rabs_left sw) by lra. match goal with |- ?x = ?y => change (x = y :> R) end; ring. }
    rewrite (arc_length_unique _ _ _ AL I3) in *. rewrite Rabs_left1; [ring|]. apply (Rmult_le_reg_l b); lra.
Qed.
