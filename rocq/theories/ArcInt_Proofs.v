(** Sums of the speed on an ellipse. *)
Require Import Reals Lra Lia Psatz.
From Coquelicot Require Import Coquelicot.
Require Import Verif.Base Verif.Point_Model Verif.Point_Proofs Verif.Curve_Spec Verif.CurveLen_Proofs Verif.Arc_Model Verif.Arc_Spec Verif.Arc_Proofs Verif.ArcLen_Proofs Verif.ArcInt_Model.
Open Scope R_scope.

Section Sum.
Variables (g F : R -> R) (M u h : R).
Hypothesis M0 : 0 <= M.
Hypothesis h0 : 0 <= h.
Hypothesis D : forall t, is_derive F t (g t).
Hypothesis Lip : forall s t, Rabs (g s - g t) <= M * Rabs (s - t).
Lemma sum_step x : Rabs (g (x + h) * h - (F (x + h) - F x)) <= M * h * h.
Proof.
  destruct (MVT_gen F x (x + h) g) as (c & C & E); [intros; apply D|intros y _; apply continuity_pt_filterlim, (ex_derive_continuous (K := R_AbsRing) (V := R_NormedModule)); eexists; apply D|].
  rewrite Rmin_left, Rmax_right in C by lra. rewrite E. replace (g (x + h) * h - g c * (x + h - x)) with ((g (x + h) - g c) * h) by ring.
  rewrite Rabs_mult, (Rabs_right h) by lra. apply Rmult_le_compat_r; [lra|]. eapply Rle_trans; [apply Lip|]. apply Rmult_le_compat_l; [lra|]. apply Rabs_le. lra.
Qed.
Lemma sum_near n : Rabs (sum_to (fun i => g (u + h * INR i) * h) n - (F (u + h * INR n) - F u)) <= INR n * (M * h * h).
Proof.
  induction n.
  - cbn [sum_to INR]. rewrite Rmult_0_r, Rplus_0_r, Rminus_eq_0, Rminus_eq_0, Rabs_R0. lra.
  - cbn [sum_to]. pose proof (sum_step (u + h * INR n)) as S. rewrite S_INR in *. replace (u + h * (INR n + 1)) with (u + h * INR n + h) by ring.
    replace (_ - (F (u + h * INR n + h) - F u)) with ((sum_to (fun i => g (u + h * INR i) * h) n - (F (u + h * INR n) - F u)) + (g (u + h * INR n + h) * h - (F (u + h * INR n + h) - F (u + h * INR n)))) by ring.
    eapply Rle_trans; [apply Rabs_triang|]. lra.
Qed.
End Sum.

Lemma espeed_lip : forall a b s t, 0 <= a -> 0 <= b -> Rabs (espeed a b s - espeed a b t) <= Rmax a b * Rabs (s - t).
Proof.
  assert (H : forall a b s t, 0 <= a -> 0 <= b -> espeed a b s - espeed a b t <= Rmax a b * Rabs (s - t)).
  { intros a b s t A B. rewrite <- !espeed_hypot. set (h := (s - t) / 2). set (m := (s + t) / 2).
    assert (SD : sin s - sin t = 2 * cos m * sin h) by (unfold m, h; rewrite form4; ring).
    assert (CD : cos s - cos t = -2 * sin m * sin h) by (unfold m, h; rewrite form2; ring).
    pose proof (hypot_triangle (a * sin t) (b * cos t) ((2 * sin h) * (a * cos m)) ((2 * sin h) * (- (b * sin m)))) as T.
    replace (a * sin t + 2 * sin h * (a * cos m)) with (a * sin s) in T by (transitivity (a * (sin t + (sin s - sin t))); [ring|rewrite SD; ring]).
    replace (b * cos t + 2 * sin h * - (b * sin m)) with (b * cos s) in T by (transitivity (b * (cos t + (cos s - cos t))); [ring|rewrite CD; ring]).
    rewrite hypot_abs in T. assert (HM : hypot (a * cos m) (- (b * sin m)) <= Rmax a b).
    { replace (hypot (a * cos m) (- (b * sin m))) with (espeed b a m); [rewrite Rmax_comm; apply espeed_range; auto|]. rewrite <- espeed_hypot. unfold hypot. f_equal. ring. }
    assert (HH : Rabs (2 * sin h) <= Rabs (s - t)).
    { replace (s - t) with (2 * h) by (unfold h; field). rewrite !Rabs_mult. apply Rmult_le_compat_l; [apply Rabs_pos|apply sin_abs_le]. }
    pose proof (Rmult_le_compat _ _ _ _ (Rabs_pos _) (hypot_nn _ _) HH HM). lra. }
  intros a b s t A B. pose proof (H a b s t A B). pose proof (H a b t s A B) as H'. rewrite (Rabs_minus_sym t s) in H'. apply Rabs_le. lra.
Qed.
Lemma espeed_f : forall a b t, 0 < b -> b * sqrt (1 - (1 - a ^ 2 / b ^ 2) * sin t ^ 2) = espeed a b t.
Proof.
  intros a b t B. unfold espeed. rewrite <- (sqrt_square b) at 1 by lra. rewrite <- sqrt_mult_alt by nra. f_equal. pose proof (sin2_cos2 t) as C. unfold Rsqr in C.
  replace ((b * cos t) ^ 2) with (b * b * (1 - sin t * sin t)) by (rewrite <- C; ring). field. lra.
Qed.
Lemma sum_scale : forall b g n, b * sum_to g n = sum_to (fun i => b * g i) n.
Proof. intros b g. induction n; cbn [sum_to]; [ring|]. rewrite <- IHn. ring. Qed.
Lemma sum_ext : forall g g' n, (forall i, g i = g' i) -> sum_to g n = sum_to g' n.
Proof. intros g g' n H. induction n; cbn [sum_to]; [reflexivity|]. now rewrite IHn, H. Qed.
Definition ell (x m : R) : R := RInt (fun t => sqrt (1 - m * sin t ^ 2)) 0 x.
Lemma ell_cont : forall m z, m < 1 -> continuous (fun t => sqrt (1 - m * sin t ^ 2)) z.
Proof.
  intros m z M. apply continuous_comp with (f := fun t => 1 - m * sin t ^ 2) (g := sqrt).
  - apply (ex_derive_continuous (K := R_AbsRing) (V := R_NormedModule)). auto_derive. auto.
  - apply continuity_pt_filterlim, continuity_pt_sqrt. pose proof (SIN_bound z). assert (0 <= sin z ^ 2 <= 1) by nra. destruct (Rle_lt_dec 0 m); nra.
Qed.
Lemma ell_int : forall x m, m < 1 -> is_RInt (fun t => sqrt (1 - m * sin t ^ 2)) 0 x (ell x m).
Proof. intros x m M. apply (RInt_correct (V := R_CompleteNormedModule)). apply (ex_RInt_continuous (V := R_CompleteNormedModule)). intros z _. now apply ell_cont. Qed.
Lemma ell_derive : forall m x, m < 1 -> is_derive (fun y => ell y m) x (sqrt (1 - m * sin x ^ 2)).
Proof.
  intros m x M. apply (is_derive_RInt (V := R_NormedModule) (fun t => sqrt (1 - m * sin t ^ 2)) (fun y => ell y m) 0 x); [|now apply ell_cont].
  apply filter_forall. intros y. now apply ell_int.
Qed.
Lemma part_near : forall n t s a b, 0 < a -> 0 < b -> (0 < n)%nat ->
  Rabs (ellipse_part_integral n t (t + s) a b - b * Rabs (ell (t + s) (1 - (a / b) ^ 2) - ell t (1 - (a / b) ^ 2))) <= s * s * Rmax a b / INR n.
Proof.
  intros n t s a b A B N. set (m := 1 - (a / b) ^ 2). assert (M : m < 1). { unfold m. assert (0 < a / b) by (apply Rdiv_lt_0_compat; auto). nra. }
  set (F y := b * ell y m). assert (D : forall y, is_derive F y (espeed a b y)).
  { intros y. rewrite <- espeed_f by auto. replace (1 - a ^ 2 / b ^ 2) with m by (unfold m; field; lra). apply (is_derive_scal (fun y => ell y m)). now apply ell_derive. }
  assert (NI : 0 < INR n) by (now apply lt_0_INR). set (h := Rabs (t - (t + s)) / INR n). assert (HE : Rabs (t - (t + s)) = Rabs s) by (rewrite Rabs_minus_sym; f_equal; ring).
  assert (h0 : 0 <= h). { unfold h. apply Rmult_le_pos; [apply Rabs_pos|]. left. now apply Rinv_0_lt_compat. }
  assert (M0 : 0 <= Rmax a b) by (eapply Rle_trans; [|apply Rmax_l]; lra).
  pose proof (sum_near (espeed a b) F (Rmax a b) (Rmin t (t + s)) h M0 h0 D (fun x y => espeed_lip a b x y (Rlt_le _ _ A) (Rlt_le _ _ B)) n) as S.
  assert (E : ellipse_part_integral n t (t + s) a b = sum_to (fun i => espeed a b (Rmin t (t + s) + h * INR i) * h) n).
  { unfold ellipse_part_integral. cbv zeta. rewrite sum_scale. apply sum_ext. intros i. fold h. rewrite <- espeed_f by auto. ring. }
  rewrite E. replace (INR n * (Rmax a b * h * h)) with (s * s * Rmax a b / INR n) in S.
  2: { unfold h. rewrite HE. assert (SS : s * s = Rabs s * Rabs s) by (rewrite <- Rabs_mult, Rabs_right; auto; nra). rewrite SS. field. lra. }
  replace (b * Rabs (ell (t + s) m - ell t m)) with (F (Rmin t (t + s) + h * INR n) - F (Rmin t (t + s))); [exact S|].
  replace (h * INR n) with (Rabs s) by (unfold h; rewrite HE; field; lra).
  assert (UP : forall x y, x <= y -> F x <= F y).
  { intros x y XY. destruct (MVT_gen F x y (espeed a b)) as (c & C & EE); [intros; apply D|intros z _; apply continuity_pt_filterlim, (ex_derive_continuous (K := R_AbsRing) (V := R_NormedModule)); eexists; apply D|].
    assert (0 <= espeed a b c) by apply sqrt_pos. nra. }
  rewrite <- (Rabs_right b) at 1 by lra. rewrite <- Rabs_mult, Rmult_minus_distr_l. fold (F (t + s)) (F t). destruct (Rle_lt_dec 0 s).
  - rewrite Rmin_left, (Rabs_right s) by lra. rewrite Rabs_right; [reflexivity|]. pose proof (UP t (t + s)). lra.
  - rewrite Rmin_right, (Rabs_left s) by lra. replace (t + s + - s) with t by ring. pose proof (UP (t + s) t). rewrite Rabs_left1; lra.
Qed.
