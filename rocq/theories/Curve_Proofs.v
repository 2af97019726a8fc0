(** Proofs for points, boxes and distances of segments. *)
Require Import Reals List Lra Lia Psatz Bool.
From Coquelicot Require Import Coquelicot.
Require Import Verif.Point_Model Verif.Matrix_Model Verif.Curve_Model Verif.Curve_Spec.
Import ListNotations.
Open Scope R_scope.

Lemma lin_point_mix : forall np a b t, lin_point np a b t = mix (if np then Rmax 0 (Rmin 1 t) else t) a b.
Proof.
  intros [] a b t; unfold lin_point, mix, towards, interp.
  - destruct (Rle_dec t 0); [|destruct (Rle_dec 1 t)].
    + replace (Rmax 0 (Rmin 1 t)) with 0 by (rewrite Rmin_right, Rmax_left; lra). f_equal; ring.
    + replace (Rmax 0 (Rmin 1 t)) with 1 by (rewrite Rmin_left, Rmax_right; lra). f_equal; ring.
    + replace (Rmax 0 (Rmin 1 t)) with t by (rewrite Rmin_right, Rmax_right; lra). f_equal; ring.
  - f_equal; ring.
Qed.
Lemma clamp_id : forall t, 0 <= t <= 1 -> Rmax 0 (Rmin 1 t) = t.
Proof. intros. rewrite Rmin_right, Rmax_right; lra. Qed.
Lemma lin_point_inside : forall np a b t, 0 <= t <= 1 -> lin_point np a b t = mix t a b.
Proof. intros np a b t H. rewrite lin_point_mix. destruct np; [rewrite clamp_id|]; auto. Qed.
Lemma quad_point_casteljau : forall a c b t, quad_point a c b t = casteljau2 a c b t.
Proof. intros. unfold quad_point, quad1, casteljau2, mix. simpl. f_equal; ring. Qed.
Lemma cubic_point_casteljau : forall a c d b t, cubic_point a c d b t = casteljau3 a c d b t.
Proof. intros. unfold cubic_point, cubic1, casteljau3, casteljau2, mix. simpl. f_equal; ring. Qed.

Lemma apply_mix : forall m t p q, apply_mx m (mix t p q) = mix t (apply_mx m p) (apply_mx m q).
Proof. intros. unfold apply_mx, mix. simpl. f_equal; ring. Qed.
Lemma point_mul : forall np s m t, point np (g_mul s m) t = apply_mx m (point np s t).
Proof.
  intros np s m t. destruct s; cbn [point g_mul]; auto.
  - now rewrite !lin_point_mix, apply_mix.
  - now rewrite !lin_point_mix, apply_mix.
  - rewrite !quad_point_casteljau. unfold casteljau2. now rewrite !apply_mix.
  - rewrite !cubic_point_casteljau. unfold casteljau3, casteljau2. now rewrite !apply_mix.
Qed.

Lemma pt_eta : forall p, P (px p) (py p) = p. Proof. now intros []. Qed.
Lemma mix_0 : forall p q, mix 0 p q = p.
Proof. intros [] []. unfold mix. simpl. f_equal; ring. Qed.
Lemma mix_1 : forall p q, mix 1 p q = q.
Proof. intros [] []. unfold mix. simpl. f_equal; ring. Qed.
Lemma mix_swap : forall p q t, mix t q p = mix (1 - t) p q.
Proof. intros [] [] t. unfold mix. simpl. f_equal; ring. Qed.
Lemma point_0 : forall np s a, g_start s = Some a -> (forall o e, s <> GMove o e) -> point np s 0 = a.
Proof.
  intros np [] a' E N; cbn in *; inversion E; subst; try (exfalso; eapply N; reflexivity).
  - rewrite lin_point_inside by lra. apply mix_0.
  - rewrite lin_point_inside by lra. apply mix_0.
  - rewrite quad_point_casteljau. unfold casteljau2. now rewrite !mix_0.
  - rewrite cubic_point_casteljau. unfold casteljau3, casteljau2. now rewrite !mix_0.
Qed.
Lemma point_1 : forall np s, point np s 1 = g_end s.
Proof.
  intros np []; cbn; auto.
  - rewrite lin_point_inside by lra. apply mix_1.
  - rewrite lin_point_inside by lra. apply mix_1.
  - rewrite quad_point_casteljau. unfold casteljau2. now rewrite !mix_1.
  - rewrite cubic_point_casteljau. unfold casteljau3, casteljau2. now rewrite !mix_1.
Qed.
Lemma clamp_swap : forall t, Rmax 0 (Rmin 1 (1 - t)) = 1 - Rmax 0 (Rmin 1 t).
Proof. intros. unfold Rmax, Rmin. repeat destruct (Rle_dec _ _); lra. Qed.
Lemma lin_swap : forall np a b t, lin_point np b a t = lin_point np a b (1 - t).
Proof. intros. rewrite !lin_point_mix, mix_swap. destruct np; auto. now rewrite clamp_swap. Qed.
Lemma point_reverse : forall np s t, (forall o e, s <> GMove o e) -> point np (g_reverse s) t = point np s (1 - t).
Proof.
  intros np [] t N; try (exfalso; eapply N; reflexivity); cbn [point g_reverse].
  - apply lin_swap.
  - apply lin_swap.
  - unfold quad_point, quad1. f_equal; ring.
  - unfold cubic_point, cubic1. f_equal; ring.
Qed.
Lemma reverse_ends : forall s a, g_start s = Some a -> g_start (g_reverse s) = Some (g_end s) /\ g_end (g_reverse s) = a.
Proof. intros [ [|] | | | |] a' E; inversion E; subst; auto. Qed.

(** * Convex hull *)
Lemma among_mix : forall l t u v, 0 <= t <= 1 -> among l u -> among l v -> among l ((1 - t) * u + t * v).
Proof.
  intros l t u v T (lo & hi & A & B & C) (lo' & hi' & A' & B' & C').
  exists (Rmin lo lo'), (Rmax hi hi'). repeat split.
  - unfold Rmin. destruct (Rle_dec _ _); auto.
  - unfold Rmax. destruct (Rle_dec _ _); auto.
  - pose proof (Rmin_l lo lo'). pose proof (Rmin_r lo lo'). nra.
  - pose proof (Rmax_l hi hi'). pose proof (Rmax_r hi hi'). nra.
Qed.
Lemma among_in : forall l v, In v l -> among l v.
Proof. intros l v H. exists v, v. repeat split; auto; lra. Qed.
Lemma point_among : forall np s t, 0 <= t <= 1 ->
  among (map px (controls s)) (px (point np s t)) /\ among (map py (controls s)) (py (point np s t)).
Proof.
  intros np s t T. destruct s; cbn [point controls].
  - split; apply among_in; simpl; auto.
  - rewrite lin_point_inside by auto. split; apply among_mix; auto; apply among_in; simpl; auto.
  - rewrite lin_point_inside by auto. split; apply among_mix; auto; apply among_in; simpl; auto.
  - rewrite quad_point_casteljau. split; repeat (apply among_mix; auto); apply among_in; simpl; auto.
  - rewrite cubic_point_casteljau. split; repeat (apply among_mix; auto); apply among_in; simpl; auto 6.
Qed.

(** * Boxes *)
Lemma rmin_in : forall l x, In (rmin x l) (x :: l).
Proof.
  induction l as [|y r IH]; intros x; simpl; auto.
  unfold Rmin. destruct (Rle_dec _ _); auto. right. apply IH.
Qed.
Lemma rmax_in : forall l x, In (rmax x l) (x :: l).
Proof.
  induction l as [|y r IH]; intros x; simpl; auto.
  unfold Rmax. destruct (Rle_dec _ _); auto. right. apply IH.
Qed.
Lemma rmin_le : forall l x v, In v (x :: l) -> rmin x l <= v.
Proof.
  induction l as [|y r IH]; intros x v H; simpl in *.
  - destruct H as [<-|[]]; lra.
  - destruct H as [<-|H]. apply Rmin_l. eapply Rle_trans; [apply Rmin_r|]. now apply IH.
Qed.
Lemma rmax_ge : forall l x v, In v (x :: l) -> v <= rmax x l.
Proof.
  induction l as [|y r IH]; intros x v H; simpl in *.
  - destruct H as [<-|[]]; lra.
  - destruct H as [<-|H]. apply Rmax_l. eapply Rle_trans; [|apply Rmax_r]. now apply IH.
Qed.
Lemma range_ext : forall f g lo hi, (forall t, 0 <= t <= 1 -> f t = g t) -> range f lo hi -> range g lo hi.
Proof.
  intros f g lo hi E (A & (t & T & B) & (u & U & C)). repeat split; try (rewrite <- E by auto; now apply A).
  - exists t. rewrite <- E; auto.
  - exists u. rewrite <- E; auto.
Qed.
(** Touching holds whatever the candidates are. *)
Lemma touched : forall f x l, (exists t, 0 <= t <= 1 /\ f t = x) -> (forall v, In v l -> exists t, 0 <= t <= 1 /\ f t = v) ->
  (exists t, 0 <= t <= 1 /\ f t = rmin x l) /\ (exists t, 0 <= t <= 1 /\ f t = rmax x l).
Proof.
  intros f x l X L. split.
  - destruct (rmin_in l x) as [E|E]; [rewrite <- E; auto | auto].
  - destruct (rmax_in l x) as [E|E]; [rewrite <- E; auto | auto].
Qed.
(** A smooth function takes its extremes on [0, 1] at the ends or where it is stationary. *)
Lemma extremes : forall f (D : derivable f) x l,
  In (f 0) (x :: l) -> In (f 1) (x :: l) ->
  (forall c, 0 < c < 1 -> derive_pt f c (D c) = 0 -> In (f c) (x :: l)) ->
  forall t, 0 <= t <= 1 -> rmin x l <= f t <= rmax x l.
Proof.
  intros f D x l I0 I1 K t T.
  assert (Cont : forall c, 0 <= c <= 1 -> continuity_pt f c) by (intros; now apply derivable_continuous_pt).
  destruct (continuity_ab_maj f 0 1 ltac:(lra) Cont) as (M & HM & RM).
  destruct (continuity_ab_min f 0 1 ltac:(lra) Cont) as (m & Hm & Rm).
  assert (V : forall c, 0 <= c <= 1 -> ((forall u, 0 <= u <= 1 -> f u <= f c) \/ (forall u, 0 <= u <= 1 -> f c <= f u)) -> In (f c) (x :: l)).
  { intros c RC H. destruct (Req_dec c 0) as [->|N0]; auto. destruct (Req_dec c 1) as [->|N1]; auto.
    apply K; [lra|]. destruct H as [H|H].
    - apply (deriv_maximum f 0 1 c (D c)); try lra. intros. apply H. lra.
    - apply (deriv_minimum f 0 1 c (D c)); try lra. intros. apply H. lra. }
  split.
  - apply Rle_trans with (f m); [apply rmin_le, V; auto | auto].
  - apply Rle_trans with (f M); [auto | apply rmax_ge, V; auto].
Qed.

Lemma quad1_deriv : forall x0 x1 x2 c, is_derive (quad1 x0 x1 x2) c (2 * ((x0 - 2 * x1 + x2) * c - (x0 - x1))).
Proof. intros. unfold quad1. auto_derive; auto. ring. Qed.
Lemma cubic1_deriv : forall a0 a1 a2 a3 c, is_derive (cubic1 a0 a1 a2 a3) c
  (3 * (- (a0 - 3 * a1 + 3 * a2 - a3) * (c * c) + 2 * (a0 - 2 * a1 + a2) * c - (a0 - a1))).
Proof. intros. unfold cubic1. auto_derive; auto. ring. Qed.
Lemma extremes' : forall (f df : R -> R) (x : R) (l : list R), (forall c, is_derive f c (df c)) ->
  In (f 0) (x :: l) -> In (f 1) (x :: l) ->
  (forall c, 0 < c < 1 -> df c = 0 -> In (f c) (x :: l)) ->
  forall t, 0 <= t <= 1 -> rmin x l <= f t <= rmax x l.
Proof.
  intros f df x l Df I0 I1 K.
  assert (D : derivable f). { intros c. exists (df c). apply is_derive_Reals, Df. }
  apply extremes with (D := D); auto.
  intros c C E. apply K; auto. rewrite <- E. symmetry. apply derive_pt_eq_0. apply is_derive_Reals, Df.
Qed.
Lemma quad1_0 : forall x0 x1 x2, quad1 x0 x1 x2 0 = x0. Proof. intros. unfold quad1. ring. Qed.
Lemma quad1_1 : forall x0 x1 x2, quad1 x0 x1 x2 1 = x2. Proof. intros. unfold quad1. ring. Qed.
Lemma cubic1_0 : forall x0 x1 x2 x3, cubic1 x0 x1 x2 x3 0 = x0. Proof. intros. unfold cubic1. ring. Qed.
Lemma cubic1_1 : forall x0 x1 x2 x3, cubic1 x0 x1 x2 x3 1 = x3. Proof. intros. unfold cubic1. ring. Qed.

Lemma quad_values_range : forall x0 x1 x2,
  range (quad1 x0 x1 x2) (rmin x0 (quad_values x0 x1 x2)) (rmax x0 (quad_values x0 x1 x2)).
Proof.
  intros. split.
  - assert (X2 : In x2 (quad_values x0 x1 x2)).
    { unfold quad_values. repeat destruct (Rlt_dec _ _); simpl; auto. }
    apply extremes' with (df := fun c => 2 * ((x0 - 2 * x1 + x2) * c - (x0 - x1))).
    + intros. apply quad1_deriv.
    + rewrite quad1_0. now left.
    + rewrite quad1_1. now right.
    + intros c C E. set (d := x0 - 2 * x1 + x2) in *. destruct (Req_dec d 0) as [Z|NZ].
      * left. assert (X1 : x1 = x0) by (rewrite Z in E; lra). assert (X0 : x2 = x0) by (unfold d in Z; lra). unfold quad1. rewrite X1, X0. ring.
      * right. unfold quad_values. fold d.
        destruct (Req_EM_T d 0) as [|_]; [easy|].
        replace ((x0 - x1) / d) with c by (apply (Rmult_eq_reg_r d); auto; field_simplify; auto; lra).
        destruct (Rlt_dec 0 c); [|lra]. destruct (Rlt_dec c 1); [|lra]. simpl. auto.
  - apply touched.
    + exists 0. rewrite quad1_0. split; lra.
    + intros v V. unfold quad_values in V.
      assert (E : exists t, 0 <= t <= 1 /\ quad1 x0 x1 x2 t = x2) by (exists 1; rewrite quad1_1; split; lra).
      destruct (Rlt_dec 0 _) as [A|A]; [destruct (Rlt_dec _ 1) as [B|B]|]; destruct V as [<-|V]; auto; try (destruct V; easy).
      destruct V as [<-|[]]. eexists. split; [|reflexivity]. lra.
Qed.
Lemma cubic_values_touched : forall a0 a1 a2 a3,
  let m := cubic_minmax a0 a1 a2 a3 in
  (exists t, 0 <= t <= 1 /\ cubic1 a0 a1 a2 a3 t = fst m) /\ (exists t, 0 <= t <= 1 /\ cubic1 a0 a1 a2 a3 t = snd m).
Proof.
  intros. apply touched.
  - exists 0. split; lra.
  - intros v V. apply in_map_iff in V as (t & <- & I). exists t. split; auto.
    assert (IN : forall u, In t (inside01 u) -> 0 <= t <= 1).
    { intros u. unfold inside01. destruct (Rlt_dec 0 u); [destruct (Rlt_dec u 1)|]; simpl; intros []; subst; try lra; easy. }
    unfold extremizers in I. destruct I as [<-|I]; [lra|].
    destruct (Rle_dec _ _) as [|]; [destruct (Rle_dec _ _) as [|]|].
    + apply in_app_iff in I as [I|I]; eauto.
    + easy.
    + destruct I as [<-|[]]. lra.
Qed.
(** The derivative has the roots the code computes. *)
Lemma quadratic_roots : forall d t k c, d <> 0 -> d * (c * c) - 2 * t * c + k = 0 ->
  0 <= t * t - d * k /\ (c = (t + sqrt (t * t - d * k)) / d \/ c = (t - sqrt (t * t - d * k)) / d).
Proof.
  intros d t k c D E.
  assert (S : t * t - d * k = (d * c - t) * (d * c - t)) by (replace k with (2 * t * c - d * (c * c)) by lra; ring).
  split; [rewrite S; apply Rle_0_sqr|].
  rewrite S. destruct (Rle_dec 0 (d * c - t)).
  - left. rewrite sqrt_square by auto. field. auto.
  - right. replace ((d * c - t) * (d * c - t)) with ((t - d * c) * (t - d * c)) by ring. rewrite sqrt_square by lra. field. auto.
Qed.
Lemma cubic_values_range : forall a0 a1 a2 a3,
  / 10 ^ 12 <= Rabs (a0 - 3 * a1 + 3 * a2 - a3) \/ (forall c, 0 < c < 1 -> ~ stationary a0 a1 a2 a3 c) ->
  let m := cubic_minmax a0 a1 a2 a3 in range (cubic1 a0 a1 a2 a3) (fst m) (snd m).
Proof.
  intros a0 a1 a2 a3 H m. split; [|apply cubic_values_touched].
  unfold m, cubic_minmax. cbn [fst snd].
  apply extremes' with (df := fun c => 3 * (- (a0 - 3 * a1 + 3 * a2 - a3) * (c * c) + 2 * (a0 - 2 * a1 + a2) * c - (a0 - a1))).
  - intros. apply cubic1_deriv.
  - now left.
  - right. unfold extremizers. now left.
  - intros c C E. right. apply in_map.
    assert (S : stationary a0 a1 a2 a3 c) by (unfold stationary; lra).
    destruct H as [H|H]; [|exfalso; apply (H c); auto].
    unfold extremizers. right. destruct (Rle_dec _ _); [|easy].
    unfold stationary in S. apply quadratic_roots in S.
    2: { intros Z. rewrite Z, Rabs_R0 in H. assert (0 < / 10 ^ 12) by (apply Rinv_0_lt_compat; apply pow_lt; lra). lra. }
    replace ((a0 - 2 * a1 + a2) * (a0 - 2 * a1 + a2) - (a0 - 3 * a1 + 3 * a2 - a3) * (a0 - a1))
      with (a1 ^ 2 - (a0 + a1) * a2 + a2 ^ 2 + (a0 - a1) * a3) in S by ring.
    destruct S as [S1 S2]. destruct (Rle_dec 0 _); [|easy].
    apply in_app_iff. destruct S2 as [S2|S2]; [left|right]; rewrite <- S2; unfold inside01;
      destruct (Rlt_dec 0 c); try lra; destruct (Rlt_dec c 1); try lra; simpl; auto.
Qed.
(** For a straight segment. *)
Lemma linear_range : forall x0 x1, range (fun t => (1 - t) * x0 + t * x1) (rmin x0 [x1]) (rmax x0 [x1]).
Proof.
  intros. split.
  - intros t T. cbn. pose proof (Rmin_l x0 x1). pose proof (Rmin_r x0 x1). pose proof (Rmax_l x0 x1). pose proof (Rmax_r x0 x1). nra.
  - apply touched.
    + exists 0. split; lra.
    + intros v [<-|[]]. exists 1. split; lra.
Qed.

(** * Closest points *)
Lemma clamp01_range : forall t, 0 <= clamp01 t <= 1.
Proof. intros. unfold clamp01. destruct (Rlt_dec 1 t); destruct (Rlt_dec _ 0); lra. Qed.
Lemma clamp01_best : forall t s, 0 <= s <= 1 -> (clamp01 t - t) * (clamp01 t - t) <= (s - t) * (s - t).
Proof. intros. pose proof (Rle_0_sqr (s - t)) as Q. unfold Rsqr in Q. unfold clamp01. destruct (Rlt_dec 1 t); destruct (Rlt_dec _ 0); try lra; nra. Qed.
Lemma dist_mix : forall p a b t, let sq := (px b - px a) * (px b - px a) + (py b - py a) * (py b - py a) in
  let am := ((px b - px a) * (px p - px a) + (py b - py a) * (py p - py a)) / sq in sq <> 0 ->
  (px p - px (mix t a b)) ^ 2 + (py p - py (mix t a b)) ^ 2 =
  sq * ((t - am) * (t - am)) + ((px p - px (mix am a b)) ^ 2 + (py p - py (mix am a b)) ^ 2).
Proof. intros. unfold am, mix, sq in *. simpl. field. auto. Qed.
Lemma sq_nonneg : forall a b : pt, 0 <= (px b - px a) * (px b - px a) + (py b - py a) * (py b - py a).
Proof. intros. apply Rplus_le_le_0_compat; apply Rle_0_sqr. Qed.
Lemma closest_bounded : forall np a b p q, closest np a b p true = Some q ->
  exists t, 0 <= t <= 1 /\ q = mix t a b /\ forall s, 0 <= s <= 1 -> dist p q <= dist p (mix s a b).
Proof.
  intros np a b p q H. unfold closest in H. destruct (Req_EM_T _ _) as [|NZ]; [easy|]. inversion H; clear H; subst.
  set (am := _ / _). pose proof (clamp01_range am). exists (clamp01 am). rewrite lin_point_inside by auto. split; [auto|]. split; [auto|].
  intros s S. unfold dist. apply sqrt_le_1_alt. rewrite (dist_mix p a b s), (dist_mix p a b (clamp01 am)) by auto. fold am.
  apply Rplus_le_compat_r. apply Rmult_le_compat_l. apply sq_nonneg. now apply clamp01_best.
Qed.
Lemma closest_unbounded : forall a b p q, closest false a b p false = Some q ->
  exists t, q = mix t a b /\ forall s, dist p q <= dist p (mix s a b).
Proof.
  intros a b p q H. unfold closest in H. destruct (Req_EM_T _ _) as [|NZ]; [easy|]. inversion H; clear H; subst.
  cbn [lin_point]. set (am := _ / _). exists am.
  replace (towards a b am) with (mix am a b) by (unfold mix, towards; f_equal; ring). split; [auto|].
  intros s. unfold dist. apply sqrt_le_1_alt. rewrite (dist_mix p a b s) by auto. fold am.
  pose proof (sq_nonneg a b) as Q. pose proof (Rle_0_sqr (s - am)) as Q2. unfold Rsqr in Q2.
  pose proof (Rmult_le_pos _ _ Q Q2). lra.
Qed.
Lemma closest_none : forall np a b p rb, closest np a b p rb = None <-> a = b.
Proof.
  intros np [x y] [x' y'] p rb. unfold closest. simpl. destruct (Req_EM_T _ _) as [E|E]; split; intros H; try easy.
  - pose proof (Rle_0_sqr (x' - x)) as Q. pose proof (Rle_0_sqr (y' - y)) as Q2. unfold Rsqr in *.
    assert (x' - x = 0) by (apply Rsqr_0_uniq; unfold Rsqr; lra).
    assert (y' - y = 0) by (apply Rsqr_0_uniq; unfold Rsqr; lra). f_equal; lra.
  - inversion H; subst. exfalso. apply E. ring.
Qed.
