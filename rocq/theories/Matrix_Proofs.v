Require Import Reals Lra Psatz List.
Require Import Verif.Base Verif.Angle_Model Verif.Point_Model Verif.Matrix_Model Verif.Matrix_Spec.
Import ListNotations.
Open Scope R_scope.

Lemma mx_ext : forall a b, ma a = ma b -> mb a = mb b -> mc a = mc b -> md a = md b -> me a = me b -> mf a = mf b -> a = b.
Proof. intros [] [] ? ? ? ? ? ?; simpl in *; congruence. Qed.
Ltac meq := apply mx_ext; simpl; try ring.

Lemma mul_assoc : forall a b c, mul (mul a b) c = mul a (mul b c).
Proof. intros. meq. Qed.
Lemma mul_id_l : forall a, mul ident a = a. Proof. intros. meq. Qed.
Lemma mul_id_r : forall a, mul a ident = a. Proof. intros. meq. Qed.

(** The transform as a map of the plane. *)
Definition act (m : mx) (p : plane) : plane := let q := apply_mx m (P (fst p) (snd p)) in (px q, py q).
Lemma pair_eq : forall (a b c d : R), a = c -> b = d -> (a, b) = (c, d). Proof. intros; congruence. Qed.
Lemma act_mul : forall a b p, act (mul a b) p = act b (act a p).
Proof. intros. unfold act. simpl. apply pair_eq; ring. Qed.
Lemma act_inj : forall a b, (forall p, act a p = act b p) -> a = b.
Proof.
  intros a b H. pose proof (H (0, 0)) as H0. pose proof (H (1, 0)) as H1. pose proof (H (0, 1)) as H2.
  unfold act in *. simpl in *. inversion H0. inversion H1. inversion H2. apply mx_ext; lra.
Qed.
Lemma act_ident : forall p, act ident p = p.
Proof. intros [x y]. unfold act. simpl. apply pair_eq; ring. Qed.
Lemma act_translate : forall tx ty p, act (m_translate tx ty) p = sp_translate tx ty p.
Proof. intros tx ty [x y]. unfold act, sp_translate. simpl. apply pair_eq; ring. Qed.
Lemma act_scale : forall sx sy p, act (m_scale sx (Some sy)) p = sp_scale sx sy p.
Proof. intros sx sy [x y]. unfold act, sp_scale. simpl. apply pair_eq; ring. Qed.
Lemma act_rotate : forall a p, act (m_rotate a) p = sp_rotate a p.
Proof. intros a [x y]. unfold act, sp_rotate. simpl. apply pair_eq; ring. Qed.
Lemma act_skew : forall a b p, act (m_skew a b) p = sp_skew a b p.
Proof. intros a b [x y]. unfold act, sp_skew. simpl. apply pair_eq; ring. Qed.

Lemma inverse_ok : forall m, det m <> 0 -> exists i, inverse m = Ok i /\ mul i m = ident /\ mul m i = ident /\ inverse i = Ok m.
Proof.
  intros m D. unfold inverse at 1. destruct (Req_EM_T (det m) 0); [congruence|]. eexists. split; [reflexivity|].
  unfold det in D.
  assert (DI : forall i, i * det m = 1 -> (md m * i) * (ma m * i) - (- mc m * i) * (- mb m * i) = i).
  { intros i E. transitivity (i * (i * det m)). unfold det. ring. rewrite E. ring. }
  split; [|split].
  - apply mx_ext; simpl; unfold det; field; auto.
  - apply mx_ext; simpl; unfold det; field; auto.
  - unfold inverse. 
    match goal with |- context [det ?x] => assert (E : det x = 1 / det m) end.
    { unfold det at 1. cbn [ma mb mc md me mf]. apply DI. field. exact n. }
    destruct (Req_EM_T _ 0) as [Z|Z].
    + exfalso. rewrite E in Z. unfold Rdiv in Z. rewrite Rmult_1_l in Z. apply (Rinv_neq_0_compat _ n). auto.
    + rewrite E. f_equal. apply mx_ext; simpl; unfold det in *; field; auto.
Qed.
Lemma inverse_singular : forall m, det m = 0 -> inverse m = Err ZeroDivisionError.
Proof. intros. unfold inverse. destruct (Req_EM_T (det m) 0); congruence. Qed.

Lemma about_0 : forall f p, sp_about 0 0 f p = f p.
Proof.
  intros f [x y]. unfold sp_about. simpl. rewrite !Rminus_0_r. destruct (f (x, y)); simpl. apply pair_eq; ring.
Qed.
Lemma act_post : forall m x y f g, (forall p, act f p = g p) ->
  forall p, act (post_translate (post_cat (post_translate m (- x) (- y)) f) x y) p = sp_about x y g (act m p).
Proof.
  intros m x y f g H p. unfold post_translate, post_cat. rewrite !act_mul, H, !act_translate.
  unfold sp_about, sp_translate. simpl. reflexivity.
Qed.
Lemma act_pre : forall m x y f g, (forall p, act f p = g p) ->
  forall p, act (pre_translate (pre_cat (pre_translate m x y) f) (- x) (- y)) p = act m (sp_about x y g p).
Proof.
  intros m x y f g H p. unfold pre_translate, pre_cat. rewrite !act_mul, H, !act_translate.
  unfold sp_about, sp_translate. simpl. reflexivity.
Qed.

Definition dflt (s : R) (o : option R) : R := match o with Some v => v | None => s end.
Ltac pp x y := destruct (at0 (c0 x) (c0 y)) as [[Z1 Z2]|]; [rewrite Z1, Z2, about_0; unfold post_cat, pre_cat; rewrite act_mul | ].
Lemma post_scale_ok : forall m sx sy x y p, act (post_scale m sx sy x y) p = sp_about (c0 x) (c0 y) (sp_scale sx (dflt sx sy)) (act m p).
Proof. intros. unfold post_scale. pp x y. apply act_scale. apply act_post, act_scale. Qed.
Lemma pre_scale_ok : forall m sx sy x y p, act (pre_scale m sx sy x y) p = act m (sp_about (c0 x) (c0 y) (sp_scale sx (dflt sx sy)) p).
Proof. intros. unfold pre_scale. pp x y. rewrite act_scale; reflexivity. apply act_pre, act_scale. Qed.
Lemma post_rotate_ok : forall m a x y p, act (post_rotate m a x y) p = sp_about (c0 x) (c0 y) (sp_rotate a) (act m p).
Proof.
  intros. unfold post_rotate. pp x y. apply act_rotate.
  unfold post_cat at 1. rewrite act_mul, (act_post ident (c0 x) (c0 y) (m_rotate a) (sp_rotate a) (act_rotate a)), act_ident. reflexivity.
Qed.
Lemma pre_rotate_ok : forall m a x y p, act (pre_rotate m a x y) p = act m (sp_about (c0 x) (c0 y) (sp_rotate a) p).
Proof. intros. unfold pre_rotate. pp x y. rewrite act_rotate; reflexivity. apply act_pre, act_rotate. Qed.
Lemma post_skew_ok : forall m a b x y p, act (post_skew m a b x y) p = sp_about (c0 x) (c0 y) (sp_skew a b) (act m p).
Proof. intros. unfold post_skew. pp x y. apply act_skew. apply act_post, act_skew. Qed.
Lemma pre_skew_ok : forall m a b x y p, act (pre_skew m a b x y) p = act m (sp_about (c0 x) (c0 y) (sp_skew a b) p).
Proof. intros. unfold pre_skew. pp x y. rewrite act_skew; reflexivity. apply act_pre, act_skew. Qed.
Lemma post_translate_ok : forall m tx ty p, act (post_translate m tx ty) p = sp_translate tx ty (act m p).
Proof. intros. unfold post_translate, post_cat. rewrite act_mul. apply act_translate. Qed.
Lemma pre_translate_ok : forall m tx ty p, act (pre_translate m tx ty) p = act m (sp_translate tx ty p).
Proof. intros. unfold pre_translate, pre_cat. rewrite act_mul, act_translate. reflexivity. Qed.
Lemma about_fix : forall x y f, f (0, 0) = (0, 0) -> sp_about x y f (x, y) = (x, y).
Proof. intros x y f H. unfold sp_about. simpl. rewrite !Rminus_eq_0, H. simpl. apply pair_eq; ring. Qed.

Lemma rotate_rigid : forall a p q, sp_dist (act (m_rotate a) p) (act (m_rotate a) q) = sp_dist p q.
Proof.
  intros a [x y] [u v]. rewrite !act_rotate. unfold sp_dist, sp_rotate. simpl fst. simpl snd. f_equal.
  pose proof (sin2_cos2 a) as H. unfold Rsqr in H.
  transitivity (((x - u) ^ 2 + (y - v) ^ 2) * (sin a * sin a + cos a * cos a)); [ring|]. rewrite H. ring.
Qed.
Lemma det_mul : forall a b, det (mul a b) = det a * det b.
Proof. intros. unfold det. simpl. ring. Qed.
Lemma area_det : forall m p q r, sp_area (act m p) (act m q) (act m r) = det m * sp_area p q r.
Proof. intros m [] [] []. unfold sp_area, act, det. simpl. field. Qed.
Lemma det_rotate : forall a, det (m_rotate a) = 1.
Proof. intros. unfold det. simpl. pose proof (sin2_cos2 a) as H. unfold Rsqr in H. lra. Qed.
Lemma vector_diff : forall m p q, let d := apply_mx (vector m) (p_sub q (APoint p)) in
  d = p_sub (apply_mx m q) (APoint (apply_mx m p)) /\ apply_vec m (p_sub q (APoint p)) = d.
Proof. intros m [] []. unfold vector, apply_mx, apply_vec, p_sub. simpl. split; f_equal; ring. Qed.
Lemma is_identity_iff : forall m, is_identity m <-> forall p, act m p = p.
Proof.
  intros m. split.
  - intros (A & B & C & D & E & F). assert (m = ident) as -> by (apply mx_ext; auto). apply act_ident.
  - intros H. assert (m = ident) as ->. { apply act_inj. intros. rewrite H, act_ident. reflexivity. } repeat split.
Qed.
Lemma inverse_none : forall m, det m = 0 -> ~ exists i, mul m i = ident.
Proof.
  intros m D [i H]. assert (E : det (mul m i) = 1) by (rewrite H; unfold det; simpl; ring).
  rewrite det_mul, D in E. lra.
Qed.
Lemma mx_eq_refl : forall a, mx_eq a a.
Proof.
  intros. unfold mx_eq. assert (0 <= / 10 ^ 12) by (left; apply Rinv_0_lt_compat, pow_lt; lra).
  rewrite !Rminus_eq_0, Rabs_R0. tauto.
Qed.
Lemma mx_eq_sym : forall a b, mx_eq a b -> mx_eq b a.
Proof.
  intros a b (A & B & C & D & E & F). unfold mx_eq. rewrite (Rabs_minus_sym (ma b)), (Rabs_minus_sym (mb b)), (Rabs_minus_sym (mc b)), (Rabs_minus_sym (md b)), (Rabs_minus_sym (me b)), (Rabs_minus_sym (mf b)).
  intuition.
Qed.
Lemma mx_eq_close : forall a b p, mx_eq a b ->
  Rabs (fst (act a p) - fst (act b p)) <= (Rabs (fst p) + Rabs (snd p) + 1) * / 10 ^ 12 /\
  Rabs (snd (act a p) - snd (act b p)) <= (Rabs (fst p) + Rabs (snd p) + 1) * / 10 ^ 12.
Proof.
  intros a b [x y] (A & B & C & D & E & F). unfold act. simpl fst. simpl snd. set (e := / 10 ^ 12) in *.
  assert (P0 : 0 <= e) by (left; apply Rinv_0_lt_compat, pow_lt; lra). clearbody e.
  assert (E' : Rabs (me a - me b) <= e). { destruct E as [->|]; auto. rewrite Rminus_eq_0, Rabs_R0. auto. }
  assert (F' : Rabs (mf a - mf b) <= e). { destruct F as [->|]; auto. rewrite Rminus_eq_0, Rabs_R0. auto. }
  assert (G : forall u v w, Rabs u <= e -> Rabs v <= e -> Rabs w <= e -> Rabs (x * u + y * v + w) <= (Rabs x + Rabs y + 1) * e).
  { intros u v w U V W. eapply Rle_trans; [apply Rabs_triang|]. eapply Rle_trans; [apply Rplus_le_compat_r, Rabs_triang|].
    rewrite !Rabs_mult.
    assert (Rabs x * Rabs u <= Rabs x * e) by (apply Rmult_le_compat_l; auto; apply Rabs_pos).
    assert (Rabs y * Rabs v <= Rabs y * e) by (apply Rmult_le_compat_l; auto; apply Rabs_pos). lra. }
  split.
  - eapply Rle_trans; [|apply (G _ _ _ A C E')]. right. f_equal. simpl. ring.
  - eapply Rle_trans; [|apply (G _ _ _ B D F')]. right. f_equal. simpl. ring.
Qed.
