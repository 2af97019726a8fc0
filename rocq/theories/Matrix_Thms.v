(** Property theorems about Matrix (C27-C29, C31, C72). *)
Require Import Reals Lra List.
Require Import Verif.Base Verif.Angle_Model Verif.Point_Model Verif.Matrix_Model Verif.Matrix_Spec Verif.Matrix_Proofs.
Import ListNotations.
Open Scope R_scope.

(** * C27 *)
Theorem matrix_monoid : forall a b c, matmul (matmul a b) c = matmul a (matmul b c) /\ matmul ident a = a /\ matmul a ident = a.
Proof. intros. split; [apply mul_assoc|]. split; [apply mul_id_l | apply mul_id_r]. Qed.
Theorem matrix_action : forall a b p, apply_mx (matmul a b) p = apply_mx b (apply_mx a p) /\ apply_mx ident p = p.
Proof. intros a b [x y]. unfold apply_mx. simpl. split; f_equal; ring. Qed.
(** Different matrices are different transforms. *)
Theorem matrix_faithful : forall a b, (forall p, apply_mx a p = apply_mx b p) -> a = b.
Proof. intros a b H. apply act_inj. intros p. unfold act. rewrite H. reflexivity. Qed.
Example matrix_action_ex : apply_mx (matmul (m_scale 2 None) (m_translate 10 0)) (P 1 1) = P 12 2
  /\ apply_mx (matmul (m_translate 10 0) (m_scale 2 None)) (P 1 1) = P 22 2.
Proof. unfold apply_mx; simpl; split; f_equal; ring. Qed.
Print Assumptions matrix_monoid.
Print Assumptions matrix_action.
Print Assumptions matrix_faithful.

(** * C28 *)
Theorem matrix_inverse : forall m, det m <> 0 ->
  exists i, inverse m = Ok i /\ matmul i m = ident /\ matmul m i = ident /\ inverse i = Ok m.
Proof. exact inverse_ok. Qed.
Theorem matrix_singular : forall m, det m = 0 -> inverse m = Err ZeroDivisionError /\ ~ exists i, matmul m i = ident.
Proof. intros m H. split. apply inverse_singular; auto. apply inverse_none; auto. Qed.
Theorem matrix_point_in_inverse_space : forall m p, det m <> 0 ->
  exists q, apply_inverse m p = Ok q /\ apply_mx m q = p.
Proof.
  intros m p D. destruct (inverse_ok m D) as (i & E & L & _). exists (apply_mx i p). unfold apply_inverse. rewrite E. split; auto.
  destruct (matrix_action i m p) as [A B]. rewrite <- A. unfold matmul. rewrite L. exact B.
Qed.
Example matrix_inverse_ex : det (M 2 0 0 4 10 10) <> 0 /\ det (M 1 2 2 4 0 0) = 0.
Proof. unfold det; simpl; split; lra. Qed.
Print Assumptions matrix_inverse.
Print Assumptions matrix_singular.
Print Assumptions matrix_point_in_inverse_space.

(** * C29 *)
Theorem matrix_post_ops : forall m p,
  (forall k, act (post_cat m k) p = act k (act m p)) /\
  (forall tx ty, act (post_translate m tx ty) p = sp_translate tx ty (act m p)) /\
  (forall sx sy x y, act (post_scale m sx sy x y) p = sp_about (c0 x) (c0 y) (sp_scale sx (dflt sx sy)) (act m p)) /\
  (forall a x y, act (post_rotate m a x y) p = sp_about (c0 x) (c0 y) (sp_rotate a) (act m p)) /\
  (forall a b x y, act (post_skew m a b x y) p = sp_about (c0 x) (c0 y) (sp_skew a b) (act m p)).
Proof.
  intros m p. split; [intros; apply act_mul|]. split; [intros; apply post_translate_ok|]. split; [intros; apply post_scale_ok|].
  split; intros; [apply post_rotate_ok | apply post_skew_ok].
Qed.
Theorem matrix_pre_ops : forall m p,
  (forall k, act (pre_cat m k) p = act m (act k p)) /\
  (forall tx ty, act (pre_translate m tx ty) p = act m (sp_translate tx ty p)) /\
  (forall sx sy x y, act (pre_scale m sx sy x y) p = act m (sp_about (c0 x) (c0 y) (sp_scale sx (dflt sx sy)) p)) /\
  (forall a x y, act (pre_rotate m a x y) p = act m (sp_about (c0 x) (c0 y) (sp_rotate a) p)) /\
  (forall a b x y, act (pre_skew m a b x y) p = act m (sp_about (c0 x) (c0 y) (sp_skew a b) p)).
Proof.
  intros m p. split; [intros; apply act_mul|]. split; [intros; apply pre_translate_ok|]. split; [intros; apply pre_scale_ok|].
  split; intros; [apply pre_rotate_ok | apply pre_skew_ok].
Qed.
(** The one-axis variants touch only their axis. *)
Theorem matrix_axis_ops : forall m x y p,
  (forall s, act (post_scale_x m s x y) p = sp_about (c0 x) (c0 y) (sp_scale s 1) (act m p) /\
             act (post_scale_y m s x y) p = sp_about (c0 x) (c0 y) (sp_scale 1 s) (act m p) /\
             act (pre_scale_x m s x y) p = act m (sp_about (c0 x) (c0 y) (sp_scale s 1) p) /\
             act (pre_scale_y m s x y) p = act m (sp_about (c0 x) (c0 y) (sp_scale 1 s) p)) /\
  (forall a, act (post_skew_x m a x y) p = sp_about (c0 x) (c0 y) (sp_skew a 0) (act m p) /\
             act (post_skew_y m a x y) p = sp_about (c0 x) (c0 y) (sp_skew 0 a) (act m p) /\
             act (pre_skew_x m a x y) p = act m (sp_about (c0 x) (c0 y) (sp_skew a 0) p) /\
             act (pre_skew_y m a x y) p = act m (sp_about (c0 x) (c0 y) (sp_skew 0 a) p)) /\
  (forall t, act (post_translate_x m t) p = sp_translate t 0 (act m p) /\
             act (post_translate_y m t) p = sp_translate 0 t (act m p) /\
             act (pre_translate_x m t) p = act m (sp_translate t 0 p) /\
             act (pre_translate_y m t) p = act m (sp_translate 0 t p)).
Proof.
  intros m x y p. split; [|split]; intros; split; try split; try split;
    first [apply post_scale_ok | apply pre_scale_ok | apply post_skew_ok | apply pre_skew_ok | apply post_translate_ok | apply pre_translate_ok].
Qed.
(** The matrices made by the class methods. *)
Theorem matrix_constructors : forall p,
  (forall sx sy, act (m_scale sx sy) p = sp_scale sx (dflt sx sy) p) /\
  (forall s, act (m_scale_x s) p = sp_scale s 1 p /\ act (m_scale_y s) p = sp_scale 1 s p) /\
  (forall tx ty, act (m_translate tx ty) p = sp_translate tx ty p) /\
  (forall t, act (m_translate_x t) p = sp_translate t 0 p /\ act (m_translate_y t) p = sp_translate 0 t p) /\
  (forall a, act (m_rotate a) p = sp_rotate a p) /\
  (forall a b, act (m_skew a b) p = sp_skew a b p) /\
  (forall a, act (m_skew_x a) p = sp_skew a 0 p /\ act (m_skew_y a) p = sp_skew 0 a p).
Proof.
  intros [x y]. unfold act, m_scale_x, m_scale_y, m_translate_x, m_translate_y, m_skew_x, m_skew_y, m_scale, m_translate, m_rotate, m_skew, sp_scale, sp_translate, sp_rotate, sp_skew, apply_mx. cbn.
  repeat split; intros; repeat split; try (apply pair_eq; try destruct sy; cbn; ring).
Qed.
Example matrix_constructors_ex : act (m_scale_y 3) (2, 5) = (2, 15).
Proof. destruct (matrix_constructors (2, 5)) as (_ & H & _). destruct (H 3) as [_ E]. rewrite E. unfold sp_scale. cbn. apply pair_eq; ring. Qed.
Print Assumptions matrix_constructors.
(** Matrix(numbers): the first six are its entries; none give the identity; one is no sequence, and two to five are too few. *)
Theorem matrix_of_numbers : forall l, mx_of l =
  match List.length l with
  | 0%nat => Ok ident
  | 1%nat => Err TypeError
  | 2%nat | 3%nat | 4%nat | 5%nat => Err IndexError
  | _ => let n k := nth k l 0 in Ok (M (n 0%nat) (n 1%nat) (n 2%nat) (n 3%nat) (n 4%nat) (n 5%nat))
  end.
Proof. intros l. do 6 (destruct l as [|? l]; [reflexivity|]). reflexivity. Qed.
Example matrix_of_numbers_ex : mx_of [1; 2; 3; 4; 5; 6; 7] = Ok (M 1 2 3 4 5 6) /\ mx_of [1; 2; 3; 4; 5] = Err IndexError. Proof. split; reflexivity. Qed.
Print Assumptions matrix_of_numbers.
(** Scaling, turning and skewing about a centre leave the centre where it is. *)
Theorem matrix_centre_fixed : forall x y,
  (forall sx sy, act (post_scale ident sx sy (Some x) (Some y)) (x, y) = (x, y)) /\
  (forall a, act (post_rotate ident a (Some x) (Some y)) (x, y) = (x, y)) /\
  (forall a b, act (post_skew ident a b (Some x) (Some y)) (x, y) = (x, y)).
Proof.
  intros x y. split; [|split]; intros; rewrite ?post_scale_ok, ?post_rotate_ok, ?post_skew_ok, act_ident; apply about_fix;
    unfold sp_scale, sp_rotate, sp_skew; simpl; apply pair_eq; ring.
Qed.
Example matrix_post_ex : act (post_scale ident 2 None (Some 1) (Some 1)) (2, 3) = (3, 5).
Proof. rewrite post_scale_ok, act_ident. unfold sp_about, sp_scale; simpl. apply pair_eq; ring. Qed.
Print Assumptions matrix_post_ops.
Print Assumptions matrix_pre_ops.
Print Assumptions matrix_axis_ops.
Print Assumptions matrix_centre_fixed.

(** * C31 *)
Theorem matrix_rotation_rigid : forall a p q, sp_dist (act (m_rotate a) p) (act (m_rotate a) q) = sp_dist p q /\ det (m_rotate a) = 1.
Proof. intros. split. apply rotate_rigid. apply det_rotate. Qed.
Theorem matrix_det_area : forall m p q r, sp_area (act m p) (act m q) (act m r) = det m * sp_area p q r.
Proof. exact area_det. Qed.
Theorem matrix_det_mul : forall a b, det (matmul a b) = det a * det b.
Proof. exact det_mul. Qed.
Theorem matrix_vector : forall m p q, let d := apply_mx (vector m) (p_sub q (APoint p)) in
  d = p_sub (apply_mx m q) (APoint (apply_mx m p)) /\ apply_vec m (p_sub q (APoint p)) = d.
Proof. exact vector_diff. Qed.
Example matrix_det_ex : det (m_scale 2 (Some 3)) = 6 /\ sp_area (0, 0) (1, 0) (0, 1) = 1 / 2.
Proof. unfold det, sp_area; simpl; split; lra. Qed.
Print Assumptions matrix_rotation_rigid.
Print Assumptions matrix_det_area.
Print Assumptions matrix_det_mul.
Print Assumptions matrix_vector.

(** * C72: is_identity and equality speak about the transform *)
Theorem matrix_is_identity : forall m, is_identity m <-> forall p, apply_mx m p = p.
Proof.
  intros m. rewrite is_identity_iff. split; intros H p.
  - specialize (H (px p, py p)). unfold act in H. simpl in H. destruct p. unfold apply_mx in *. simpl in *. inversion H. congruence.
  - unfold act. rewrite H. destruct p. reflexivity.
Qed.
Theorem matrix_eq_close : forall a b, mx_eq a b -> forall p,
  Rabs (fst (act a p) - fst (act b p)) <= (Rabs (fst p) + Rabs (snd p) + 1) * / 10 ^ 12 /\
  Rabs (snd (act a p) - snd (act b p)) <= (Rabs (fst p) + Rabs (snd p) + 1) * / 10 ^ 12.
Proof. intros. apply mx_eq_close. auto. Qed.
Theorem matrix_eq_refl_sym : forall a b, mx_eq a a /\ (mx_eq a b -> mx_eq b a).
Proof. intros. split. apply mx_eq_refl. apply mx_eq_sym. Qed.
Example matrix_is_identity_ex : is_identity (matmul (m_translate 1 2) (m_translate (-1) (-2))).
Proof. unfold is_identity; simpl; repeat split; ring. Qed.
Print Assumptions matrix_is_identity.
Print Assumptions matrix_eq_close.
Print Assumptions matrix_eq_refl_sym.
