(** Multiplying by a matrix, with the operators (C116). *)
Require Import ZArith QArith Reals Ascii String List Bool Lia Lra.
Require Import Verif.Base Verif.Text_Spec Verif.Point_Model Verif.Matrix_Model Verif.Matrix_Spec Verif.Matrix_Proofs Verif.Transform_Model Verif.Transform_Spec Verif.Transform_Proofs Verif.Transform_Thms.
Require Import Verif.MatOp_Model Verif.MatOp_Spec.
Import ListNotations.
Open Scope R_scope.

(** * C116 *)
Lemma stands_matrix : forall y g, stands_for y g -> exists k, (forall m, matrix_times m y = Ok (matmul m k)) /\ (forall s, seg_imul s y = Ok (map (option_map (apply_mx k)) s)) /\ forall p, act k p = g p.
Proof.
  intros y g [a b c d e f|t h H].
  - exists (M a b c d e f). split; [reflexivity|]. split; [reflexivity|]. intros [x z]. unfold act, apply_mx. cbn. f_equal; ring.
  - destruct (transform_list_denotes t h H) as (k & E & A). exists k. cbn [matrix_times seg_imul]. rewrite E. cbn. auto.
Qed.
Lemma stands_any : forall m, exists g, stands_for (OMat m) g /\ forall p, g p = act m p.
Proof. intros [a b c d e f]. eexists. split; [apply sf_matrix|]. intros [x y]. unfold act, apply_mx. cbn. f_equal; ring. Qed.
(** A matrix by a matrix or transform text, with any of the four operators: first the one, then the other. *)
Theorem matrix_operator : forall m y f g, stands_for (OMat m) f -> stands_for y g -> exists r h,
  mul_op (OMat m) y = Ok (OMat r) /\ imul_op (OMat m) y = Ok (OMat r) /\ matmul_op (OMat m) y = Ok (OMat r) /\ imatmul_op (OMat m) y = Ok (OMat r) /\
  stands_for (OMat r) h /\ forall p, h p = g (f p).
Proof.
  intros m y f g F G. destruct (stands_matrix _ _ G) as (k & E & _ & A). exists (matmul m k).
  assert (AF : forall p, act m p = f p). { inversion F; subst. intros [x z]. unfold act, apply_mx. cbn. f_equal; ring. }
  destruct (stands_any (matmul m k)) as (h & S & V). exists h. unfold mul_op, imul_op, matmul_op, imatmul_op, mul_l. rewrite E. cbn [rmap]. repeat (split; [reflexivity|]).
  split; [exact S|]. intros p. rewrite V, <- A, <- AF. apply act_mul.
Qed.
Example matrix_operator_ex : (exists f, stands_for (OText (T "translate(10, -2)SCALE (2)")) f) /\ stands_for (OMat (M 0 1 (-1) 0 0 0)) (fun p => (0 * fst p + -1 * snd p + 0, 1 * fst p + 0 * snd p + 0)).
Proof. split; [|apply sf_matrix]. destruct transform_list_ex as (f & H & _). exists f. apply sf_text. exact H. Qed.
Print Assumptions matrix_operator.

(** A segment by a matrix or transform text: every point is moved, and the same in place; the text may stand on the left. *)
Theorem segment_operator_partial : forall s y g, whole s -> stands_for y g -> exists s', moved g s s' /\
  mul_op (OSeg s) y = Ok (OSeg s') /\ imul_op (OSeg s) y = Ok (OSeg s') /\ (forall t, y = OText t -> mul_op y (OSeg s) = Ok (OSeg s')).
Proof.
  intros s y g W G. destruct (stands_matrix _ _ G) as (k & _ & E & A). exists (map (option_map (apply_mx k)) s). split.
  { unfold moved. clear W. induction s as [|[p|] s IH]; constructor; auto; cbn; auto. rewrite <- A. unfold act. cbn [fst snd]. destruct p. reflexivity. }
  assert (C : seg_copy s = Ok s).
  { destruct s as [|a [|c [|d [|b [|x s]]]]]; try reflexivity; [destruct c; reflexivity|destruct c, d; reflexivity| |destruct c, d; reflexivity]. specialize (W a c d b eq_refl). destruct c, d; try reflexivity; exfalso; destruct W as [W1 W2]; try (specialize (W1 eq_refl); discriminate); specialize (W2 eq_refl); discriminate. }
  split; [|split].
  - unfold mul_op, mul_l. rewrite C. cbn [rbind]. rewrite E. inversion G; reflexivity.
  - unfold imul_op. rewrite E. reflexivity.
  - intros t ->. unfold mul_op, mul_l, mul_r. rewrite C. cbn [rbind]. rewrite E. reflexivity.
Qed.
Example segment_operator_ex : let s := [Some (P 0 0); Some (P 1 0); Some (P 2 2)] in whole s /\ moved (fun p => (fst p + 1, snd p)) s [Some (P (0 + 1) 0); Some (P (1 + 1) 0); Some (P (2 + 1) 2)].
Proof. split; [intros a c d b H; discriminate|repeat constructor]. Qed.
Print Assumptions segment_operator_partial.

(** Full statement: every drawable thing, a path and an element too, can be multiplied by a matrix. False for every path: all four operators raise. *)
Theorem path_operator_refuted : forall p m, mul_op (OPath p) (OMat m) = Err AttributeError /\ imul_op (OPath p) (OMat m) = Err AttributeError /\
  matmul_op (OPath p) (OMat m) = Err AttributeError /\ imatmul_op (OPath p) (OMat m) = Err AttributeError /\ mul_op (OMat m) (OPath p) = Err AttributeError.
Proof. repeat split. Qed.
Print Assumptions path_operator_refuted.
(** And for every element: the methods of list hide those of Transformable. *)
Theorem element_operator_refuted : forall l m t, mul_op (OElem l) (OMat m) = Err TypeError /\ imul_op (OElem l) (OMat m) = Err TypeError /\ mul_op (OElem l) (OText t) = Err TypeError /\ mul_op (OText t) (OElem l) = Err TypeError /\ mul_op (OMat m) (OElem l) = Err TypeError.
Proof. repeat split. Qed.
Print Assumptions element_operator_refuted.
(** On the left of a matrix text is refused, and on the left of a segment the matrix. *)
Theorem left_operator_refuted : forall m t s, mul_op (OText t) (OMat m) = Err AttributeError /\ mul_op (OMat m) (OSeg s) = Err AttributeError.
Proof. repeat split. Qed.
Print Assumptions left_operator_refuted.
(** A number is refused by TypeError only from segments; in place a segment ignores it, a matrix asks it for attributes, and a path times it with @ is
    an empty path. *)
Theorem number_operator_refuted : forall q s m p, mul_op (OSeg s) (ONum q) = Err TypeError /\ mul_op (OPath p) (ONum q) = Err TypeError /\ imul_op (OSeg s) (ONum q) = Ok (OSeg s) /\
  mul_op (OMat m) (ONum q) = Err AttributeError /\ mul_op (ONum q) (OMat m) = Err AttributeError /\ matmul_op (OPath p) (ONum q) = Ok (OPath []).
Proof. repeat split. Qed.
Print Assumptions number_operator_refuted.
(** A cubic curve with one control point only: in a product it loses the second. *)
Theorem segment_operator_refuted : forall a d b m, mul_op (OSeg [a; None; Some d; b]) (OMat m) = Ok (OSeg [option_map (apply_mx m) a; None; None; option_map (apply_mx m) b]) /\
  imul_op (OSeg [a; None; Some d; b]) (OMat m) = Ok (OSeg [option_map (apply_mx m) a; None; Some (apply_mx m d); option_map (apply_mx m) b]).
Proof. repeat split. Qed.
Print Assumptions segment_operator_refuted.
