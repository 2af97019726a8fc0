(** Property theorems about points (C22-C24, C71). *)
Require Import Reals Lra.
Require Import Verif.Angle_Model Verif.Point_Model Verif.Point_Spec Verif.Point_Proofs.
Open Scope R_scope.
Notation "p +. q" := (p_add p (APoint q)) (at level 50, left associativity).
Notation "p -. q" := (p_sub p (APoint q)) (at level 50, left associativity).
Notation "p *. q" := (p_mul p (APoint q)) (at level 40, left associativity).

(** * C22: points are the complex plane *)
Theorem point_ring : forall p q r,
  p +. q = q +. p /\ (p +. q) +. r = p +. (q +. r) /\ p +. P 0 0 = p /\ (p -. q) +. q = p /\ p -. p = P 0 0 /\
  p *. q = q *. p /\ (p *. q) *. r = p *. (q *. r) /\ p *. P 1 0 = p /\ p *. (q +. r) = (p *. q) +. (p *. r) /\
  P 0 1 *. P 0 1 = P (-1) 0.
Proof. intros. repeat split; peq. Qed.
Print Assumptions point_ring.
(** Every operand kind means the same complex number; a plain number is real; subtraction from the
    left and right are opposite. *)
Theorem point_operands : forall p x y v,
  p_add p (APair x y) = p +. P x y /\ p_add p (AComplex x y) = p +. P x y /\ p_add p (ANumber v) = p +. P v 0 /\
  p_mul p (APair x y) = p *. P x y /\ p_mul p (AComplex x y) = p *. P x y /\ p_mul p (ANumber v) = P (px p * v) (py p * v) /\
  p_rsub p (APair x y) = P x y -. p /\ p_rsub p (ANumber v) = P v 0 -. p.
Proof. intros. repeat split; peq. Qed.
Print Assumptions point_operands.
Theorem point_abs : forall p q, p_abs (p *. q) = p_abs p * p_abs q /\ p *. conjugate p = P (p_abs p ^ 2) 0 /\
  euclid (px p) (py p) 0 0 (p_abs p).
Proof.
  intros. split; [apply abs_mult|]. split; [apply abs_conj|].
  split; [apply hypot_nonneg|]. simpl. rewrite Rmult_1_r. unfold p_abs. rewrite hypot_sq. ring.
Qed.
Print Assumptions point_abs.

(** * C23: point reflection *)
Theorem point_reflection : forall p c, reflected_across (reflected_across p c) c = p /\
  midpoint (px p) (py p) (px (reflected_across p c)) (py (reflected_across p c)) (px c) (py c) /\
  distance p c = distance (reflected_across p c) c.
Proof. exact reflect_lemma. Qed.
Example point_reflection_ex : reflected_across (P 1 2) (P 5 5) = P 9 8.
Proof. peq. Qed.
Print Assumptions point_reflection.

(** * C24: towards, polar, distance *)
Theorem point_towards : forall p q t, towards p q 0 = p /\ towards p q 1 = q /\ move_towards p q t = towards p q t /\
  distance p (towards p q t) = Rabs t * distance p q /\ distance (towards p q t) q = Rabs (1 - t) * distance p q.
Proof. exact towards_lemma. Qed.
Print Assumptions point_towards.
Theorem point_distance_metric : forall p q r,
  euclid (px p) (py p) (px q) (py q) (distance p q) /\ distance_to p q = distance p q /\
  distance p q = distance q p /\ (distance p q = 0 <-> p = q) /\ distance p r <= distance p q + distance q r.
Proof.
  intros. split; [apply euclid_distance|]. split; [reflexivity|]. split; [apply distance_sym|]. split; [apply distance_zero | apply distance_triangle].
Qed.
Print Assumptions point_distance_metric.
Theorem point_polar_distance : forall p a r, distance p (polar p a r) = Rabs r.
Proof. exact polar_distance. Qed.
Print Assumptions point_polar_distance.
(** Going from p by the angle and distance to q arrives at q. *)
Theorem point_polar_angle : forall p q, polar p (angle p q) (distance p q) = q /\ angle_to p q = angle p q.
Proof. exact polar_angle_lemma. Qed.
Print Assumptions point_polar_angle.
Theorem point_angle_range : forall p q, - PI < angle p q <= PI.
Proof. intros. apply atan2_range. Qed.
Print Assumptions point_angle_range.

(** * C71: powers (before the code rounds both parts) *)
Theorem point_pow_partial : forall p n, 0 < px p ->
  p_pow_exact p n = Some (P (fst (cpow (px p) (py p) n)) (snd (cpow (px p) (py p) n))).
Proof. exact pow_lemma. Qed.
Example point_pow_ex : 0 < px (P 1 2) /\ cpow 1 2 2 = (-3, 4).
Proof. simpl. split; [lra|]. f_equal; lra. Qed.
Print Assumptions point_pow_partial.
(** (-1)**1 is computed as 1. *)
Theorem point_pow_refuted : exists p n, p_pow_exact p n = Some (P 1 0) /\ cpow (px p) (py p) n = (-1, 0).
Proof. exact pow_refuted. Qed.
Print Assumptions point_pow_refuted.
Theorem point_pow_imaginary_raises : forall y n, p_pow_exact (P 0 y) n = None.
Proof. intros. unfold p_pow_exact, argz. simpl. destruct (Req_EM_T 0 0); congruence. Qed.
Print Assumptions point_pow_imaginary_raises.
