(** Property theorems about angles (C20, C21, C70). *)
Require Import ZArith QArith Qreals Reals Ascii String List Bool Lra.
Require Import Verif.Base Verif.Text_Spec Verif.Angle_Model Verif.Angle_Spec Verif.Angle_Proofs.
Import ListNotations.
Open Scope R_scope.

(** * C20: unit conversion *)
Theorem angle_units_convert : forall x,
  as_degrees (degrees x) = x /\ as_degrees (radians x) = x * 180 / PI
  /\ as_degrees (gradians x) = x * 9 / 10 /\ as_degrees (turns x) = 360 * x.
Proof. exact as_degrees_lemma. Qed.
Print Assumptions angle_units_convert.
Theorem angle_units_roundtrip : forall x,
  as_degrees (degrees x) = x /\ as_gradians (gradians x) = x /\ as_turns (turns x) = x /\ as_radians (radians x) = x /\
  degrees (as_degrees x) = x /\ gradians (as_gradians x) = x /\ turns (as_turns x) = x /\ radians (as_radians x) = x.
Proof. exact roundtrip_lemma. Qed.
Print Assumptions angle_units_roundtrip.
(** A number followed by a CSS unit in any letter case denotes number / (units per circle) of the circle. *)
Theorem angle_text_units : forall l u n, lit_ok l -> circle u n -> forall s, lower s = T u ->
  exists a, angle_parse (lit_text l ++ s) = Ok a /\ a = 2 * PI * (Q2R (lit_val l) / n).
Proof. exact angle_parse_lemma. Qed.
Example angle_text_units_ex : lit_ok (mkLit SMinus [4; 5]%Z [5]%Z None) /\ circle "grad" 400 /\ lower (T "Grad") = T "grad".
Proof.
  split; [|split; [constructor | reflexivity]]. unfold lit_ok, is_dig. cbn [l_int l_frac l_exp].
  repeat split; try (repeat constructor; discriminate).
Qed.
Print Assumptions angle_text_units.

(** * C21: as_positive_degrees returns a non-negative representative *)
Theorem angle_positive_degrees : forall a, exists n, forall m, (n <= m)%nat -> exists w k,
  as_positive_degrees m a = Some w /\ 0 <= w /\ w = as_degrees a + 360 * INR k /\ (a < 0 -> w < 360) /\ (0 <= a -> w = as_degrees a).
Proof. exact positive_degrees_lemma. Qed.
Print Assumptions angle_positive_degrees.
(** It is not reduced below 360 for angles of more than a turn. *)
Theorem angle_positive_degrees_upper_refuted : exists a, forall m, as_positive_degrees m a = Some 720.
Proof.
  exists (degrees 720). intros m. unfold as_positive_degrees. rewrite (proj1 (as_degrees_lemma 720)).
  destruct m; simpl; destruct (Rlt_dec 720 0); auto; exfalso; lra.
Qed.
Print Assumptions angle_positive_degrees_upper_refuted.
(** normalized is the one angle of the same direction that is not negative and less than a turn; is_orthogonal holds for the multiples of a right
    angle, where sine or cosine vanishes, and for nothing else. *)
Theorem angle_normalized : forall a w, normalized a = w <-> 0 <= w < 2 * PI /\ same_direction a w.
Proof.
  intros a w. unfold normalized, same_direction. fold tau. pose proof tau_pos as P. split.
  - intros <-. split; [apply rmod_range; auto|]. exists (Int_part (a / tau)). unfold rmod. lra.
  - intros [R [k E]]. apply rmod_unique with (k := k); auto.
Qed.
Theorem angle_orthogonal : forall a, is_orthogonal a <-> sin a * cos a = 0.
Proof.
  intros a. unfold is_orthogonal. pose proof tau_pos as P. assert (T4 : tau / 4 = PI / 2) by (unfold tau; lra). rewrite T4. pose proof PI_RGT_0 as PP.
  assert (D : sin a * cos a = 0 <-> sin (2 * a) = 0) by (rewrite sin_2a; split; lra). rewrite D. split.
  - intros E. unfold rmod in E. replace (2 * a) with (IZR (Int_part (a / (PI / 2))) * PI) by lra. apply sin_eq_0_1. eexists. reflexivity.
  - intros E. apply sin_eq_0_0 in E. destruct E as [k E]. apply rmod_unique with (k := k); lra.
Qed.
Example angle_orthogonal_ex : is_orthogonal (degrees 270) /\ ~ is_orthogonal (degrees 45) /\ normalized (degrees (-90)) = degrees 270.
Proof.
  rewrite !angle_orthogonal. unfold degrees, tau. pose proof PI_RGT_0 as PP. split; [|split].
  - replace (2 * PI * 270 / 360) with (3 * (PI / 2)) by lra. rewrite cos_3PI2. lra.
  - replace (2 * PI * 45 / 360) with (PI / 4) by lra. intros H. pose proof (sin_2a (PI / 4)) as S. replace (2 * (PI / 4)) with (PI / 2) in S by lra. rewrite sin_PI2 in S. lra.
  - apply angle_normalized. unfold degrees, tau. split; [lra|]. exists (-1)%Z. lra.
Qed.
Print Assumptions angle_normalized.
Print Assumptions angle_orthogonal.

(** * C70: angle equality *)
Theorem angle_eq_same_direction : forall a b, same_direction a b -> angle_eq a b.
Proof. exact angle_eq_same_lemma. Qed.
Example same_direction_ex : same_direction (PI / 2) (- (3 * PI / 2)).
Proof. exists 1%Z. lra. Qed.
Print Assumptions angle_eq_same_direction.
Theorem angle_eq_close : forall a b, angle_eq a b -> exists d, Rabs d <= / 10 ^ 11 /\ same_direction a (b + d).
Proof. exact angle_eq_close_lemma. Qed.
Print Assumptions angle_eq_close.
(** But two angles closer than the tolerance need not be equal: the comparison does not wrap at 0. *)
Theorem angle_eq_wrap_refuted : exists a b, Rabs (a - b) <= / 10 ^ 11 /\ ~ angle_eq a b.
Proof. exact angle_eq_wrap. Qed.
Print Assumptions angle_eq_wrap_refuted.
