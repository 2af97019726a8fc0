(** Property theorems about the length of an arc by a sum (C127). *)
Require Import Reals Lra Lia Psatz.
From Coquelicot Require Import Coquelicot.
Require Import Verif.Base Verif.Point_Model Verif.Point_Proofs Verif.Curve_Spec Verif.Arc_Model Verif.Arc_Spec Verif.Arc_Proofs Verif.ArcLen_Proofs Verif.Arc_Thms Verif.ArcInt_Model Verif.ArcInt_Proofs.
Open Scope R_scope.

(** With n steps, _integral_length is off by at most sweep^2 max(rx, ry) / n, whichever way the arc turns. *)
Theorem arc_integral_near : forall n A t0, proper_at A t0 -> (0 < n)%nat ->
  exists L, arc_length (arc_point A) L /\ Rabs (integral_length n A - L) <= a_sweep A * a_sweep A * Rmax (arx A) (ary A) / INR n.
Proof.
  intros n A t0 PA N. pose proof (arc_runs_own A t0 PA) as RU. destruct (start_t_proper A t0 PA) as [C S]. destruct PA as (X & Y & _).
  pose proof (part_near n (start_t A) (a_sweep A) (arx A) (ary A) X Y N) as H. fold (integral_length n A) in H.
  eexists. split; [|exact H]. destruct (Req_dec (a_sweep A) 0) as [Z|Z].
  - destruct (runs_length _ _ _ _ _ _ _ RU) as (L & AL & B); try lra. rewrite Z, Rabs_R0 in B. rewrite Z, Rplus_0_r, Rminus_eq_0, Rabs_R0, Rmult_0_r. replace 0 with L at 1 by lra. exact AL.
  - eapply exact_runs; eauto. intros. now apply ell_int.
Qed.
Print Assumptions arc_integral_near.
Example arc_integral_near_ex : proper_at quarter 0 /\ (0 < 100)%nat. Proof. split; [exact quarter_proper|lia]. Qed.

(** For circles it is exact, with any number of steps. *)
Theorem arc_integral_circle : forall n A t0, proper_at A t0 -> arx A = ary A -> (0 < n)%nat ->
  integral_length n A = arx A * Rabs (a_sweep A) /\ arc_length (arc_point A) (integral_length n A).
Proof.
  intros n A t0 PA E N. assert (V : integral_length n A = arx A * Rabs (a_sweep A)).
  { destruct PA as (X & Y & _). unfold integral_length, ellipse_part_integral. cbv zeta. rewrite <- E. assert (NI : 0 < INR n) by (now apply lt_0_INR).
    replace (Rabs (start_t A - (start_t A + a_sweep A))) with (Rabs (a_sweep A)) by (rewrite (Rabs_minus_sym (start_t A)); f_equal; ring). set (h := Rabs (a_sweep A) / INR n).
    rewrite (sum_ext _ (fun _ => h)).
    - assert (SC : forall k, sum_to (fun _ => h) k = INR k * h) by (induction k; cbn [sum_to]; [cbn; ring|rewrite IHk, S_INR; ring]). rewrite SC. unfold h. field. lra.
    - intros i. replace (1 - (1 - arx A ^ 2 / arx A ^ 2) * _) with 1 by (field; lra). rewrite sqrt_1. ring. }
  split; [exact V|]. pose proof (arc_runs_own A t0 PA) as RU. destruct PA as (X & Y & _). destruct (runs_length _ _ _ _ _ _ _ RU) as (L & AL & B); try lra.
  rewrite <- E, Rmin_left, Rmax_left in B by lra. replace (integral_length n A) with L by lra. exact AL.
Qed.
Print Assumptions arc_integral_circle.
Example arc_integral_circle_ex : proper_at quarter 0 /\ arx quarter = ary quarter. Proof. split; [exact quarter_proper|]. destruct quarter_frame as (-> & -> & _). reflexivity. Qed.
