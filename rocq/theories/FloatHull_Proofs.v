(** From floating point to exact rationals and back. *)
Require Import ZArith QArith Qreals Reals List Permutation Bool Lra Lia.
From Flocq Require Import Core BinarySingleNaN.
Require Import Verif.Point_Model Verif.Base Verif.Hull_Model Verif.Hull_Spec Verif.Hull_Proofs Verif.HullEnds_Proofs Verif.Float_Model Verif.Float_Spec Verif.Float_Proofs Verif.FloatBox_Proofs Verif.FloatWalk_Proofs Verif.FloatDist_Spec Verif.FloatDist_Proofs Verif.FloatHull_Model Verif.FloatHull_Spec.
Import ListNotations.
Open Scope R_scope.

(** The rational that a float is. *)
Definition q1 (x : fl) : Q :=
  match x with
  | B754_finite s m e _ => let z := cond_Zopp s (Z.pos m) in if (0 <=? e)%Z then inject_Z (z * 2 ^ e) else (z # Z.to_pos (2 ^ (- e)))
  | _ => 0%Q
  end.
Lemma q1_value : forall x, Q2R (q1 x) = value x.
Proof.
  intros [s|s| |s m e b]; unfold value; cbn [q1 B2R]; try (unfold Q2R; cbn; lra). unfold F2R. cbn [Fnum Fexp]. set (z := cond_Zopp s (Z.pos m)). destruct (0 <=? e)%Z eqn:E.
  - apply Z.leb_le in E. unfold inject_Z, Q2R. cbn [Qnum Qden]. rewrite mult_IZR, Rinv_1, Rmult_1_r. f_equal. change 2%Z with (radix_val radix2). rewrite IZR_Zpower; auto.
  - apply Z.leb_gt in E. unfold Q2R. cbn [Qnum Qden]. f_equal. rewrite Z2Pos.id by (apply Z.pow_pos_nonneg; lia). replace e with (- (- e))%Z at 2 by lia. rewrite bpow_opp. f_equal. change 2%Z with (radix_val radix2). rewrite IZR_Zpower; [reflexivity|lia].
Qed.
Lemma q1_inj : forall x y, finite x -> finite y -> value x = value y -> q1 x = q1 y.
Proof.
  intros x y FX FY V. destruct x as [s|s| |s m e b]; try discriminate FX; destruct y as [s'|s'| |s' m' e' b']; try discriminate FY.
  - reflexivity.
  - exfalso. unfold value in V. cbn [B2R] in V. symmetry in V. apply eq_0_F2R in V. destruct s'; discriminate V.
  - exfalso. unfold value in V. cbn [B2R] in V. apply eq_0_F2R in V. destruct s; discriminate V.
  - assert (E : B754_finite s m e b = B754_finite s' m' e' b') by (apply B2R_inj; auto). rewrite E. reflexivity.
Qed.
Definition q2 (p : fpt) : Q * Q := (q1 (fx p), q1 (fy p)).
Lemma q2_inj : forall p q, finite_pt p -> finite_pt q -> place p = place q -> q2 p = q2 q.
Proof. intros p q [A B] [C D] E. unfold place in E. injection E as E1 E2. unfold q2. f_equal; apply q1_inj; auto. Qed.
Lemma q2_back : forall p q, q2 p = q2 q -> place p = place q.
Proof. intros p q E. unfold q2 in E. injection E as E1 E2. unfold place. rewrite <- !q1_value, E1, E2. reflexivity. Qed.

Lemma Q2R_0 : Q2R 0%Q = 0. Proof. unfold Q2R. cbn. lra. Qed.
Lemma qle_spec : forall a b, Qle_bool a b = true <-> Q2R a <= Q2R b.
Proof. intros a b. rewrite Qle_bool_iff. split; [apply Qle_Rle|apply Rle_Qle]. Qed.
Lemma qeq_spec : forall a b, Qeq_bool a b = true <-> Q2R a = Q2R b.
Proof. intros a b. rewrite Qeq_bool_iff. split; [apply Qeq_eqR|apply eqR_Qeq]. Qed.
Lemma qlt_spec : forall a b, Qltb a b = true <-> Q2R a < Q2R b.
Proof. intros a b. unfold Qltb. rewrite negb_true_iff. split; intros H. - apply Rnot_le_lt. intros C. apply qle_spec in C. congruence. - apply not_true_iff_false. intros C. apply qle_spec in C. lra. Qed.
Lemma feq_spec : forall x y, finite x -> finite y -> feq x y = true <-> value x = value y.
Proof. intros x y FX FY. unfold feq. rewrite Beqb_correct by auto. unfold value. destruct (Req_bool_spec (B2R x) (B2R y)); split; intros; auto; try discriminate; contradiction. Qed.
Lemma bool_ext : forall (a b : bool) (P Q : Prop), (a = true <-> P) -> (b = true <-> Q) -> (P <-> Q) -> a = b.
Proof. intros [|] [|] P Q A B C; auto; [symmetry; apply B, C, A; auto|apply A, C, B; auto]. Qed.

Lemma same_agree : forall a b, finite_pt a -> finite_pt b -> fsame a b = same (q2 a) (q2 b).
Proof.
  intros a b [A1 A2] [B1 B2]. unfold fsame, same, q2. cbn [fst snd]. f_equal; (eapply bool_ext; [apply feq_spec; auto|apply qeq_spec|rewrite !q1_value; reflexivity]).
Qed.
Lemma insert_agree : forall l p, finite_pt p -> Forall finite_pt l -> map q2 (finsert_x p l) = insert_x (q2 p) (map q2 l).
Proof.
  induction l as [|q l IH]; intros p P L; [reflexivity|]. inversion L as [|? ? Q L']; subst. cbn [finsert_x map insert_x]. assert (E : fle (fx p) (fx q) = Qle_bool (fst (q2 p)) (fst (q2 q))).
  { destruct P, Q. eapply bool_ext; [apply fle_spec; auto|apply qle_spec|unfold q2; cbn [fst]; rewrite !q1_value; reflexivity]. }
  rewrite <- E. destruct (fle (fx p) (fx q)); [reflexivity|]. cbn [map]. now rewrite IH.
Qed.
Lemma finsert_in : forall l p x, In x (finsert_x p l) <-> x = p \/ In x l.
Proof. induction l as [|q l IH]; intros p x; cbn [finsert_x]; [cbn; intuition auto|]. destruct (fle (fx p) (fx q)); cbn; [intuition auto|]. rewrite IH. intuition auto. Qed.
Lemma fsort_in : forall l x, In x (fsort_x l) <-> In x l.
Proof. induction l as [|q l IH]; intros x; cbn [fsort_x fold_right]; [reflexivity|]. fold (fsort_x l). rewrite finsert_in, IH. cbn. intuition auto. Qed.
Lemma sort_agree : forall l, Forall finite_pt l -> map q2 (fsort_x l) = sort_x (map q2 l).
Proof.
  induction l as [|q l IH]; intros L; [reflexivity|]. inversion L as [|? ? Q L']; subst. cbn [fsort_x sort_x fold_right map]. fold (fsort_x l). fold (sort_x (map q2 l)). rewrite insert_agree; [rewrite IH by exact L'; reflexivity|exact Q|].
  apply Forall_forall. intros x X. apply (proj1 (fsort_in l x)) in X. rewrite Forall_forall in L'. exact (L' x X).
Qed.

Section Agree.
  Variable s : list fpt.
  Hypothesis FS : Forall finite_pt s.
  Hypothesis OR : forall p q r, In p s -> In q s -> In r s -> forientation p q r = orientation (q2 p) (q2 q) (q2 r).
  Lemma fin_s : forall p, In p s -> finite_pt p. Proof. rewrite Forall_forall in FS. auto. Qed.
  Lemma next_fold : forall l cur e, In cur s -> In e s -> incl l s ->
    In (fold_left (fun e t => if fsame cur e || Z.eqb (forientation cur t e) 2 then t else e) l e) s /\
    q2 (fold_left (fun e t => if fsame cur e || Z.eqb (forientation cur t e) 2 then t else e) l e) =
    fold_left (fun e t => if same (q2 cur) e || Z.eqb (orientation (q2 cur) t e) 2 then t else e) (map q2 l) (q2 e).
  Proof.
    induction l as [|t l IH]; intros cur e C E I; [split; [exact E|reflexivity]|]. cbn [fold_left map]. assert (T : In t s) by (apply I; left; reflexivity). rewrite <- same_agree by (apply fin_s; auto). rewrite <- OR by auto.
    destruct (fsame cur e || Z.eqb (forientation cur t e) 2); apply IH; auto; intros x X; apply I; right; auto.
  Qed.
  Lemma loop_agree : forall k l f cur, In f s -> In cur s -> incl l s -> hull_loop k (map q2 l) (q2 f) (q2 cur) = option_map (map q2) (fhull_loop k l f cur) /\ (forall h, fhull_loop k l f cur = Some h -> incl h s).
  Proof.
    induction k as [|k IH]; intros l f cur F C I; [split; [reflexivity|discriminate]|]. cbn [hull_loop fhull_loop]. destruct (next_fold l cur cur C C I) as [N1 N2]. fold (fhull_next l cur) in N1, N2. fold (hull_next (map q2 l) (q2 cur)) in N2. rewrite <- N2. rewrite <- same_agree by (apply fin_s; auto).
    destruct (fsame f (fhull_next l cur)).
    - split; [reflexivity|]. intros h H. injection H as <-. intros x [<-|[]]. exact C.
    - destruct (IH l f (fhull_next l cur) F N1 I) as [A B]. rewrite A. destruct (fhull_loop k l f (fhull_next l cur)) as [h|]; [|split; [reflexivity|discriminate]]. split; [reflexivity|]. intros h' H. injection H as <-. intros x [<-|X]; [exact C|]. apply (B h eq_refl x X).
  Qed.
  Lemma hull_agree : forall k, convex_hull k (map q2 s) = option_map (map q2) (fconvex_hull k s) /\ (forall h, fconvex_hull k s = Some h -> incl h s).
  Proof.
    intros k. unfold convex_hull, fconvex_hull. rewrite <- sort_agree by auto. assert (I : incl (fsort_x s) s) by (intros x X; apply (proj1 (fsort_in s x)); exact X). destruct (fsort_x s) as [|f l] eqn:E; [split; [reflexivity|intros h H; injection H as <-; intros x []]|].
    apply (loop_agree k (f :: l) f f); auto; apply I; left; reflexivity.
  Qed.
End Agree.

(** The area and the orientation. *)
Definition val (p q r : fpt) : R := (value (fy q) - value (fy p)) * (value (fx r) - value (fx q)) - (value (fx q) - value (fx p)) * (value (fy r) - value (fy q)).
Lemma val_area : forall p q r, val p q r = - farea p q r.
Proof. intros p q r. unfold val, farea, place. cbn [px py]. ring. Qed.
Lemma area_q : forall a b c, Q2R (area2 (q2 a) (q2 b) (q2 c)) = farea a b c.
Proof. intros a b c. unfold area2, q2, farea, place. cbn [fst snd px py]. rewrite Q2R_minus, !Q2R_mult, !Q2R_minus, !q1_value. reflexivity. Qed.
Lemma orientation_q : forall p q r, orientation (q2 p) (q2 q) (q2 r) = if Req_EM_T (val p q r) 0 then 0%Z else if Rlt_dec 0 (val p q r) then 1%Z else 2%Z.
Proof.
  intros p q r. unfold orientation. set (v := ((snd (q2 q) - snd (q2 p)) * (fst (q2 r) - fst (q2 q)) - (fst (q2 q) - fst (q2 p)) * (snd (q2 r) - snd (q2 q)))%Q).
  assert (V : Q2R v = val p q r) by (unfold v, q2; cbn [fst snd]; rewrite Q2R_minus, !Q2R_mult, !Q2R_minus, !q1_value; reflexivity).
  destruct (Qeq_bool v 0) eqn:E.
  - apply qeq_spec in E. rewrite V, Q2R_0 in E. destruct (Req_EM_T (val p q r) 0); [reflexivity|contradiction].
  - destruct (Req_EM_T (val p q r) 0) as [Z|Z]; [exfalso; apply not_true_iff_false in E; apply E, qeq_spec; rewrite V, Q2R_0; auto|].
    destruct (Qltb 0 v) eqn:L.
    + apply qlt_spec in L. rewrite V, Q2R_0 in L. destruct (Rlt_dec 0 (val p q r)); [reflexivity|contradiction].
    + destruct (Rlt_dec 0 (val p q r)) as [C|C]; [|reflexivity]. exfalso. apply not_true_iff_false in L. apply L, qlt_spec. rewrite V, Q2R_0. auto.
Qed.
Lemma orientation_f : forall p q r v, is (fsub (fmul (fsub (fy q) (fy p)) (fsub (fx r) (fx q))) (fmul (fsub (fx q) (fx p)) (fsub (fy r) (fy q)))) v ->
  forientation p q r = if Req_EM_T v 0 then 0%Z else if Rlt_dec 0 v then 1%Z else 2%Z.
Proof.
  intros p q r v [F V]. unfold forientation. destruct fz0 as [F0 V0]. set (x := fsub _ _) in *. destruct (feq x (fz 0)) eqn:E.
  - apply feq_spec in E; auto. rewrite V, V0 in E. destruct (Req_EM_T v 0); [reflexivity|contradiction].
  - destruct (Req_EM_T v 0) as [Z|Z]; [exfalso; apply not_true_iff_false in E; apply E, feq_spec; auto; rewrite V, V0; auto|].
    destruct (flt (fz 0) x) eqn:L.
    + apply flt_spec in L; auto. rewrite V, V0 in L. destruct (Rlt_dec 0 v); [reflexivity|contradiction].
    + destruct (Rlt_dec 0 v) as [C|C]; [|reflexivity]. exfalso. apply not_true_iff_false in L. apply L, flt_spec; auto. rewrite V, V0. auto.
Qed.
Lemma sign_agree : forall p q r v, is (fsub (fmul (fsub (fy q) (fy p)) (fsub (fx r) (fx q))) (fmul (fsub (fx q) (fx p)) (fsub (fy r) (fy q)))) v ->
  (v = 0 <-> val p q r = 0) -> (0 < v <-> 0 < val p q r) -> forientation p q r = orientation (q2 p) (q2 q) (q2 r).
Proof.
  intros p q r v I Z L. rewrite (orientation_f p q r v I), orientation_q. destruct (Req_EM_T v 0), (Req_EM_T (val p q r) 0); try tauto. destruct (Rlt_dec 0 v), (Rlt_dec 0 (val p q r)); tauto.
Qed.

(** What is computed. *)
Lemma product_ok : forall a b : fl, finite a -> finite b -> Rabs (value a) <= bpow radix2 502 -> Rabs (value b) <= bpow radix2 502 -> is (fmul a b) (rnd (value a * value b)) /\ Rabs (value (fmul a b)) <= bpow radix2 1004.
Proof.
  intros a b FA FB HA HB. assert (Q : Rabs (value a * value b) <= bpow radix2 1004).
  { replace (bpow radix2 1004) with (bpow radix2 502 * bpow radix2 502) by (rewrite <- bpow_plus; reflexivity). rewrite Rabs_mult. apply Rmult_le_compat; auto; apply Rabs_pos. }
  assert (B : Rabs (value a * value b) <= big) by (eapply Rle_trans; [exact Q|apply bpow_le; lia]). pose proof (fmul_rnd a b FA FB B) as I. split; [exact I|]. destruct I as [_ ->]. apply abs_ge in Q.
  assert (E : rnd (bpow radix2 1004) = bpow radix2 1004) by (apply rnd_id, format_bpow; lia). apply abs_le. split; [rewrite <- E, <- rnd_opp|rewrite <- E]; apply rnd_le; lra.
Qed.
Lemma val_steps : forall p q r, moderate p -> moderate q -> moderate r -> exists e1 e2 e3 e4 e5,
  Rabs e1 <= u /\ Rabs e2 <= u /\ Rabs e3 <= u /\ Rabs e4 <= u /\ Rabs e5 <= u /\
  rnd (value (fy q) - value (fy p)) = (value (fy q) - value (fy p)) * (1 + e1) /\ rnd (value (fx r) - value (fx q)) = (value (fx r) - value (fx q)) * (1 + e2) /\
  rnd (value (fx q) - value (fx p)) = (value (fx q) - value (fx p)) * (1 + e3) /\ rnd (value (fy r) - value (fy q)) = (value (fy r) - value (fy q)) * (1 + e4) /\
  is (fsub (fmul (fsub (fy q) (fy p)) (fsub (fx r) (fx q))) (fmul (fsub (fx q) (fx p)) (fsub (fy r) (fy q))))
     ((rnd (rnd (value (fy q) - value (fy p)) * rnd (value (fx r) - value (fx q))) - rnd (rnd (value (fx q) - value (fx p)) * rnd (value (fy r) - value (fy q)))) * (1 + e5)).
Proof.
  intros p q r ((PF1 & PF2) & P1 & P2) ((QF1 & QF2) & Q1 & Q2) ((RF1 & RF2) & R1 & R2).
  destruct (diff_cases _ _ QF2 PF2 Q2 P2) as (e1 & E1 & (_ & W1) & (F1 & V1) & B1). destruct (diff_cases _ _ RF1 QF1 R1 Q1) as (e2 & E2 & (_ & W2) & (F2 & V2) & B2).
  destruct (diff_cases _ _ QF1 PF1 Q1 P1) as (e3 & E3 & (_ & W3) & (F3 & V3) & B3). destruct (diff_cases _ _ RF2 QF2 R2 Q2) as (e4 & E4 & (_ & W4) & (F4 & V4) & B4).
  destruct (product_ok _ _ F1 F2 B1 B2) as ((FX & VX) & BX). destruct (product_ok _ _ F3 F4 B3 B4) as ((FY & VY) & BY).
  destruct (fsub_rel _ _ FX FY) as (e5 & E5 & I).
  { unfold Rminus. eapply Rle_trans; [apply Rabs_triang|]. rewrite Rabs_Ropp. apply Rle_trans with (bpow radix2 1005); [|apply bpow_le; lia]. replace (bpow radix2 1005) with (2 * bpow radix2 1004) by (change 2 with (bpow radix2 1); rewrite <- bpow_plus; reflexivity). lra. }
  exists e1, e2, e3, e4, e5. repeat (split; [first [assumption|congruence]|]). rewrite VX, VY, V1, V2, V3, V4 in I. exact I.
Qed.
Lemma product_close : forall a b e1 e2 m, Rabs e1 <= u -> Rabs e2 <= u -> Rabs a <= 2 * m -> Rabs b <= 2 * m -> Rabs (rnd (a * (1 + e1) * (b * (1 + e2))) - a * b) <= 16 * u * (m * m) + eta.
Proof.
  intros a b e1 e2 m E1 E2 A B. pose proof (rnd_err (a * (1 + e1) * (b * (1 + e2)))) as H. apply abs_ge in E1. apply abs_ge in E2. pose proof u_pos. pose proof u_small. set (g := (1 + e1) * (1 + e2)). replace (a * (1 + e1) * (b * (1 + e2))) with (a * b * g) in * by (unfold g; ring).
  assert (G : 1 - 21 / 10 * u <= g <= 1 + 21 / 10 * u) by (unfold g; nra). set (z := a * b) in *. assert (Z : Rabs z <= 4 * (m * m)).
  { unfold z. rewrite Rabs_mult. replace (4 * (m * m)) with ((2 * m) * (2 * m)) by ring. apply Rmult_le_compat; auto; apply Rabs_pos. }
  rewrite Rabs_mult, (Rabs_pos_eq g) in H by lra. replace (rnd (z * g) - z) with ((rnd (z * g) - z * g) + z * (g - 1)) by ring. eapply Rle_trans; [apply Rabs_triang|]. rewrite (Rabs_mult z). pose proof (Rabs_pos z).
  assert (K : Rabs (g - 1) <= 21 / 10 * u) by (apply abs_le; lra). assert (Rabs z * Rabs (g - 1) <= Rabs z * (21 / 10 * u)) by (apply Rmult_le_compat_l; auto). assert (u * (Rabs z * g) <= u * (Rabs z * (11 / 10))) by (repeat apply Rmult_le_compat_l; lra). assert (u * Rabs z <= u * (4 * (m * m))) by (apply Rmult_le_compat_l; lra). assert (0 <= u * (m * m)) by (apply Rmult_le_pos; [lra|apply Rle_0_sqr]). lra.
Qed.
Definition margin (m : R) : R := 32 * u * (m * m) + 2 * eta.
Lemma orient_margin : forall m p q r, 0 <= m <= bpow radix2 500 -> within m p -> within m q -> within m r -> margin m < Rabs (val p q r) -> forientation p q r = orientation (q2 p) (q2 q) (q2 r).
Proof.
  intros m p q r [M0 M1] P Q R V. assert (MO : forall x, within m x -> moderate x) by (intros x (A & B & C); split; [auto|split; lra]). destruct (val_steps p q r (MO _ P) (MO _ Q) (MO _ R)) as (e1 & e2 & e3 & e4 & e5 & E1 & E2 & E3 & E4 & E5 & W1 & W2 & W3 & W4 & I).
  rewrite W1, W2, W3, W4 in I. destruct P as (_ & P1 & P2). destruct Q as (_ & Q1 & Q2). destruct R as (_ & R1 & R2).
  assert (D : forall a b, Rabs a <= m -> Rabs b <= m -> Rabs (a - b) <= 2 * m) by (intros a b A B; apply abs_ge in A; apply abs_ge in B; apply abs_le; lra).
  pose proof (product_close _ _ e1 e2 m E1 E2 (D _ _ Q2 P2) (D _ _ R1 Q1)) as X. pose proof (product_close _ _ e3 e4 m E3 E4 (D _ _ Q1 P1) (D _ _ R2 Q2)) as Y. eapply sign_agree; [exact I| |];
  unfold val in *; unfold margin in V; set (x := rnd ((value (fy q) - value (fy p)) * (1 + e1) * ((value (fx r) - value (fx q)) * (1 + e2)))) in *; set (y := rnd ((value (fx q) - value (fx p)) * (1 + e3) * ((value (fy r) - value (fy q)) * (1 + e4)))) in *;
  set (A := (value (fy q) - value (fy p)) * (value (fx r) - value (fx q))) in *; set (B := (value (fx q) - value (fx p)) * (value (fy r) - value (fy q))) in *; apply abs_ge in X; apply abs_ge in Y; apply abs_ge in E5; pose proof u_small; clear - X Y E5 V H;
  set (g := 16 * u * (m * m) + eta) in *; assert (V' : 2 * g < Rabs (A - B)) by (unfold g; lra); assert (GP : 0 < 1 + e5) by lra.
  - assert (N : A - B <> 0) by (intros C; rewrite C, Rabs_R0 in V'; lra). assert (N2 : x - y <> 0) by (intros C; assert (Rabs (A - B) <= 2 * g) by (apply abs_le; lra); lra). split; intros C; [apply Rmult_integral in C; lra|contradiction].
  - assert (S : 0 < x - y <-> 0 < A - B).
    { split; intros C; apply Rnot_le_lt; intros C'; [rewrite Rabs_left1 in V' by auto|rewrite Rabs_pos_eq in V' by lra]; lra. }
    rewrite <- S. split; intros C; [apply Rnot_le_lt; intros C'; nra|apply Rmult_lt_0_compat; auto].
Qed.
(** Triples that are no triangle. *)
Lemma orient_degenerate : forall p q r, moderate p -> moderate q -> moderate r -> place p = place q \/ place q = place r \/ place p = place r -> forientation p q r = orientation (q2 p) (q2 q) (q2 r).
Proof.
  intros p q r P Q R H. destruct (val_steps p q r P Q R) as (e1 & e2 & e3 & e4 & e5 & _ & _ & _ & _ & _ & _ & _ & _ & _ & I). eapply sign_agree; [exact I| |]; clear I; unfold val; (destruct H as [H|[H|H]]; unfold place in H; injection H as H1 H2; rewrite ?H1, ?H2);
  rewrite ?(Rminus_diag_eq _ _ eq_refl), ?rnd_0, ?Rmult_0_l, ?Rmult_0_r, ?rnd_0, ?(Rminus_diag_eq _ _ eq_refl), ?Rmult_0_l; try tauto;
  (replace (rnd (value (fx r) - value (fx q))) with (- rnd (value (fx q) - value (fx r))) by (rewrite <- rnd_opp; f_equal; ring));
  (replace (rnd (value (fy r) - value (fy q))) with (- rnd (value (fy q) - value (fy r))) by (rewrite <- rnd_opp; f_equal; ring)); rewrite <- !Ropp_mult_distr_r, !rnd_opp, (Rmult_comm (rnd (value (fx q) - value (fx r)))), (Rminus_diag_eq _ _ eq_refl), Rmult_0_l; split; intros; lra.
Qed.
(** Whole coordinates. *)
Lemma whole25_moderate : forall p, whole_pt (2 ^ 25) p -> moderate p.
Proof.
  assert (G : forall z, (Z.abs z <= 2 ^ 25)%Z -> Rabs (IZR z) <= bpow radix2 500).
  { intros z Z. rewrite <- abs_IZR. apply Rle_trans with (bpow radix2 25); [|apply bpow_le; lia]. change (bpow radix2 25) with (IZR (2 ^ 25)). apply IZR_le. auto. }
  intros p ((x & (F1 & V1) & X) & (y & (F2 & V2) & Y)). split; [split; auto|]. rewrite V1, V2. split; apply G; auto.
Qed.
Lemma mul_small : forall a b, (Z.abs a <= 2 ^ 26)%Z -> (Z.abs b <= 2 ^ 26)%Z -> (Z.abs (a * b) <= 2 ^ 53)%Z.
Proof. intros a b A B. rewrite Z.abs_mul. assert (Z.abs a * Z.abs b <= 2 ^ 26 * 2 ^ 26)%Z by (apply Z.mul_le_mono_nonneg; lia). lia. Qed.
Lemma orient_whole : forall p q r, whole_pt (2 ^ 25) p -> whole_pt (2 ^ 25) q -> whole_pt (2 ^ 25) r -> forientation p q r = orientation (q2 p) (q2 q) (q2 r).
Proof.
  intros p q r P Q R. destruct (val_steps p q r (whole25_moderate _ P) (whole25_moderate _ Q) (whole25_moderate _ R)) as (e1 & e2 & e3 & e4 & e5 & _ & _ & _ & _ & E5 & _ & _ & _ & _ & I).
  destruct P as ((x1 & (_ & V1) & X1) & (y1 & (_ & W1) & Y1)). destruct Q as ((x2 & (_ & V2) & X2) & (y2 & (_ & W2) & Y2)). destruct R as ((x3 & (_ & V3) & X3) & (y3 & (_ & W3) & Y3)).
  eapply sign_agree; [exact I| |]; clear I; unfold val; rewrite V1, V2, V3, W1, W2, W3; rewrite <- !minus_IZR; rewrite !(rnd_int (_ - _)) by lia; rewrite <- !mult_IZR; rewrite !rnd_int by (apply mul_small; lia); set (v := IZR _ - IZR _); apply abs_ge in E5; pose proof u_small; assert (G : 0 < 1 + e5) by lra.
  - split; intros C; [apply Rmult_integral in C; lra|rewrite C; ring].
  - split; intros C; [apply Rnot_le_lt; intros C'; nra|apply Rmult_lt_0_compat; auto].
Qed.

(** From exact hulls to the computed ones. *)
Lemma NoDup_map_via : forall (A B C : Type) (f : A -> B) (g : A -> C) l, (forall a b, In a l -> In b l -> g a = g b -> f a = f b) -> NoDup (map f l) -> NoDup (map g l).
Proof.
  intros A B C f g. induction l as [|a l IH]; intros H N; [constructor|]. cbn [map] in *. inversion N as [|? ? NI N']; subst. constructor.
  - intros K. apply in_map_iff in K. destruct K as (b & E & K). apply NI. rewrite (H a b); [apply in_map; auto|left; auto|right; auto|auto].
  - apply IH; auto. intros x y X Y. apply H; right; auto.
Qed.
Lemma NoDup_map_inj : forall (A B : Type) (f : A -> B) l, NoDup (map f l) -> forall a b, In a l -> In b l -> f a = f b -> a = b.
Proof.
  induction l as [|x l IH]; intros N a b A1 B1 E; [destruct A1|]. cbn [map] in N. inversion N as [|? ? NI N']; subst. destruct A1 as [<-|A1], B1 as [<-|B1]; auto.
  - exfalso. apply NI. rewrite E. apply in_map; auto.
  - exfalso. apply NI. rewrite <- E. apply in_map; auto.
Qed.
Lemma map_inj_on : forall (A B : Type) (f : A -> B) (P : A -> Prop), (forall a b, P a -> P b -> f a = f b -> a = b) -> forall l l', Forall P l -> Forall P l' -> map f l = map f l' -> l = l'.
Proof.
  intros A B f P I. induction l as [|a l IH]; intros [|b l'] L L' E; try discriminate; auto. inversion L; inversion L'; subst. cbn [map] in E. injection E as E1 E2. f_equal; auto.
Qed.
Lemma combine_map : forall (A B : Type) (f : A -> B) (l l' : list A) a b, In (a, b) (combine l l') -> In (f a, f b) (combine (map f l) (map f l')).
Proof. induction l as [|x l IH]; intros [|y l'] a b H; cbn in *; try contradiction. destruct H as [H|H]; [injection H as <- <-; left; auto|right; apply IH; auto]. Qed.
Lemma hull_final : forall s, s <> [] -> Forall finite_pt s -> no_repeats s -> spread 0 s ->
  (forall p q r, In p s -> In q s -> In r s -> forientation p q r = orientation (q2 p) (q2 q) (q2 r)) ->
  exists h, encloses h s /\ forall k, (List.length s <= k)%nat -> fconvex_hull k s = Some h.
Proof.
  intros s NE FS NR SP OR. assert (FIN : forall p, In p s -> finite_pt p) by (rewrite Forall_forall in FS; auto).
  assert (INJ : forall a b, In a s -> In b s -> q2 a = q2 b -> a = b) by (intros a b A B E; apply (NoDup_map_inj _ _ place s NR); auto; apply q2_back; auto).
  assert (NQ : NoDup (map q2 s)) by (apply NoDup_map_via with (f := place); auto; intros a b _ _ E; apply q2_back; auto).
  assert (GP : general_position (map q2 s)).
  { split; [split; [exact NQ|]|].
    - intros a b A B X Y. apply in_map_iff in A. apply in_map_iff in B. destruct A as (a' & <- & A). destruct B as (b' & <- & B). apply q2_inj; auto. apply Qeq_eqR in X. apply Qeq_eqR in Y. unfold q2 in X, Y. cbn [fst snd] in X, Y. rewrite !q1_value in X, Y. unfold place. rewrite X, Y. reflexivity.
    - intros a b c A B C AB BC AC. apply in_map_iff in A. apply in_map_iff in B. apply in_map_iff in C. destruct A as (a' & <- & A). destruct B as (b' & <- & B). destruct C as (c' & <- & C). intros Z. apply Qeq_eqR in Z. rewrite area_q, Q2R_0 in Z.
      assert (L : 0 < Rabs (farea a' b' c')) by (apply SP; auto; intros E; [apply AB|apply BC|apply AC]; apply q2_inj; auto). rewrite Z, Rabs_R0 in L. lra. }
  destruct (hull_lemma (map q2 s)) as (h' & (I & ND & HN & SD) & K); [intros C; apply map_eq_nil in C; contradiction|exact GP|]. rewrite map_length in K.
  destruct (hull_agree s FS OR (List.length s)) as [A1 A2]. rewrite (K _ (le_n _)) in A1. destruct (fconvex_hull (List.length s) s) as [h|] eqn:E; [|discriminate A1]. cbn [option_map] in A1. injection A1 as ->. specialize (A2 h eq_refl).
  exists h. split.
  - split; [exact A2|]. split; [apply NoDup_map_via with (f := q2); auto; intros a b A B P; apply q2_inj; auto|]. split; [intros ->; apply HN; reflexivity|]. intros a b AB t T. assert (SA : In (q2 a, q2 b) (sides (map q2 h))).
    { unfold sides. replace (tl (map q2 h) ++ firstn 1 (map q2 h)) with (map q2 (tl h ++ firstn 1 h)) by (rewrite map_app; destruct h; reflexivity). apply combine_map; auto. }
    assert (A : In a s) by (apply A2; eapply in_combine_l; eauto). assert (B : In b s) by (apply A2; apply in_combine_r in AB; apply in_app_iff in AB; destruct h as [|x h]; [destruct HN; reflexivity|]; destruct AB as [AB|[<-|[]]]; [right; auto|left; auto]).
    destruct (SD _ _ SA (q2 t) (in_map q2 _ _ T)) as [X|[X|X]]; [left; apply INJ; auto|right; left; apply INJ; auto|right; right]. unfold left_of in X. apply Qlt_Rlt in X. rewrite area_q, Q2R_0 in X. exact X.
  - intros k KL. destruct (hull_agree s FS OR k) as [B1 B2]. rewrite (K _ KL) in B1. destruct (fconvex_hull k s) as [hk|]; [|discriminate B1]. cbn [option_map] in B1. injection B1 as B1. f_equal. symmetry. apply (map_inj_on _ _ q2 (fun x => In x s) INJ); auto; apply Forall_forall; auto.
    intros x X. apply (B2 hk eq_refl); auto.
Qed.
Lemma margin_bpow : forall m, margin m = bpow radix2 (-48) * (m * m) + bpow radix2 (-1074).
Proof.
  intros m. unfold margin. replace (bpow radix2 (-48)) with (32 * u) by (unfold u; change 32 with (bpow radix2 5); rewrite <- bpow_plus; reflexivity).
  replace (bpow radix2 (-1074)) with (2 * eta) by (unfold eta; change 2 with (bpow radix2 1); rewrite <- bpow_plus; reflexivity). reflexivity.
Qed.
Lemma margin_pos : forall m, 0 < margin m.
Proof. intros m. rewrite margin_bpow. pose proof (bpow_gt_0 radix2 (-1074)). assert (0 <= bpow radix2 (-48) * (m * m)) by (apply Rmult_le_pos; [apply bpow_ge_0|apply Rle_0_sqr]). lra. Qed.
Lemma place_dec : forall p q : fpt, place p = place q \/ place p <> place q.
Proof. intros p q. unfold place. destruct (Req_dec (value (fx p)) (value (fx q))) as [->|N]; [|right; intros H; injection H; auto]. destruct (Req_dec (value (fy p)) (value (fy q))) as [->|N]; [left; auto|right; intros H; injection H; auto]. Qed.

(** Walks that never come back to the first point. *)
Lemma loop_two_cycle : forall l f a b, fhull_next l a = b -> fhull_next l b = a -> fsame f a = false -> fsame f b = false -> forall k, fhull_loop k l f a = None /\ fhull_loop k l f b = None.
Proof. intros l f a b NA NB FA FB. induction k as [|k [I1 I2]]; [split; reflexivity|]. cbn [fhull_loop]. rewrite NA, NB, FA, FB, I1, I2. split; reflexivity. Qed.
Lemma perm_three : forall (A : Type) (s : list A) a b c, Permutation s [a; b; c] -> s = [a; b; c] \/ s = [a; c; b] \/ s = [b; a; c] \/ s = [b; c; a] \/ s = [c; a; b] \/ s = [c; b; a].
Proof.
  intros A s a b c H. assert (L := Permutation_length H). destruct s as [|x s]; [discriminate L|]. assert (X : In x [a; b; c]) by (apply (Permutation_in _ H); left; auto).
  destruct X as [<-|[<-|[<-|[]]]].
  - apply Permutation_cons_inv in H. apply Permutation_sym, Permutation_length_2_inv in H. destruct H as [->| ->]; tauto.
  - assert (H' : Permutation (b :: s) (b :: [a; c])) by (rewrite H; apply perm_swap). apply Permutation_cons_inv in H'. apply Permutation_sym, Permutation_length_2_inv in H'. destruct H' as [->| ->]; tauto.
  - assert (H' : Permutation (c :: s) (c :: [a; b])) by (rewrite H; apply (Permutation_sym (Permutation_cons_append [a; b] c))). apply Permutation_cons_inv in H'. apply Permutation_sym, Permutation_length_2_inv in H'. destruct H' as [->| ->]; tauto.
Qed.
Lemma never_ends : forall p0 p1 p2, fle (fx p0) (fx p1) = true -> fle (fx p1) (fx p2) = true -> fle (fx p0) (fx p2) = true -> fle (fx p1) (fx p0) = false -> fle (fx p2) (fx p1) = false -> fle (fx p2) (fx p0) = false ->
  fsame p0 p0 = true -> fsame p1 p1 = true -> fsame p2 p2 = true -> fsame p0 p1 = false -> fsame p0 p2 = false -> fsame p1 p0 = false -> fsame p1 p2 = false -> fsame p2 p0 = false -> fsame p2 p1 = false ->
  forientation p0 p2 p1 <> 2%Z -> forientation p1 p1 p0 <> 2%Z -> forientation p1 p2 p0 = 2%Z -> forientation p2 p1 p0 = 2%Z -> forientation p2 p2 p1 <> 2%Z ->
  forall s k, Permutation s [p0; p1; p2] -> fconvex_hull k s = None.
Proof.
  intros p0 p1 p2 L1 L2 L3 L4 L5 L6 S00 S11 S22 S01 S02 S10 S12 S20 S21 O1 O2 O3 O4 O5 s k PM. unfold fconvex_hull. assert (S : fsort_x s = [p0; p1; p2]) by (destruct (perm_three _ _ _ _ _ PM) as [->|[->|[->|[->|[->| ->]]]]]; cbn [fsort_x fold_right finsert_x]; repeat (rewrite ?L1, ?L2, ?L3, ?L4, ?L5, ?L6; cbn [finsert_x]); reflexivity). rewrite S.
  assert (N0 : fhull_next [p0; p1; p2] p0 = p1) by (unfold fhull_next; cbn [fold_left]; rewrite S00; cbn [orb]; rewrite S00; cbn [orb]; rewrite S01; cbn [orb]; apply Z.eqb_neq in O1; rewrite O1; reflexivity).
  assert (N1 : fhull_next [p0; p1; p2] p1 = p2) by (unfold fhull_next; cbn [fold_left]; rewrite S11; cbn [orb]; rewrite S10; cbn [orb]; apply Z.eqb_neq in O2; rewrite O2, S10; cbn [orb]; rewrite O3, Z.eqb_refl; reflexivity).
  assert (N2 : fhull_next [p0; p1; p2] p2 = p1) by (unfold fhull_next; cbn [fold_left]; rewrite S22; cbn [orb]; rewrite S20; cbn [orb]; rewrite O4, Z.eqb_refl; cbn iota; rewrite S21; cbn [orb]; apply Z.eqb_neq in O5; rewrite O5; reflexivity).
  destruct k as [|k]; [reflexivity|]. cbn [fhull_loop]. rewrite N0, S01. now rewrite (proj1 (loop_two_cycle _ p0 p1 p2 N1 N2 S01 S02 k)).
Qed.

Lemma hull_final_ends : forall s, Forall finite_pt s -> no_repeats s ->
  (forall p q r, In p s -> In q s -> In r s -> forientation p q r = orientation (q2 p) (q2 q) (q2 r)) ->
  exists h, incl h s /\ no_repeats h /\ (s <> [] -> h <> []) /\ forall k, (List.length s <= k)%nat -> fconvex_hull k s = Some h.
Proof.
  intros s FS NR OR. assert (FIN : forall p, In p s -> finite_pt p) by (rewrite Forall_forall in FS; auto).
  assert (INJ : forall a b, In a s -> In b s -> q2 a = q2 b -> a = b) by (intros a b A B E; apply (NoDup_map_inj _ _ place s NR); auto; apply q2_back; auto).
  assert (PD : pdistinct (map q2 s)).
  { split; [apply NoDup_map_via with (f := place); auto; intros a b _ _ E; apply q2_back; auto|].
    intros a b A B X Y. apply in_map_iff in A. apply in_map_iff in B. destruct A as (a' & <- & A). destruct B as (b' & <- & B). apply q2_inj; auto. apply Qeq_eqR in X. apply Qeq_eqR in Y. unfold q2 in X, Y. cbn [fst snd] in X, Y. rewrite !q1_value in X, Y. unfold place. rewrite X, Y. reflexivity. }
  destruct (hull_ends_lemma (map q2 s) PD) as (h' & I & ND & HN & K & _). rewrite map_length in K.
  destruct (hull_agree s FS OR (List.length s)) as [A1 A2]. rewrite (K _ (le_n _)) in A1. destruct (fconvex_hull (List.length s) s) as [h|] eqn:E; [|discriminate A1]. cbn [option_map] in A1. injection A1 as ->. specialize (A2 h eq_refl).
  exists h. split; [exact A2|]. split; [apply NoDup_map_via with (f := q2); auto; intros a b A B P; apply q2_inj; auto|]. split; [intros N C; rewrite C in HN; apply HN; auto; intros C'; apply map_eq_nil in C'; contradiction|].
  intros k KL. destruct (hull_agree s FS OR k) as [B1 B2]. rewrite (K _ KL) in B1. destruct (fconvex_hull k s) as [hk|]; [|discriminate B1]. cbn [option_map] in B1. injection B1 as B1. f_equal. symmetry. apply (map_inj_on _ _ q2 (fun x => In x s) INJ); auto; apply Forall_forall; auto. intros x X. apply (B2 hk eq_refl); auto.
Qed.
