Require Import ZArith QArith Qabs Qround Ascii String List Bool Lia Lqa Qfield.
Require Import Verif.Base Verif.Text_Spec Verif.Text_Proofs Verif.Fmt_Model Verif.Fmt_Proofs Verif.Color_Spec Verif.Color_Proofs
  Verif.Color_Proofs2 Verif.Color_Proofs3 Verif.Length_Model Verif.Length_Spec Verif.Length_Proofs.
Import ListNotations.
Open Scope Q_scope.

(** * Resolution is linear in the amount *)
Definition lin0 (c : ctx) (u : lunit) := exists f, forall d, exists z, value0 c (mkLen d u) = VNum z /\ z == d * f.
Definition lin (c : ctx) (u : lunit) := exists f, forall d, exists z, value c (mkLen d u) = Ok (VNum z) /\ z == d * f.
Definition zonly (c : ctx) (u : lunit) := forall d, d == 0 -> exists z, value c (mkLen d u) = Ok (VNum z) /\ z == 0.

Lemma value0_lin : forall c a u x, value0 c (mkLen a u) = VNum x -> lin0 c u.
Proof.
  intros c a u x V. unfold lin0, value0 in *. cbn [amount units] in *.
  destruct u; try discriminate;
  repeat match type of V with context [match ?e with _ => _ end] => destruct e end; try discriminate.
  all: eexists; intros d; eexists; (split; [reflexivity|]); unfold Qdiv, len_float; cbn [units amount].
  all: try (apply Qeq_refl).
  1,2: instantiate (1 := 1); ring.
  all: try match goal with |- ?d * ?p * ?k == _ => instantiate (1 := p * k); ring end.
  instantiate (1 := 1); ring.
Qed.

Lemma value_lin : forall c a u x, value c (mkLen a u) = Ok (VNum x) -> lin c u \/ (a == 0 /\ x == 0 /\ zonly c u).
Proof.
  intros c a u x V. unfold value in V. cbn [units] in V.
  destruct (match u with UPct => true | _ => false end) eqn:EU.
  2:{ left. assert (V0 : value0 c (mkLen a u) = VNum x) by (destruct u; try discriminate; congruence).
      apply value0_lin in V0 as [f F]. exists f. intros d. destruct (F d) as (z & Z1 & Z2). exists z. split; auto.
      unfold value. cbn [units]. destruct u; try discriminate; congruence. }
  destruct u; try discriminate. destruct (c_rel c) as [[r|t|r]|] eqn:R; try discriminate.
  - left. exists (r / 100). intros d. unfold value. cbn [units amount]. rewrite R. eexists; split; [reflexivity|]. unfold Qdiv; ring.
  - unfold len_mul in V. cbn [to_len units amount] in V.
    destruct (is0 a) eqn:A.
    { right. apply is0_true in A. inversion V. split; auto. split; [reflexivity|]. intros d D. unfold value. cbn [units]. rewrite R.
      unfold len_mul. cbn [to_len units amount]. apply is0_true in D. rewrite D. simpl. eexists; split; reflexivity. }
    left. set (o := len_of_text t) in *.
    destruct (is0 (amount o)) eqn:O; [discriminate|].
    destruct (unit_eqb UPct (units o)) eqn:UE; [discriminate|]. cbn [rbind] in V.
    assert (V0 : value0 c (mkLen (a * amount o / 100) (units o)) = VNum x) by congruence.
    apply value0_lin in V0 as [f F]. exists (amount o * f / 100). intros d.
    unfold value. cbn [units]. rewrite R. unfold len_mul. cbn [to_len units amount]. fold o. rewrite O, UE.
    destruct (is0 d) eqn:D.
    + apply is0_true in D. simpl. eexists; split; [reflexivity|]. rewrite D. unfold Qdiv; ring.
    + cbn [rbind]. destruct (F (d * amount o / 100)) as (z & -> & Z2). eexists; split; [reflexivity|]. rewrite Z2. unfold Qdiv; ring.
  - left. unfold len_mul in V. cbn [to_len units amount] in V.
    destruct (is0 (amount r)) eqn:A.
    { exists 0. intros d. unfold value. cbn [units]. rewrite R. unfold len_mul. rewrite A. simpl. eexists; split; [reflexivity|]. ring. }
    assert (G : lin0 c (units r)).
    { destruct (is0 a). { simpl in V. inversion V. eapply value0_lin; eauto. }
      destruct (unit_eqb (units r) UPct). { simpl in V. inversion V. eapply value0_lin; eauto. }
      assert (INJ : forall v w : lval, Ok v = Ok w -> v = w) by congruence.
      destruct (units r) eqn:UR; try discriminate; cbn [rbind] in V; apply INJ in V; eapply value0_lin; exact V. }
    destruct G as [f F].
    assert (NP : units r <> UPct).
    { intros E. rewrite E in F. destruct (F 0) as (z & Z1 & _). discriminate. }
    destruct (unit_eqb (units r) UPct) eqn:UE.
    + exists (amount r * f). intros d. unfold value. cbn [units]. rewrite R. unfold len_mul. cbn [to_len units amount]. rewrite A, UE.
      destruct (is0 d) eqn:D; cbn [rbind].
      * apply is0_true in D. destruct (F 0) as (z & -> & Z2). eexists; split; [reflexivity|]. rewrite Z2, D. ring.
      * destruct (F (amount r * d)) as (z & -> & Z2). eexists; split; [reflexivity|]. rewrite Z2. ring.
    + exists (amount r * f / 100). intros d. unfold value. cbn [units]. rewrite R. unfold len_mul. cbn [to_len units amount]. rewrite A, UE.
      destruct (is0 d) eqn:D.
      * apply is0_true in D. cbn [rbind]. destruct (F 0) as (z & -> & Z2). eexists; split; [reflexivity|]. rewrite Z2, D. unfold Qdiv; ring.
      * destruct (F (amount r * d / 100)) as (z & Z1 & Z2).
        destruct (units r) eqn:UR; try congruence; cbn [rbind]; rewrite Z1; eexists; (split; [reflexivity|]); rewrite Z2; unfold Qdiv; ring.
Qed.

(** A unit that resolves, resolves every multiple and sum. *)
Lemma value_comb : forall c u a b x y, value c (mkLen a u) = Ok (VNum x) -> value c (mkLen b u) = Ok (VNum y) ->
  forall p q d, d == p * a + q * b -> exists z, value c (mkLen d u) = Ok (VNum z) /\ z == p * x + q * y.
Proof.
  intros c u a b x y X Y p q d D.
  assert (L : lin c u -> exists z, value c (mkLen d u) = Ok (VNum z) /\ z == p * x + q * y).
  { intros [f F]. destruct (F d) as (z & Z1 & Z2). exists z. split; [exact Z1|]. rewrite Z2, D.
    destruct (F a) as (z1 & A1 & A2). destruct (F b) as (z3 & B1 & B2).
    assert (z1 = x) by congruence. assert (z3 = y) by congruence. subst. rewrite A2, B2. ring. }
  destruct (value_lin _ _ _ _ X) as [G|(A0 & X0 & ZO)]; auto.
  destruct (value_lin _ _ _ _ Y) as [G|(B0 & Y0 & _)]; auto.
  destruct (ZO d) as (z & Z1 & Z2). { rewrite D, A0, B0. ring. }
  exists z. split; [exact Z1|]. rewrite Z2, X0, Y0. ring.
Qed.
Lemma value_scale : forall c u a x, value c (mkLen a u) = Ok (VNum x) ->
  forall p d, d == p * a -> exists z, value c (mkLen d u) = Ok (VNum z) /\ z == p * x.
Proof.
  intros. destruct (value_comb c u a a x x H H p 0 d) as (z & Z1 & Z2). { rewrite H0. ring. }
  exists z. split; [exact Z1|]. rewrite Z2. ring.
Qed.
Lemma value_zero : forall c u a x, value c (mkLen a u) = Ok (VNum x) -> a == 0 -> x == 0.
Proof.
  intros. destruct (value_scale c u a x H 0 a) as (z & Z1 & Z2). { rewrite H0. ring. }
  assert (z = x) by congruence. subst. rewrite Z2. ring.
Qed.

(** * Addition *)
Lemma mix_excl : forall u v, ~ pt_pc_mix u v ->
  ~ (unit_of_text (T u) = UPt /\ unit_of_text (T v) = UPc) /\ ~ (unit_of_text (T u) = UPc /\ unit_of_text (T v) = UPt).
Proof.
  intros u v N. split; intros [A B]; apply N; unfold pt_pc_mix;
  pose proof (unit_spec_ok u) as S1; pose proof (unit_spec_ok v) as S2; rewrite A in S1; rewrite B in S2; simpl in *; auto.
Qed.

Ltac vsolve := unfold value, value0 in *; cbn [units amount] in *;
  repeat match goal with H : context [match c_ppi ?c with _ => _ end] |- _ => destruct (c_ppi c) end; try discriminate;
  repeat match goal with H : Ok (VNum _) = Ok (VNum _) |- _ => inversion H; clear H end; subst;
  eexists; (split; [reflexivity|]); unfold pt_px, cm_in, mm_in, Qdiv; try field.

Lemma iadd_value : forall c a b u v x y s, ~ pt_pc_mix u v ->
  value c (len2 a (T u)) = Ok (VNum x) -> value c (len2 b (T v)) = Ok (VNum y) ->
  len_iadd (len2 a (T u)) (len2 b (T v)) = Ok s ->
  exists z, value c s = Ok (VNum z) /\ z == x + y.
Proof.
  intros c a b u v x y s N X Y A. destruct (mix_excl u v N) as [N1 N2].
  unfold len_iadd, len2 in *. cbn [units amount] in *.
  destruct (unit_eqb (unit_of_text (T u)) (unit_of_text (T v))) eqn:E.
  - apply unit_eqb_text in E. subst v. inversion A; subst.
    destruct (value_comb c _ a b x y X Y 1 1 (a + b)) as (z & Z1 & Z2); [ring|]. exists z. split; [exact Z1|]. rewrite Z2. ring.
  - destruct (is0 a) eqn:A0.
    { apply is0_true in A0. inversion A; subst. exists y. split; auto. rewrite (value_zero _ _ _ _ X A0). ring. }
    destruct (is0 b) eqn:B0.
    { apply is0_true in B0. inversion A; subst. exists x. split; auto. rewrite (value_zero _ _ _ _ Y B0). ring. }
    destruct (unit_of_text (T u)) eqn:EU; try discriminate; destruct (unit_of_text (T v)) eqn:EV; try discriminate;
    inversion A; subst s; try (exfalso; tauto); clear A N1 N2; try (vsolve; fail).
Qed.

Lemma neg_value : forall c u a x, value c (len2 a (T u)) = Ok (VNum x) ->
  exists z, value c (len2 (- a) (T u)) = Ok (VNum z) /\ z == - x.
Proof. intros. destruct (value_scale c _ a x H (-1) (- a)) as (z & Z1 & Z2); [ring|]. exists z. split; [exact Z1|]. rewrite Z2. ring. Qed.

Lemma add_value_lemma : forall c a b u v x y s, ~ pt_pc_mix u v ->
  value c (len2 a (T u)) = Ok (VNum x) -> value c (len2 b (T v)) = Ok (VNum y) ->
  len_add (len2 a (T u)) (ALen (len2 b (T v))) = Ok s ->
  exists z, value c s = Ok (VNum z) /\ z == x + y.
Proof. intros. eapply iadd_value; eauto. Qed.

Lemma sub_value_lemma : forall c a b u v x y s, ~ pt_pc_mix u v ->
  value c (len2 a (T u)) = Ok (VNum x) -> value c (len2 b (T v)) = Ok (VNum y) ->
  len_sub (len2 a (T u)) (ALen (len2 b (T v))) = Ok s ->
  exists z, value c s = Ok (VNum z) /\ z == x - y.
Proof.
  intros c a b u v x y s N X Y S. destruct (neg_value c v b y Y) as (y' & Y1 & Y2).
  destruct (iadd_value c a (- b) u v x y' s N X Y1 S) as (z & Z1 & Z2). exists z. split; [exact Z1|]. rewrite Z2, Y2. ring.
Qed.

Lemma rsub_value_lemma : forall c a b u v x y s, ~ pt_pc_mix u v ->
  value c (len2 a (T u)) = Ok (VNum x) -> value c (len2 b (T v)) = Ok (VNum y) ->
  len_rsub (len2 a (T u)) (ALen (len2 b (T v))) = Ok s ->
  exists z, value c s = Ok (VNum z) /\ z == y - x.
Proof.
  intros c a b u v x y s N X Y S. destruct (neg_value c u a x X) as (x' & X1 & X2).
  destruct (iadd_value c (- a) b u v x' y s N X1 Y S) as (z & Z1 & Z2). exists z. split; [exact Z1|]. rewrite Z2, X2. ring.
Qed.

(** The result keeps the left unit, unless the left side is zero. *)
Lemma iadd_units : forall a b u v s, len_iadd (len2 a (T u)) (len2 b (T v)) = Ok s ->
  exists d, s = len2 d (T u) \/ (a == 0 /\ u <> v /\ s = len2 b (T v)).
Proof.
  intros a b u v s A. unfold len_iadd, len2 in *. cbn [units amount] in *.
  destruct (unit_eqb _ _) eqn:E. { inversion A. eauto. }
  apply unit_eqb_text_f in E.
  destruct (is0 a) eqn:A0. { apply is0_true in A0. inversion A. exists 0. auto. }
  destruct (is0 b). { inversion A. eauto. }
  destruct (unit_of_text (T u)) eqn:EU; try discriminate; destruct (unit_of_text (T v)); try discriminate; inversion A; eauto.
Qed.

Lemma convertible_cases : forall u v, unit_eqb (unit_of_text (T u)) (unit_of_text (T v)) = false ->
  (convertible u v <->
   match unit_of_text (T u), unit_of_text (T v) with
   | (UNone | UPx | UPt | UPc), (UNone | UPx | UPt | UPc) => True
   | (UMm | UCm | UIn), (UMm | UCm | UIn) => True
   | _, _ => False
   end).
Proof.
  intros u v E. apply unit_eqb_text_f in E.
  assert (M : forall w, metric w <-> match unit_of_text (T w) with UMm | UCm | UIn => True | _ => False end).
  { intros w. pose proof (unit_spec_ok w) as S. unfold metric.
    destruct (unit_of_text (T w)); unfold unit_spec in S; try (subst w; intuition discriminate).
    destruct S as [_ S]. unfold known in S. cbn [In] in S. intuition. }
  assert (P : forall w, pxlike w <-> match unit_of_text (T w) with UNone | UPx | UPt | UPc => True | _ => False end).
  { intros w. pose proof (unit_spec_ok w) as S. unfold pxlike.
    destruct (unit_of_text (T w)); unfold unit_spec in S; try (subst w; intuition discriminate).
    destruct S as [_ S]. unfold known in S. cbn [In] in S. intuition. }
  unfold convertible. rewrite !M, !P.
  destruct (unit_of_text (T u)); destruct (unit_of_text (T v)); tauto.
Qed.

Lemma iadd_defined_lemma : forall a b u v,
  (convertible u v \/ a == 0 \/ b == 0 -> exists s, len_iadd (len2 a (T u)) (len2 b (T v)) = Ok s) /\
  (~ convertible u v -> ~ a == 0 -> ~ b == 0 -> len_iadd (len2 a (T u)) (len2 b (T v)) = Err ValueError).
Proof.
  intros a b u v. unfold len_iadd. unfold len2. cbn [units amount].
  destruct (unit_eqb (unit_of_text (T u)) (unit_of_text (T v))) eqn:E.
  { split; eauto. intros N. exfalso. apply N. left. apply unit_eqb_text; auto. }
  rewrite (convertible_cases _ _ E).
  destruct (is0 a) eqn:A0; [apply is0_true in A0; split; [eauto | tauto] | apply is0_false in A0].
  destruct (is0 b) eqn:B0; [apply is0_true in B0; split; [eauto | tauto] | apply is0_false in B0].
  destruct (unit_of_text (T u)); destruct (unit_of_text (T v)); split; intros; try tauto; eauto; discriminate E.
Qed.

Lemma add_sub_lemma : forall c a b u v x y s, ~ pt_pc_mix u v ->
  value c (len2 a (T u)) = Ok (VNum x) -> value c (len2 b (T v)) = Ok (VNum y) ->
  len_add (len2 a (T u)) (ALen (len2 b (T v))) = Ok s ->
  exists r z, len_sub s (ALen (len2 b (T v))) = Ok r /\ value c r = Ok (VNum z) /\ z == x.
Proof.
  intros c a b u v x y s N X Y A. unfold len_add in A. cbn [to_len] in A.
  destruct (iadd_value c a b u v x y s N X Y A) as (w & W1 & W2).
  assert (C : convertible u v \/ a == 0 \/ b == 0).
  { destruct (unit_eqb (unit_of_text (T u)) (unit_of_text (T v))) eqn:E. { left. left. apply unit_eqb_text. auto. }
    destruct (is0 a) eqn:A0. { apply is0_true in A0. auto. }
    destruct (is0 b) eqn:B0. { apply is0_true in B0. auto. }
    left. rewrite (convertible_cases _ _ E). unfold len_iadd, len2 in A. cbn [units amount] in A. rewrite E, A0, B0 in A.
    destruct (unit_of_text (T u)); try discriminate; destruct (unit_of_text (T v)); try discriminate; exact I. }
  destruct (iadd_units a b u v s A) as (d & [->|(A0 & NE & ->)]).
  - destruct (iadd_defined_lemma d (- b) u v) as [D _].
    assert (exists r, len_iadd (len2 d (T u)) (len2 (- b) (T v)) = Ok r) as [r R].
    { destruct C as [C|[C|C]].
      - apply D; auto.
      - destruct (string_dec u v) as [->|NE]. { apply D. left. left. auto. }
        unfold len_iadd, len2 in A. cbn [units amount] in A.
        destruct (unit_eqb (unit_of_text (T u)) (unit_of_text (T v))) eqn:E. { apply unit_eqb_text in E. contradiction. }
        apply is0_true in C. rewrite C in A. inversion A. exfalso. apply NE. apply unit_eqb_text. rewrite H1. apply unit_eqb_refl.
      - apply D. right. right. rewrite C. ring. }
    exists r. destruct (sub_value_lemma c d b u v w y r N W1 Y R) as (z & Z1 & Z2). exists z. split; auto. split; [exact Z1|]. rewrite Z2, W2. ring.
  - destruct (iadd_defined_lemma b (- b) v v) as [D _]. destruct D as [r R]. { left. left. auto. }
    exists r. assert (NM : ~ pt_pc_mix v v). { intros [[K1 K2]|[K1 K2]]; subst; discriminate. }
    destruct (sub_value_lemma c b b v v w y r NM W1 Y R) as (z & Z1 & Z2). exists z. split; auto. split; [exact Z1|]. rewrite Z2, W2. ring.
Qed.

(** * Order *)
Lemma pos_factor : forall c u p a x, value c (len2 1 (T u)) = Ok (VNum p) -> 0 < p ->
  value c (len2 a (T u)) = Ok (VNum x) -> x == a * p.
Proof.
  intros. destruct (value_scale c _ 1 p H a a) as (z & Z1 & Z2); [ring|]. unfold len2 in *. assert (z = x) by congruence. subst. exact Z2.
Qed.
Lemma sign_pos : forall a p, 0 < p -> (a * p < 0 <-> a < 0) /\ (0 < a * p <-> 0 < a).
Proof.
  intros a p P. split; split; intros H.
  - apply Qnot_le_lt. intros L. assert (0 <= a * p) by (apply Qmult_le_0_compat; lra). lra.
  - setoid_replace 0 with (0 * p) by ring. apply Qmult_lt_compat_r; auto.
  - apply Qnot_le_lt. intros L. assert (0 <= (- a) * p) by (apply Qmult_le_0_compat; lra). lra.
  - setoid_replace 0 with (0 * p) by ring. apply Qmult_lt_compat_r; auto.
Qed.

Lemma sub_sign : forall c a b u v x y pu pv s, ~ pt_pc_mix u v ->
  value c (len2 1 (T u)) = Ok (VNum pu) -> 0 < pu -> value c (len2 1 (T v)) = Ok (VNum pv) -> 0 < pv ->
  value c (len2 a (T u)) = Ok (VNum x) -> value c (len2 b (T v)) = Ok (VNum y) ->
  len_sub (len2 a (T u)) (ALen (len2 b (T v))) = Ok s ->
  (amount s < 0 <-> x < y) /\ (0 < amount s <-> y < x).
Proof.
  intros c a b u v x y pu pv s N PU PU0 PV PV0 X Y S.
  destruct (sub_value_lemma c a b u v x y s N X Y S) as (z & Z1 & Z2).
  destruct (iadd_units _ _ _ _ _ S) as (d & [->|(A0 & NE & ->)]).
  - pose proof (pos_factor c u pu d z PU PU0 Z1) as F. destruct (sign_pos d pu PU0) as [S1 S2]. cbn [len2 amount].
    split; [rewrite <- S1 | rewrite <- S2]; rewrite <- F, Z2; split; intros; lra.
  - change (len2 (amount (len_neg (len2 b (T v)))) (T v)) with (len2 (- b) (T v)) in *.
    pose proof (pos_factor c v pv _ z PV PV0 Z1) as F. destruct (sign_pos (- b) pv PV0) as [S1 S2]. cbn [len2 amount len_neg] in *.
    split; [rewrite <- S1 | rewrite <- S2]; rewrite <- F, Z2; split; intros; lra.
Qed.

Lemma order_lemma : forall c a b u v x y pu pv, ~ pt_pc_mix u v ->
  value c (len2 1 (T u)) = Ok (VNum pu) -> 0 < pu -> value c (len2 1 (T v)) = Ok (VNum pv) -> 0 < pv ->
  value c (len2 a (T u)) = Ok (VNum x) -> value c (len2 b (T v)) = Ok (VNum y) ->
  (forall t, len_lt (len2 a (T u)) (ALen (len2 b (T v))) = Ok t -> (t = true <-> x < y)) /\
  (forall t, len_le (len2 a (T u)) (ALen (len2 b (T v))) = Ok t -> (t = true <-> x <= y)) /\
  (forall t, len_gt (len2 a (T u)) (ALen (len2 b (T v))) = Ok t -> (t = true <-> y < x)) /\
  (forall t, len_ge (len2 a (T u)) (ALen (len2 b (T v))) = Ok t -> (t = true <-> y <= x)).
Proof.
  intros c a b u v x y pu pv N PU PU0 PV PV0 X Y.
  assert (H := fun s => sub_sign c a b u v x y pu pv s N PU PU0 PV PV0 X Y).
  unfold len_lt, len_le, len_gt, len_ge.
  destruct (len_sub (len2 a (T u)) (ALen (len2 b (T v)))) as [s|e]; [|simpl; repeat split; intros; discriminate].
  destruct (H s eq_refl) as [H1 H2]. cbn [rbind].
  split; [|split; [|split]]; intros t E; inversion E; clear E.
  - rewrite Qltb_true. exact H1.
  - rewrite Qle_bool_iff. split; intros; [apply Qnot_lt_le; intros K; apply H2 in K; lra | apply Qnot_lt_le; intros K; apply H2 in K; lra].
  - rewrite Qltb_true. exact H2.
  - rewrite Qle_bool_iff. split; intros; [apply Qnot_lt_le; intros K; apply H1 in K; lra | apply Qnot_lt_le; intros K; apply H1 in K; lra].
Qed.

(** A context in which every unit has positive size. *)
Definition c1 : ctx := mkCtx (Some 1) (Some (ANum 100)) (Some (FNum 1)) (Some (FNum 1)) (Some (100, 100)).
Lemma c1_resolves : forall a u, exists x, value c1 (len2 a (T u)) = Ok (VNum x).
Proof.
  intros. unfold value, value0, len2. cbn [units amount c1 c_ppi c_rel c_size c_height c_vb].
  destruct (unit_of_text (T u)); eexists; reflexivity.
Qed.
Lemma c1_pos : forall u, exists p, value c1 (len2 1 (T u)) = Ok (VNum p) /\ 0 < p.
Proof.
  intros. unfold value, value0, len2. cbn [units amount c1 c_ppi c_rel c_size c_height c_vb].
  destruct (unit_of_text (T u)); eexists; split; reflexivity.
Qed.

Lemma lt_irrefl_lemma : forall l, len_lt l (ALen l) = Ok false.
Proof.
  intros [a u]. unfold len_lt, len_sub, len_neg, len_iadd. cbn [to_len units amount]. rewrite unit_eqb_refl. cbn [rbind amount].
  f_equal. apply Qltb_false. setoid_replace (a + - a) with 0 by ring. lra.
Qed.

Lemma lt_trans_lemma : forall a b d u v w r, ~ pt_pc_mix u v -> ~ pt_pc_mix v w -> ~ pt_pc_mix u w ->
  len_lt (len2 a (T u)) (ALen (len2 b (T v))) = Ok true -> len_lt (len2 b (T v)) (ALen (len2 d (T w))) = Ok true ->
  len_lt (len2 a (T u)) (ALen (len2 d (T w))) = Ok r -> r = true.
Proof.
  intros a b d u v w r N1 N2 N3 H1 H2 H3.
  destruct (c1_resolves a u) as [x X]. destruct (c1_resolves b v) as [y Y]. destruct (c1_resolves d w) as [z Z].
  destruct (c1_pos u) as (p & P & P0). destruct (c1_pos v) as (q & Q & Q0). destruct (c1_pos w) as (o & O & O0).
  destruct (order_lemma c1 a b u v x y p q N1 P P0 Q Q0 X Y) as (K1 & _).
  destruct (order_lemma c1 b d v w y z q o N2 Q Q0 O O0 Y Z) as (K2 & _).
  destruct (order_lemma c1 a d u w x z p o N3 P P0 O O0 X Z) as (K3 & _).
  apply K3 in H3. apply H3. destruct (K1 true H1) as [K1' _]. destruct (K2 true H2) as [K2' _].
  apply Qlt_trans with y; auto.
Qed.

(** * Scaling *)
Lemma mul_value_lemma : forall c a u k x, value c (len2 a (T u)) = Ok (VNum x) ->
  exists s z, len_mul (len2 a (T u)) (ANum k) = Ok (VLen s) /\ value c s = Ok (VNum z) /\ z == k * x.
Proof.
  intros c a u k x X. unfold len_mul. cbn [len2 amount units].
  destruct (value_scale c _ a x X k (a * k)) as (z & Z1 & Z2); [ring|]. eexists _, z. split; [reflexivity|]. auto.
Qed.
Lemma mul_div_lemma : forall a u k, ~ k == 0 -> exists s r, len_mul (len2 a (T u)) (ANum k) = Ok (VLen s) /\
  len_div s (ANum k) = Ok (VLen (len2 r (T u))) /\ r == a.
Proof.
  intros a u k K. unfold len_mul, len_div, qdiv. cbn [len2 amount units].
  eexists _, _. split; [reflexivity|]. cbn [amount units]. apply is0_false in K. rewrite K. cbn [rbind]. split; [reflexivity|].
  apply is0_false in K. field. exact K.
Qed.

Lemma qdiv_ok : forall a b r, qdiv a b = Ok r -> ~ b == 0 /\ r == a / b.
Proof. unfold qdiv. intros a b r H. destruct (is0 b) eqn:E; inversion H. apply is0_false in E. split; auto. reflexivity. Qed.
Lemma rmap_ok : forall A B (f : A -> B) r b, rmap f r = Ok b -> exists a, r = Ok a /\ b = f a.
Proof. intros. destruct r; inversion H. eauto. Qed.

Ltac rsolve Q X Y := apply qdiv_ok in Q as [Q1 Q2]; unfold value, value0 in X, Y; cbn [units amount] in X, Y;
  repeat match goal with H : context [match c_ppi ?c with _ => _ end] |- _ => destruct (c_ppi c) end; try discriminate;
  inversion X; inversion Y; subst; rewrite Q2; unfold pt_px, cm_in, mm_in, Qdiv in *; field; 
  try (intros K; rewrite K in Q1; apply Q1; ring).

Lemma div_ratio_lemma : forall c a b u v x y r, ~ pt_pc_mix u v ->
  value c (len2 a (T u)) = Ok (VNum x) -> value c (len2 b (T v)) = Ok (VNum y) ->
  len_div (len2 a (T u)) (ALen (len2 b (T v))) = Ok (VNum r) -> r * y == x.
Proof.
  intros c a b u v x y r N X Y D. destruct (mix_excl u v N) as [N1 N2].
  unfold len_div in D. cbn [to_len] in D. unfold len2 in *. cbn [units amount] in *.
  destruct (is0 a) eqn:A0. { apply is0_true in A0. inversion D. rewrite (value_zero _ _ _ _ X A0). ring. }
  destruct (unit_eqb (unit_of_text (T u)) (unit_of_text (T v))) eqn:E.
  - apply unit_eqb_text in E. subst v. apply rmap_ok in D as (q & D & R). inversion R; subst q.
    apply qdiv_ok in D as [B R']. destruct (value_scale c _ b y Y r a) as (z & Z1 & Z2). { rewrite R'. field. auto. }
    assert (z = x) by congruence. subst. symmetry. exact Z2.
  - apply rmap_ok in D as (q & D & R). inversion R; subst q. clear R E.
    destruct (unit_of_text (T u)) eqn:EU; try discriminate; destruct (unit_of_text (T v)) eqn:EV; try discriminate; try (exfalso; tauto);
    clear N1 N2; rsolve D X Y.
Qed.

Lemma div_by_zero_lemma : forall a b u v, ~ a == 0 -> b == 0 -> convertible u v ->
  len_div (len2 a (T u)) (ALen (len2 b (T v))) = Err ZeroDivisionError.
Proof.
  intros a b u v A B C. unfold len_div. cbn [to_len]. unfold len2. cbn [units amount].
  apply is0_false in A. rewrite A.
  destruct (unit_eqb (unit_of_text (T u)) (unit_of_text (T v))) eqn:E.
  { unfold qdiv. apply is0_true in B. rewrite B. reflexivity. }
  assert (Z : forall k, qdiv a (b * k) = Err ZeroDivisionError).
  { intros. unfold qdiv. replace (is0 (b * k)) with true; auto. symmetry. apply is0_true. rewrite B. ring. }
  assert (Z' : forall k, qdiv a (b / k) = Err ZeroDivisionError) by (intros; apply Z).
  assert (Z1 : qdiv a b = Err ZeroDivisionError). { unfold qdiv. apply is0_true in B. rewrite B. reflexivity. }
  apply (convertible_cases _ _ E) in C.
  destruct (unit_of_text (T u)); try contradiction; destruct (unit_of_text (T v)); try contradiction; rewrite ?Z, ?Z', ?Z1; try reflexivity; discriminate E.
Qed.
Lemma div_incompatible_lemma : forall a b u v, ~ a == 0 -> ~ convertible u v ->
  len_div (len2 a (T u)) (ALen (len2 b (T v))) = Err ValueError.
Proof.
  intros a b u v A C. unfold len_div. cbn [to_len]. unfold len2. cbn [units amount].
  apply is0_false in A. rewrite A.
  destruct (unit_eqb (unit_of_text (T u)) (unit_of_text (T v))) eqn:E.
  { exfalso. apply C. left. apply unit_eqb_text. auto. }
  rewrite (convertible_cases _ _ E) in C.
  destruct (unit_of_text (T u)); destruct (unit_of_text (T v)); try tauto; reflexivity.
Qed.

(** * Equality *)
Lemma eq_refl_lemma : forall l, len_eq l (Some (ALen l)) = true.
Proof.
  intros [a u]. unfold len_eq. cbn [to_len amount units]. rewrite unit_eqb_refl.
  replace (Qeq_bool a a) with true. reflexivity. symmetry. apply Qeq_bool_iff. reflexivity.
Qed.
Lemma near_refl : forall p, near p p = true.
Proof. intros. unfold near. apply Qle_bool_iff. setoid_replace (p - p) with 0 by ring. discriminate. Qed.
Lemma eq_partial_lemma : forall a b u v, ~ pxlike u -> ~ metric u ->
  (len_eq (len2 a (T u)) (Some (ALen (len2 b (T v)))) = true <-> a == b /\ u = v).
Proof.
  intros a b u v P M. unfold len_eq. cbn [to_len]. unfold len2. cbn [amount units].
  pose proof (unit_spec_ok u) as S. unfold pxlike, metric in *.
  destruct (Qeq_bool a b && unit_eqb (unit_of_text (T u)) (unit_of_text (T v))) eqn:E.
  - apply andb_true_iff in E as [E1 E2]. apply Qeq_bool_iff in E1. apply unit_eqb_text in E2. tauto.
  - assert (NE : ~ (a == b /\ u = v)).
    { intros [K1 K2]. apply Qeq_bool_iff in K1. apply unit_eqb_text in K2. rewrite K1, K2 in E. discriminate. }
    unfold in_pixels, in_inches. cbn [units].
    destruct (unit_of_text (T u)); unfold unit_spec in S; try (exfalso; tauto); split; intros; try discriminate; tauto.
Qed.
(** On the units it does convert it answers True for every other length. *)
Lemma eq_always_lemma : forall a b u v, pxlike u \/ metric u -> len_eq (len2 a (T u)) (Some (ALen (len2 b (T v)))) = true.
Proof.
  intros a b u v H. unfold len_eq. cbn [to_len].
  destruct (_ && _); auto. unfold in_pixels, in_inches, len2. cbn [units amount].
  unfold pxlike, metric in H.
  repeat (destruct H as [H|H]); subst u; simpl; rewrite near_refl; reflexivity.
Qed.

(** * Conversion to mm, cm, in *)
Lemma static_len : forall q, length_str q = static_str (VNum q). Proof. reflexivity. Qed.
Lemma to_unit_lemma : forall k u ppi c l x, ~ ppi * k == 0 -> forallb is_unit_char u = true ->
  value (mkCtx (Some ppi) (c_rel c) (c_size c) (c_height c) (c_vb c)) l = Ok (VNum x) ->
  exists d, to_unit k u ppi c l = Ok (len2 d u) /\ Qabs (d * (ppi * k) - x) <= (1 # 2000000000000) * Qabs (ppi * k).
Proof.
  intros k u ppi c l x P U V. unfold to_unit. rewrite V. cbn [rbind lval_div].
  unfold qdiv. apply is0_false in P. rewrite P. apply is0_false in P. cbn [rmap rbind static_str].
  set (q := x / (ppi * k)).
  assert (UT : T (string_of_list_ascii u) = u) by apply list_ascii_of_string_of_list_ascii.
  destruct (len_text_near_lemma q (string_of_list_ascii u)) as (d & D1 & D2). { rewrite UT. auto. }
  exists d. unfold len_str in D1. change (amount (len2 q (T (string_of_list_ascii u)))) with q in D1.
  change (units (len2 q (T (string_of_list_ascii u)))) with (unit_of_text (T (string_of_list_ascii u))) in D1. rewrite unit_text_of in D1. rewrite UT in D1.
  split; [rewrite D1; reflexivity|].
  setoid_replace (d * (ppi * k) - x) with ((d - q) * (ppi * k)).
  2:{ unfold q. field. split; intros K; apply P; rewrite K; ring. }
  rewrite Qabs_Qmult. apply Qmult_le_compat_r; [|apply Qabs_nonneg]. exact D2.
Qed.

Lemma len_of_lit_any : forall l u, lit_ok l -> forallb is_unit_char (T u) = true ->
  exists a, len_of_text (lit_text l ++ T u) = len2 a (T u) /\ a == lit_val l.
Proof.
  intros l u L H. exists (fnum_val (fnum_of l)). split; [|apply fnum_val_lit; auto].
  unfold len_of_text. erewrite match_float_first.
  2:{ apply match_float_lit; [exact L|]. 
      destruct (unit_no_cont (mkLit SNone [0%Z] (l_frac l) None) (T u) eq_refl H) as (N1 & N2 & N3).
      split; auto. split. intros F _. apply N2; auto. intros _. apply N3. reflexivity. }
  rewrite (span_all _ _ H). reflexivity.
Qed.

Lemma value_rel_text_lemma : forall c a b t u x, u <> "%"%string -> ~ b == 0 -> len_of_text t = len2 b (T u) ->
  c_rel c = Some (AText t) -> value c (len2 b (T u)) = Ok (VNum x) ->
  exists y, value c (len2 a (T "%")) = Ok (VNum y) /\ y == a * (x / 100).
Proof.
  intros c a b t u x N B E R V.
  assert (V0 : value0 c (mkLen b (unit_of_text (T u))) = VNum x).
  { unfold value, len2 in V. cbn [units] in V. pose proof (unit_spec_ok u) as S.
    destruct (unit_of_text (T u)) eqn:EU; unfold unit_spec in S; congruence. }
  destruct (value0_lin _ _ _ _ V0) as [f F].
  assert (X : x == b * f). { destruct (F b) as (z & Z1 & Z2). assert (z = x) by congruence. subst. exact Z2. }
  unfold value, len2. change (unit_of_text (T "%")) with UPct. cbn [units]. rewrite R. unfold len_mul. cbn [to_len amount units].
  rewrite E. unfold len2. cbn [amount units].
  destruct (is0 a) eqn:A. { apply is0_true in A. simpl. eexists; split; [reflexivity|]. rewrite A. unfold Qdiv; ring. }
  apply is0_false in B. rewrite B.
  replace (unit_eqb UPct (unit_of_text (T u))) with false.
  2:{ symmetry. change UPct with (unit_of_text (T "%")). apply unit_eqb_text_f. auto. }
  cbn [rbind]. destruct (F (a * b / 100)) as (z & -> & Z2). eexists; split; [reflexivity|]. rewrite Z2, X. unfold Qdiv; ring.
Qed.
Lemma convert_lemma : forall ppi c l x, ~ ppi == 0 ->
  value (mkCtx (Some ppi) (c_rel c) (c_size c) (c_height c) (c_vb c)) l = Ok (VNum x) ->
  exists m n i xm xn xi,
    to_mm ppi c l = Ok (len2 m (T "mm")) /\ to_cm ppi c l = Ok (len2 n (T "cm")) /\ to_inch ppi c l = Ok (len2 i (T "in")) /\
    value (mkCtx (Some ppi) None None None None) (len2 m (T "mm")) = Ok (VNum xm) /\
    value (mkCtx (Some ppi) None None None None) (len2 n (T "cm")) = Ok (VNum xn) /\
    value (mkCtx (Some ppi) None None None None) (len2 i (T "in")) = Ok (VNum xi) /\
    Qabs (xm - x) <= (1 # 2000000000000) * Qabs ppi /\ Qabs (xn - x) <= (1 # 2000000000000) * Qabs ppi /\
    Qabs (xi - x) <= (1 # 2000000000000) * Qabs ppi.
Proof.
  intros ppi c l x P V.
  assert (NZ : forall k, ~ k == 0 -> ~ ppi * k == 0).
  { intros k K E. apply Qmult_integral in E. tauto. }
  destruct (to_unit_lemma mm_in (T "mm") ppi c l x) as (m & M1 & M2); [apply NZ; discriminate | reflexivity | exact V |].
  destruct (to_unit_lemma cm_in (T "cm") ppi c l x) as (n & N1 & N2); [apply NZ; discriminate | reflexivity | exact V |].
  destruct (to_unit_lemma 1 (T "in") ppi c l x) as (i & I1 & I2); [apply NZ; discriminate | reflexivity | exact V |].
  assert (B : forall k, 0 <= k -> k <= 1 -> (1 # 2000000000000) * Qabs (ppi * k) <= (1 # 2000000000000) * Qabs ppi).
  { intros k K0 K1. rewrite Qabs_Qmult, (Qabs_pos k) by auto. 
    pose proof (Qabs_nonneg ppi). rewrite !(Qmult_comm (1 # 2000000000000)). apply Qmult_le_compat_r; [|discriminate].
    rewrite <- (Qmult_1_r (Qabs ppi)) at 2. rewrite !(Qmult_comm (Qabs ppi)). apply Qmult_le_compat_r; auto. }
  eexists m, n, i, _, _, _. repeat (split; [first [exact M1 | exact N1 | exact I1 | reflexivity]|]).
  split; [|split].
  - setoid_replace (m * ppi * mm_in - x) with (m * (ppi * mm_in) - x) by ring.
    eapply Qle_trans; [exact M2|]. apply B; discriminate.
  - setoid_replace (n * ppi * cm_in - x) with (n * (ppi * cm_in) - x) by ring.
    eapply Qle_trans; [exact N2|]. apply B; discriminate.
  - setoid_replace (i * ppi - x) with (i * (ppi * 1) - x) by ring.
    eapply Qle_trans; [exact I2|]. apply B; discriminate.
Qed.
