(** Printed decimals are literals with the right value. *)
Require Import ZArith QArith Qabs Qround Ascii String List Bool Lia Lqa ZifyBool Qfield.
Require Import Verif.Base Verif.Text_Spec Verif.Text_Proofs Verif.Fmt_Model Verif.Color_Spec Verif.Color_Proofs.
Import ListNotations.
Open Scope Z_scope.

Lemma dch_dchar : forall d, is_dig d -> dch d = dchar d.
Proof.
  intros d D. unfold is_dig in D.
  assert (d = 0 \/ d = 1 \/ d = 2 \/ d = 3 \/ d = 4 \/ d = 5 \/ d = 6 \/ d = 7 \/ d = 8 \/ d = 9) by lia.
  repeat (destruct H as [->|H]; [reflexivity|]). subst. reflexivity.
Qed.
Lemma map_dch : forall ds, Forall is_dig ds -> map dch ds = dtext ds.
Proof. intros. unfold dtext. apply map_ext_in. intros a Ha. rewrite Forall_forall in H. apply dch_dchar; auto. Qed.

Lemma dval_snoc : forall ds d, dval (ds ++ [d]) = 10 * dval ds + d.
Proof. intros. rewrite dval_app. cbn [dval List.length]. change (10 ^ Z.of_nat 1) with 10. change (10 ^ Z.of_nat 0) with 1. lia. Qed.

Lemma digits_fuel_spec : forall k n, 0 <= n < 2 ^ Z.of_nat k -> (0 < k)%nat ->
  dval (digits_fuel k n) = n /\ Forall is_dig (digits_fuel k n) /\ digits_fuel k n <> [].
Proof.
  induction k; intros n H K. lia.
  simpl. destruct (n <? 10) eqn:E.
  - repeat split; try discriminate. simpl; lia. constructor; [unfold is_dig; lia|constructor].
  - assert (KK : (0 < k)%nat). { destruct k; [|lia]. simpl in H. lia. }
    destruct (IHk (n / 10)) as (A & B & C); auto.
    { split. apply Z.div_pos; lia. apply Z.div_lt_upper_bound; [lia|].
      rewrite Nat2Z.inj_succ, Z.pow_succ_r in H by lia. lia. }
    rewrite dval_snoc, A. split; [|split].
    + rewrite (Z.div_mod n 10) at 3 by lia. lia.
    + apply Forall_app. split; auto. constructor; [|constructor]. unfold is_dig. pose proof (Z.mod_pos_bound n 10). lia.
    + destruct (digits_fuel k (n/10)); discriminate.
Qed.
Lemma digits_spec : forall n, 0 <= n -> dval (digits n) = n /\ Forall is_dig (digits n) /\ digits n <> [].
Proof.
  intros. unfold digits. apply digits_fuel_spec; [|lia]. rewrite Nat2Z.inj_succ, Z2Nat.id by apply Z.log2_nonneg.
  destruct (Z.eq_dec n 0) as [->|N]; [simpl; lia|]. pose proof (Z.log2_spec n). lia.
Qed.
Lemma fixed_spec : forall k n, 0 <= n < 10 ^ Z.of_nat k ->
  dval (fixed_digits k n) = n /\ Forall is_dig (fixed_digits k n) /\ List.length (fixed_digits k n) = k.
Proof.
  induction k; intros n H.
  - simpl in *. repeat split; auto; lia.
  - rewrite Nat2Z.inj_succ, Z.pow_succ_r in H by lia. simpl.
    destruct (IHk (n / 10)) as (A & B & C).
    { split. apply Z.div_pos; lia. apply Z.div_lt_upper_bound; lia. }
    rewrite dval_snoc, A. split; [|split].
    + rewrite (Z.div_mod n 10) at 3 by lia. lia.
    + apply Forall_app. split; auto. constructor; [|constructor]. unfold is_dig. pose proof (Z.mod_pos_bound n 10). lia.
    + rewrite app_length. simpl. lia.
Qed.

(** Trailing zeros. *)
Fixpoint strip0 (ds : list Z) : list Z :=
  match ds with
  | [] => []
  | d :: ds' => match strip0 ds' with [] => if d =? 0 then [] else [d] | r => d :: r end
  end.
Lemma strip0_spec : forall ds, Forall is_dig ds -> exists k, ds = strip0 ds ++ repeat 0 k /\
   Forall is_dig (strip0 ds) /\ (strip0 ds = [] \/ exists r d, strip0 ds = r ++ [d] /\ d <> 0 /\ is_dig d).
Proof.
  induction 1 as [|d ds D F IH].
  - exists O. simpl. auto.
  - destruct IH as (k & E & G & L). simpl. destruct (strip0 ds) as [|x r] eqn:S.
    + simpl in E. destruct (Z.eqb_spec d 0).
      * exists (Datatypes.S k). subst d. simpl. rewrite <- E. auto.
      * exists k. simpl. rewrite <- E. split; auto. split; [constructor; auto|]. right. exists [], d. auto.
    + exists k. simpl. simpl in E. rewrite <- E. split; auto. split; [constructor; auto|]. right.
      destruct L as [L|(r' & d' & L & N & D')]; [discriminate|]. exists (d :: r'), d'. rewrite L. auto.
Qed.

Lemma lstrip1_repeat : forall c k s, lstrip1 c (repeat c k ++ s) = lstrip1 c s.
Proof. induction k; simpl; intros; auto. rewrite aeqb_refl. auto. Qed.
Lemma rstrip1_repeat : forall c k s, rstrip1 c (s ++ repeat c k) = rstrip1 c s.
Proof.
  intros. unfold rstrip1. rewrite rev_app_distr.
  assert (R : rev (repeat c k) = repeat c k).
  { induction k; auto. simpl. rewrite IHk. rewrite <- repeat_cons. reflexivity. }
  rewrite R, lstrip1_repeat. reflexivity.
Qed.
Lemma rstrip1_last : forall c s x, x <> c -> rstrip1 c (s ++ [x]) = s ++ [x].
Proof.
  intros. unfold rstrip1. rewrite rev_app_distr. simpl. apply aeqb_false in H. rewrite H.
  simpl. rewrite rev_involutive. reflexivity.
Qed.
Lemma rstrip1_nil : forall c, rstrip1 c [] = [].
Proof. reflexivity. Qed.
Lemma rstrip1_one : forall c s, rstrip1 c (s ++ [c]) = rstrip1 c s.
Proof. intros. apply (rstrip1_repeat c 1). Qed.

Lemma dchar_not_dot : forall d, dchar d <> "."%char.
Proof. intros d. unfold dchar. destruct d as [|d|d]; try discriminate. do 4 (try destruct d; try discriminate). Qed.
Lemma dchar_zero : forall d, is_dig d -> d <> 0 -> dchar d <> "0"%char.
Proof.
  intros d D N. unfold is_dig in D.
  assert (d = 1 \/ d = 2 \/ d = 3 \/ d = 4 \/ d = 5 \/ d = 6 \/ d = 7 \/ d = 8 \/ d = 9) by lia.
  repeat (destruct H as [->|H]; [discriminate|]). subst. discriminate.
Qed.

Lemma map_rep : forall A B (f : A -> B) x k, map f (repeat x k) = repeat (f x) k.
Proof. induction k; simpl; f_equal; auto. Qed.

(** Stripping zeros from "int.frac" drops the trailing zeros of the fraction, and the point if none is left. *)
Lemma strip_zeros_lit : forall pre ints fs, ints <> [] -> Forall is_dig fs ->
  strip_zeros (pre ++ dtext ints ++ "."%char :: dtext fs)
  = pre ++ dtext ints ++ match strip0 fs with [] => [] | r => "."%char :: dtext r end.
Proof.
  intros pre ints fs NI F. unfold strip_zeros.
  destruct (strip0_spec fs F) as (k & E & G & L). rewrite E at 1.
  replace (pre ++ dtext ints ++ "."%char :: dtext (strip0 fs ++ repeat 0 k))
    with ((pre ++ dtext ints ++ "."%char :: dtext (strip0 fs)) ++ repeat "0"%char k).
  2:{ unfold dtext. rewrite map_app, <- !app_assoc. simpl. rewrite map_rep. reflexivity. }
  rewrite rstrip1_repeat.
  destruct L as [L|(r & d & L & N & D)].
  - rewrite L. simpl. rewrite app_nil_r.
    rewrite app_assoc, rstrip1_last by discriminate. rewrite rstrip1_one.
    destruct (exists_last NI) as (i' & x & ->). unfold dtext. rewrite map_app, app_assoc. simpl.
    apply rstrip1_last, dchar_not_dot.
  - rewrite L. unfold dtext. rewrite map_app. simpl.
    assert (EQ : match r ++ [d] with [] => [] | _ => "."%char :: map dchar r ++ [dchar d] end = "."%char :: map dchar r ++ [dchar d]) by (destruct r; reflexivity).
    replace (match r ++ [d] with [] => [] | r0 :: l => "."%char :: dchar r0 :: map dchar l end) with ("."%char :: map dchar r ++ [dchar d])
      by (destruct r; simpl; rewrite ?map_app; reflexivity).
    rewrite app_comm_cons, !app_assoc. rewrite rstrip1_last by (apply dchar_zero; auto). apply rstrip1_last, dchar_not_dot.
Qed.

Lemma dval_repeat0 : forall k, dval (repeat 0 k) = 0.
Proof. induction k; simpl; auto. Qed.

Lemma p10_neg : forall k, (p10 (- Z.of_nat k) == / inject_Z (10 ^ Z.of_nat k))%Q.
Proof. intros. rewrite <- ten_pow_p10. unfold ten_pow. destruct k; simpl; reflexivity. Qed.

Lemma frac_strip : forall fs, Forall is_dig fs ->
  (inject_Z (dval (strip0 fs)) * p10 (- Z.of_nat (List.length (strip0 fs))) == inject_Z (dval fs) * p10 (- Z.of_nat (List.length fs)))%Q.
Proof.
  intros fs F. destruct (strip0_spec fs F) as (k & E & _). rewrite E at 3 4.
  rewrite dval_app, dval_repeat0, app_length, repeat_length, Z.add_0_r.
  rewrite inject_Z_mult, !p10_neg, Nat2Z.inj_add, Z.pow_add_r, inject_Z_mult by lia.
  field. split; intros K; change 0%Q with (inject_Z 0) in K; rewrite inject_Z_injective in K; 
  pose proof (Z.pow_pos_nonneg 10 (Z.of_nat k)); pose proof (Z.pow_pos_nonneg 10 (Z.of_nat (List.length (strip0 fs)))); lia.
Qed.

(** Length.str of a number with at most 12 decimals is a literal with that value. *)
Definition f12_lit (neg : bool) (n : Z) : lit :=
  mkLit (if neg then SMinus else SNone) (digits (n / 10 ^ 12)) (strip0 (fixed_digits 12 (n mod 10 ^ 12))) None.
Lemma f12_lit_ok : forall neg n, 0 <= n -> lit_ok (f12_lit neg n).
Proof.
  intros neg n H. destruct (digits_spec (n / 10 ^ 12)) as (A & B & C). { apply Z.div_pos; lia. }
  destruct (fixed_spec 12 (n mod 10 ^ 12)) as (D & E & F). { apply Z.mod_pos_bound. lia. }
  destruct (strip0_spec _ E) as (k & _ & G & _).
  unfold lit_ok, f12_lit; cbn [l_int l_frac l_exp]. auto.
Qed.
Lemma f12_text : forall q n, n = Qround_even (Qabs q * inject_Z (10 ^ 12)) -> 0 <= n ->
  length_str q = lit_text (f12_lit (Qltb q 0) n).
Proof.
  intros q n E N. unfold length_str, fmt_f12. rewrite <- E.
  destruct (digits_spec (n / 10 ^ 12)) as (A & B & C). { apply Z.div_pos; lia. }
  destruct (fixed_spec 12 (n mod 10 ^ 12)) as (D & G & F). { apply Z.mod_pos_bound. lia. }
  rewrite !map_dch by auto. rewrite strip_zeros_lit by auto.
  unfold lit_text, f12_lit; cbn [l_sgn l_int l_frac l_exp]. rewrite app_nil_r.
  destruct (Qltb q 0); reflexivity.
Qed.
Lemma f12_val : forall neg n, 0 <= n -> (lit_val (f12_lit neg n) == inject_Z (if neg then - n else n) / inject_Z (10 ^ 12))%Q.
Proof.
  intros neg n N. unfold lit_val, f12_lit; cbn [l_sgn l_int l_frac l_exp].
  destruct (digits_spec (n / 10 ^ 12)) as (A & B & C). { apply Z.div_pos; lia. }
  destruct (fixed_spec 12 (n mod 10 ^ 12)) as (D & E & F). { apply Z.mod_pos_bound. lia. }
  rewrite frac_strip by auto. rewrite A, D, F, p10_neg. change (p10 0) with 1%Q.
  assert (DM := Z.div_mod n (10 ^ 12) ltac:(lia)).
  assert (Q1 : (inject_Z n == inject_Z (10 ^ 12) * inject_Z (n / 10 ^ 12) + inject_Z (n mod 10 ^ 12))%Q).
  { rewrite <- inject_Z_mult, <- inject_Z_plus, <- DM. reflexivity. }
  change (Z.of_nat 12) with 12.
  destruct neg; cbn [sgn_z].
  - rewrite inject_Z_opp, Q1. change (inject_Z (-1)) with (-1)%Q. field. discriminate.
  - rewrite Q1. change (inject_Z 1) with 1%Q. field. discriminate.
Qed.

Lemma round_inject : forall n, Qround_even (inject_Z n) = n.
Proof.
  intros. eapply nearest_unique; [apply round_nearest|]. unfold nearest. repeat split; try lra.
Qed.

Lemma length_str_spec : forall q, exists l, lit_ok l /\ l_exp l = None /\ length_str q = lit_text l /\
  exists n, nearest (Qabs q * inject_Z (10^12)) n /\ 0 <= n /\ (lit_val l == inject_Z (if Qltb q 0 then - n else n) / inject_Z (10^12))%Q.
Proof.
  intros q. pose proof (round_nearest (Qabs q * inject_Z (10 ^ 12))) as R.
  set (n := Qround_even (Qabs q * inject_Z (10 ^ 12))) in *.
  assert (N : 0 <= n).
  { destruct R as (R1 & R2 & _). assert (-1 < n); [|lia]. rewrite Zlt_Qlt. change (inject_Z (-1)) with (-1)%Q.
    assert (0 <= Qabs q * inject_Z (10^12))%Q. { apply Qmult_le_0_compat; [apply Qabs_nonneg|]. discriminate. } lra. }
  exists (f12_lit (Qltb q 0) n). split; [apply f12_lit_ok; auto|]. split; [reflexivity|].
  split; [apply f12_text; auto|]. exists n. split; auto. split; auto. apply f12_val; auto.
Qed.

(** Exact when the value has at most 12 decimals. *)
Lemma length_str_exact : forall q k, (q * inject_Z (10 ^ 12) == inject_Z k)%Q -> exists l, lit_ok l /\ l_exp l = None /\
  length_str q = lit_text l /\ (lit_val l == q)%Q.
Proof.
  intros q k H. destruct (length_str_spec q) as (l & L & X & T1 & n & N & N0 & V).
  exists l. repeat split; auto; try apply L. rewrite V. clear V T1 L.
  assert (A : (Qabs q * inject_Z (10^12) == inject_Z (Z.abs k))%Q).
  { setoid_replace (Qabs q * inject_Z (10^12))%Q with (Qabs (q * inject_Z (10^12))) by (rewrite Qabs_Qmult; reflexivity).
    rewrite H. reflexivity. }
  assert (E : n = Z.abs k).
  { eapply nearest_unique; [exact N|]. unfold nearest. rewrite A. repeat split; try lra. }
  assert (P : (0 < inject_Z (10^12))%Q) by reflexivity.
  destruct (Qltb q 0) eqn:S; [apply Qltb_true in S | apply Qltb_false in S].
  - assert (k <= 0). { assert (k < 1); [|lia]. rewrite Zlt_Qlt, <- H. change (inject_Z 1) with 1%Q.
      assert (q * inject_Z (10^12) < 0)%Q; [|lra]. rewrite <- (Qmult_0_l (inject_Z (10^12))). apply Qmult_lt_r; auto. }
    subst n. replace (- Z.abs k) with k by lia. rewrite <- H. field. discriminate.
  - assert (0 <= k). { rewrite Zle_Qle, <- H. apply Qmult_le_0_compat; auto. discriminate. }
    subst n. replace (Z.abs k) with k by lia. rewrite <- H. field. discriminate.
Qed.
