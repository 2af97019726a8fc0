(** Supporting lemmas for the colour theorems. *)
Require Import ZArith QArith Qround Qabs List Ascii String Bool Lia Lqa ZifyBool.
Require Import Verif.Base Verif.Text_Spec Verif.Text_Proofs Verif.Color_Model Verif.Color_Spec.
Import ListNotations.
Open Scope Z_scope.

(** ** Bits *)
Lemma land255 : forall x, Z.land x 255 = x mod 256.
Proof. intros. change 255 with (Z.ones 8). rewrite Z.land_ones by lia. reflexivity. Qed.

Lemma get_red_arith : forall v, get_red v = cR (unpack v).
Proof. intros. unfold get_red. rewrite land255, Z.shiftr_div_pow2 by lia. reflexivity. Qed.
Lemma get_green_arith : forall v, get_green v = cG (unpack v).
Proof. intros. unfold get_green. rewrite land255, Z.shiftr_div_pow2 by lia. reflexivity. Qed.
Lemma get_blue_arith : forall v, get_blue v = cB (unpack v).
Proof. intros. unfold get_blue. rewrite land255, Z.shiftr_div_pow2 by lia. reflexivity. Qed.
Lemma get_alpha_arith : forall v, get_alpha v = cA (unpack v).
Proof. intros. unfold get_alpha. rewrite land255. reflexivity. Qed.

Lemma lor_shiftl_add : forall u k y, 0 <= k -> 0 <= y < 2 ^ k ->
  Z.lor (Z.shiftl u k) y = u * 2 ^ k + y.
Proof.
  intros u k y Hk Hy.
  assert (L : Z.land (Z.shiftl u k) y = 0).
  { apply Z.bits_inj'. intros n Hn. rewrite Z.land_spec, Z.bits_0, Z.shiftl_spec by lia.
    destruct (Z_lt_ge_dec n k).
    - rewrite Z.testbit_neg_r by lia. reflexivity.
    - destruct (Z.eq_dec y 0) as [->|Y]. { rewrite Z.bits_0. apply andb_false_r. }
      assert (Z.log2 y < k) by (apply Z.log2_lt_pow2; lia).
      rewrite (Z.bits_above_log2 y n) by lia. apply andb_false_r. }
  rewrite <- Z.lxor_lor, <- Z.add_nocarry_lxor by auto.
  rewrite Z.shiftl_mul_pow2 by lia. reflexivity.
Qed.

Lemma lor_pack : forall r g b a, byte r -> byte g -> byte b -> byte a ->
  Z.lor (Z.lor (Z.lor (Z.shiftl r 24) (Z.shiftl g 16)) (Z.shiftl b 8)) a = pack (mkRGBA r g b a).
Proof.
  unfold byte, pack; cbn [cR cG cB cA]; intros.
  rewrite <- !Z.lor_assoc.
  rewrite (lor_shiftl_add b 8 a) by lia.
  rewrite (lor_shiftl_add g 16) by lia.
  rewrite (lor_shiftl_add r 24) by lia.
  lia.
Qed.

Lemma unpack_pack : forall c, rgba_ok c -> unpack (pack c) = c.
Proof.
  intros [r g b a] (H1 & H2 & H3 & H4). unfold byte in *; cbn in *. unfold unpack, pack; cbn [cR cG cB cA].
  f_equal; Z.to_euclidean_division_equations; lia.
Qed.

Lemma pack_unpack : forall v, 0 <= v < 2^32 -> pack (unpack v) = v.
Proof. intros v H. unfold unpack, pack; cbn [cR cG cB cA]. Z.to_euclidean_division_equations; lia. Qed.

Lemma unpack_ok : forall v, rgba_ok (unpack v).
Proof.
  intros. unfold rgba_ok, byte, unpack; cbn [cR cG cB cA].
  pose proof (Z.mod_pos_bound (v / 2^24) 256). pose proof (Z.mod_pos_bound (v / 2^16) 256).
  pose proof (Z.mod_pos_bound (v / 2^8) 256). pose proof (Z.mod_pos_bound v 256). lia.
Qed.

Lemma pack_range : forall c, rgba_ok c -> 0 <= pack c < 2^32.
Proof. intros [r g b a] (H1 & H2 & H3 & H4). unfold byte, pack in *; cbn in *. lia. Qed.

Lemma byte_land : forall x, byte (Z.land x 255).
Proof. intros. rewrite land255. unfold byte. pose proof (Z.mod_pos_bound x 256). lia. Qed.

Lemma chan_set : forall v c k j, byte c -> 0 <= k -> 0 <= j -> (j = k \/ j + 8 <= k \/ k + 8 <= j) ->
  Z.land (Z.shiftr (Z.lor (Z.land v (Z.lnot (Z.shiftl 255 k))) (Z.shiftl c k)) j) 255
  = if j =? k then c else Z.land (Z.shiftr v j) 255.
Proof.
  intros v c k j Hc Hk Hj D. unfold byte in Hc. apply Z.bits_inj'. intros n Hn.
  change 255 with (Z.ones 8).
  assert (Cb : forall m, 8 <= m -> Z.testbit c m = false).
  { intros m Hm. destruct (Z.eq_dec c 0) as [->|N]; [apply Z.bits_0|].
    apply Z.bits_above_log2; try lia. assert (Z.log2 c < 8) by (apply Z.log2_lt_pow2; lia). lia. }
  rewrite Z.land_spec, Z.shiftr_spec, Z.lor_spec, Z.land_spec, Z.lnot_spec, !Z.shiftl_spec by lia.
  destruct (Z_lt_ge_dec n 8).
  2:{ rewrite (Z.ones_spec_high 8 n), andb_false_r by lia.
      destruct (j =? k). { symmetry; apply Cb; lia. }
      rewrite Z.land_spec, Z.ones_spec_high by lia. rewrite andb_false_r. reflexivity. }
  rewrite (Z.ones_spec_low 8 n), andb_true_r by lia.
  destruct (Z.eqb_spec j k).
  - subst. replace (n + k - k) with n by lia. rewrite Z.ones_spec_low by lia. cbn.
    rewrite andb_false_r. reflexivity.
  - rewrite Z.land_spec, Z.shiftr_spec, (Z.ones_spec_low 8 n), andb_true_r by lia.
    destruct D as [D|[D|D]]; [contradiction| |].
    + rewrite !(Z.testbit_neg_r _ (n + j - k)) by lia. cbn. rewrite andb_true_r, orb_false_r. reflexivity.
    + rewrite Z.ones_spec_high, Cb by lia. cbn. rewrite andb_true_r, orb_false_r. reflexivity.
Qed.

(** ** Rational rounding *)
Lemma Qltb_true : forall a b, Qltb a b = true <-> (a < b)%Q.
Proof.
  intros. unfold Qltb. rewrite negb_true_iff.
  destruct (Qle_bool b a) eqn:E.
  - apply Qle_bool_iff in E. split; try discriminate. intros. apply Qlt_not_le in H. contradiction.
  - split; auto. intros _. apply Qnot_le_lt. intros H. apply Qle_bool_iff in H. congruence.
Qed.
Lemma Qltb_false : forall a b, Qltb a b = false <-> (b <= a)%Q.
Proof.
  intros. unfold Qltb. rewrite negb_false_iff. apply Qle_bool_iff.
Qed.
Ltac qcase := match goal with
  | |- context [Qltb ?a ?b] => let E := fresh "E" in destruct (Qltb a b) eqn:E; [apply Qltb_true in E | apply Qltb_false in E]
  | H : context [Qltb ?a ?b] |- _ => let E := fresh "E" in destruct (Qltb a b) eqn:E; [apply Qltb_true in E | apply Qltb_false in E]
  end.

Lemma Qfloor_unique : forall q n, (inject_Z n <= q)%Q -> (q < inject_Z n + 1)%Q -> Qfloor q = n.
Proof.
  intros q n H1 H2.
  pose proof (Qfloor_le q). pose proof (Qlt_floor q).
  assert (n < Qfloor q + 1). { rewrite Zlt_Qlt. rewrite inject_Z_plus in *. change (inject_Z 1) with 1%Q in *. lra. }
  assert (Qfloor q < n + 1). { rewrite Zlt_Qlt. rewrite inject_Z_plus. change (inject_Z 1) with 1%Q in *. lra. }
  lia.
Qed.

Lemma Qfloor_bounds : forall q, (inject_Z (Qfloor q) <= q)%Q /\ (q < inject_Z (Qfloor q) + 1)%Q.
Proof.
  intros. split. apply Qfloor_le. pose proof (Qlt_floor q). rewrite inject_Z_plus in H. exact H.
Qed.

Lemma Qtrunc_nonneg : forall q, (0 <= q)%Q -> Qtrunc q = Qfloor q.
Proof. intros q H. unfold Qtrunc. apply Qle_bool_iff in H. rewrite H. reflexivity. Qed.

Lemma injZ_le : forall a b, (inject_Z a <= inject_Z b)%Q <-> a <= b.
Proof. intros. rewrite <- Zle_Qle. tauto. Qed.
Lemma injZ_lt : forall a b, (inject_Z a < inject_Z b)%Q <-> a < b.
Proof. intros. rewrite <- Zlt_Qlt. tauto. Qed.

Lemma crimp_saturates : forall q, saturates q (crimp q).
Proof.
  intros q. unfold saturates, crimp.
  repeat split; intros.
  - qcase; [lra|]. qcase; [reflexivity|]. rewrite Qtrunc_nonneg by lra.
    apply Qfloor_unique; change (inject_Z 0) with 0%Q; lra.
  - qcase; [reflexivity|]. qcase; [lra|]. rewrite Qtrunc_nonneg by lra.
    apply Qfloor_unique; change (inject_Z 255) with 255%Q; lra.
  - qcase; [lra|]. qcase; [lra|]. rewrite Qtrunc_nonneg by lra. apply Qfloor_bounds.
  - qcase; [lra|]. qcase; [lra|]. rewrite Qtrunc_nonneg by lra. apply Qfloor_bounds.
Qed.

Lemma crimp_byte : forall q, byte (crimp q).
Proof.
  intros q. unfold byte, crimp. qcase; [lia|]. qcase; [lia|].
  rewrite Qtrunc_nonneg by lra. pose proof (Qfloor_bounds q) as [A B].
  split.
  - assert (-1 < Qfloor q); [|lia]. rewrite Zlt_Qlt. change (inject_Z (-1)) with (-1)%Q. lra.
  - rewrite Zle_Qle. change (inject_Z 255) with 255%Q. lra.
Qed.

Lemma crimp_inject : forall n, crimp (inject_Z n) = clamp255 n.
Proof.
  intros n. unfold crimp, clamp255.
  qcase. { change 255%Q with (inject_Z 255) in E. rewrite <- Zlt_Qlt in E. lia. }
  qcase. { change 0%Q with (inject_Z 0) in E0. rewrite <- Zlt_Qlt in E0. lia. }
  rewrite Qtrunc_nonneg by lra. rewrite Qfloor_Z.
  change 255%Q with (inject_Z 255) in E. change 0%Q with (inject_Z 0) in E0.
  rewrite <- Zle_Qle in E. rewrite <- Zle_Qle in E0. lia.
Qed.

Lemma crimp_byte_id : forall n, byte n -> crimp (inject_Z n) = n.
Proof. unfold byte. intros. rewrite crimp_inject. unfold clamp255. lia. Qed.

Lemma round_nearest : forall q, nearest q (Qround_even q).
Proof.
  intros q. unfold nearest, Qround_even.
  pose proof (Qfloor_bounds q) as [A B]. set (f := Qfloor q) in *.
  assert (I : forall z, inject_Z (z + 1) == inject_Z z + 1) by (intros; rewrite inject_Z_plus; reflexivity).
  destruct (Qcompare (q - inject_Z f) (1#2)) eqn:C.
  - apply Qeq_alt in C. destruct (Z.even f) eqn:Ev.
    + repeat split; try lra. auto.
    + rewrite I. repeat split; try lra. intros _. rewrite Z.add_1_r, Z.even_succ.
      rewrite <- Z.negb_even, Ev. reflexivity.
  - apply Qlt_alt in C. repeat split; try lra.
  - apply Qgt_alt in C. rewrite I. repeat split; try lra.
Qed.

Lemma nearest_unique : forall q m n, nearest q m -> nearest q n -> m = n.
Proof.
  intros q m n (A & B & C) (D & E & F).
  assert (inject_Z m <= inject_Z (n + 1))%Q by (rewrite inject_Z_plus; change (inject_Z 1) with 1%Q; lra).
  assert (inject_Z n <= inject_Z (m + 1))%Q by (rewrite inject_Z_plus; change (inject_Z 1) with 1%Q; lra).
  rewrite <- Zle_Qle in H. rewrite <- Zle_Qle in H0.
  destruct (Z.eq_dec m n); auto.
  assert (m = n + 1 \/ n = m + 1) as [->| ->] by lia; rewrite inject_Z_plus in *; change (inject_Z 1) with 1%Q in *.
  - assert (Z.even (n + 1) = true) by (apply C; left; lra).
    assert (Z.even n = true) by (apply F; right; lra).
    rewrite Z.add_1_r, Z.even_succ, <- Z.negb_even, H2 in H1. discriminate.
  - assert (Z.even (m + 1) = true) by (apply F; left; lra).
    assert (Z.even m = true) by (apply C; right; lra).
    rewrite Z.add_1_r, Z.even_succ, <- Z.negb_even, H2 in H1. discriminate.
Qed.

Lemma Qfloor_Qeq : forall a b, (a == b)%Q -> Qfloor a = Qfloor b.
Proof. intros. apply Qfloor_comp. auto. Qed.
Lemma Qround_even_Qeq : forall a b, (a == b)%Q -> Qround_even a = Qround_even b.
Proof.
  intros a b H. unfold Qround_even. rewrite (Qfloor_Qeq a b H).
  assert (Qcompare (a - inject_Z (Qfloor b)) (1#2) = Qcompare (b - inject_Z (Qfloor b)) (1#2)).
  { apply Qcompare_comp; [rewrite H|]; reflexivity. }
  rewrite H0. reflexivity.
Qed.
Lemma Qle_bool_Qeq : forall a b c d, (a == b)%Q -> (c == d)%Q -> Qle_bool a c = Qle_bool b d.
Proof.
  intros. destruct (Qle_bool a c) eqn:E.
  - apply Qle_bool_iff in E. symmetry. apply Qle_bool_iff. rewrite <- H, <- H0. auto.
  - destruct (Qle_bool b d) eqn:F; auto. apply Qle_bool_iff in F. rewrite <- H, <- H0 in F. apply Qle_bool_iff in F. congruence.
Qed.
Lemma Qltb_Qeq : forall a b c d, (a == b)%Q -> (c == d)%Q -> Qltb a c = Qltb b d.
Proof. intros. unfold Qltb. f_equal. apply Qle_bool_Qeq; auto. Qed.
Lemma Qtrunc_Qeq : forall a b, (a == b)%Q -> Qtrunc a = Qtrunc b.
Proof.
  intros. unfold Qtrunc. rewrite (Qle_bool_Qeq 0 0 a b) by (auto; reflexivity).
  destruct (Qle_bool 0 b). apply Qfloor_comp; auto. apply Qceiling_comp; auto.
Qed.
Lemma crimp_Qeq : forall a b, (a == b)%Q -> crimp a = crimp b.
Proof.
  intros. unfold crimp. rewrite (Qltb_Qeq 255 255 a b), (Qltb_Qeq a b 0 0), (Qtrunc_Qeq a b) by (auto; reflexivity). reflexivity.
Qed.
Lemma rgb_to_int_Qeq : forall r r' g g' b b' o o', (r == r')%Q -> (g == g')%Q -> (b == b')%Q -> (o == o')%Q ->
  rgb_to_int r g b o = rgb_to_int r' g' b' o'.
Proof.
  intros. unfold rgb_to_int. rewrite (crimp_Qeq r r'), (crimp_Qeq g g'), (crimp_Qeq b b') by auto.
  rewrite (Qltb_Qeq 1 1 o o') by (auto; reflexivity).
  destruct (Qltb 1 o').
  - reflexivity.
  - rewrite (Qltb_Qeq o o' 0 0) by (auto; reflexivity). destruct (Qltb o' 0); [reflexivity|].
    rewrite (Qround_even_Qeq (o*255) (o'*255)) by (rewrite H2; reflexivity). reflexivity.
Qed.


Lemma rgb_to_int_spec : forall r g b o, exists a, alpha_byte o a /\ byte a /\
  rgb_to_int r g b o = pack (mkRGBA (crimp r) (crimp g) (crimp b) a).
Proof.
  intros. unfold rgb_to_int.
  set (o1 := if Qltb 1 o then 1%Q else o).
  set (u := if Qltb o1 0 then 0%Q else o1).
  assert (U : unit_clamp o u /\ (0 <= u)%Q /\ (u <= 1)%Q).
  { unfold unit_clamp, u, o1. repeat split; intros; repeat qcase; lra. }
  destruct U as (U & U0 & U1).
  pose proof (round_nearest (u * 255)) as N.
  set (a := Qround_even (u * 255)) in *.
  assert (byte a).
  { destruct N as (N1 & N2 & _). unfold byte. split.
    - assert (-1 < a); [|lia]. rewrite Zlt_Qlt. change (inject_Z (-1)) with (-1)%Q. lra.
    - assert (a < 256); [|lia]. rewrite Zlt_Qlt. change (inject_Z 256) with 256%Q. lra. }
  exists a. split; [|split]; auto.
  - exists u; auto.
  - rewrite (crimp_byte_id a) by auto. apply lor_pack; auto using crimp_byte.
Qed.

Lemma alpha_byte_one : forall o a, alpha_byte o a -> (o == 1)%Q -> a = 255.
Proof.
  intros o a (u & (U1 & U2 & U3) & N) H.
  eapply nearest_unique; [apply N|]. specialize (U2 ltac:(lra)).
  unfold nearest. change (inject_Z 255) with 255%Q. repeat split; try lra.
Qed.
Lemma alpha_byte_zero : forall o a, alpha_byte o a -> (o == 0)%Q -> a = 0.
Proof.
  intros o a (u & (U1 & U2 & U3) & N) H.
  eapply nearest_unique; [apply N|]. specialize (U1 ltac:(lra)).
  unfold nearest. change (inject_Z 0) with 0%Q. repeat split; try lra. 
Qed.

Lemma rgb_to_int_opaque : forall r g b, rgb_to_int r g b 1 = pack (mkRGBA (crimp r) (crimp g) (crimp b) 255).
Proof.
  intros. destruct (rgb_to_int_spec r g b 1) as (a & Ha & _ & E). rewrite E.
  rewrite (alpha_byte_one 1 a); auto. reflexivity.
Qed.

(** ** Hex text *)
Lemma num_of_hex_app1 : forall s c, num_of_hex (s ++ [c]) = 16 * num_of_hex s + hex_val c.
Proof. intros. unfold num_of_hex. rewrite fold_left_app. reflexivity. Qed.

Lemma ascii_forall : forall P : ascii -> bool,
  (forall n, (n < 256)%nat -> P (ascii_of_nat n) = true) -> forall c, P c = true.
Proof.
  intros P H c. rewrite <- (ascii_nat_embedding c). apply H. apply nat_ascii_bounded.
Qed.

Fixpoint all_below (n : nat) (P : nat -> bool) : bool :=
  match n with O => true | S k => P k && all_below k P end.
Lemma all_below_spec : forall n P, all_below n P = true -> forall k, (k < n)%nat -> P k = true.
Proof.
  induction n; intros P H k K; [lia|]. simpl in H. apply andb_true_iff in H as [H1 H2].
  destruct (Nat.eq_dec k n); subst; auto. apply IHn; auto. lia.
Qed.
Lemma ascii_all : forall P : ascii -> bool,
  all_below 256 (fun n => P (ascii_of_nat n)) = true -> forall c, P c = true.
Proof. intros P H. apply ascii_forall. apply all_below_spec. exact H. Qed.

Lemma xdig_hex : forall c d, xdig c = Some d -> is_hex c = true /\ hex_val c = d /\ 0 <= d <= 15.
Proof.
  intros c d H.
  assert (K := ascii_all (fun c => match xdig c with
     | Some d => is_hex c && (hex_val c =? d) && (0 <=? d) && (d <=? 15) | None => true end) eq_refl c).
  cbn beta in K. rewrite H in K. rewrite !andb_true_iff in K.
  destruct K as [[[K1 K2] K3] K4]. repeat split; try lia; auto.
Qed.

Lemma is_hex_xdig : forall c, is_hex c = true -> exists d, xdig c = Some d.
Proof.
  intros c H.
  assert (K := ascii_all (fun c => negb (is_hex c) || match xdig c with Some d => true | None => false end) eq_refl c).
  cbn beta in K. rewrite H in K. destruct (xdig c); [eauto|discriminate].
Qed.

Lemma hex_not_hash : forall c, is_hex c = true -> aeqb c hash = false.
Proof.
  intros c H. assert (K := ascii_all (fun c => negb (is_hex c) || negb (aeqb c hash)) eq_refl c).
  cbn beta in K. rewrite H in K. simpl in K. apply negb_true_iff in K. auto.
Qed.
Lemma hex_not_ws : forall c, is_hex c = true -> is_ws c = false.
Proof.
  intros c H. assert (K := ascii_all (fun c => negb (is_hex c) || negb (is_ws c)) eq_refl c).
  cbn beta in K. rewrite H in K. simpl in K. apply negb_true_iff in K. auto.
Qed.

Lemma py_int16_hex : forall s, s <> [] -> forallb is_hex s = true -> py_int16 s = Ok (num_of_hex s).
Proof.
  intros s N H. unfold py_int16. rewrite strip_ws_nows.
  - rewrite H. destruct s; congruence.
  - apply forallb_forall. intros x Hx. rewrite forallb_forall in H. rewrite hex_not_ws; auto.
Qed.

Lemma span_all : forall p s, forallb p s = true -> span p s = (s, []).
Proof. intros. rewrite <- (app_nil_r s) at 1. apply span_app; auto. Qed.

Lemma opt_hash_drop : forall (b : bool) s, forallb is_hex s = true -> s <> [] ->
  drop_hash ((if b then [hash] else []) ++ s) = s /\ lstrip1 hash ((if b then [hash] else []) ++ s) = s.
Proof.
  intros b s H N. destruct s as [|c s]; [congruence|]. simpl in H. apply andb_true_iff in H as [H _].
  apply hex_not_hash in H. destruct b; simpl; rewrite ?H; auto.
Qed.

Lemma hex_match_ok : forall (b : bool) s, forallb is_hex s = true ->
  (3 <= List.length s <= 8)%nat -> hex_match ((if b then [hash] else []) ++ s) = true.
Proof.
  intros b s H L. unfold hex_match.
  destruct (opt_hash_drop b s) as [D _]; auto. { destruct s; simpl in L; [lia|congruence]. }
  rewrite D, span_all by auto. lia.
Qed.

Lemma css_hex_props : forall s c, css_hex s c -> forallb is_hex s = true /\ (3 <= List.length s <= 8)%nat /\ rgba_ok c.
Proof.
  intros s c H. inversion H; subst;
  repeat match goal with K : xdig _ = Some _ |- _ => apply xdig_hex in K as (? & ? & ?) end;
  (split; [ simpl; repeat (apply andb_true_iff; split); auto | split; [simpl; lia|] ]);
  unfold rgba_ok, byte; cbn [cR cG cB cA]; lia.
Qed.

Lemma not_none_hex : forall (b : bool) s, forallb is_hex s = true -> (3 <= List.length s)%nat ->
  teqb ((if b then [hash] else []) ++ s) (T "none") = false.
Proof.
  intros b s H L. apply teqb_false. intros E.
  destruct b; simpl in E; [discriminate|]. subst. discriminate.
Qed.

Lemma hex_notation_lemma : forall (b : bool) s c, css_hex s c ->
  parse ((if b then [hash] else []) ++ s) = Ok (Some (pack c)).
Proof.
  intros b s c H. pose proof (css_hex_props s c H) as (A & L & K).
  unfold parse. rewrite not_none_hex by (auto; lia). rewrite hex_match_ok by auto.
  unfold parse_color_hex. destruct (opt_hash_drop b s) as [_ D]; auto.
  { destruct s; simpl in L; [lia|congruence]. }
  rewrite D. clear D.
  inversion H; subst;
  repeat match goal with X : xdig _ = Some _ |- _ => apply xdig_hex in X as (? & ? & ?) end;
  rewrite py_int16_hex; try discriminate;
  try (simpl; repeat (apply andb_true_iff; split); auto; fail);
  cbn [rmap]; do 2 f_equal; unfold num_of_hex, pack; cbn [fold_left app cR cG cB cA];
  repeat match goal with X : hex_val _ = _ |- _ => rewrite X; clear X end;
  try change (hex_val "F") with 15; ring.
Qed.

(** ** Printing *)
Lemma hex_digit_xdig : forall n, 0 <= n < 16 -> xdig (hex_digit n) = Some n.
Proof.
  intros n H.
  assert (n = 0 \/ n = 1 \/ n = 2 \/ n = 3 \/ n = 4 \/ n = 5 \/ n = 6 \/ n = 7 \/ n = 8 \/ n = 9 \/ n = 10 \/ n = 11 \/ n = 12 \/ n = 13 \/ n = 14 \/ n = 15) by lia.
  repeat match goal with K : _ \/ _ |- _ => destruct K as [->|K] end; try reflexivity. subst; reflexivity.
Qed.

Lemma hex2_split : forall n, n = 16 * (n / 16) + n mod 16.
Proof. intros. Z.to_euclidean_division_equations; lia. Qed.
Lemma hex2_hi : forall n, byte n -> xdig (hex_digit (n / 16)) = Some (n / 16).
Proof. unfold byte; intros. apply hex_digit_xdig. Z.to_euclidean_division_equations; lia. Qed.
Lemma hex2_lo : forall n, byte n -> xdig (hex_digit (n mod 16)) = Some (n mod 16).
Proof. unfold byte; intros. apply hex_digit_xdig. Z.to_euclidean_division_equations; lia. Qed.

Lemma css_hex_8 : forall r g b a, byte r -> byte g -> byte b -> byte a ->
  css_hex (hex2 r ++ hex2 g ++ hex2 b ++ hex2 a) (mkRGBA r g b a).
Proof.
  intros.
  replace (mkRGBA r g b a) with (mkRGBA (16*(r/16)+r mod 16) (16*(g/16)+g mod 16) (16*(b/16)+b mod 16) (16*(a/16)+a mod 16))
    by (rewrite <- !hex2_split; reflexivity).
  apply css_hex8; auto using hex2_hi, hex2_lo.
Qed.
Lemma css_hex_6 : forall r g b, byte r -> byte g -> byte b ->
  css_hex (hex2 r ++ hex2 g ++ hex2 b) (mkRGBA r g b 255).
Proof.
  intros.
  replace (mkRGBA r g b 255) with (mkRGBA (16*(r/16)+r mod 16) (16*(g/16)+g mod 16) (16*(b/16)+b mod 16) 255)
    by (rewrite <- !hex2_split; reflexivity).
  apply css_hex6; auto using hex2_hi, hex2_lo.
Qed.

Lemma byte_red : forall v, byte (get_red v). Proof. intros; apply byte_land. Qed.
Lemma byte_green : forall v, byte (get_green v). Proof. intros; apply byte_land. Qed.
Lemma byte_blue : forall v, byte (get_blue v). Proof. intros; apply byte_land. Qed.
Lemma byte_alpha : forall v, byte (get_alpha v). Proof. intros; apply byte_land. Qed.

Lemma unpack_getters : forall v, unpack v = mkRGBA (get_red v) (get_green v) (get_blue v) (get_alpha v).
Proof. intros. rewrite get_red_arith, get_green_arith, get_blue_arith, get_alpha_arith. reflexivity. Qed.

Lemma hexa_parse : forall v, parse (hexa v) = Ok (Some (pack (unpack v))).
Proof.
  intros v. rewrite unpack_getters. unfold hexa.
  apply (hex_notation_lemma true).
  apply css_hex_8; [apply byte_red|apply byte_green|apply byte_blue|apply byte_alpha].
Qed.

Lemma hex_parse : forall v, parse (hex v) = Ok (Some (pack (unpack v))).
Proof.
  intros v. unfold hex. destruct (Z.eqb_spec (get_alpha v) 255); [|apply hexa_parse].
  rewrite unpack_getters, e. apply (hex_notation_lemma true).
  apply css_hex_6; [apply byte_red|apply byte_green|apply byte_blue].
Qed.

(** ** Equality *)
Lemma mask32 : forall x, Z.land x 0xFFFFFFFF = pack (unpack x).
Proof.
  intros. change 0xFFFFFFFF with (Z.ones 32). rewrite Z.land_ones by lia.
  unfold pack, unpack; cbn [cR cG cB cA]. Z.to_euclidean_division_equations; lia.
Qed.

Lemma pack_inj : forall a b, rgba_ok a -> rgba_ok b -> pack a = pack b -> a = b.
Proof. intros a b A B E. rewrite <- (unpack_pack a), <- (unpack_pack b), E; auto. Qed.

Lemma color_eq_channels : forall x y, color_eq (Some x) (Some y) = true <-> unpack x = unpack y.
Proof.
  intros. simpl. rewrite !mask32, Z.eqb_eq. split.
  - apply pack_inj; apply unpack_ok.
  - congruence.
Qed.
