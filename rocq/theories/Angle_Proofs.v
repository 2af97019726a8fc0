Require Import ZArith QArith Qreals Reals Ascii String List Bool Lia Lra R_Ifp.
Require Import Verif.Base Verif.Text_Spec Verif.Text_Proofs Verif.Color_Proofs2 Verif.Length_Proofs Verif.Angle_Model Verif.Angle_Spec.
Import ListNotations.
Open Scope R_scope.

Lemma tau_pos : 0 < tau.
Proof. unfold tau. pose proof PI_RGT_0. lra. Qed.
Ltac angf := unfold as_radians, as_degrees, as_gradians, as_turns, radians, degrees, gradians, turns;
  pose proof tau_pos; field; lra.

Lemma as_degrees_lemma : forall x, as_degrees (degrees x) = x /\ as_degrees (radians x) = x * 180 / PI
  /\ as_degrees (gradians x) = x * 9 / 10 /\ as_degrees (turns x) = 360 * x.
Proof.
  intros. pose proof PI_RGT_0. repeat split.
  - angf.
  - unfold as_degrees, radians, tau. field. lra.
  - angf.
  - angf.
Qed.

Lemma roundtrip_lemma : forall x,
  as_degrees (degrees x) = x /\ as_gradians (gradians x) = x /\ as_turns (turns x) = x /\ as_radians (radians x) = x /\
  degrees (as_degrees x) = x /\ gradians (as_gradians x) = x /\ turns (as_turns x) = x /\ radians (as_radians x) = x.
Proof. intros. repeat split; try angf. Qed.

Lemma strip_suffix_app : forall p suf, strip_suffix suf (p ++ suf) = Some p.
Proof.
  intros. unfold strip_suffix. rewrite app_length.
  replace (List.length p + List.length suf - List.length suf)%nat with (List.length p) by lia.
  rewrite skipn_app, skipn_all, Nat.sub_diag. simpl. rewrite teqb_refl, firstn_app, firstn_all, Nat.sub_diag. simpl. rewrite app_nil_r. reflexivity.
Qed.
(** A text whose last character is [c] does not end with a suffix ending in another character. *)
Lemma strip_suffix_last : forall p c suf d, c <> d -> strip_suffix (suf ++ [d]) (p ++ [c]) = None.
Proof.
  intros. unfold strip_suffix.
  destruct (teqb _ _) eqn:E; auto. apply teqb_true in E.
  assert (F : last (skipn (List.length (p ++ [c]) - List.length (suf ++ [d])) (p ++ [c])) "0"%char = d).
  { rewrite E. apply last_last. }
  exfalso. apply H. rewrite <- F. rewrite !app_length. simpl.
  replace (List.length p + 1 - (List.length suf + 1))%nat with (List.length p - List.length suf)%nat by lia.
  rewrite skipn_app. replace (List.length p - List.length suf - List.length p)%nat with 0%nat by lia. simpl. symmetry. apply last_last.
Qed.
Lemma strip_suffix_last2 : forall p c suf d s sf, s = p ++ [c] -> sf = suf ++ [d] -> c <> d -> strip_suffix sf s = None.
Proof. intros. subst. apply strip_suffix_last. auto. Qed.
Lemma strip_suffix_nil : forall suf, suf <> [] -> strip_suffix suf [] = None.
Proof. intros. unfold strip_suffix. simpl. destruct suf; [congruence|]. reflexivity. Qed.

Lemma lower_app : forall a b, lower (a ++ b) = lower a ++ lower b.
Proof. intros. apply map_app. Qed.

(** Literals in lower case. *)
Definition lower_lit (l : lit) : lit :=
  mkLit (l_sgn l) (l_int l) (l_frac l) (match l_exp l with Some (_, s, ds) => Some (false, s, ds) | None => None end).
Lemma lower_dtext : forall ds, Forall is_dig ds -> lower (dtext ds) = dtext ds.
Proof. induction 1; auto. unfold lower, dtext in *. simpl. rewrite IHForall. f_equal. dig_split H; reflexivity. Qed.
Lemma lower_lit_text : forall l, lit_ok l -> lower (lit_text l) = lit_text (lower_lit l).
Proof.
  intros l (Fi & Ff & Ne & Fe). unfold lit_text, lower_lit. cbn [l_sgn l_int l_frac l_exp].
  rewrite !lower_app, lower_dtext by auto. f_equal. { destruct (l_sgn l); reflexivity. } f_equal. f_equal.
  - destruct (l_frac l) eqn:E; auto. change (lower ("."%char :: dtext (z :: l0))) with ("."%char :: lower (dtext (z :: l0))).
    rewrite lower_dtext by auto. reflexivity.
  - destruct (l_exp l) as [[[b s] ds]|]; auto. destruct Fe as [Fe _].
    change (lower ((if b then "E"%char else "e"%char) :: sgn_text s ++ dtext ds)) with (lower1 (if b then "E"%char else "e"%char) :: lower (sgn_text s ++ dtext ds)).
    rewrite lower_app, lower_dtext by auto. destruct b, s; reflexivity.
Qed.
Lemma lower_lit_ok : forall l, lit_ok l -> lit_ok (lower_lit l) /\ lit_val (lower_lit l) = lit_val l.
Proof.
  intros l (Fi & Ff & Ne & Fe). unfold lit_ok, lit_val, lower_lit. cbn [l_sgn l_int l_frac l_exp].
  destruct (l_exp l) as [[[b s] ds]|]; auto.
Qed.
(** A literal ends with a digit. *)
Lemma lit_last : forall l, lit_ok l -> exists p d, is_dig d /\ lit_text l = p ++ [dchar d].
Proof.
  intros l (Fi & Ff & Ne & Fe). unfold lit_text.
  assert (LD : forall ds, Forall is_dig ds -> ds <> [] -> exists p d, is_dig d /\ dtext ds = p ++ [dchar d]).
  { intros ds F N. destruct (exists_last N) as (p & d & ->). apply Forall_app in F as [_ F]. inversion F; subst.
    exists (dtext p), d. split; auto. unfold dtext. rewrite map_app. reflexivity. }
  destruct (l_exp l) as [[[b s] ds]|].
  - destruct Fe as [Fe N]. destruct (LD ds Fe N) as (p & d & D & E). rewrite E.
    generalize (match l_frac l with [] => [] | z :: l0 => "."%char :: dtext (z :: l0) end). intros FT.
    exists (sgn_text (l_sgn l) ++ dtext (l_int l) ++ FT ++ ((if b then "E"%char else "e"%char) :: sgn_text s ++ p)), d. split; auto.
    rewrite <- !app_assoc. simpl. rewrite <- !app_assoc. reflexivity.
  - rewrite app_nil_r. destruct (l_frac l) eqn:EF.
    + rewrite app_nil_r. assert (N : l_int l <> []) by (destruct Ne; congruence). destruct (LD _ Fi N) as (p & d & D & E). rewrite E.
      exists (sgn_text (l_sgn l) ++ p), d. rewrite app_assoc. auto.
    + destruct (LD (z :: l0) Ff) as (p & d & D & E); [congruence|]. rewrite E.
      exists (sgn_text (l_sgn l) ++ dtext (l_int l) ++ "."%char :: p), d. split; auto. rewrite <- !app_assoc. reflexivity.
Qed.

Lemma angle_parse_lemma : forall l u n, lit_ok l -> circle u n -> forall s, lower s = T u ->
  exists a, angle_parse (lit_text l ++ s) = Ok a /\ a = tau * (Q2R (lit_val l) / n).
Proof.
  intros l u n L C s S. unfold angle_parse. rewrite lower_app, S, lower_lit_text by auto.
  destruct (lower_lit_ok l L) as [L' V]. rewrite <- V. clear V. set (m := lower_lit l) in *. clearbody m. clear S L l s.
  destruct (py_float_lit m L') as (q & Q1 & Q2). pose proof (Qeq_eqR _ _ Q2) as QR. pose proof PI_RGT_0 as PI0. pose proof tau_pos as T0.
  destruct (lit_last m L') as (p & d & D & E).
  assert (LG : forall c suf, is_digit c = false -> strip_suffix (suf ++ [c]) (lit_text m) = None).
  { intros c suf H. rewrite E. apply strip_suffix_last. apply dchar_not; auto. }
  inversion C; subst u n.
  - rewrite strip_suffix_app, Q1. eexists; split; [reflexivity|]. rewrite <- QR. unfold degrees. field.
  - rewrite (strip_suffix_last2 (lit_text m ++ T "gra") "d" (T "de") "g"); [ | rewrite <- app_assoc; reflexivity | reflexivity | discriminate].
    rewrite strip_suffix_app, Q1. eexists; split; [reflexivity|]. rewrite <- QR. unfold gradians. field.
  - rewrite (strip_suffix_last2 (lit_text m ++ T "ra") "d" (T "de") "g"); [ | rewrite <- app_assoc; reflexivity | reflexivity | discriminate].
    replace (strip_suffix (T "grad") (lit_text m ++ T "rad")) with (@None text).
    2:{ symmetry. unfold strip_suffix. rewrite app_length. cbn [T list_ascii_of_string List.length].
        destruct (teqb _ _) eqn:K; auto. apply teqb_true in K. exfalso.
        rewrite E in K. rewrite app_length in K. simpl in K.
        replace (List.length p + 1 + 3 - 4)%nat with (List.length p) in K by lia.
        rewrite <- app_assoc, skipn_app, skipn_all, Nat.sub_diag in K. simpl in K. inversion K. 
        assert (is_digit (dchar d) = true) by (apply dchar_digit; auto). rewrite H0 in H. discriminate. }
    rewrite strip_suffix_app, Q1. eexists; split; [reflexivity|]. rewrite <- QR. unfold radians, tau. field. lra.
  - replace (lit_text m ++ T "turn") with ((lit_text m ++ T "tur") ++ ["n"%char]) by (rewrite <- app_assoc; reflexivity).
    change (T "deg") with (T "de" ++ ["g"%char]). change (T "grad") with (T "gra" ++ ["d"%char]). change (T "rad") with (T "ra" ++ ["d"%char]).
    rewrite !strip_suffix_last by discriminate.
    replace ((lit_text m ++ T "tur") ++ ["n"%char]) with (lit_text m ++ T "turn") by (rewrite <- app_assoc; reflexivity).
    rewrite strip_suffix_app, Q1. eexists; split; [reflexivity|]. rewrite <- QR. unfold turns. field.
  - change (T "%") with ["%"%char].
    change (T "deg") with (T "de" ++ ["g"%char]). change (T "grad") with (T "gra" ++ ["d"%char]). change (T "rad") with (T "ra" ++ ["d"%char]).
    change (T "turn") with (T "tur" ++ ["n"%char]).
    rewrite !strip_suffix_last by discriminate. rewrite strip_suffix_app, Q1. eexists; split; [reflexivity|]. rewrite <- QR. unfold turns. field.
  - change (T "") with (@nil ascii). rewrite app_nil_r.
    change (T "deg") with (T "de" ++ ["g"%char]). change (T "grad") with (T "gra" ++ ["d"%char]). change (T "rad") with (T "ra" ++ ["d"%char]).
    change (T "turn") with (T "tur" ++ ["n"%char]). change (T "%") with ([] ++ ["%"%char]).
    rewrite !LG by reflexivity. rewrite Q1. eexists; split; [reflexivity|]. rewrite <- QR. unfold degrees. field.
Qed.

(** as_positive_degrees *)
Lemma up360_mono : forall k v w, up360 k v = Some w -> forall m, (k <= m)%nat -> up360 m v = Some w.
Proof.
  induction k; intros v w H m M.
  - simpl in H. destruct (Rlt_dec v 0) eqn:E; [discriminate|]. destruct m; simpl; rewrite E; auto.
  - destruct m; [lia|]. simpl in *. destruct (Rlt_dec v 0); auto. apply IHk; auto. lia.
Qed.
Lemma up360_spec : forall n v, - 360 * INR n <= v -> exists w k, up360 n v = Some w /\ 0 <= w /\ w = v + 360 * INR k /\ (v < 0 -> w < 360) /\ (0 <= v -> w = v).
Proof.
  induction n; intros v H.
  - simpl in *. destruct (Rlt_dec v 0); [lra|]. exists v, 0%nat. simpl. repeat split; lra.
  - rewrite S_INR in H. cbn [up360]. destruct (Rlt_dec v 0) as [L|L].
    + destruct (IHn (v + 360)) as (w & k & W1 & W2 & W3 & W4 & W5); [lra|].
      exists w, (S k). rewrite S_INR. repeat split; auto; try lra.
    + exists v, 0%nat. simpl. repeat split; lra.
Qed.
Lemma positive_degrees_lemma : forall a, exists n, forall m, (n <= m)%nat -> exists w k, as_positive_degrees m a = Some w /\
  0 <= w /\ w = as_degrees a + 360 * INR k /\ (a < 0 -> w < 360) /\ (0 <= a -> w = as_degrees a).
Proof.
  intros a. set (v := as_degrees a).
  assert (UB : exists n, Rabs v < INR n).
  { destruct (archimed (Rabs v)) as [A _]. exists (Z.to_nat (up (Rabs v))). rewrite INR_IZR_INZ, Z2Nat.id; [lra|].
    apply le_IZR. pose proof (Rabs_pos v). lra. }
  destruct UB as [n Hn].
  exists n. intros m M. destruct (up360_spec n v) as (w & k & W1 & W2 & W3 & W4 & W5).
  { pose proof (Rle_abs (- v)). rewrite Rabs_Ropp in H. pose proof (pos_INR n). lra. }
  exists w, k. unfold as_positive_degrees. fold v. split; [eapply up360_mono; eauto|]. split; auto. split; auto.
  assert (SG : (a < 0 -> v < 0) /\ (0 <= a -> 0 <= v)).
  { unfold v, as_degrees. pose proof tau_pos. assert (0 < / tau) by (apply Rinv_0_lt_compat; auto). unfold Rdiv. split; intros; nra. }
  split; intros; [apply W4 | apply W5]; tauto.
Qed.

(** rmod *)
Lemma rmod_range : forall x m, 0 < m -> 0 <= rmod x m < m.
Proof.
  intros x m M. unfold rmod. destruct (base_Int_part (x / m)) as [A B].
  assert (x = m * (x / m)) by (field; lra). nra.
Qed.
Lemma rmod_unique : forall x m k r, 0 < m -> x = r + m * IZR k -> 0 <= r < m -> rmod x m = r.
Proof.
  intros x m k r M E R. unfold rmod.
  assert (Int_part (x / m) = k).
  { assert (x / m = r / m + IZR k) by (rewrite E; field; lra).
    assert (0 <= r / m < 1). { unfold Rdiv. split. apply Rmult_le_pos; [lra|]. left. apply Rinv_0_lt_compat; lra.
      apply (Rmult_lt_reg_r m); [lra|]. rewrite Rmult_assoc, Rinv_l; lra. }
    unfold Int_part. rewrite <- (tech_up (x / m) (k + 1)); [lia | rewrite plus_IZR; lra | rewrite plus_IZR; lra]. }
  rewrite H, E. lra.
Qed.
Lemma rmod_turn : forall x k, rmod (x + tau * IZR k) tau = rmod x tau.
Proof.
  intros. pose proof tau_pos. pose proof (rmod_range x tau H).
  apply rmod_unique with (k := (Int_part (x / tau) + k)%Z); auto. rewrite plus_IZR. unfold rmod. lra.
Qed.
Lemma angle_eq_lemma : forall a b k, angle_eq a b -> angle_eq (a + tau * IZR k) b /\ angle_eq b (a + tau * IZR k).
Proof. intros. unfold angle_eq in *. rewrite rmod_turn. split; auto. rewrite Rabs_minus_sym. auto. Qed.
Lemma angle_eq_same_lemma : forall a b, same_direction a b -> angle_eq a b.
Proof.
  intros a b [k ->]. unfold angle_eq. fold tau. rewrite rmod_turn. rewrite Rminus_eq_0, Rabs_R0. left. apply Rinv_0_lt_compat. apply pow_lt. lra.
Qed.
Lemma angle_eq_close_lemma : forall a b, angle_eq a b -> exists d, Rabs d <= / 10 ^ 11 /\ same_direction a (b + d).
Proof.
  intros a b H. exists (rmod a tau - rmod b tau). split; auto.
  exists (Int_part (a / tau) - Int_part (b / tau))%Z. rewrite minus_IZR. unfold rmod. fold tau. lra.
Qed.
Lemma angle_eq_wrap : exists a b, Rabs (a - b) <= / 10 ^ 11 /\ ~ angle_eq a b.
Proof.
  exists 0, (- / 10 ^ 12). 
  assert (P : 0 < / 10 ^ 12) by (apply Rinv_0_lt_compat, pow_lt; lra).
  assert (L : / 10 ^ 12 <= / 10 ^ 11) by (simpl; lra).
  assert (S : / 10 ^ 11 <= 1 / 1000) by (simpl; lra).
  split. { replace (0 - - / 10 ^ 12) with (/ 10 ^ 12) by lra. rewrite Rabs_right; lra. }
  unfold angle_eq. pose proof PI_RGT_0. pose proof PI2_3_2. pose proof tau_pos.
  rewrite (rmod_unique 0 tau 0 0); try lra.
  rewrite (rmod_unique (- / 10 ^ 12) tau (-1) (tau - / 10 ^ 12)); try (unfold tau in *; lra).
  intros K. rewrite Rabs_left in K; unfold tau in *; lra.
Qed.
