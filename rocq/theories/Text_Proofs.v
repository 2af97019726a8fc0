(** Lemmas relating the text functions of Base to the literal specification. *)
Require Import ZArith QArith Qround Qpower List Ascii String Bool Lia.
Require Import Verif.Base Verif.Text_Spec.
Import ListNotations.
Open Scope Z_scope.

Lemma code_range : forall c, 0 <= code c < 256.
Proof.
  intros c. unfold code.
  pose proof (N_ascii_bounded c). lia.
Qed.

Lemma chr_code : forall c, chr (code c) = c.
Proof. intros. unfold chr, code. rewrite N2Z.id. apply ascii_N_embedding. Qed.

Lemma code_chr : forall n, 0 <= n < 256 -> code (chr n) = n.
Proof. intros. unfold chr, code. rewrite N_ascii_embedding by lia. lia. Qed.

Lemma code_inj : forall a b, code a = code b -> a = b.
Proof. intros a b H. rewrite <- (chr_code a), <- (chr_code b), H. reflexivity. Qed.

Lemma aeqb_true : forall a b, aeqb a b = true <-> a = b.
Proof. intros. apply Ascii.eqb_eq. Qed.
Lemma aeqb_refl : forall a, aeqb a a = true.
Proof. intros. apply Ascii.eqb_refl. Qed.
Lemma aeqb_false : forall a b, aeqb a b = false <-> a <> b.
Proof. intros. apply Ascii.eqb_neq. Qed.

Lemma teqb_true : forall a b, teqb a b = true <-> a = b.
Proof.
  induction a; destruct b; simpl; split; intros; try congruence; try reflexivity.
  - apply andb_true_iff in H as [H1 H2]. apply aeqb_true in H1. apply IHa in H2. congruence.
  - inversion H; subst. rewrite aeqb_refl. simpl. apply IHa. reflexivity.
Qed.
Lemma teqb_refl : forall a, teqb a a = true.
Proof. intros. apply teqb_true. reflexivity. Qed.
Lemma teqb_false : forall a b, teqb a b = false <-> a <> b.
Proof.
  intros. destruct (teqb a b) eqn:E.
  - apply teqb_true in E. split; congruence.
  - split; auto. intros _ H. apply teqb_true in H. congruence.
Qed.

(** Digits. *)
Lemma dig_cases : forall d, is_dig d -> d = 0 \/ d = 1 \/ d = 2 \/ d = 3 \/ d = 4 \/ d = 5 \/ d = 6 \/ d = 7 \/ d = 8 \/ d = 9.
Proof. unfold is_dig; lia. Qed.

Ltac dig_split H := apply dig_cases in H; repeat (destruct H as [H|H]); subst.

Lemma dchar_digit : forall d, is_dig d -> is_digit (dchar d) = true.
Proof. intros d H. dig_split H; reflexivity. Qed.
Lemma dchar_val : forall d, is_dig d -> digit_val (dchar d) = d.
Proof. intros d H. dig_split H; reflexivity. Qed.
Lemma is_digit_dchar : forall c, is_digit c = true -> exists d, is_dig d /\ c = dchar d.
Proof.
  intros c H. exists (digit_val c).
  unfold is_digit in H. apply andb_true_iff in H as [H1 H2].
  apply Z.leb_le in H1. apply Z.leb_le in H2.
  assert (D : is_dig (digit_val c)) by (unfold is_dig, digit_val; lia).
  split; auto. apply code_inj.
  assert (code (dchar (digit_val c)) = 48 + digit_val c).
  { revert D. generalize (digit_val c). intros d D. dig_split D; reflexivity. }
  rewrite H. unfold digit_val. lia.
Qed.

Lemma dig_start_spec : forall s, (match s with c :: _ => is_digit c | [] => false end) = true <-> dig_start s.
Proof.
  intros s; split.
  - destruct s; try discriminate. intros H. apply is_digit_dchar in H as (d & Hd & ->). exists d, s; auto.
  - intros (d & r & Hd & ->). apply dchar_digit; auto.
Qed.

Lemma not_dig_start : forall s, ~ dig_start s ->
  (match s with c :: _ => is_digit c | [] => false end) = false.
Proof.
  intros s H. destruct (match s with c :: _ => is_digit c | [] => false end) eqn:E; auto.
  apply dig_start_spec in E. contradiction.
Qed.

Lemma span_app : forall p a b, forallb p a = true ->
  (match b with c :: _ => p c | [] => false end) = false ->
  span p (a ++ b) = (a, b).
Proof.
  induction a; simpl; intros b H1 H2.
  - destruct b; simpl; auto. rewrite H2. reflexivity.
  - apply andb_true_iff in H1 as [Ha H1]. rewrite Ha, IHa; auto.
Qed.

Lemma span_spec : forall p s a b, span p s = (a, b) ->
  s = a ++ b /\ forallb p a = true /\ (match b with c :: _ => p c | [] => false end) = false.
Proof.
  induction s; simpl; intros x y H.
  - inversion H; subst; auto.
  - destruct (p a) eqn:E.
    + destruct (span p s) as [u v] eqn:S. inversion H; subst.
      destruct (IHs _ _ eq_refl) as (-> & F & G). simpl. rewrite E, F. auto.
    + inversion H; subst. simpl. rewrite E. auto.
Qed.

Lemma dtext_digits : forall ds, Forall is_dig ds -> forallb is_digit (dtext ds) = true.
Proof.
  induction 1; simpl; auto. rewrite dchar_digit; auto.
Qed.

Lemma span_dtext : forall ds r, Forall is_dig ds -> ~ dig_start r ->
  span is_digit (dtext ds ++ r) = (dtext ds, r).
Proof.
  intros. apply span_app. apply dtext_digits; auto. apply not_dig_start; auto.
Qed.

Lemma dtext_nil : forall ds, dtext ds = [] <-> ds = [].
Proof. destruct ds; simpl; split; congruence. Qed.

Lemma fold_digits_acc : forall s a,
  fold_left (fun a c => 10 * a + digit_val c) s a
  = a * 10 ^ Z.of_nat (List.length s) + fold_left (fun a c => 10 * a + digit_val c) s 0.
Proof.
  induction s; intros.
  - simpl. lia.
  - cbn [fold_left List.length]. rewrite IHs. rewrite (IHs (10 * 0 + digit_val a)).
    rewrite Nat2Z.inj_succ, Z.pow_succ_r by lia. ring.
Qed.

Lemma num_of_dtext : forall ds, Forall is_dig ds -> num_of_digits (dtext ds) = dval ds.
Proof.
  unfold num_of_digits. induction 1.
  - reflexivity.
  - cbn [dtext map fold_left dval]. rewrite fold_digits_acc. fold (dtext l). rewrite IHForall.
    rewrite dchar_val by auto. unfold dtext. rewrite map_length. ring.
Qed.

Lemma dtext_app : forall a b, dtext (a ++ b) = dtext a ++ dtext b.
Proof. intros. apply map_app. Qed.

Lemma dval_app : forall a b, dval (a ++ b) = dval a * 10 ^ Z.of_nat (List.length b) + dval b.
Proof.
  induction a; intros; simpl.
  - lia.
  - rewrite IHa, app_length, Nat2Z.inj_add, Z.pow_add_r by lia. ring.
Qed.

Lemma dval_nonneg : forall ds, Forall is_dig ds -> 0 <= dval ds.
Proof.
  induction 1; simpl; [lia|]. unfold is_dig in H.
  assert (0 <= 10 ^ Z.of_nat (List.length l)) by (apply Z.pow_nonneg; lia). nia.
Qed.

Lemma ten_pow_p10 : forall e, (ten_pow e == p10 e)%Q.
Proof.
  intros [|p|p]; unfold ten_pow, p10.
  - reflexivity.
  - rewrite <- Qpower_decomp_positive || idtac.
    replace (10 # 1)%Q with (inject_Z 10) by reflexivity.
    rewrite <- Zpower_Qpower by lia. reflexivity.
  - change (Zneg p) with (- Zpos p). rewrite Qpower_opp.
    replace (10 # 1)%Q with (inject_Z 10) by reflexivity.
    rewrite <- Zpower_Qpower by lia. reflexivity.
Qed.

Lemma p10_0 : (p10 0 == 1)%Q.
Proof. reflexivity. Qed.
Lemma p10_plus : forall a b, (p10 (a + b) == p10 a * p10 b)%Q.
Proof. intros. unfold p10. apply Qpower_plus. discriminate. Qed.
Lemma p10_nonneg_Z : forall n, 0 <= n -> (p10 n == inject_Z (10 ^ n))%Q.
Proof.
  intros. unfold p10. replace (10 # 1)%Q with (inject_Z 10) by reflexivity.
  rewrite <- Zpower_Qpower by lia. reflexivity.
Qed.
Lemma p10_opp_cancel : forall n, (p10 n * p10 (- n) == 1)%Q.
Proof. intros. rewrite <- p10_plus. replace (n + - n) with 0 by lia. reflexivity. Qed.
Lemma p10_pos : forall n, (0 < p10 n)%Q.
Proof. intros. unfold p10. apply Qpower_0_lt. reflexivity. Qed.

Lemma opt_sign_text : forall s r,
  (forall c r', r = c :: r' -> c <> "+"%char /\ c <> "-"%char) ->
  exists b, opt_sign (sgn_text s ++ r) = (b, match s with SMinus => true | _ => false end, r).
Proof.
  intros [] r H; simpl.
  - unfold opt_sign. destruct r as [|c r]; [eexists; reflexivity|].
    destruct (H c r eq_refl) as [H1 H2].
    apply aeqb_false in H1. apply aeqb_false in H2. rewrite H1, H2. eexists; reflexivity.
  - eexists; reflexivity.
  - eexists; reflexivity.
Qed.

Lemma dchar_not : forall d c, is_dig d -> is_digit c = false -> dchar d <> c.
Proof. intros d c Hd Hc E. subst. rewrite dchar_digit in Hc by auto. discriminate. Qed.

Lemma dtext_sign_free : forall ds r c r',
  Forall is_dig ds -> ds <> [] -> dtext ds ++ r = c :: r' -> c <> "+"%char /\ c <> "-"%char.
Proof.
  intros ds r c r' F N E. destruct ds as [|d ds]; [congruence|].
  inversion F; subst. simpl in E. inversion E; subst.
  split; apply dchar_not; auto.
Qed.

Lemma match_exp_some : forall (up : bool) s ds r,
  Forall is_dig ds -> ds <> [] -> ~ dig_start r ->
  match_exp ((if up then "E"%char else "e"%char) :: sgn_text s ++ dtext ds ++ r)
  = (Some (match s with SMinus => true | _ => false end, dtext ds), r).
Proof.
  intros up s ds r F N D.
  assert (M : forall b, match_exp (b :: sgn_text s ++ dtext ds ++ r) =
     if aeqb b "e" || aeqb b "E" then
        (Some (match s with SMinus => true | _ => false end, dtext ds), r)
     else (None, b :: sgn_text s ++ dtext ds ++ r)).
  { intros b. unfold match_exp. destruct (aeqb b "e" || aeqb b "E"); auto.
    destruct (opt_sign_text s (dtext ds ++ r)) as [x Hx].
    { intros. eapply dtext_sign_free; eauto. }
    rewrite Hx. rewrite span_dtext by auto.
    destruct (dtext ds) eqn:E; auto. apply dtext_nil in E. congruence. }
  rewrite M. destruct up; reflexivity.
Qed.

Lemma match_exp_none : forall r,
  (forall s r', (r = "e"%char :: sgn_text s ++ r' \/ r = "E"%char :: sgn_text s ++ r') -> ~ dig_start r') ->
  match_exp r = (None, r).
Proof.
  intros r H. unfold match_exp. destruct r as [|c r]; auto.
  destruct (aeqb c "e" || aeqb c "E") eqn:E; auto.
  assert (Hs : exists s b r', opt_sign r = (b, match s with SMinus => true | _ => false end, r') /\ r = sgn_text s ++ r').
  { unfold opt_sign. destruct r as [|x r].
    - exists SNone, false, []; auto.
    - destruct (aeqb x "-") eqn:X1.
      + apply aeqb_true in X1; subst. exists SMinus, true, r; auto.
      + destruct (aeqb x "+") eqn:X2.
        * apply aeqb_true in X2; subst. exists SPlus, true, r; auto.
        * exists SNone, false, (x :: r); auto. }
  destruct Hs as (s & b & r' & Hs & Hr). rewrite Hs.
  assert (ND : ~ dig_start r').
  { apply (H s). apply orb_true_iff in E as [E|E]; apply aeqb_true in E; subst; auto. }
  assert (span is_digit r' = ([], r')).
  { apply not_dig_start in ND. destruct r'; simpl; auto. rewrite ND. reflexivity. }
  rewrite H0. reflexivity.
Qed.

Definition exp_of (l : lit) : option (bool * text) :=
  match l_exp l with
  | None => None
  | Some (_, s, ds) => Some (match s with SMinus => true | _ => false end, dtext ds)
  end.
Definition fnum_of (l : lit) : fnum :=
  mkF (match l_sgn l with SMinus => true | _ => false end) (dtext (l_int l)) (dtext (l_frac l)) (exp_of l).

Lemma exp_text_start : forall l r, ~ dig_start r ->
  match l_exp l with None => True | Some (_, _, ds) => Forall is_dig ds /\ ds <> [] end ->
  ~ dig_start (match l_exp l with None => [] | Some (up, s, ds) => (if up : bool then "E"%char else "e"%char) :: sgn_text s ++ dtext ds end ++ r).
Proof.
  intros l r H O. destruct (l_exp l) as [[[up s] ds]|]; simpl; auto.
  intros (d & r' & Hd & E). inversion E. symmetry in H1. destruct up; eapply dchar_not in H1; eauto.
Qed.

Lemma match_float_lit : forall l rest, lit_ok l -> no_cont l rest ->
  match_float (lit_text l ++ rest) = Some (fnum_of l, rest).
Proof.
  intros l rest (Fi & Ff & Ne & Fe) (N1 & N2 & N3).
  unfold match_float, lit_text.
  set (ET := match l_exp l with None => [] | Some (up, s, ds) => (if up : bool then "E"%char else "e"%char) :: sgn_text s ++ dtext ds end).
  set (FT := match l_frac l with [] => [] | z :: l0 => "."%char :: dtext (z :: l0) end).
  rewrite <- !app_assoc.
  destruct (opt_sign_text (l_sgn l) (dtext (l_int l) ++ FT ++ ET ++ rest)) as [b Hb].
  { intros c r' E. destruct (l_int l) as [|i is] eqn:EI.
    - destruct Ne as [Ne|Ne]; [congruence|]. unfold FT in E. destruct (l_frac l); [congruence|].
      simpl in E. inversion E; subst. split; discriminate.
    - eapply dtext_sign_free; [ | | exact E]; auto. congruence. }
  unfold text in *. rewrite Hb. clear Hb.
  assert (EXPR : match_exp (ET ++ rest) = (exp_of l, rest)).
  { unfold ET, exp_of. destruct (l_exp l) as [[[up s] ds]|].
    - destruct Fe. rewrite <- app_comm_cons, <- app_assoc. apply match_exp_some; auto.
    - simpl. apply match_exp_none. intros. eapply N3; eauto. }
  assert (ND : ~ dig_start (ET ++ rest)) by (apply exp_text_start; auto).
  assert (SI : span is_digit (dtext (l_int l) ++ FT ++ ET ++ rest) = (dtext (l_int l), FT ++ ET ++ rest)).
  { apply span_dtext; auto. unfold FT. destruct (l_frac l); simpl; auto.
    intros (d & r' & Hd & E). inversion E. symmetry in H0. eapply dchar_not in H0; eauto. }
  rewrite SI. clear SI.
  unfold FT in *. destruct (l_frac l) as [|f fs] eqn:EF.
  - cbn [app].
    assert (NF : match_frac (ET ++ rest) = ([], ET ++ rest)).
    { unfold match_frac. destruct (ET ++ rest) as [|c r] eqn:EC; auto.
      destruct (aeqb c ".") eqn:Dot; auto. apply aeqb_true in Dot; subst c.
      assert (l_exp l = None).
      { unfold ET in EC. destruct (l_exp l) as [[[up s] ds]|]; auto. destruct up; discriminate. }
      assert (~ dig_start r).
      { unfold ET in EC. rewrite H in EC. simpl in EC. eapply N2; eauto. }
      apply not_dig_start in H0. destruct r; simpl; auto. rewrite H0. reflexivity. }
    rewrite NF. clear NF.
    destruct (dtext (l_int l)) eqn:EI.
    { apply dtext_nil in EI. destruct Ne; congruence. }
    rewrite EXPR. unfold fnum_of. rewrite EF, EI. reflexivity.
  - cbn [app].
    assert (NF : match_frac ("."%char :: dtext (f :: fs) ++ ET ++ rest) = (dtext (f :: fs), ET ++ rest)).
    { unfold match_frac. change (aeqb "." ".") with true. cbn iota.
      rewrite span_dtext; auto. }
    rewrite NF. clear NF.
    destruct (dtext (f :: fs)) eqn:ED; [discriminate|].
    rewrite EXPR. unfold fnum_of. rewrite EF, ED.
    destruct (dtext (l_int l)); reflexivity.
Qed.

Lemma fnum_val_lit : forall l, lit_ok l -> (fnum_val (fnum_of l) == lit_val l)%Q.
Proof.
  intros l (Fi & Ff & Ne & Fe). unfold fnum_val, lit_val, fnum_of. cbn [f_int f_frac f_exp f_neg].
  rewrite <- dtext_app, num_of_dtext by (apply Forall_app; auto).
  rewrite dval_app.
  set (n := Z.of_nat (List.length (l_frac l))).
  replace (Z.of_nat (List.length (dtext (l_frac l)))) with n by (unfold dtext; rewrite map_length; reflexivity).
  set (e := match exp_of l with None => 0 | Some (neg, ds) => if neg then - num_of_digits ds else num_of_digits ds end).
  assert (He : e = match l_exp l with None => 0 | Some (_, s, ds) => sgn_z s * dval ds end).
  { unfold e, exp_of. destruct (l_exp l) as [[[up s] ds]|]; auto. destruct Fe.
    rewrite num_of_dtext by auto. destruct s; cbn [sgn_z]; lia. }
  rewrite <- He. clearbody e.
  assert (E1 : (inject_Z (dval (l_int l) * 10 ^ n + dval (l_frac l)) * ten_pow (e - n) ==
            (inject_Z (dval (l_int l)) + inject_Z (dval (l_frac l)) * p10 (- n)) * p10 e)%Q).
  { rewrite ten_pow_p10. unfold Z.sub. rewrite p10_plus.
    rewrite inject_Z_plus, inject_Z_mult, <- p10_nonneg_Z by (unfold n; lia).
    pose proof (p10_opp_cancel n) as C.
    transitivity ((inject_Z (dval (l_int l)) * (p10 n * p10 (- n)) + inject_Z (dval (l_frac l)) * p10 (- n)) * p10 e)%Q; [ring|].
    rewrite C. ring. }
  destruct (l_sgn l); cbn [sgn_z]; rewrite E1; ring.
Qed.

Lemma py_float_lit : forall l, lit_ok l -> exists q, py_float (lit_text l) = Ok q /\ (q == lit_val l)%Q.
Proof.
  intros l H. exists (fnum_val (fnum_of l)). split; [|apply fnum_val_lit; auto].
  unfold py_float. rewrite <- (app_nil_r (lit_text l)), match_float_lit; auto.
  repeat split.
  - intros (d & r & _ & E); discriminate.
  - intros; discriminate.
  - intros _ s r [E|E]; discriminate.
Qed.

(** White space. *)
Lemma wsp_is_ws : forall c, wsp c -> is_ws c = true.
Proof. intros c H. unfold wsp in H. simpl in H. repeat (destruct H as [<-|H]; [reflexivity|]). contradiction. Qed.

Lemma drop_ws_app : forall w r, Forall wsp w ->
  (match r with c :: _ => is_ws c | [] => false end) = false -> drop_ws (w ++ r) = r.
Proof.
  induction 1; intros R; simpl.
  - destruct r; auto. simpl. rewrite R. reflexivity.
  - rewrite wsp_is_ws by auto. auto.
Qed.

(** int() *)
Lemma digits_us_dtext : forall ds acc b, Forall is_dig ds -> (ds <> [] \/ b = true) ->
  digits_us (dtext ds) acc b = Some (acc * 10 ^ Z.of_nat (List.length ds) + dval ds).
Proof.
  induction ds; intros acc b F H.
  - destruct H as [H|H]; [congruence|]. subst. cbn. f_equal. lia.
  - inversion F; subst. cbn [dtext map digits_us]. rewrite dchar_digit by auto.
    fold (dtext ds). rewrite IHds by auto. rewrite dchar_val by auto.
    cbn [List.length dval]. rewrite Nat2Z.inj_succ, Z.pow_succ_r by lia. f_equal. ring.
Qed.

Lemma drop_ws_first : forall s, (match s with c :: _ => is_ws c | [] => false end) = false -> drop_ws s = s.
Proof. destruct s; simpl; auto. intros ->; auto. Qed.

Lemma digit_not_ws : forall c, is_digit c = true -> is_ws c = false.
Proof.
  intros c H. unfold is_digit in H. apply andb_true_iff in H as [H1 H2].
  apply Z.leb_le in H1. apply Z.leb_le in H2. unfold is_ws.
  repeat (apply orb_false_iff; split);
    try (apply andb_false_iff; right; apply Z.leb_gt; lia); apply Z.eqb_neq; lia.
Qed.

Lemma strip_ws_nows : forall s, forallb (fun c => negb (is_ws c)) s = true -> strip_ws s = s.
Proof.
  intros s H. unfold strip_ws.
  assert (K : forall s, forallb (fun c => negb (is_ws c)) s = true -> drop_ws s = s).
  { intros s0 H0. apply drop_ws_first. destruct s0; auto. simpl in H0.
    apply andb_true_iff in H0 as [H0 _]. apply negb_true_iff in H0; auto. }
  rewrite (K s) by auto. rewrite K.
  - apply rev_involutive.
  - apply forallb_forall. intros x Hx. rewrite forallb_forall in H. apply H. apply in_rev; auto.
Qed.

Lemma py_int10_text : forall s ds, Forall is_dig ds -> ds <> [] ->
  py_int10 (sgn_text s ++ dtext ds) = Ok (sgn_z s * dval ds).
Proof.
  intros s ds F N. unfold py_int10. rewrite strip_ws_nows.
  2:{ apply forallb_forall. intros x Hx. apply negb_true_iff. apply in_app_or in Hx as [Hx|Hx].
      - destruct s; simpl in Hx; try contradiction; destruct Hx as [<-|[]]; reflexivity.
      - apply digit_not_ws. pose proof (dtext_digits ds F). rewrite forallb_forall in H. auto. }
  assert (G := digits_us_dtext ds 0 false F (or_introl N)).
  destruct s; cbn [sgn_text app sgn_z].
  - destruct ds as [|d ds]; [congruence|]. inversion F; subst. cbn [dtext map] in *.
    assert (aeqb (dchar d) "-" = false) by (apply aeqb_false, dchar_not; auto).
    assert (aeqb (dchar d) "+" = false) by (apply aeqb_false, dchar_not; auto).
    rewrite H, H0. rewrite G. f_equal. ring.
  - change (match digits_us (dtext ds) 0 false with Some n => Ok n | None => Err ValueError end = Ok (1 * dval ds)).
    rewrite G. f_equal. ring.
  - change (match digits_us (dtext ds) 0 false with Some n => Ok (- n) | None => Err ValueError end = Ok (-1 * dval ds)).
    rewrite G. f_equal; try ring.
Qed.
