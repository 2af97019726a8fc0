(** More colour lemmas: keywords, functional notation, compositing, distance, HSL, distinct. *)
Require Import ZArith QArith Qround Qabs List Ascii String Bool Lia Lqa ZifyBool Qfield.
Require Import Verif.Base Verif.Text_Spec Verif.Text_Proofs Verif.Color_Model Verif.Color_Spec Verif.Color_Proofs.
Import ListNotations.
Open Scope Z_scope.

(** ** Keywords *)
Lemma variant_lower : forall c c', is_lower c = true -> case_variant c c' ->
  lower1 c' = c /\ aeqb c' " " = false /\ (is_lower c' = true \/ is_upper c' = true).
Proof.
  intros c c' L [->|V].
  - assert (K := ascii_all (fun c => negb (is_lower c) || (aeqb (lower1 c) c && negb (aeqb c " "))) eq_refl c).
    cbn beta in K. rewrite L in K. cbn [negb orb] in K. apply andb_true_iff in K as [K1 K2].
    apply aeqb_true in K1. apply negb_true_iff in K2. auto.
  - assert (V' : code c' = code c - 32) by (unfold code; lia).
    unfold is_lower in L. apply andb_true_iff in L as [L1 L2].
    assert (is_upper c' = true) by (unfold is_upper; lia).
    repeat split.
    + unfold lower1. rewrite H, V'. replace (code c - 32 + 32) with (code c) by lia. apply chr_code.
    + apply aeqb_false. intros ->. change (code " ") with 32 in V'. lia.
    + auto.
Qed.

Lemma spelling_props : forall n s, spelling n s -> forallb is_lower n = true ->
  lower (remove_char " " s) = n /\
  forallb (fun c => aeqb c " " || is_lower c || is_upper c) s = true.
Proof.
  induction 1; intros F.
  - auto.
  - destruct (IHspelling F) as [A B]. split; auto.
  - simpl in F. apply andb_true_iff in F as [F1 F2]. destruct (IHspelling F2) as [A B].
    destruct (variant_lower c c' F1 H) as (L & S & U).
    unfold remove_char in *. simpl. rewrite S. simpl. rewrite L, A. split; auto.
    rewrite B. destruct U as [-> | ->]; rewrite ?orb_true_r; reflexivity.
Qed.

Lemma lower_spelling : forall s, forallb (fun c => aeqb c " " || is_lower c || is_upper c) s = true ->
  spelling (lower (remove_char " " s)) s.
Proof.
  induction s; intros H; simpl.
  - constructor.
  - simpl in H. apply andb_true_iff in H as [H1 H2]. specialize (IHs H2).
    unfold remove_char in *. simpl. destruct (aeqb a " ") eqn:E.
    + apply aeqb_true in E; subst. simpl. constructor. auto.
    + simpl. constructor; auto.
      unfold lower1. destruct (is_upper a) eqn:U; [|left; reflexivity].
      right. unfold is_upper in U. unfold chr.
      rewrite N_ascii_embedding; unfold code in *; lia.
Qed.

Lemma strip_prefix_spec : forall p s r, strip_prefix p s = Some r -> s = p ++ r.
Proof.
  induction p; simpl; intros s r H.
  - congruence.
  - destruct s; try discriminate. destruct (aeqb a a0) eqn:E; try discriminate.
    apply aeqb_true in E; subst. apply IHp in H. congruence.
Qed.
Lemma strip_prefix_app : forall p r, strip_prefix p (p ++ r) = Some r.
Proof. induction p; simpl; intros; auto. rewrite aeqb_refl. auto. Qed.

Lemma match_cfun_paren : forall nm s1 s2 s3 s m, match_cfun nm s1 s2 s3 s = Some m -> In "("%char s.
Proof.
  intros nm s1 s2 s3 s m H. unfold match_cfun in H.
  destruct (strip_prefix nm s) as [r|] eqn:E; try discriminate.
  apply strip_prefix_spec in E. subst s. apply in_or_app. right.
  set (r' := match r with [] => [] | c :: r' => if aeqb c "a" then r' else r end) in H.
  destruct (strip_prefix ["("%char] r') as [q|] eqn:E; try discriminate.
  apply strip_prefix_spec in E.
  assert (incl r' r). { unfold r'. intros x Hx. destruct r; auto. destruct (aeqb a "a"); simpl; auto. }
  apply H0. rewrite E. left. reflexivity.
Qed.

Lemma no_paren_no_cfun : forall nm s1 s2 s3 s, ~ In "("%char s -> match_cfun nm s1 s2 s3 s = None.
Proof.
  intros. destruct (match_cfun nm s1 s2 s3 s) eqn:E; auto. apply match_cfun_paren in E. contradiction.
Qed.

Lemma hex_match_chars : forall s, hex_match s = true ->
  forallb (fun c => is_hex c || aeqb c hash || aeqb c newline) s = true.
Proof.
  intros s H. unfold hex_match in H.
  destruct (span is_hex (drop_hash s)) as [ds rest] eqn:E.
  apply span_spec in E as (E1 & E2 & E3).
  apply andb_true_iff in H as [_ H].
  assert (forallb (fun c => is_hex c || aeqb c hash || aeqb c newline) (drop_hash s) = true).
  { rewrite E1, forallb_app. apply andb_true_iff. split.
    - apply forallb_forall. intros x Hx. rewrite forallb_forall in E2. rewrite E2 by auto. reflexivity.
    - destruct rest as [|c [|]]; try discriminate; auto. simpl. rewrite H, ?orb_true_r. reflexivity. }
  unfold drop_hash in H0. destruct s as [|c s]; auto. destruct (aeqb c hash) eqn:Q; auto.
  simpl. rewrite Q, H0, orb_true_r. reflexivity.
Qed.

Lemma letters_no_paren : forall s, forallb (fun c => aeqb c " " || is_lower c || is_upper c) s = true -> ~ In "("%char s.
Proof. intros s H I. rewrite forallb_forall in H. apply H in I. discriminate. Qed.

(** A text whose normalised form has a letter outside a-f is not hex notation. *)
Lemma hex_match_norm : forall s, hex_match s = true ->
  forallb (fun c => is_hex c || aeqb c hash || aeqb c newline) (lower (remove_char " " s)) = true.
Proof.
  intros s H. apply hex_match_chars in H.
  apply forallb_forall. intros x Hx. unfold lower in Hx. apply in_map_iff in Hx as (y & <- & Hy).
  unfold remove_char in Hy. apply filter_In in Hy as [Hy _].
  rewrite forallb_forall in H. apply H in Hy.
  assert (K := ascii_all (fun c => negb (is_hex c || aeqb c hash || aeqb c newline) ||
            (is_hex (lower1 c) || aeqb (lower1 c) hash || aeqb (lower1 c) newline)) eq_refl y).
  cbn beta in K. rewrite Hy in K. exact K.
Qed.

Definition kw_check (e : string * Z) : bool :=
  let '(n, rgb) := e in
  let t := T n in
  forallb is_lower t && negb (teqb t (T "none")) && negb (teqb t (T "transparent")) &&
  negb (forallb (fun c => is_hex c || aeqb c hash || aeqb c newline) t) &&
  (String.eqb n "aliceblue" ||
  match assoc_text t keyword_chain with
  | Some (r, g, b) => (r =? rgb / 2^16) && (g =? (rgb / 2^8) mod 256) && (b =? rgb mod 256)
                      && (0 <=? r) && (r <=? 255) && (0 <=? g) && (g <=? 255) && (0 <=? b) && (b <=? 255)
  | None => false
  end).
Lemma kw_check_all : forallb kw_check svg11_keywords = true.
Proof. vm_compute. reflexivity. Qed.

Lemma keyword_lemma : forall n rgb s, In (n, rgb) svg11_keywords -> n <> "aliceblue"%string ->
  spelling (T n) s -> parse s = Ok (Some (pack (opaque rgb))).
Proof.
  intros n rgb s I N S.
  pose proof kw_check_all as K. rewrite forallb_forall in K. specialize (K _ I).
  unfold kw_check in K. rewrite !andb_true_iff in K. destruct K as [[[[K1 K2] K3] K4] K5].
  apply negb_true_iff in K2. apply negb_true_iff in K3. apply negb_true_iff in K4.
  apply String.eqb_neq in N. rewrite N in K5. cbn [orb] in K5.
  destruct (spelling_props _ _ S K1) as [E A].
  unfold parse.
  destruct (teqb s (T "none")) eqn:NN.
  { apply teqb_true in NN. rewrite NN in E. rewrite <- E in K2. discriminate. }
  destruct (hex_match s) eqn:HM.
  { apply hex_match_norm in HM. rewrite E in HM. congruence. }
  apply letters_no_paren in A.
  unfold match_rgb, match_rgbp, match_hsl. rewrite !no_paren_no_cfun by auto.
  unfold parse_color_lookup. rewrite E, K3.
  destruct (assoc_text (T n) keyword_chain) as [[[r g] b]|]; try discriminate.
  rewrite rgb_to_int_opaque. unfold opaque.
  rewrite !crimp_inject. unfold clamp255. rewrite !andb_true_iff in K5.
  do 2 f_equal. f_equal. f_equal; lia.
Qed.

Lemma assoc_text_none : forall {A} k (l : list (string * A)),
  (forall n v, In (n, v) l -> k <> T n) -> assoc_text k l = None.
Proof.
  induction l as [|[n v] l]; simpl; intros H; auto.
  destruct (teqb k (T n)) eqn:E.
  - apply teqb_true in E. exfalso. eapply H; eauto.
  - apply IHl. intros. eapply H; eauto.
Qed.

Definition chain_names_known : bool :=
  forallb (fun e => existsb (fun e' => String.eqb (fst e) (fst e')) svg11_keywords) keyword_chain.
Lemma chain_names_known_ok : chain_names_known = true.
Proof. vm_compute. reflexivity. Qed.

Lemma alpha_not_int : forall s, (exists c, In c s /\ is_lower c = true) ->
  forallb is_lower s = true -> exists e, py_int10 s = Err e.
Proof.
  intros s (c & Hc & Lc) F. unfold py_int10. rewrite strip_ws_nows.
  2:{ apply forallb_forall. intros x Hx. rewrite forallb_forall in F. apply F in Hx.
      assert (K := ascii_all (fun c => negb (is_lower c) || negb (is_ws c)) eq_refl x).
      cbn beta in K. rewrite Hx in K. exact K. }
  destruct s as [|x s]; [contradiction|]. simpl in F. apply andb_true_iff in F as [F1 F2].
  assert (K := ascii_all (fun c => negb (is_lower c) || (negb (aeqb c "-") && negb (aeqb c "+") && negb (is_digit c) && negb (aeqb c "_"))) eq_refl x).
  cbn beta in K. rewrite F1 in K. cbn [negb orb] in K. rewrite !andb_true_iff, !negb_true_iff in K.
  destruct K as [[[-> ->] K3] K4]. simpl. rewrite K3, K4. eauto.
Qed.

Lemma unknown_black : forall s,
  Forall (fun c => c = " "%char \/ is_lower c = true \/ is_upper c = true) s ->
  (exists c, In c s /\ c <> " "%char /\ xdig c = None) ->
  s <> T "none" -> ~ spelling (T "transparent") s ->
  (forall n rgb, In (n, rgb) svg11_keywords -> ~ spelling (T n) s) ->
  parse s = Ok (Some (pack (mkRGBA 0 0 0 255))).
Proof.
  intros s F (c & Hc & Hsp & Hx) NN NT NK.
  assert (A : forallb (fun c => aeqb c " " || is_lower c || is_upper c) s = true).
  { apply forallb_forall. intros x Hx'. rewrite Forall_forall in F. destruct (F x Hx') as [->|[->| ->]]; rewrite ?orb_true_r; reflexivity. }
  unfold parse. apply teqb_false in NN. rewrite NN.
  destruct (hex_match s) eqn:HM.
  { apply hex_match_chars in HM. rewrite forallb_forall in HM. apply HM in Hc as Hc'.
    rewrite Forall_forall in F. apply F in Hc. exfalso.
    destruct (is_hex c) eqn:HX. { apply is_hex_xdig in HX as [d Hd]. congruence. }
    apply orb_true_iff in Hc' as [Hc'|Hc']; apply aeqb_true in Hc'; subst c; destruct Hc as [Hc|[Hc|Hc]]; discriminate. }
  pose proof (letters_no_paren _ A) as NP.
  unfold match_rgb, match_rgbp, match_hsl. rewrite !no_paren_no_cfun by auto.
  pose proof (lower_spelling _ A) as SP.
  unfold parse_color_lookup.
  destruct (teqb (lower (remove_char " " s)) (T "transparent")) eqn:TT.
  { apply teqb_true in TT. rewrite TT in SP. contradiction. }
  rewrite assoc_text_none.
  - destruct (alpha_not_int (lower (remove_char " " s))) as [e ->].
    + exists (lower1 c). split.
      * unfold lower. apply in_map. unfold remove_char. apply filter_In. split; auto.
        apply negb_true_iff, aeqb_false. auto.
      * rewrite Forall_forall in F. apply F in Hc.
        assert (K := ascii_all (fun c => negb (is_lower c || is_upper c) || is_lower (lower1 c)) eq_refl c).
        cbn beta in K. destruct Hc as [Hc|[Hc|Hc]]; [contradiction| |]; rewrite Hc, ?orb_true_r in K; exact K.
    + apply forallb_forall. intros x Hx'. unfold lower in Hx'. apply in_map_iff in Hx' as (y & <- & Hy).
      unfold remove_char in Hy. apply filter_In in Hy as [Hy Hy2]. apply negb_true_iff, aeqb_false in Hy2.
      rewrite Forall_forall in F. apply F in Hy.
      assert (K := ascii_all (fun c => negb (is_lower c || is_upper c) || is_lower (lower1 c)) eq_refl y).
      cbn beta in K. destruct Hy as [Hy|[Hy|Hy]]; [contradiction| |]; rewrite Hy, ?orb_true_r in K; exact K.
    + rewrite rgb_to_int_opaque. reflexivity.
  - intros n v I E. pose proof chain_names_known_ok as C. unfold chain_names_known in C.
    rewrite forallb_forall in C. specialize (C _ I). apply existsb_exists in C as ((n', rgb) & I' & E').
    apply String.eqb_eq in E'. simpl in E'. subst n'. rewrite E in SP. eapply NK; eauto.
Qed.

(** ** Functional notation *)
Definition soft (c : ascii) : bool := is_ws c || aeqb c "%" || aeqb c "," || aeqb c ")".
Lemma soft_no_cont : forall l c r, soft c = true -> no_cont l (c :: r).
Proof.
  intros l c r H.
  assert (K := ascii_all (fun c => negb (soft c) || (negb (is_digit c) && negb (aeqb c ".") && negb (aeqb c "e") && negb (aeqb c "E"))) eq_refl c).
  cbn beta in K. rewrite H in K. cbn [negb orb] in K. rewrite !andb_true_iff, !negb_true_iff in K.
  destruct K as [[[K1 K2] K3] K4]. repeat split.
  - intros (d & r' & Hd & E). inversion E; subst. rewrite dchar_digit in K1 by auto. discriminate.
  - intros _ _ r' E. inversion E; subst. discriminate.
  - intros _ s r' [E|E]; inversion E; subst; discriminate.
Qed.

Lemma lit_first : forall l, lit_ok l -> exists c r, lit_text l = c :: r /\ is_ws c = false.
Proof.
  intros l (Fi & Ff & Ne & Fe). unfold lit_text. destruct (l_sgn l); simpl.
  - destruct (l_int l) as [|i is] eqn:E.
    + destruct (l_frac l) eqn:E2. { destruct Ne; congruence. } simpl. eexists _, _. split; reflexivity.
    + simpl. inversion Fi; subst. eexists _, _. split; [reflexivity|]. apply digit_not_ws, dchar_digit; auto.
  - eexists _, _; split; reflexivity.
  - eexists _, _; split; reflexivity.
Qed.

Lemma firstn_sub : forall {A} (a b : list A), firstn (List.length (a ++ b) - List.length b) (a ++ b) = a.
Proof.
  intros. rewrite app_length. replace (List.length a + List.length b - List.length b)%nat with (List.length a) by lia.
  rewrite firstn_app, Nat.sub_diag. simpl. rewrite app_nil_r. apply firstn_all.
Qed.

Lemma match_arg_lit : forall suffix w l w' c rest,
  Forall wsp w -> Forall wsp w' -> lit_ok l -> (suffix = [] \/ suffix = ["%"%char]) ->
  soft c = true -> is_ws c = false ->
  match_arg suffix (w ++ lit_text l ++ suffix ++ w' ++ c :: rest) = Some (lit_text l, fnum_of l, c :: rest).
Proof.
  intros suffix w l w' c rest W W' L S C1 C2. unfold match_arg.
  destruct (lit_first l L) as (x & r & E & NW).
  rewrite drop_ws_app; auto. 2:{ rewrite E. exact NW. }
  unfold match_float_text. rewrite match_float_lit; auto.
  - rewrite firstn_sub. rewrite strip_prefix_app. rewrite drop_ws_app; auto.
  - assert (forall w0, Forall wsp w0 -> exists y z, w0 ++ c :: rest = y :: z /\ soft y = true).
    { intros w0 F. destruct F; simpl; eauto. eexists _, _. split; [reflexivity|]. unfold soft. rewrite wsp_is_ws; auto. }
    destruct S as [->| ->]; simpl.
    + destruct (H w' W') as (y & z & -> & Hy). apply soft_no_cont; auto.
    + apply soft_no_cont. reflexivity.
Qed.

Lemma match_cfun_text : forall name (wa : bool) s1 s2 s3 w1 l1 w1' w2 l2 w2' w3 l3 w3' o tail,
  (s1 = [] \/ s1 = ["%"%char]) -> (s2 = [] \/ s2 = ["%"%char]) -> (s3 = [] \/ s3 = ["%"%char]) ->
  Forall wsp w1 -> Forall wsp w1' -> Forall wsp w2 -> Forall wsp w2' -> Forall wsp w3 -> Forall wsp w3' ->
  lit_ok l1 -> lit_ok l2 -> lit_ok l3 ->
  match o with None => True | Some (w4, l4, w4') => Forall wsp w4 /\ Forall wsp w4' /\ lit_ok l4 end ->
  match_cfun name s1 s2 s3
    (cfun_text name wa (arg_text w1 l1 s1 w1') (arg_text w2 l2 s2 w2') (arg_text w3 l3 s3 w3')
       (match o with None => None | Some (w4, l4, w4') => Some (arg_text w4 l4 [] w4') end) tail)
  = Some (mkCfun (lit_text l1, fnum_of l1) (lit_text l2, fnum_of l2) (lit_text l3, fnum_of l3)
       (match o with None => None | Some (_, l4, _) => Some (fnum_of l4) end)).
Proof.
  intros. unfold match_cfun, cfun_text. rewrite strip_prefix_app.
  cbn zeta.
  match goal with |- context [strip_prefix ["("%char] ?X] => replace X with (skipn (if wa then 1 else 0) ((if wa then ["a"%char] else []) ++ "("%char :: arg_text w1 l1 s1 w1' ++
     ","%char :: arg_text w2 l2 s2 w2' ++ ","%char :: arg_text w3 l3 s3 w3' ++
       (match o with None => [] | Some (w4, l4, w4') => ","%char :: arg_text w4 l4 [] w4' end) ++ ")"%char :: tail)) by (destruct wa, o as [[[? ?] ?]|]; reflexivity) end.
  replace (skipn (if wa then 1 else 0) ((if wa then ["a"%char] else []) ++ "("%char :: arg_text w1 l1 s1 w1' ++
     ","%char :: arg_text w2 l2 s2 w2' ++ ","%char :: arg_text w3 l3 s3 w3' ++
       (match o with None => [] | Some (w4, l4, w4') => ","%char :: arg_text w4 l4 [] w4' end) ++ ")"%char :: tail)) with ("("%char :: arg_text w1 l1 s1 w1' ++
     ","%char :: arg_text w2 l2 s2 w2' ++ ","%char :: arg_text w3 l3 s3 w3' ++
       (match o with None => [] | Some (w4, l4, w4') => ","%char :: arg_text w4 l4 [] w4' end) ++ ")"%char :: tail) by (destruct wa; reflexivity).
  cbn [strip_prefix]. rewrite aeqb_refl.
  unfold arg_text. rewrite <- !app_assoc.
  rewrite (match_arg_lit s1 w1 l1 w1' ","%char) by auto.
  cbn [strip_prefix]. rewrite aeqb_refl.
  rewrite (match_arg_lit s2 w2 l2 w2' ","%char) by auto.
  cbn [strip_prefix]. rewrite aeqb_refl.
  destruct o as [[[w4 l4] w4']|].
  - destruct H11 as (A & B & C).
    rewrite <- !app_comm_cons.
    rewrite (match_arg_lit s3 w3 l3 w3' ","%char) by auto.
    change (aeqb "," ")") with false. rewrite aeqb_refl.
    rewrite <- !app_assoc.
    rewrite (match_arg_lit [] w4 l4 w4' ")"%char tail) by auto.
    rewrite aeqb_refl. reflexivity.
  - cbn [app]. rewrite (match_arg_lit s3 w3 l3 w3' ")"%char tail) by auto.
    rewrite aeqb_refl. reflexivity.
Qed.

Lemma cfun_text_not_hex : forall name wa a1 a2 a3 a4 tail,
  hex_match (cfun_text name wa a1 a2 a3 a4 tail) = false.
Proof.
  intros. destruct (hex_match _) eqn:E; auto. apply hex_match_chars in E. rewrite forallb_forall in E.
  assert (In "("%char (cfun_text name wa a1 a2 a3 a4 tail)).
  { unfold cfun_text. apply in_or_app. right. apply in_or_app. right. left. reflexivity. }
  apply E in H. discriminate.
Qed.
Lemma cfun_text_not_none : forall name wa a1 a2 a3 a4 tail,
  teqb (cfun_text name wa a1 a2 a3 a4 tail) (T "none") = false.
Proof.
  intros. apply teqb_false. intros E.
  assert (In "("%char (cfun_text name wa a1 a2 a3 a4 tail)).
  { unfold cfun_text. apply in_or_app. right. apply in_or_app. right. left. reflexivity. }
  rewrite E in H. simpl in H. intuition discriminate.
Qed.

Lemma strip_prefix_none : forall c p c' s, c <> c' -> strip_prefix (c :: p) (c' :: s) = None.
Proof. intros. simpl. apply aeqb_false in H. rewrite H. reflexivity. Qed.

(** The plain rgb pattern does not match percent arguments. *)
Lemma match_rgb_percent_none : forall wa w1 l1 w1' a2 a3 a4 tail,
  Forall wsp w1 -> Forall wsp w1' -> lit_ok l1 ->
  match_rgb (cfun_text (T "rgb") wa (arg_text w1 l1 ["%"%char] w1') a2 a3 a4 tail) = None.
Proof.
  intros. unfold match_rgb, match_cfun, cfun_text. rewrite strip_prefix_app.
  cbn zeta.
  match goal with |- context [strip_prefix ["("%char] ?X] => assert (HX : exists r, X = "("%char :: w1 ++ lit_text l1 ++ "%"%char :: r) end.
  { unfold arg_text. destruct wa; eexists; cbn; rewrite <- !app_assoc; reflexivity. }
  destruct HX as [r HX]. unfold text in *. rewrite HX. cbn [strip_prefix]. rewrite aeqb_refl.
  pose proof (match_arg_lit [] w1 l1 [] "%"%char r) as M. cbn [app] in M. rewrite M by auto. reflexivity.
Qed.

Lemma rgb_prefix_not_hsl : forall wa a1 a2 a3 a4 tail s1 s2 s3,
  match_cfun (T "rgb") s1 s2 s3 (cfun_text (T "hsl") wa a1 a2 a3 a4 tail) = None.
Proof. intros. reflexivity. Qed.

(** ** Compositing *)
Lemma sa_pos : forall a1 a2, byte a1 -> byte a2 -> a1 <> 0 -> 0 < a1 * 255 + a2 * (255 - a1).
Proof. unfold byte; intros; nia. Qed.

Lemma avg_floor : forall x y wx wy, 0 <= wx -> 0 <= wy -> 0 < wx + wy ->
  Z.min x y * (wx + wy) <= x * wx + y * wy <= Z.max x y * (wx + wy).
Proof. intros. destruct (Z.le_ge_cases x y); rewrite ?Z.min_l, ?Z.min_r, ?Z.max_l, ?Z.max_r by auto; nia. Qed.

Lemma crimp_ratio : forall n d, 0 < d -> 0 <= n <= 255 * d -> crimp (inject_Z n / inject_Z d) = n / d.
Proof.
  intros n d Hd Hn.
  assert (D : (0 < inject_Z d)%Q) by (change 0%Q with (inject_Z 0); rewrite <- Zlt_Qlt; auto).
  assert (Q0 : (0 <= inject_Z n / inject_Z d)%Q).
  { apply Qle_shift_div_l; auto. rewrite Qmult_0_l. change 0%Q with (inject_Z 0). rewrite <- Zle_Qle. lia. }
  assert (Q1 : (inject_Z n / inject_Z d <= 255)%Q).
  { apply Qle_shift_div_r; auto. change 255%Q with (inject_Z 255). rewrite <- inject_Z_mult, <- Zle_Qle. lia. }
  unfold crimp. qcase; [lra|]. qcase; [lra|]. rewrite Qtrunc_nonneg by auto.
  apply Qfloor_unique.
  - apply Qle_shift_div_l; auto. rewrite <- inject_Z_mult, <- Zle_Qle.
    pose proof (Z.mul_div_le n d Hd). lia.
  - apply Qlt_shift_div_r; auto. change 1%Q with (inject_Z 1).
    rewrite <- inject_Z_plus, <- inject_Z_mult, <- Zlt_Qlt.
    pose proof (Z.mul_succ_div_gt n d Hd). lia.
Qed.

Definition mixn (x a1 y a2 : Z) : Z := x * a1 * 255 + y * a2 * (255 - a1).
Definition sumw (a1 a2 : Z) : Z := a1 * 255 + a2 * (255 - a1).

Lemma mix_bounds : forall x a1 y a2, byte x -> byte y -> byte a1 -> byte a2 -> a1 <> 0 ->
  Z.min x y <= mixn x a1 y a2 / sumw a1 a2 <= Z.max x y.
Proof.
  intros x a1 y a2 X Y A1 A2 N. unfold mixn, sumw, byte in *.
  pose proof (avg_floor x y (a1 * 255) (a2 * (255 - a1))).
  assert (0 < a1 * 255 + a2 * (255 - a1)) by nia.
  split.
  - apply Z.div_le_lower_bound; nia.
  - apply Z.div_le_upper_bound; nia.
Qed.

Lemma mix_range : forall x a1 y a2, byte x -> byte y -> byte a1 -> byte a2 ->
  0 <= mixn x a1 y a2 <= 255 * sumw a1 a2.
Proof.
  unfold mixn, sumw, byte; intros.
  assert (0 <= a2 * (255 - a1)) by nia. set (w := a2 * (255 - a1)) in *.
  replace (y * a2 * (255 - a1)) with (y * w) by (unfold w; ring). nia.
Qed.

Lemma sumw_le : forall a1 a2, byte a1 -> byte a2 -> sumw a1 a2 <= 255 * 255.
Proof. unfold sumw, byte; intros; nia. Qed.

Lemma over_general : forall v1 v2, get_alpha v1 <> 255 -> get_alpha v1 <> 0 ->
  exists a, byte a /\ nearest (inject_Z (sumw (get_alpha v1) (get_alpha v2)) / 255) a /\
  over_zz v1 v2 = pack (mkRGBA (mixn (get_red v1) (get_alpha v1) (get_red v2) (get_alpha v2) / sumw (get_alpha v1) (get_alpha v2))
    (mixn (get_green v1) (get_alpha v1) (get_green v2) (get_alpha v2) / sumw (get_alpha v1) (get_alpha v2))
    (mixn (get_blue v1) (get_alpha v1) (get_blue v2) (get_alpha v2) / sumw (get_alpha v1) (get_alpha v2)) a).
Proof.
  intros v1 v2 N1 N0. unfold over_zz.
  apply Z.eqb_neq in N1 as N1'. apply Z.eqb_neq in N0 as N0'. rewrite N1', N0'.
  pose proof (byte_alpha v1) as A1. pose proof (byte_alpha v2) as A2.
  set (a1 := get_alpha v1) in *. set (a2 := get_alpha v2) in *.
  pose proof (sa_pos a1 a2 A1 A2 N0) as SP. fold (sumw a1 a2) in *.
  pose proof (sumw_le a1 a2 A1 A2) as SL.
  fold (mixn (get_red v1) a1 (get_red v2) a2). fold (mixn (get_green v1) a1 (get_green v2) a2). fold (mixn (get_blue v1) a1 (get_blue v2) a2).
  match goal with |- context [rgb_to_int ?r ?g ?b ?o] => destruct (rgb_to_int_spec r g b o) as (a & (u & (U1 & U2 & U3) & Na) & Ba & E) end.
  exists a. split; auto. split.
  - assert ((0 <= inject_Z (sumw a1 a2) / (255 * 255))%Q).
    { apply Qle_shift_div_l; [reflexivity|]. rewrite Qmult_0_l. change 0%Q with (inject_Z 0). rewrite <- Zle_Qle. lia. }
    assert ((inject_Z (sumw a1 a2) / (255 * 255) <= 1)%Q).
    { apply Qle_shift_div_r; [reflexivity|]. change (1 * (255*255))%Q with (inject_Z (255*255)). rewrite <- Zle_Qle. lia. }
    specialize (U3 H H0).
    assert (EQ : (u * 255 == inject_Z (sumw a1 a2) / 255)%Q). { rewrite U3. field. }
    destruct Na as (X & Y & W). unfold nearest. rewrite <- EQ. auto.
  - rewrite E. rewrite !crimp_ratio; auto using mix_range, byte_red, byte_green, byte_blue.
Qed.

(** ** Distance *)
Lemma half_trunc : forall x y, byte x -> byte y -> Qtrunc (inject_Z (x + y) / 2) = (x + y) / 2.
Proof.
  unfold byte; intros x y X Y.
  assert (E : (inject_Z (x + y) / 2 == inject_Z (x+y) / inject_Z 2)%Q) by reflexivity.
  rewrite Qtrunc_nonneg.
  - apply Qfloor_unique.
    + apply Qle_shift_div_l; [reflexivity|]. change 2%Q with (inject_Z 2). rewrite <- inject_Z_mult, <- Zle_Qle.
      Z.to_euclidean_division_equations; lia.
    + apply Qlt_shift_div_r; [reflexivity|]. change 2%Q with (inject_Z 2). change 1%Q with (inject_Z 1).
      rewrite <- inject_Z_plus, <- inject_Z_mult, <- Zlt_Qlt. Z.to_euclidean_division_equations; lia.
  - apply Qle_shift_div_l; [reflexivity|]. rewrite Qmult_0_l. change 0%Q with (inject_Z 0). rewrite <- Zle_Qle. lia.
Qed.

Definition dist_num (v1 v2 : Z) : Z :=
  (512 + (get_red v1 + get_red v2) / 2) * (get_red v1 - get_red v2) * (get_red v1 - get_red v2) / 256
  + 4 * (get_green v1 - get_green v2) * (get_green v1 - get_green v2)
  + (767 - (get_red v1 + get_red v2) / 2) * (get_blue v1 - get_blue v2) * (get_blue v1 - get_blue v2).
Lemma distance_num : forall v1 v2, distance_sq v1 v2 = dist_num v1 v2 / 256.
Proof.
  intros. unfold distance_sq, dist_num. rewrite half_trunc by apply byte_red.
  rewrite !Z.shiftr_div_pow2 by lia. change (2^8) with 256. reflexivity.
Qed.
