Require Import ZArith QArith Qabs Qcanon List Ascii String Bool Lia Lqa.
Require Import Verif.Base Verif.Text_Spec Verif.Text_Proofs Verif.Fmt_Model Verif.Fmt_Proofs Verif.Color_Spec Verif.Color_Proofs Verif.Length_Model Verif.Length_Proofs Verif.Transform_Proofs Verif.Viewbox_Proofs.
Require Import Verif.Repr_Spec.
Import ListNotations.
Open Scope Z_scope.

(** * Numbers *)
Definition plain (ds : list Z) : Prop := ds = [0] \/ exists d r, ds = d :: r /\ d <> 0.
Lemma digits_fuel_plain : forall k n, 0 <= n < 2 ^ Z.of_nat k -> (0 < k)%nat -> plain (digits_fuel k n).
Proof.
  induction k; intros n H K; [lia|]. cbn [digits_fuel]. destruct (Z.ltb_spec n 10) as [L|L].
  - destruct (Z.eq_dec n 0) as [->|N]; [now left|]. right. exists n, []. auto.
  - assert (P : 0 < n / 10) by (apply Z.div_str_pos; lia).
    assert (B : n / 10 < 2 ^ Z.of_nat k). { rewrite Nat2Z.inj_succ, Z.pow_succ_r in H by lia. apply Z.div_lt_upper_bound; lia. }
    destruct k as [|k]; [change (2 ^ Z.of_nat 0) with 1 in B; lia|].
    destruct (IHk (n / 10)) as [E|(d & r & E & D)]; [lia|lia| |].
    + exfalso. pose proof (digits_fuel_spec (S k) (n / 10) ltac:(lia) ltac:(lia)) as (V & _). rewrite E in V. cbn [dval] in V. lia.
    + right. rewrite E. exists d, (r ++ [n mod 10])%list. auto.
Qed.
Lemma digits_plain n : 0 <= n -> plain (digits n).
Proof.
  intros. unfold digits. apply digits_fuel_plain; [|lia]. rewrite Nat2Z.inj_succ, Z2Nat.id by apply Z.log2_nonneg.
  destruct (Z.eq_dec n 0) as [->|N]; [simpl; lia|]. pose proof (Z.log2_spec n). lia.
Qed.
Lemma lit_text_val l l' : lit_ok l -> lit_ok l' -> lit_text l = lit_text l' -> (lit_val l == lit_val l')%Q.
Proof.
  intros L L' E. assert (F : fnum_val (fnum_of l) = fnum_val (fnum_of l')).
  { assert (no_cont l [] /\ no_cont l' []) as [C C'] by (split; apply nc_no_cont; exact I).
    pose proof (match_float_lit l [] L C) as M. pose proof (match_float_lit l' [] L' C') as M'.
    rewrite app_nil_r, E, <- (app_nil_r (lit_text l')), M' in M. assert (fnum_of l = fnum_of l') as -> by congruence. reflexivity. }
  rewrite <- (fnum_val_lit l L), F, (fnum_val_lit l' L'). reflexivity.
Qed.
Lemma str_plain : forall q, exists l, lit_ok l /\ l_exp l = None /\ plain (l_int l) /\ l_sgn l <> SPlus /\ length_str q = lit_text l /\ near12 (lit_val l) q.
Proof.
  intros q. pose proof (round_nearest (Qabs q * inject_Z (10 ^ 12))) as R.
  set (n := Qround_even (Qabs q * inject_Z (10 ^ 12))) in *.
  assert (N : 0 <= n).
  { destruct R as (R1 & R2 & _). assert (-1 < n); [|lia]. rewrite Zlt_Qlt. change (inject_Z (-1)) with (-1)%Q.
    assert (0 <= Qabs q * inject_Z (10^12))%Q. { apply Qmult_le_0_compat; [apply Qabs_nonneg|]. discriminate. } lra. }
  assert (LO : lit_ok (f12_lit (Qltb q 0) n)) by (apply f12_lit_ok; auto).
  exists (f12_lit (Qltb q 0) n). split; [exact LO|]. split; [reflexivity|].
  split; [cbn [f12_lit l_int]; apply digits_plain; apply Z.div_pos; lia|]. split; [cbn [f12_lit l_sgn]; destruct (Qltb q 0); discriminate|].
  split; [apply f12_text; auto|]. destruct (str_near q) as (l' & L' & E' & N' & _). unfold near12 in *.
  rewrite (lit_text_val (f12_lit (Qltb q 0) n) l' LO L'); [exact N'|]. rewrite <- E'. symmetry. apply f12_text; auto.
Qed.
Lemma dchar_code : forall d, is_dig d -> Z.of_nat (nat_of_ascii (dchar d)) - 48 = d.
Proof.
  intros d D. unfold is_dig in D. assert (d = 0 \/ d = 1 \/ d = 2 \/ d = 3 \/ d = 4 \/ d = 5 \/ d = 6 \/ d = 7 \/ d = 8 \/ d = 9) by lia.
  repeat (destruct H as [-> |H]; [reflexivity|]). subst. reflexivity.
Qed.
Lemma dchar_digit : forall d, digitc (dchar d) = true.
Proof. intros d. unfold dchar. destruct d as [|d|d]; try reflexivity. do 4 (try destruct d; try reflexivity). Qed.
Lemma dtext_digits ds : forallb digitc (dtext ds) = true.
Proof. induction ds; cbn [dtext map forallb]; [reflexivity|]. rewrite dchar_digit. exact IHds. Qed.
Lemma zval_dtext : forall ds acc, Forall is_dig ds -> zval acc (dtext ds) = acc * 10 ^ Z.of_nat (List.length ds) + dval ds.
Proof.
  induction ds as [|d ds IH]; intros acc F; cbn [dtext map zval dval List.length]; [change (10 ^ Z.of_nat 0) with 1; lia|].
  inversion F; subst. rewrite dchar_code by auto. fold (dtext ds). rewrite IH by auto. rewrite Nat2Z.inj_succ, Z.pow_succ_r by lia. lia.
Qed.
Lemma split_dot_digits ds r : split_dot (dtext ds ++ "."%char :: r) = (dtext ds, Some r).
Proof. induction ds as [|d ds IH]; cbn [dtext map app split_dot]; [reflexivity|]. replace (Ascii.eqb (dchar d) ".") with false by (symmetry; apply Ascii.eqb_neq; apply dchar_not_dot). fold (dtext ds). now rewrite IH. Qed.
Lemma split_dot_none ds : split_dot (dtext ds) = (dtext ds, None).
Proof. induction ds as [|d ds IH]; cbn [dtext map split_dot]; [reflexivity|]. replace (Ascii.eqb (dchar d) ".") with false by (symmetry; apply Ascii.eqb_neq; apply dchar_not_dot). fold (dtext ds). now rewrite IH. Qed.
(** The digits of a literal without sign and exponent. *)
Definition unsigned (l : lit) : text := (dtext (l_int l) ++ match l_frac l with [] => [] | fs => "."%char :: dtext fs end)%list.
Lemma number_plain l : lit_ok l -> plain (l_int l) -> exists v, number (unsigned l) = Some v /\
  (v == inject_Z (dval (l_int l)) + inject_Z (dval (l_frac l)) * p10 (- Z.of_nat (List.length (l_frac l))))%Q.
Proof.
  intros (I & F & _ & _) P. unfold unsigned, number. destruct (l_frac l) as [|f fs] eqn:E.
  - rewrite app_nil_r, split_dot_none, dtext_digits. cbn [andb].
    replace (match dtext (l_int l) with [] => false | c :: r => negb (Ascii.eqb c "0") || match r with [] => true | _ => false end end) with true.
    + eexists. split; [reflexivity|]. rewrite zval_dtext by auto. cbn [dval List.length]. change (inject_Z 0) with 0%Q. rewrite Z.mul_0_l, Z.add_0_l. ring.
    + destruct P as [P|(d & r & P & D)]; rewrite P; [reflexivity|]. rewrite P in I. inversion I; subst. cbn [dtext map].
      replace (Ascii.eqb (dchar d) "0") with false by (symmetry; apply Ascii.eqb_neq; now apply dchar_zero). reflexivity.
  - rewrite <- E in *. rewrite split_dot_digits, !dtext_digits. cbn [andb].
    assert (N : Nat.eqb (List.length (dtext (l_int l)) + List.length (dtext (l_frac l))) 0 = false). { apply Nat.eqb_neq. unfold dtext. rewrite !map_length, E. cbn. lia. }
    rewrite N. eexists. split; [reflexivity|].
    replace (dtext (l_int l) ++ dtext (l_frac l))%list with (dtext (l_int l ++ l_frac l)) by (unfold dtext; apply map_app).
    rewrite zval_dtext by (apply Forall_app; auto). rewrite dval_app. unfold dtext. rewrite map_length. rewrite p10_neg.
    change (Qmake (0 * 10 ^ Z.of_nat (List.length (l_int l ++ l_frac l)) + (dval (l_int l) * 10 ^ Z.of_nat (List.length (l_frac l)) + dval (l_frac l))) 1)
      with (inject_Z (0 * 10 ^ Z.of_nat (List.length (l_int l ++ l_frac l)) + (dval (l_int l) * 10 ^ Z.of_nat (List.length (l_frac l)) + dval (l_frac l)))).
    rewrite Z.mul_0_l, Z.add_0_l, inject_Z_plus, inject_Z_mult. field.
    intros K. change 0%Q with (inject_Z 0) in K. rewrite inject_Z_injective in K. pose proof (Z.pow_pos_nonneg 10 (Z.of_nat (List.length (l_frac l)))). lia.
Qed.

(** * Tokens *)
Definition numc (c : ascii) : bool := digitc c || Ascii.eqb c ".".
Lemma lex_num_go : forall t k u, forallb numc t = true -> fold_left lex_char t (Some (k, InNum u)) = Some (k, InNum (u ++ t)).
Proof.
  induction t as [|c t IH]; intros k u H; cbn [fold_left]; [now rewrite app_nil_r|]. cbn [forallb] in H. apply andb_prop in H. destruct H as [A B].
  cbn [lex_char]. unfold numc in A. rewrite <- orb_assoc, A, orb_true_r. rewrite IH by exact B. now rewrite <- app_assoc.
Qed.
Lemma digit_begin k c : digitc c = true -> begin_tok k c = Some (k, InNum [c]).
Proof.
  intros H. unfold begin_tok. rewrite H. unfold digitc, between in H.
  assert (A : Ascii.eqb c " " = false) by (destruct (Ascii.eqb_spec c " "); [subst; discriminate|reflexivity]). rewrite A.
  assert (B : letterc c = false).
  { unfold letterc, between. change (nat_of_ascii "0") with 48%nat in H. change (nat_of_ascii "9") with 57%nat in H. change (nat_of_ascii "a") with 97%nat. change (nat_of_ascii "A") with 65%nat.
    apply andb_prop in H. destruct H as [_ H]. apply Nat.leb_le in H. destruct (Ascii.eqb_spec c "_"); [subst; cbn in H; lia|].
    replace (97 <=? nat_of_ascii c)%nat with false by (symmetry; apply Nat.leb_gt; lia). replace (65 <=? nat_of_ascii c)%nat with false by (symmetry; apply Nat.leb_gt; lia). reflexivity. }
  rewrite B. reflexivity.
Qed.
Lemma unsigned_chars l : forallb numc (unsigned l) = true.
Proof.
  unfold unsigned. assert (D : forall ds, forallb numc (dtext ds) = true).
  { induction ds; cbn [dtext map forallb]; [reflexivity|]. unfold numc at 1. rewrite dchar_digit. exact IHds. }
  rewrite forallb_app, D. destruct (l_frac l); [reflexivity|]. cbn [forallb]. rewrite D. reflexivity.
Qed.
Lemma lex_unsigned l k : plain (l_int l) -> fold_left lex_char (unsigned l) (Some (k, Idle)) = Some (k, InNum (unsigned l)).
Proof.
  intros P. pose proof (unsigned_chars l) as C. destruct (unsigned l) as [|c r] eqn:E.
  - exfalso. unfold unsigned in E. destruct P as [P|(d & r & P & _)]; rewrite P in E; discriminate.
  - cbn [fold_left lex_char]. cbn [forallb] in C. apply andb_prop in C. assert (D : digitc c = true).
    { unfold unsigned in E. destruct P as [P|(d & r' & P & _)]; rewrite P in E; cbn [dtext map app] in E; injection E as <- _; [reflexivity|apply dchar_digit]. }
    rewrite digit_begin by exact D. apply (lex_num_go r k [c]). apply C.
Qed.

(** * Text that is one expression, wherever an operand is expected and followed by a comma or parenthesis *)
Definition stop (c : ascii) : Prop := c = ","%char \/ c = ")"%char.
Definition prints (t : text) (e : expr) : Prop := exists ks,
  (forall k c, stop c -> fold_left lex_char (t ++ [c]) (Some (k, Idle)) = Some ((k ++ ks) ++ [KSym c], Idle)) /\
  (forall st b, fold_left read_tok ks (Some (st, Operand b)) = Some (st, Have e)).
Lemma begin_stop k c : stop c -> begin_tok k c = Some (k ++ [KSym c], Idle).
Proof. intros [-> | ->]; reflexivity. Qed.
Lemma num_stop c : stop c -> letterc c || digitc c || Ascii.eqb c "." = false.
Proof. intros [-> | ->]; reflexivity. Qed.
Lemma prints_number q : exists v, prints (length_str q) (ENum v) /\ near12 v q.
Proof.
  destruct (str_plain q) as (l & L & X & P & S & E & N). destruct (number_plain l L P) as (v & NV & VV).
  assert (U : length_str q = (sgn_text (l_sgn l) ++ unsigned l)%list). { rewrite E. unfold lit_text, unsigned. rewrite X, app_nil_r. reflexivity. }
  assert (W : (lit_val l == inject_Z (sgn_z (l_sgn l)) * v)%Q). { unfold lit_val. rewrite X, VV. change (p10 0) with 1%Q. ring. }
  rewrite U. destruct (l_sgn l); [|congruence|]; cbn [sgn_text sgn_z app] in *.
  - exists v. split; [|unfold near12 in *; rewrite W in N; change (inject_Z 1) with 1%Q in N; rewrite Qmult_1_l in N; exact N].
    exists [KNum v]. split; [|reflexivity]. intros k c C. rewrite fold_left_app, (lex_unsigned l k P). cbn [fold_left lex_char]. rewrite (num_stop c C), NV. now apply begin_stop.
  - exists (- v)%Q. split; [|unfold near12 in *; rewrite W in N; change (inject_Z (-1)) with (-1)%Q in N; setoid_replace (-1 * v)%Q with (- v)%Q in N by ring; exact N].
    exists [KSym "-"%char; KNum v]. split; [|reflexivity]. intros k c C. rewrite fold_left_app. cbn [fold_left lex_char]. change (begin_tok k "-") with (Some ((k ++ [KSym "-"%char])%list, Idle)).
    rewrite (lex_unsigned l _ P). cbn [fold_left lex_char]. rewrite (num_stop c C), NV. rewrite begin_stop by exact C. now rewrite <- !app_assoc.
Qed.
Lemma prints_none : prints (T "None") ENone.
Proof. exists [KName (T "None")]. split; [|reflexivity]. intros k c [-> | ->]; reflexivity. Qed.
Definition strc (c : ascii) : Prop := c <> "'"%char /\ c <> "\"%char /\ c <> "010"%char.
Lemma lex_str_go : forall t k u, Forall strc t -> fold_left lex_char t (Some (k, InStr u)) = Some (k, InStr (u ++ t)).
Proof.
  induction t as [|c t IH]; intros k u H; cbn [fold_left]; [now rewrite app_nil_r|]. inversion H as [|? ? (A & B & C) H']; subst. cbn [lex_char].
  apply Ascii.eqb_neq in A. apply Ascii.eqb_neq in B. apply Ascii.eqb_neq in C. rewrite A, B, C. cbn [orb]. rewrite IH by exact H'. now rewrite <- app_assoc.
Qed.
Lemma prints_string t : Forall strc t -> prints ("'"%char :: t ++ ["'"%char]) (EStr t).
Proof.
  intros F. exists [KStr t]. split; [|reflexivity]. intros k c C. cbn [app fold_left lex_char]. change (begin_tok k "'") with (Some (k, InStr [])).
  rewrite <- app_assoc, fold_left_app, (lex_str_go t k [] F). cbn [app fold_left lex_char]. change (Ascii.eqb "'" "'") with true. cbn iota. now apply begin_stop.
Qed.
Definition names (n : text) : Prop := (forall k, fold_left lex_char n (Some (k, Idle)) = Some (k, InName n)) /\ teqb n (T "None") = false.
(** An argument. *)
Definition arg_prints (t : text) (a : option text * expr) : Prop :=
  match fst a with None => prints t (snd a) | Some n => exists u, t = (n ++ "="%char :: u)%list /\ names n /\ prints u (snd a) end.
(** What follows the opening parenthesis of a call. *)
Inductive rest : text -> list (option text * expr) -> Prop :=
| rest_nil : rest [")"%char] []
| rest_last t a : arg_prints t a -> rest (t ++ [")"%char]) [a]
| rest_comma t a u l : arg_prints t a -> rest u l -> rest (t ++ ","%char :: u) (a :: l)
| rest_space t a u l : arg_prints t a -> rest u l -> rest (t ++ ","%char :: " "%char :: u) (a :: l).
Definition can_add (pre : list (option text * expr)) (a : option text * expr) : bool :=
  match fst a with None => negb (existsb keyed pre) | Some k => negb (existsb (fun a => match fst a with Some n => teqb n k | None => false end) pre) end.
Fixpoint goods (pre l : list (option text * expr)) : bool := match l with [] => true | a :: r => can_add pre a && goods (pre ++ [a]) r end.
Lemma add_good n pre a : can_add pre a = true -> add_arg (mkCall n pre (fst a)) (snd a) = Some (mkCall n (pre ++ [a]) None).
Proof. unfold can_add, add_arg. destruct a as [[k|] e]; cbn [fst snd c_key c_name c_args]; destruct (existsb _ pre); try discriminate; reflexivity. Qed.
Lemma arg_reads t a : arg_prints t a -> exists ks,
  (forall k c, stop c -> fold_left lex_char (t ++ [c]) (Some (k, Idle)) = Some ((k ++ ks) ++ [KSym c], Idle)) /\
  (forall n pre st, fold_left read_tok ks (Some (mkCall n pre None :: st, Operand true)) = Some (mkCall n pre (fst a) :: st, Have (snd a))).
Proof.
  destruct a as [[n|] e]; cbn [arg_prints fst snd]; unfold arg_prints; cbn [fst snd].
  - intros (u & -> & (N1 & N2) & ks & A & B). exists (KName n :: KSym "="%char :: ks). split.
    + intros k c C. rewrite <- app_assoc, fold_left_app, N1. cbn [app fold_left lex_char]. change (letterc "=" || digitc "=") with false. cbn iota.
      change (begin_tok (k ++ [KName n]) "=") with (Some (((k ++ [KName n]) ++ [KSym "="%char])%list, Idle)). rewrite A by exact C. now rewrite <- !app_assoc.
    + intros m pre st. cbn [fold_left read_tok]. rewrite N2. cbn [fold_left read_tok]. change (Ascii.eqb "=" "(") with false. change (Ascii.eqb "=" "=") with true. cbn iota. cbn [c_key c_name c_args]. apply B.
  - intros (ks & A & B). exists ks. split; [exact A|]. intros. apply B.
Qed.
Lemma rest_reads t l : rest t l -> exists ks, (forall k, fold_left lex_char t (Some (k, Idle)) = Some (k ++ ks, Idle)) /\
  (forall n pre st, goods pre l = true -> fold_left read_tok ks (Some (mkCall n pre None :: st, Operand true)) = Some (st, Have (ECall n (pre ++ l)))).
Proof.
  intros R. induction R as [|t a A|t a u l A R (ks' & L & D)|t a u l A R (ks' & L & D)].
  - exists [KSym ")"%char]. split; [reflexivity|]. intros n pre st _. now rewrite app_nil_r.
  - destruct (arg_reads t a A) as (ks & B & C). exists (ks ++ [KSym ")"%char])%list. split; [intros k; rewrite B by (right; reflexivity); now rewrite <- app_assoc|].
    intros n pre st G. cbn [goods] in G. apply andb_prop in G. rewrite fold_left_app, C. cbn [fold_left read_tok]. rewrite (add_good n pre a) by apply G. reflexivity.
  - destruct (arg_reads t a A) as (ks & B & C). exists (ks ++ [KSym ","%char] ++ ks')%list. split.
    + intros k. replace (t ++ ","%char :: u)%list with ((t ++ [","%char]) ++ u)%list by now rewrite <- app_assoc. rewrite fold_left_app, B by (left; reflexivity). rewrite L. now rewrite <- !app_assoc.
    + intros n pre st G. cbn [goods] in G. apply andb_prop in G. rewrite fold_left_app, C. cbn [app fold_left read_tok]. rewrite (add_good n pre a) by apply G. change (Ascii.eqb "," ",") with true. cbn iota. rewrite D by apply G. now rewrite <- app_assoc.
  - destruct (arg_reads t a A) as (ks & B & C). exists (ks ++ [KSym ","%char] ++ ks')%list. split.
    + intros k. replace (t ++ ","%char :: " "%char :: u)%list with ((t ++ [","%char]) ++ " "%char :: u)%list by now rewrite <- app_assoc. rewrite fold_left_app, B by (left; reflexivity). cbn [fold_left lex_char].
      change (begin_tok ((k ++ ks) ++ [KSym ","%char]) " ") with (Some (((k ++ ks) ++ [KSym ","%char])%list, Idle)). rewrite L. now rewrite <- !app_assoc.
    + intros n pre st G. cbn [goods] in G. apply andb_prop in G. rewrite fold_left_app, C. cbn [app fold_left read_tok]. rewrite (add_good n pre a) by apply G. change (Ascii.eqb "," ",") with true. cbn iota. rewrite D by apply G. now rewrite <- app_assoc.
Qed.
Lemma call_reads f t l : names f -> rest t l -> goods [] l = true -> exists ks, (forall k, fold_left lex_char (f ++ "("%char :: t) (Some (k, Idle)) = Some (k ++ ks, Idle)) /\
  forall st b, fold_left read_tok ks (Some (st, Operand b)) = Some (st, Have (ECall f l)).
Proof.
  intros (N1 & N2) R G. destruct (rest_reads t l R) as (ks & A & B). exists (KName f :: KSym "("%char :: ks). split.
  - intros k. rewrite fold_left_app, N1. cbn [fold_left lex_char]. change (letterc "(" || digitc "(") with false. cbn iota.
    change (begin_tok (k ++ [KName f]) "(") with (Some (((k ++ [KName f]) ++ [KSym "("%char])%list, Idle)). rewrite A. now rewrite <- !app_assoc.
  - intros st b. cbn [fold_left read_tok]. rewrite N2. cbn [fold_left read_tok]. change (Ascii.eqb "(" "(") with true. cbn iota. rewrite (B f [] st G). reflexivity.
Qed.
Lemma prints_call f t l : names f -> rest t l -> goods [] l = true -> prints (f ++ "("%char :: t) (ECall f l).
Proof.
  intros N R G. destruct (call_reads f t l N R G) as (ks & A & B). exists ks. split; [|exact B]. intros k c C. rewrite fold_left_app, A. cbn [fold_left lex_char]. now apply begin_stop.
Qed.
Lemma python_call f t l : names f -> rest t l -> goods [] l = true -> python (f ++ "("%char :: t) = Some (ECall f l).
Proof.
  intros N R G. destruct (call_reads f t l N R G) as (ks & A & B). unfold python, tokens. rewrite A. cbn [app]. rewrite B. reflexivity.
Qed.
