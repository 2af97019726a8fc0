(** The patterns of colours, urls and path data, compared with the scanners of the other models. *)
Require Import ZArith QArith Qcanon Arith Ascii String List Bool Lia.
Require Import Verif.Color_Model Verif.Dom_Model Verif.PathText_Model.
Require Import Verif.Base Verif.Regex_Model Verif.Regex_Proofs Verif.RegexRead_Proofs Verif.RegexUse_Model Verif.RegexUse_Proofs.
Import ListNotations.
Open Scope nat_scope.

(** * The functions rgb() and hsl() *)
Definition re_arg (k : nat) (sfx : text) (K : re) : re :=
  RCat spaces (RCat (RGroup k re_float) (wordk sfx (RCat spaces K))).
Definition re_fourth : re :=
  RCat (opt (RCat (chr_ ",") (RCat spaces (RCat (RGroup 4 re_float) spaces)))) (chr_ ")").
Definition re_cfun (name s1 s2 s3 : text) : re :=
  wordk name (RCat (opt (chr_ "a")) (RCat (chr_ "(")
    (re_arg 1 s1 (RCat (chr_ ",") (re_arg 2 s2 (RCat (chr_ ",") (re_arg 3 s3 re_fourth))))))).
Lemma rgb_compiled : the REGEX_COLOR_RGB = re_cfun (T "rgb") [] [] [].
Proof. reflexivity. Qed.
Lemma rgbp_compiled : the REGEX_COLOR_RGB_PERCENT = re_cfun (T "rgb") percent percent percent.
Proof. reflexivity. Qed.
Lemma hsl_compiled : the REGEX_COLOR_HSL = re_cfun (T "hsl") [] percent percent.
Proof. reflexivity. Qed.

Lemma strip_strip_prefix : forall w s, strip_prefix w s = strip w s.
Proof. induction w as [|c w IH]; intros s; [reflexivity|]. cbn. destruct s as [|d s]; [reflexivity|]. now destruct (aeqb c d). Qed.
Lemma arg_float : forall sfx s t f r, match_arg sfx s = Some (t, f, r) -> match_float t = Some (f, []).
Proof.
  intros sfx s t f r H. unfold match_arg, match_float_text in H. destruct (match_float (drop_ws s)) as [[f' r']|] eqn:M; [|discriminate].
  destruct (strip_prefix sfx r'); [|discriminate]. injection H as <- <- _. exact (float_grab _ _ _ M).
Qed.
Definition ws_or_cont (c : ascii) : bool := is_ws c || cont c.
Lemma refuses_float_ws : refuses re_float (starts is_ws).
Proof. apply refuses_float. reflexivity. Qed.
Lemma reads_arg : forall k sfx K r l o bad,
  sfx = [] \/ sfx = percent ->
  refuses K (starts is_ws) -> refuses K (starts cont) ->
  match match_arg sfx r with Some (t, _, r1) => reads K r1 ((k, t) :: l) o bad | None => o = None end ->
  reads (re_arg k sfx K) r l o bad.
Proof.
  intros k sfx K r l o bad SX RW RC H. unfold re_arg.
  eapply reads_cat; [apply (reads_star cs_space is_ws r l has_space) | apply refuses_cat, refuses_group, refuses_float_ws |].
  rewrite <- drop_ws_span. unfold match_arg, match_float_text in H.
  pose proof (reads_group k _ _ _ _ _ (reads_float (drop_ws r) l)) as F.
  destruct (match_float (drop_ws r)) as [[f r1]|]; cbn [option_map fst snd] in F.
  2: { subst o. eapply reads_cat_none, F. }
  eapply reads_cat; [exact F | |].
  - destruct SX as [-> | ->]; cbn [wordk percent].
    + apply refuses_spaces; [reflexivity | exact RC].
    + apply refuses_cat, refuses_chr. reflexivity.
  - apply reads_wordk. rewrite strip_strip_prefix in H. destruct (strip sfx r1) as [r2|]; [|exact H].
    eapply reads_cat; [apply (reads_star cs_space is_ws r2 _ has_space) | exact RW |].
    rewrite <- drop_ws_span. exact H.
Qed.
Lemma fourth_refuses : forall q, forallb (fun n => negb (q (ascii_of_nat n) && (aeqb (ascii_of_nat n) "," || aeqb (ascii_of_nat n) ")"))) (seq 0 256) = true ->
  refuses re_fourth (starts q).
Proof.
  intros q H y B. pose proof (disjoint q (fun c => aeqb c "," || aeqb c ")") H _ B) as D.
  rewrite starts_or in D. unfold re_fourth, opt. eapply (cat_refused _ _ _ (fun t => ~ starts (fun c => aeqb c ")") t)).
  - match goal with |- Forall ?P (run (RAlt ?A REmpty) ?y) => change (Forall P (run A y ++ [y])) end.
    apply Forall_app. split.
    + assert (run (chr_ ",") y = []) as E.
      { apply (refuses_set _ _ (fun t => ~ starts (fun c => aeqb c ",") t) (has_char ",")); tauto. }
      rewrite (cat_none _ _ _ E). constructor.
    + constructor; [tauto | constructor].
  - apply (refuses_set _ _ _ (has_char ")")). tauto.
Qed.
Definition read_fourth (r : text) (l : list (nat * text)) : option (text * list (nat * text)) :=
  match r with
  | c :: r' =>
      if aeqb c ")" then Some (r', l)
      else if aeqb c "," then
        match match_arg [] r' with
        | Some (t, _, c2 :: r2) => if aeqb c2 ")" then Some (r2, (4, t) :: l) else None
        | _ => None
        end
      else None
  | [] => None
  end.
Lemma reads_fourth : forall r l, reads re_fourth r l (read_fourth r l) (fun _ => False).
Proof.
  intros r l.
  assert (forall r l, reads (chr_ ")") r l (match r with c :: r' => if aeqb c ")" then Some (r', l) else None | [] => None end) (fun _ => False)) as CL.
  { intros r' l'. apply (reads_set _ _ r' l' (fun _ => False) (has_char ")")). }
  unfold re_fourth.
  set (A := RCat (chr_ ",") (RCat spaces (RCat (RGroup 4 re_float) spaces))).
  pose proof (reads_set _ _ r l (fun _ => False) (has_char ",")) as S. cbv beta in S.
  assert (forall bad, match r with c :: _ => aeqb c "," = false | [] => True end -> reads A r l None bad) as NOC.
  { intros bad N. unfold A. eapply reads_cat_none. destruct r as [|c r]; [exact S|]. rewrite N in S. exact S. }
  destruct r as [|c r']; cbn [read_fourth].
  { eapply reads_cat; [eapply reads_alt_r; [apply (NOC (fun _ => False)) | apply (reads_empty _ _ (fun _ => False))] | intros y [] |]; [exact I|].
    apply CL. }
  destruct (aeqb c ",") eqn:C.
  - assert (aeqb c ")" = false) as C2 by (apply Ascii.eqb_eq in C; subst c; reflexivity). rewrite C2.
    assert (reads A (c :: r') l (match match_arg [] r' with Some (t, _, r1) => Some (r1, (4, t) :: l) | None => None end) (starts ws_or_cont)) as RA.
    { unfold A. eapply reads_cat; [exact S | intros y [] |].
      eapply reads_cat; [apply (reads_star cs_space is_ws r' l has_space) | apply refuses_cat, refuses_group, refuses_float_ws |].
      rewrite <- drop_ws_span. unfold match_arg, match_float_text. cbn [strip_prefix].
      pose proof (reads_group 4 _ _ _ _ _ (reads_float (drop_ws r') l)) as F.
      destruct (match_float (drop_ws r')) as [[f r1]|]; cbn [option_map fst snd] in F; [|eapply reads_cat_none, F].
      pose proof (reads_star cs_space is_ws r1 ((4, grab (drop_ws r') r1) :: l) has_space) as W. rewrite <- drop_ws_span in W.
      eapply reads_cat_all; [exact F | | eapply reads_weaken; [exact W|]].
      - intros y B. unfold spaces. rewrite (star_stay cs_space is_ws y has_space).
        + constructor; [|constructor]. revert B. apply (included cont ws_or_cont eq_refl).
        + revert B. apply (disjoint cont is_ws eq_refl).
      - apply (included is_ws ws_or_cont eq_refl). }
    destruct (match_arg [] r') as [[[t f] r1]|].
    + set (bad := fun t : text => starts ws_or_cont t \/ starts (fun c => aeqb c ",") t).
      eapply reads_cat; [eapply (reads_alt_l _ _ _ _ _ _ bad); [exact RA | unfold bad; tauto |] | |].
      * intros t0 p X. constructor; [|constructor]. right. exact C.
      * intros y [B | B]; (eapply refuses_chr; [|exact B]); reflexivity.
      * pose proof (CL r1 ((4, t) :: l)) as L. destruct r1 as [|c2 r2]; exact L.
    + eapply reads_cat; [eapply reads_alt_r; [exact RA | apply (reads_empty _ _ (fun _ => False))] | intros y [] |].
      pose proof (CL (c :: r') l) as L. cbv beta iota in L. rewrite C2 in L. exact L.
  - eapply reads_cat; [eapply reads_alt_r; [apply (NOC (fun _ => False)); reflexivity | apply (reads_empty _ _ (fun _ => False))] | intros y [] |].
    pose proof (CL (c :: r') l) as L. cbv beta iota in L. destruct (aeqb c ")"); exact L.
Qed.
Definition cfun_rest (m : cfun) (x : text * list (nat * text)) : Prop :=
  exists t, snd x = match t with Some t4 => [(4, t4)] | None => [] end ++
                     [(3, fst (cf_3 m)); (2, fst (cf_2 m)); (1, fst (cf_1 m))] /\
            match cf_4 m, t with
            | None, None => True
            | Some f, Some t4 => match_float t4 = Some (f, [])
            | _, _ => False
            end.
Definition cfun_texts (m : cfun) : Prop :=
  match_float (fst (cf_1 m)) = Some (snd (cf_1 m), []) /\
  match_float (fst (cf_2 m)) = Some (snd (cf_2 m), []) /\
  match_float (fst (cf_3 m)) = Some (snd (cf_3 m), []).
Lemma reads_cfun : forall name s1 s2 s3 s,
  (s1 = [] \/ s1 = percent) -> (s2 = [] \/ s2 = percent) -> (s3 = [] \/ s3 = percent) ->
  match match_cfun name s1 s2 s3 s with
  | None => reads (re_cfun name s1 s2 s3) s [] None (fun _ => False)
  | Some m => cfun_texts m /\ exists x, reads (re_cfun name s1 s2 s3) s [] (Some x) (fun _ => False) /\ cfun_rest m x
  end.
Proof.
  intros name s1 s2 s3 s H1 H2 H3. unfold match_cfun, re_cfun.
  assert (forall r l, reads (opt (chr_ "a")) r l (Some (skip1 (fun c => aeqb c "a") r, l)) (starts (fun c => aeqb c "a"))) as OA.
  { intros r l. apply (reads_opt _ _ r l (has_char "a")). }
  assert (forall x r l, reads (chr_ x) r l (match strip_prefix [x] r with Some r' => Some (r', l) | None => None end) (fun _ => False)) as CH.
  { intros x r l. pose proof (reads_set _ _ r l (fun _ => False) (has_char x)) as S. cbn. destruct r as [|d r]; [exact S|].
    rewrite (aeqb_sym x d). cbn in S. destruct (aeqb d x); exact S. }
  assert (forall A, refuses (RCat (chr_ "(") A) (starts (fun c => aeqb c "a"))) as RA.
  { intros A. apply refuses_cat, refuses_chr. reflexivity. }
  assert (forall A, refuses (RCat (chr_ ",") A) (starts is_ws) /\ refuses (RCat (chr_ ",") A) (starts cont)) as RCM.
  { intros A. split; apply refuses_cat, refuses_chr; reflexivity. }
  assert (refuses re_fourth (starts is_ws) /\ refuses re_fourth (starts cont)) as RF.
  { split; apply fourth_refuses; reflexivity. }
  rewrite strip_strip_prefix. destruct (strip name s) as [r0|] eqn:E0.
  2: { apply reads_wordk. now rewrite E0. }
  set (ra := match r0 with c :: r' => if aeqb c "a" then r' else r0 | [] => [] end).
  assert (ra = skip1 (fun c => aeqb c "a") r0) as EA by (unfold ra, skip1; now destruct r0).
  destruct (strip_prefix ["("%char] ra) as [r1|] eqn:E1.
  2: { apply reads_wordk. rewrite E0. eapply reads_cat; [apply OA | apply RA |]. rewrite <- EA.
       eapply reads_cat_none. specialize (CH "("%char ra []). rewrite E1 in CH. exact CH. }
  (* what the arguments say about the whole *)
  assert (forall o, reads (re_arg 1 s1 (RCat (chr_ ",") (re_arg 2 s2 (RCat (chr_ ",") (re_arg 3 s3 re_fourth))))) r1 [] o (fun _ => False) ->
    reads (wordk name (RCat (opt (chr_ "a")) (RCat (chr_ "(") (re_arg 1 s1 (RCat (chr_ ",") (re_arg 2 s2 (RCat (chr_ ",") (re_arg 3 s3 re_fourth))))))))
      s [] o (fun _ => False)) as UP0.
  { intros o H. apply reads_wordk. rewrite E0. eapply reads_cat; [apply OA | apply RA |]. rewrite <- EA.
    eapply reads_cat; [specialize (CH "("%char ra []); rewrite E1 in CH; exact CH | intros y [] | exact H]. }
  destruct (match_arg s1 r1) as [[[t1 f1] r2]|] eqn:A1.
  2: { apply UP0. apply reads_arg; [exact H1 | apply RCM | apply RCM |]. now rewrite A1. }
  destruct (strip_prefix [","%char] r2) as [r3|] eqn:E2.
  2: { apply UP0. apply reads_arg; [exact H1 | apply RCM | apply RCM |]. rewrite A1. eapply reads_cat_none.
       specialize (CH ","%char r2 [(1, t1)]). rewrite E2 in CH. exact CH. }
  assert (forall o, reads (re_arg 2 s2 (RCat (chr_ ",") (re_arg 3 s3 re_fourth))) r3 [(1, t1)] o (fun _ => False) ->
    reads (wordk name (RCat (opt (chr_ "a")) (RCat (chr_ "(") (re_arg 1 s1 (RCat (chr_ ",") (re_arg 2 s2 (RCat (chr_ ",") (re_arg 3 s3 re_fourth))))))))
      s [] o (fun _ => False)) as UP1.
  { intros o H. apply UP0. apply reads_arg; [exact H1 | apply RCM | apply RCM |]. rewrite A1.
    eapply reads_cat; [specialize (CH ","%char r2 [(1, t1)]); rewrite E2 in CH; exact CH | intros y [] | exact H]. }
  destruct (match_arg s2 r3) as [[[t2 f2] r4]|] eqn:A2.
  2: { apply UP1. apply reads_arg; [exact H2 | apply RCM | apply RCM |]. now rewrite A2. }
  destruct (strip_prefix [","%char] r4) as [r5|] eqn:E3.
  2: { apply UP1. apply reads_arg; [exact H2 | apply RCM | apply RCM |]. rewrite A2. eapply reads_cat_none.
       specialize (CH ","%char r4 [(2, t2); (1, t1)]). rewrite E3 in CH. exact CH. }
  assert (forall o, reads (re_arg 3 s3 re_fourth) r5 [(2, t2); (1, t1)] o (fun _ => False) ->
    reads (wordk name (RCat (opt (chr_ "a")) (RCat (chr_ "(") (re_arg 1 s1 (RCat (chr_ ",") (re_arg 2 s2 (RCat (chr_ ",") (re_arg 3 s3 re_fourth))))))))
      s [] o (fun _ => False)) as UP2.
  { intros o H. apply UP1. apply reads_arg; [exact H2 | apply RCM | apply RCM |]. rewrite A2.
    eapply reads_cat; [specialize (CH ","%char r4 [(2, t2); (1, t1)]); rewrite E3 in CH; exact CH | intros y [] | exact H]. }
  clear UP0 UP1.
  destruct (match_arg s3 r5) as [[[t3 f3] r6]|] eqn:A3.
  2: { apply UP2. apply reads_arg; [exact H3 | apply RF | apply RF |]. now rewrite A3. }
  assert (forall o, read_fourth r6 [(3, t3); (2, t2); (1, t1)] = o ->
    reads (wordk name (RCat (opt (chr_ "a")) (RCat (chr_ "(") (re_arg 1 s1 (RCat (chr_ ",") (re_arg 2 s2 (RCat (chr_ ",") (re_arg 3 s3 re_fourth))))))))
      s [] o (fun _ => False)) as UP3.
  { intros o <-. apply UP2. apply reads_arg; [exact H3 | apply RF | apply RF |]. rewrite A3. apply reads_fourth. }
  clear UP2.
  assert (cfun_texts (mkCfun (t1, f1) (t2, f2) (t3, f3) None)) as CT.
  { repeat split; cbn; eapply arg_float; eassumption. }
  unfold read_fourth in UP3. destruct r6 as [|c r']; [now apply UP3|].
  destruct (aeqb c ")"). { split; [exact CT|]. eexists. split; [apply UP3; reflexivity|]. now exists None. }
  destruct (aeqb c ","); [|now apply UP3].
  destruct (match_arg [] r') as [[[t4 f4] [|c2 r7]]|] eqn:A4; [now apply UP3 | | now apply UP3].
  destruct (aeqb c2 ")"); [|now apply UP3].
  split; [exact CT|]. eexists. split; [apply UP3; reflexivity|]. exists (Some t4). split; [reflexivity|]. cbn.
  eapply arg_float. exact A4.
Qed.

(** The groups of a colour function, and the numbers in them. *)
Definition same_groups (o : option cfun) (g : option (option text * option text * option text * option text)) : Prop :=
  match o, g with
  | None, None => True
  | Some m, Some (g1, g2, g3, g4) =>
      g1 = Some (fst (cf_1 m)) /\ g2 = Some (fst (cf_2 m)) /\ g3 = Some (fst (cf_3 m)) /\ cfun_texts m /\
      match cf_4 m, g4 with
      | None, None => True
      | Some f, Some t => match_float t = Some (f, [])
      | _, _ => False
      end
  | _, _ => False
  end.
Lemma cfun_groups : forall pattern name s1 s2 s3, the pattern = re_cfun name s1 s2 s3 ->
  (s1 = [] \/ s1 = percent) -> (s2 = [] \/ s2 = percent) -> (s3 = [] \/ s3 = percent) ->
  forall s, same_groups (match_cfun name s1 s2 s3 s) (groups_by_pattern pattern s).
Proof.
  intros pattern name s1 s2 s3 E H1 H2 H3 s. unfold groups_by_pattern. rewrite E.
  pose proof (reads_cfun name s1 s2 s3 s H1 H2 H3) as R. destruct (match_cfun name s1 s2 s3 s) as [m|].
  - destruct R as (CT & x & R & t & L & M). apply (reads_match_at _ _ _ _ 0) in R. rewrite R. cbn [option_map].
    rewrite L. destruct t as [t4|]; cbn; repeat split; try apply CT; exact M.
  - apply (reads_match_at _ _ None _ 0) in R. now rewrite R.
Qed.
Theorem rgb_by_pattern : forall s, same_groups (match_rgb s) (groups_by_pattern REGEX_COLOR_RGB s).
Proof. intros s. apply cfun_groups; [exact rgb_compiled | now left..]. Qed.
Theorem rgbp_by_pattern : forall s, same_groups (match_rgbp s) (groups_by_pattern REGEX_COLOR_RGB_PERCENT s).
Proof. intros s. apply cfun_groups; [exact rgbp_compiled | now right..]. Qed.
Theorem hsl_by_pattern : forall s, same_groups (match_hsl s) (groups_by_pattern REGEX_COLOR_HSL s).
Proof. intros s. apply cfun_groups; [exact hsl_compiled | now left | now right | now right]. Qed.

(** * REGEX_COLOR_HEX *)
Definition cs_hex := mkSet false [IRange "0" "9"; IRange "A" "F"; IRange "a" "f"]%char.
Lemma has_hex : forall c, set_has cs_hex c = is_hex c. Proof. now apply all_chars. Qed.
Lemma hex_compiled : the REGEX_COLOR_HEX =
  RCat RBegin (RCat (opt (chr_ "#")) (RCat (RGroup 1 (times 3 (RSet cs_hex) (up_to 5 (RSet cs_hex)))) REnd)).
Proof. reflexivity. Qed.
Lemma reads_up_to : forall n r l, reads (up_to n (RSet cs_hex)) r l
  (Some (skipn (Nat.min n (List.length (fst (span is_hex r)))) r, l)) (starts is_hex).
Proof.
  induction n as [|n IH]; intros r l; [apply reads_empty|].
  cbn [up_to]. pose proof (reads_set _ _ r l (fun _ => False) has_hex) as S. cbv beta in S.
  destruct r as [|c r]; cbn [span].
  { eapply reads_alt_r; [|apply reads_empty]. eapply reads_eq; [intros x; apply run_cat_eq|]. eapply reads_cat_none; exact S. }
  destruct (is_hex c) eqn:H.
  - destruct (span is_hex r) as [a b] eqn:E. cbn [fst List.length Nat.min skipn].
    eapply reads_alt_l.
    + eapply reads_eq; [intros x; apply run_cat_eq|]. eapply reads_cat; [exact S | intros y [] |].
      specialize (IH r l). rewrite E in IH. exact IH.
    + trivial.
    + intros t p X. constructor; [exact H | constructor].
  - cbn [fst List.length Nat.min skipn].
    eapply reads_alt_r; [|apply reads_empty]. eapply reads_eq; [intros x; apply run_cat_eq|]. eapply reads_cat_none; exact S.
  Unshelve. all: exact (fun _ => False).
Qed.
Lemma reads_times : forall k n r l, reads (times k (RSet cs_hex) (up_to n (RSet cs_hex))) r l
  (if k <=? List.length (fst (span is_hex r)) then Some (skipn (Nat.min (k + n) (List.length (fst (span is_hex r)))) r, l) else None)
  (starts is_hex).
Proof.
  induction k as [|k IH]; intros n r l; [apply reads_up_to|].
  cbn [times]. eapply reads_eq; [intros x; apply run_cat_eq|].
  pose proof (reads_set _ _ r l (fun _ => False) has_hex) as S. cbv beta in S.
  destruct r as [|c r]; cbn [span]; [eapply reads_cat_none; exact S|].
  destruct (is_hex c); [|eapply reads_cat_none; exact S].
  specialize (IH n r l). destruct (span is_hex r) as [a b]. cbn [fst List.length Nat.leb Nat.min Nat.add skipn] in *.
  eapply reads_cat; [exact S | intros y [] | exact IH].
Qed.
Definition at_end (r : text) : bool := match r with [] => true | [c] => aeqb c newline | _ => false end.
Lemma reads_end : forall r l, reads REnd r l (if at_end r then Some (r, l) else None) (fun _ => False).
Proof.
  intros r l. split; [destruct (at_end r); [apply suffix_refl | exact I]|]. intros t p X. cbn [run rest at_].
  destruct r as [|c [|d r]]; cbn [at_end option_map fst snd]; [apply like_one | | reflexivity].
  unfold newline. destruct (aeqb c "010"); [apply like_one | reflexivity].
Qed.
Lemma span_skipn : forall p s, skipn (List.length (fst (span p s))) s = snd (span p s).
Proof.
  intros p. induction s as [|c s IH]; [reflexivity|]. cbn. destruct (p c); [|reflexivity]. destruct (span p s). exact IH.
Qed.
Lemma span_skip_less : forall p s n, n < List.length (fst (span p s)) -> starts p (skipn n s).
Proof.
  intros p. induction s as [|c s IH]; cbn; intros n N; [lia|]. destruct (p c) eqn:P; [|cbn in N; lia].
  destruct (span p s) as [a b]. cbn in *. destruct n as [|n]; [exact P|]. apply IH. lia.
Qed.
Theorem hex_by_pattern : forall s, match match_at (the REGEX_COLOR_HEX) 0 s with Some _ => true | None => false end = hex_match s.
Proof.
  intros s. rewrite hex_compiled. set (B := RCat (opt (chr_ "#")) (RCat (RGroup 1 (times 3 (RSet cs_hex) (up_to 5 (RSet cs_hex)))) REnd)).
  assert (match_at (RCat RBegin B) 0 s = match_at B 0 s) as ->.
  { unfold match_at. change (run (RCat RBegin B) (mkSt 0 s [])) with (run B (mkSt 0 s []) ++ []). now rewrite app_nil_r. }
  assert (refuses (RCat (RGroup 1 (times 3 (RSet cs_hex) (up_to 5 (RSet cs_hex)))) REnd) (starts (fun c => aeqb c "#"))) as RF.
  { apply refuses_cat, refuses_group. cbn [times]. apply refuses_cat, (refuses_set _ _ _ has_hex).
    now apply (disjoint (fun c => aeqb c "#") is_hex). }
  assert (refuses REnd (starts is_hex)) as RE.
  { intros y Y. cbn. destruct (rest y) as [|c [|d u]]; [destruct Y | | reflexivity]. cbn in Y.
    destruct (aeqb c "010") eqn:A; [|reflexivity]. apply Ascii.eqb_eq in A. subst c. discriminate. }
  unfold hex_match. assert (drop_hash s = skip1 (fun c => aeqb c "#") s) as -> by (destruct s; reflexivity).
  pose proof (reads_opt _ _ s [] (has_char "#")) as O. set (r := skip1 (fun c => aeqb c "#") s) in *.
  pose proof (reads_group 1 _ _ _ _ _ (reads_times 3 5 r [])) as H.
  pose proof (span_skipn is_hex r) as SK. pose proof (span_skip_less is_hex r 8) as SL.
  destruct (span is_hex r) as [ds b]. cbn [fst snd] in *.
  assert ((3 <=? Z.of_nat (List.length ds))%Z = (3 <=? List.length ds)) as ->.
  { apply eq_true_iff_eq. rewrite Z.leb_le, Nat.leb_le. lia. }
  assert ((Z.of_nat (List.length ds) <=? 8)%Z = (List.length ds <=? 8)) as ->.
  { apply eq_true_iff_eq. rewrite Z.leb_le, Nat.leb_le. lia. }
  destruct (3 <=? List.length ds) eqn:L3; cbn [option_map fst snd andb] in *.
  2: { assert (match_at B 0 s = None) as ->; [|reflexivity]. apply (reads_match_at _ _ None (fun _ => False)).
       eapply reads_cat; [exact O | exact RF |]. eapply reads_cat_none, H. }
  pose proof (reads_end (skipn (Nat.min (3 + 5) (List.length ds)) r) [(1, grab r (skipn (Nat.min (3 + 5) (List.length ds)) r))]) as E.
  assert (reads B s [] (if at_end (skipn (Nat.min (3 + 5) (List.length ds)) r)
     then Some (skipn (Nat.min (3 + 5) (List.length ds)) r, [(1, grab r (skipn (Nat.min (3 + 5) (List.length ds)) r))]) else None) (fun _ => False)) as R.
  { eapply reads_cat; [exact O | exact RF |]. eapply reads_cat; [exact H | exact RE | exact E]. }
  apply (reads_match_at _ _ _ _ 0) in R. rewrite R. clear R E H O RF RE.
  destruct (List.length ds <=? 8) eqn:L8.
  - apply Nat.leb_le in L8. assert (Nat.min (3 + 5) (List.length ds) = List.length ds) as -> by lia. rewrite SK.
    cbn [andb]. unfold at_end. destruct b as [|c [|d b]]; [reflexivity | | reflexivity]. now destruct (aeqb c newline).
  - apply Nat.leb_gt in L8. assert (Nat.min (3 + 5) (List.length ds) = 8) as -> by lia. specialize (SL L8).
    cbn [andb]. destruct (skipn 8 r) as [|c [|d u]]; [destruct SL | | reflexivity]. cbn in SL |- *.
    destruct (aeqb c newline) eqn:A; [|reflexivity]. apply Ascii.eqb_eq in A. subst c. discriminate.
Qed.

(** * REGEX_IRI *)
Definition not_nl (c : ascii) : bool := negb (aeqb c "010").
Lemma has_dot : forall c, set_has dot c = not_nl c. Proof. now apply all_chars. Qed.
Lemma iri_compiled : the REGEX_IRI = wordk (T "url(") (RCat (opt (chr_ "#")) (RCat (RGroup 1 (RStar (RSet dot))) (chr_ ")"))).
Proof. reflexivity. Qed.
Lemma run_line : forall t p r0 l, suffix r0 t -> forall n r, n = List.length r -> suffix r r0 ->
  hd_error (flat_map (fun s' => run (chr_ ")") (cap 1 (at_ t p r0 l) s')) (loop_set not_nl n (at_ t p r l))) =
  option_map (fun a => at_ t p (skipn (S (List.length a)) r) ((1, grab r0 r ++ a) :: l)) (last_paren r).
Proof.
  intros t p r0 l X0. 
  assert (forall r, suffix r r0 -> run (chr_ ")") (cap 1 (at_ t p r0 l) (at_ t p r l)) =
    match r with c :: r' => if aeqb c ")" then [at_ t p r' ((1, grab r0 r) :: l)] else [] | [] => [] end) as ONE.
  { intros r X. rewrite at_cap by assumption. unfold chr_. rewrite (run_set _ _ _ (has_char ")")). cbn [rest at_].
    destruct r as [|c r]; [reflexivity|]. destruct (aeqb c ")"); [|reflexivity].
    rewrite at_upto; [reflexivity | eapply suffix_trans; eassumption | apply suffix_cons]. }
  induction n as [|n IH]; intros r N X.
  - destruct r; [|discriminate]. cbn [loop_set flat_map]. rewrite ONE by exact X. reflexivity.
  - destruct r as [|c r]; [discriminate|]. injection N as N. cbn [loop_set rest at_ last_paren]. unfold not_nl at 1.
    assert (suffix r r0) as X' by (eapply suffix_trans; [apply suffix_cons | exact X]).
    destruct (aeqb c "010") eqn:C; cbn [negb].
    { cbn [flat_map]. rewrite app_nil_r. pose proof (ONE (c :: r) X) as O1. apply Ascii.eqb_eq in C. subst c. exact (f_equal _ O1). }
    rewrite flat_map_app. cbn [flat_map]. rewrite app_nil_r.
    change (mkSt (p + (List.length t - List.length (c :: r))) (c :: r) l) with (at_ t p (c :: r) l).
    rewrite at_upto; [|eapply suffix_trans; eassumption | apply suffix_cons].
    specialize (IH r N X').
    assert (grab r0 r = grab r0 (c :: r) ++ [c]) as GR.
    { destruct X as (a & ->). rewrite grab_app. replace (a ++ c :: r) with ((a ++ [c]) ++ r) by now rewrite <- app_assoc.
      now rewrite grab_app. }
    destruct (last_paren r) as [a|]; cbn [option_map] in IH |- *.
    + destruct (flat_map _ (loop_set not_nl n (at_ t p r l))) as [|x tl]; [discriminate|]. cbn [app hd_error] in *.
      rewrite IH. cbn [List.length skipn]. do 3 f_equal. rewrite GR. now rewrite <- app_assoc.
    + destruct (flat_map _ (loop_set not_nl n (at_ t p r l))) as [|x tl]; [|discriminate]. cbn [app].
      rewrite ONE by exact X. destruct (aeqb c ")"); [|reflexivity]. cbn [hd_error option_map List.length skipn].
      now rewrite app_nil_r.
Qed.
Lemma last_paren_skip : forall a r, last_paren r = Some a -> suffix (skipn (S (List.length a)) r) r.
Proof. intros a r _. exists (firstn (S (List.length a)) r). symmetry. apply firstn_skipn. Qed.
Lemma reads_line : forall r l, reads (RCat (RGroup 1 (RStar (RSet dot))) (chr_ ")")) r l
  (option_map (fun a => (skipn (S (List.length a)) r, (1, a) :: l)) (last_paren r)) (fun _ => True).
Proof.
  intros r l. pose proof (last_paren_skip) as LP. split.
  - destruct (last_paren r) as [a|] eqn:E; [now apply LP | exact I].
  - intros t p X. apply like_true.
    pose proof (run_line t p r l X (List.length r) r eq_refl (suffix_refl r)) as H.
    change (run (RCat (RGroup 1 (RStar (RSet dot))) (chr_ ")")) (at_ t p r l)) with
      (flat_map (run (chr_ ")")) (map (cap 1 (at_ t p r l)) (run (RStar (RSet dot)) (at_ t p r l)))).
    rewrite (run_star_set _ _ _ has_dot). cbn [rest at_]. rewrite flat_map_concat_map, map_map, <- flat_map_concat_map.
    change (mkSt (p + (List.length t - List.length r)) r l) with (at_ t p r l). rewrite H.
    rewrite grab_self. destruct (last_paren r); reflexivity.
Qed.
Lemma strip_url : forall s, starts_with (T "url(") s = match strip (T "url(") s with Some _ => true | None => false end /\
  (forall r, strip (T "url(") s = Some r -> skipn 4 s = r).
Proof.
  intros s. split.
  - generalize (T "url("). intros w. revert s. induction w as [|c w IH]; intros s; [reflexivity|]. cbn.
    destruct s as [|d s]; [reflexivity|]. destruct (aeqb c d); [apply IH | reflexivity].
  - intros r E. apply strip_app in E. subst s. reflexivity.
Qed.
Definition scan_iri (s : text) : option (text * text) :=
  match iri_here s with
  | None => None
  | Some a => Some (a, match match_at (the REGEX_IRI) 0 s with Some (_, r) => r | None => [] end)
  end.
Lemma match_iri : forall p s, match iri_here s with
  | None => match_at (the REGEX_IRI) p s = None
  | Some a => exists g r, match_at (the REGEX_IRI) p s = Some (g, r) /\ group0 1 g = a
  end.
Proof.
  intros p s. rewrite iri_compiled. unfold iri_here. destruct (strip_url s) as (-> & SK).
  destruct (strip (T "url(") s) as [r|] eqn:E.
  2: { apply (reads_match_at _ _ None (fun _ => False)). apply reads_wordk. now rewrite E. }
  rewrite (SK r eq_refl). set (K := RCat (RGroup 1 (RStar (RSet dot))) (chr_ ")")).
  assert (reads (RCat (opt (chr_ "#")) K) r []
    (match r with
     | c :: r' => if aeqb c "#" then option_map (fun a => (skipn (S (List.length a)) r', [(1, a)])) (last_paren r')
                  else option_map (fun a => (skipn (S (List.length a)) r, [(1, a)])) (last_paren r)
     | [] => None end) (fun _ => True)) as R.
  { split.
    - destruct r as [|c r']; [exact I|]. destruct (aeqb c "#").
      + destruct (last_paren r') as [a|] eqn:L; [|exact I]. eapply suffix_trans; [now apply last_paren_skip | apply suffix_cons].
      + destruct (last_paren (c :: r')) as [a|] eqn:L; [now apply last_paren_skip | exact I].
    - intros t q X. apply like_true. change (run (RCat (opt (chr_ "#")) K) (at_ t q r [])) with
        (flat_map (run K) (run (opt (chr_ "#")) (at_ t q r []))).
      unfold chr_. rewrite (run_opt_set _ _ _ (has_char "#")). cbn [rest at_].
      change (mkSt (q + (List.length t - List.length r)) r []) with (at_ t q r []).
      pose proof (proj2 (reads_line r []) t q X) as LR. fold K in LR. apply like_hd in LR.
      destruct r as [|c r']; [cbn [flat_map]; rewrite app_nil_r; exact LR|].
      destruct (aeqb c "#") eqn:C; [|cbn [flat_map]; rewrite app_nil_r; exact LR].
      cbn [flat_map]. rewrite app_nil_r. rewrite at_upto; [|exact X | apply suffix_cons].
      pose proof (proj2 (reads_line r' []) t q (suffix_trans _ _ _ (suffix_cons c r') X)) as LR'. fold K in LR'.
      destruct (last_paren r') as [a|] eqn:L; cbn [option_map] in LR' |- *.
      + apply like_hd in LR'. destruct (run K (at_ t q r' [])) as [|x tl]; [discriminate|]. exact LR'.
      + cbn [like] in LR'. rewrite LR'. cbn [app].
        assert (last_paren (c :: r') = None) as Z.
        { cbn [last_paren]. rewrite L. apply Ascii.eqb_eq in C. subst c. reflexivity. }
        rewrite Z in LR. exact LR. }
  assert (forall o, (match r with
     | c :: r' => if aeqb c "#" then option_map (fun a => (skipn (S (List.length a)) r', [(1, a)])) (last_paren r')
                  else option_map (fun a => (skipn (S (List.length a)) r, [(1, a)])) (last_paren r)
     | [] => None end) = o -> match_at (wordk (T "url(") (RCat (opt (chr_ "#")) K)) p s =
       option_map (fun x => ((0, grab s (fst x)) :: snd x, fst x)) o) as M.
  { intros o <-. apply (reads_match_at _ _ _ (fun _ => True)). apply reads_wordk. rewrite E. exact R. }
  destruct r as [|c r']; [exact (M None eq_refl)|]. destruct (aeqb c "#").
  - destruct (last_paren r') as [a|]; rewrite (M _ eq_refl); [|reflexivity]. cbn [option_map fst snd].
    eexists. eexists. split; reflexivity.
  - destruct (last_paren (c :: r')) as [a|]; rewrite (M _ eq_refl); [|reflexivity]. cbn [option_map fst snd].
    eexists. eexists. split; reflexivity.
Qed.
Theorem id_by_pattern_iri : forall s, id_by_pattern s = iri s.
Proof.
  intros s. unfold id_by_pattern.
  enough (forall s p, match findall (the REGEX_IRI) p 0 s with m :: _ => Some (group0 1 m) | [] => None end = iri s) as H by apply H.
  clear s. induction s as [|c s IH]; intros p; [reflexivity|]. cbn [findall iri].
  pose proof (match_iri p (c :: s)) as M. destruct (iri_here (c :: s)) as [a|].
  - destruct M as (g & r & -> & G). now rewrite G.
  - rewrite M. apply IH.
Qed.

(** * Path data *)
Definition cs_command := mkSet false (map IChar (T "MmZzLlHhVvCcSsQqTtAa")).
Definition cs_sep := mkSet false (map IChar [" "; ","; "009"; "010"; "009"; "010"; "012"; "013"]%char).
Definition cs_z := mkSet false (map IChar (T "Zz")).
Definition cs_flag := mkSet false (map IChar (T "01")).
Definition is_flag (c : ascii) : bool := aeqb c "0" || aeqb c "1".
Lemma has_command : forall c, set_has cs_command c = is_command c. Proof. now apply all_chars. Qed.
Lemma has_sep : forall c, set_has cs_sep c = is_sep c. Proof. now apply all_chars. Qed.
Lemma has_z : forall c, set_has cs_z c = is_z c. Proof. now apply all_chars. Qed.
Lemma has_flag : forall c, set_has cs_flag c = is_flag c. Proof. now apply all_chars. Qed.
Definition re_seps := RCat (RSet cs_sep) (RStar (RSet cs_sep)).
Lemma svg_compiled : the svg_re = RAlt (RGroup 1 (RSet cs_command)) (RGroup 2 re_seps). Proof. reflexivity. Qed.
Lemma num_compiled : the num_re = RAlt (RGroup 1 re_float) (RAlt (RGroup 2 (RSet cs_z)) (RGroup 3 re_seps)). Proof. reflexivity. Qed.
Lemma flag_compiled : the flag_re = RAlt (RGroup 1 (RSet cs_flag)) (RGroup 2 re_seps). Proof. reflexivity. Qed.
Lemma drop_sep_span : forall s, drop_sep s = snd (span is_sep s).
Proof.
  induction s as [|c s IH]; [reflexivity|]. cbn. destruct (is_sep c); [|reflexivity]. rewrite IH. now destruct (span is_sep s).
Qed.
Lemma drop_sep_stop : forall s, ~ starts is_sep (drop_sep s).
Proof. intros s. rewrite drop_sep_span. destruct (span is_sep s) as [a b] eqn:E. now apply (span_stop _ _ _ _ E). Qed.
Lemma drop_sep_id : forall s, ~ starts is_sep s -> drop_sep s = s.
Proof. intros [|c s] N; [reflexivity|]. cbn in *. now destruct (is_sep c). Qed.
Lemma drop_sep_idem : forall s, drop_sep (drop_sep s) = drop_sep s.
Proof. intros s. apply drop_sep_id, drop_sep_stop. Qed.
Lemma drop_sep_less : forall c s, is_sep c = true -> List.length (drop_sep (c :: s)) <= List.length s.
Proof.
  intros c s H. cbn. rewrite H. rewrite drop_sep_span. apply suffix_len, span_suffix.
Qed.
(** The second group of the patterns reads all separators. *)
Lemma seps_yes : forall k s, starts is_sep s -> reads (RGroup k re_seps) s [] (Some (drop_sep s, [(k, grab s (drop_sep s))])) (starts is_sep).
Proof.
  intros k s H. pose proof (reads_group k _ _ _ _ _ (reads_plus cs_sep is_sep s [] has_sep)) as R. rewrite <- drop_sep_span in R.
  destruct s as [|c s]; [destruct H|]. cbn [span] in R. cbn in H. rewrite H in R. destruct (span is_sep s). exact R.
Qed.
Lemma seps_no : forall k s bad, ~ starts is_sep s -> reads (RGroup k re_seps) s [] None bad.
Proof.
  intros k s bad H. apply (reads_refused _ _ _ (fun t => ~ starts is_sep t)); [|exact H].
  apply refuses_group, (refuses_plus _ is_sep _ has_sep). tauto.
Qed.
Lemma one_set : forall k cs q s, (forall c, set_has cs c = q c) ->
  reads (RGroup k (RSet cs)) s [] (match s with c :: r => if q c then Some (r, [(k, [c])]) else None | [] => None end) (fun _ => False).
Proof.
  intros k cs q s E. pose proof (reads_group k _ _ _ _ _ (reads_set cs q s [] (fun _ => False) E)) as R.
  destruct s as [|c r]; [exact R|]. destruct (q c); [|exact R]. cbn [option_map fst snd] in R.
  change (c :: r) with ([c] ++ r) in R at 2. rewrite grab_app in R. exact R.
Qed.
Lemma alt_group : forall a b s x (bad : text -> Prop), reads a s [] (Some x) (fun _ => False) -> refuses b (fun t => t = s) ->
  reads (RAlt a b) s [] (Some x) bad.
Proof.
  intros a b s x bad A B. eapply reads_alt_l; [exact A | now intros u [] |]. intros t p X. rewrite B; [constructor | reflexivity].
Qed.
(** Patterns with one kind of token and separators. *)
Lemma match_token : forall cs q s, (forall c, set_has cs c = q c) -> (forall t, starts q t -> ~ starts is_sep t) ->
  match_at (RAlt (RGroup 1 (RSet cs)) (RGroup 2 re_seps)) 0 s =
  match s with
  | c :: r => if q c then Some ([(0, [c]); (1, [c])], r)
              else if is_sep c then Some ([(0, grab s (drop_sep s)); (2, grab s (drop_sep s))], drop_sep s)
              else None
  | [] => None
  end.
Proof.
  intros cs q s E D. pose proof (one_set 1 cs q s E) as O. destruct s as [|c r].
  { apply (reads_match_at _ _ None (fun _ => False)). eapply reads_alt_r; [exact O | apply seps_no; tauto]. }
  destruct (q c) eqn:Q.
  - assert (reads (RAlt (RGroup 1 (RSet cs)) (RGroup 2 re_seps)) (c :: r) [] (Some (r, [(1, [c])])) (fun _ => True)) as R.
    { split; [apply suffix_cons|]. intros t p X. destruct (proj2 O t p X) as (tl & H & _). cbn [fst snd] in H.
      apply like_true. change (run (RAlt (RGroup 1 (RSet cs)) (RGroup 2 re_seps)) (at_ t p (c :: r) [])) with
        (run (RGroup 1 (RSet cs)) (at_ t p (c :: r) []) ++ run (RGroup 2 re_seps) (at_ t p (c :: r) [])).
      rewrite H. reflexivity. }
    apply (reads_match_at _ _ _ _ 0) in R. rewrite R. cbn [option_map fst snd].
    change (c :: r) with ([c] ++ r). now rewrite grab_app.
  - destruct (is_sep c) eqn:S.
    + apply (reads_match_at _ _ (Some (drop_sep (c :: r), [(2, grab (c :: r) (drop_sep (c :: r)))])) (starts is_sep)).
      eapply reads_alt_r; [exact O|]. now apply seps_yes.
    + apply (reads_match_at _ _ None (starts is_sep)). eapply reads_alt_r; [exact O|]. apply seps_no. cbn. now rewrite S.
Qed.
Lemma match_num : forall s, match_at (the num_re) 0 s =
  match match_float s with
  | Some (_, r) => Some ([(0, grab s r); (1, grab s r)], r)
  | None =>
      match s with
      | c :: r => if is_z c then Some ([(0, [c]); (2, [c])], r)
                  else if is_sep c then Some ([(0, grab s (drop_sep s)); (3, grab s (drop_sep s))], drop_sep s)
                  else None
      | [] => None
      end
  end.
Proof.
  intros s. rewrite num_compiled. pose proof (reads_group 1 _ _ _ _ _ (reads_float s [])) as F.
  destruct (match_float s) as [[f r]|]; cbn [option_map fst snd] in F.
  - assert (reads (RAlt (RGroup 1 re_float) (RAlt (RGroup 2 (RSet cs_z)) (RGroup 3 re_seps))) s [] (Some (r, [(1, grab s r)])) (fun _ => True)) as R.
    { destruct F as (SF & F). split; [exact SF|]. intros t p X. destruct (F t p X) as (tl & H & _). cbn [fst snd] in H. apply like_true.
      change (run (RAlt (RGroup 1 re_float) (RAlt (RGroup 2 (RSet cs_z)) (RGroup 3 re_seps))) (at_ t p s [])) with
        (run (RGroup 1 re_float) (at_ t p s []) ++ run (RAlt (RGroup 2 (RSet cs_z)) (RGroup 3 re_seps)) (at_ t p s [])).
      rewrite H. reflexivity. }
    apply (reads_match_at _ _ _ _ 0) in R. exact R.
  - pose proof (one_set 2 cs_z is_z s has_z) as O.
    destruct s as [|c r].
    { apply (reads_match_at _ _ None (fun _ => False)). eapply reads_alt_r; [exact F|]. eapply reads_alt_r; [exact O | apply seps_no; tauto]. }
    destruct (is_z c) eqn:Q.
    + assert (reads (RAlt (RGroup 1 re_float) (RAlt (RGroup 2 (RSet cs_z)) (RGroup 3 re_seps))) (c :: r) [] (Some (r, [(2, [c])])) (fun _ => True)) as R.
      { eapply reads_alt_r; [exact F|]. apply alt_group; [exact O|]. intros y Y.
        apply (refuses_group 3 re_seps (starts is_z)); [|rewrite Y; exact Q].
        apply (refuses_plus _ is_sep _ has_sep). apply (disjoint is_z is_sep eq_refl). }
      apply (reads_match_at _ _ _ _ 0) in R. rewrite R. cbn [option_map fst snd].
      change (c :: r) with ([c] ++ r). now rewrite grab_app.
    + destruct (is_sep c) eqn:S.
      * apply (reads_match_at _ _ (Some (drop_sep (c :: r), [(3, grab (c :: r) (drop_sep (c :: r)))])) (starts is_sep)).
        eapply reads_alt_r; [exact F|]. eapply reads_alt_r; [exact O|]. now apply seps_yes.
      * apply (reads_match_at _ _ None (starts is_sep)). eapply reads_alt_r; [exact F|]. eapply reads_alt_r; [exact O|].
        apply seps_no. cbn. now rewrite S.
Qed.
Lemma float_not_sep : forall s f r, match_float s = Some (f, r) -> ~ starts is_sep s.
Proof.
  intros s f r M S. pose proof (reads_float s []) as (_ & F). specialize (F s 0 (suffix_refl s)). rewrite M in F.
  destruct F as (tl & E & _). rewrite (refuses_float is_sep eq_refl) in E; [discriminate | exact S].
Qed.

Definition token_end (q : ascii -> bool) (r : text) : option text * text :=
  match r with c :: r' => if q c then (Some [c], r') else (None, r) | [] => (None, []) end.
Lemma command_loop_ok : forall s n, List.length s <= n ->
  command_loop n s = token_end is_command (drop_sep s).
Proof.
  assert (forall s n, ~ starts is_sep s -> List.length s <= n -> command_loop n s = token_end is_command s) as H.
  { intros s n N L. destruct n as [|n]; [destruct s; [reflexivity | cbn in L; lia]|]. cbn [command_loop].
    destruct s as [|c r]; [reflexivity|]. rewrite svg_compiled, (match_token _ _ _ has_command (disjoint is_command is_sep eq_refl)).
    cbn [token_end]. destruct (is_command c); [reflexivity|]. cbn in N. destruct (is_sep c); [now destruct N | reflexivity]. }
  intros s n L. destruct s as [|c r]; [destruct n; reflexivity|].
  destruct (is_sep c) eqn:S.
  - destruct n as [|n]; [cbn in L; lia|]. cbn [command_loop].
    rewrite svg_compiled, (match_token _ _ _ has_command (disjoint is_command is_sep eq_refl)).
    assert (is_command c = false) as ->.
    { apply not_true_is_false. exact (disjoint is_sep is_command eq_refl (c :: r) S). }
    rewrite S. cbn [group Nat.eqb]. apply H; [apply drop_sep_stop|].
    pose proof (drop_sep_less c r S). cbn in L. lia.
  - rewrite drop_sep_id by (cbn; now rewrite S). apply H; [cbn; now rewrite S | exact L].
Qed.
Lemma flag_loop_ok : forall s n, List.length s <= n -> flag_loop n s = token_end is_flag (drop_sep s).
Proof.
  assert (forall s n, ~ starts is_sep s -> List.length s <= n -> flag_loop n s = token_end is_flag s) as H.
  { intros s n N L. destruct n as [|n]; [destruct s; [reflexivity | cbn in L; lia]|]. cbn [flag_loop].
    destruct s as [|c r]; [reflexivity|]. rewrite flag_compiled, (match_token _ _ _ has_flag (disjoint is_flag is_sep eq_refl)).
    cbn [token_end]. destruct (is_flag c); [reflexivity|]. cbn in N. destruct (is_sep c); [now destruct N | reflexivity]. }
  intros s n L. destruct s as [|c r]; [destruct n; reflexivity|].
  destruct (is_sep c) eqn:S.
  - destruct n as [|n]; [cbn in L; lia|]. cbn [flag_loop].
    rewrite flag_compiled, (match_token _ _ _ has_flag (disjoint is_flag is_sep eq_refl)).
    assert (is_flag c = false) as ->.
    { apply not_true_is_false. exact (disjoint is_sep is_flag eq_refl (c :: r) S). }
    rewrite S. cbn [group Nat.eqb]. apply H; [apply drop_sep_stop|].
    pose proof (drop_sep_less c r S). cbn in L. lia.
  - rewrite drop_sep_id by (cbn; now rewrite S). apply H; [cbn; now rewrite S | exact L].
Qed.
Definition number_end (r : text) : option text * text * bool :=
  match match_float r with
  | Some (_, r') => (Some (grab r r'), r', false)
  | None => (None, r, starts_z r)
  end.
Lemma number_loop_ok : forall s n, List.length s <= n -> number_loop n s = number_end (drop_sep s).
Proof.
  assert (forall s n, ~ starts is_sep s -> List.length s <= n -> number_loop n s = number_end s) as H.
  { intros s n N L. destruct n as [|n]; [destruct s; [reflexivity | cbn in L; lia]|]. cbn [number_loop].
    destruct s as [|c r]; [reflexivity|]. rewrite match_num. unfold number_end.
    destruct (match_float (c :: r)) as [[f r']|]; [reflexivity|]. cbn [starts_z].
    destruct (is_z c); [reflexivity|]. cbn in N. destruct (is_sep c); [now destruct N | reflexivity]. }
  intros s n L. destruct s as [|c r]; [destruct n; reflexivity|].
  destruct (is_sep c) eqn:S.
  - destruct n as [|n]; [cbn in L; lia|]. cbn [number_loop]. rewrite match_num.
    destruct (match_float (c :: r)) as [[f r']|] eqn:M; [exfalso; now apply (float_not_sep _ _ _ M)|].
    assert (is_z c = false) as ->.
    { apply not_true_is_false. exact (disjoint is_sep is_z eq_refl (c :: r) S). }
    rewrite S. cbn [group Nat.eqb]. apply H; [apply drop_sep_stop|].
    pose proof (drop_sep_less c r S). cbn in L. lia.
  - rewrite drop_sep_id by (cbn; now rewrite S). apply H; [cbn; now rewrite S | exact L].
Qed.
Definition more_end (r : text) : bool * text * bool :=
  match match_float r with Some _ => (true, r, false) | None => (false, r, starts_z r) end.
Lemma more_loop_ok : forall s n, List.length s <= n -> more_loop n s = more_end (drop_sep s).
Proof.
  assert (forall s n, ~ starts is_sep s -> List.length s <= n -> more_loop n s = more_end s) as H.
  { intros s n N L. destruct n as [|n]; [destruct s; [reflexivity | cbn in L; lia]|]. cbn [more_loop].
    destruct s as [|c r]; [reflexivity|]. rewrite match_num. unfold more_end.
    destruct (match_float (c :: r)) as [[f r']|]; [reflexivity|]. cbn [starts_z].
    destruct (is_z c); [reflexivity|]. cbn in N. destruct (is_sep c); [now destruct N | reflexivity]. }
  intros s n L. destruct s as [|c r]; [destruct n; reflexivity|].
  destruct (is_sep c) eqn:S.
  - destruct n as [|n]; [cbn in L; lia|]. cbn [more_loop]. rewrite match_num.
    destruct (match_float (c :: r)) as [[f r']|] eqn:M; [exfalso; now apply (float_not_sep _ _ _ M)|].
    assert (is_z c = false) as ->.
    { apply not_true_is_false. exact (disjoint is_sep is_z eq_refl (c :: r) S). }
    rewrite S. cbn [group Nat.eqb]. apply H; [apply drop_sep_stop|].
    pose proof (drop_sep_less c r S). cbn in L. lia.
  - rewrite drop_sep_id by (cbn; now rewrite S). apply H; [cbn; now rewrite S | exact L].
Qed.
