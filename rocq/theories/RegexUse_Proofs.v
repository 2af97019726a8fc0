(** The patterns of constants.py one by one, compared with the scanners of the other models. *)
Require Import ZArith QArith Arith Ascii String List Bool Lia.
Require Import Verif.Length_Model Verif.FmtG_Model Verif.Viewbox_Model Verif.Transform_Model Verif.Color_Model.
Require Import Verif.Base Verif.Regex_Model Verif.Regex_Proofs Verif.RegexRead_Proofs Verif.RegexUse_Model.
Import ListNotations.
Open Scope nat_scope.

(** * findall *)
Fixpoint scan {A} (m : text -> option (A * text)) (skip : nat) (s : text) : list A :=
  match s with
  | [] => []
  | _ :: s' =>
      match skip with
      | S k => scan m k s'
      | O => match m s with
             | Some (a, r) => a :: scan m (List.length s' - List.length r) s'
             | None => scan m 0 s'
             end
      end
  end.
Definition finds {A} (a : re) (m : text -> option (A * text)) (h : list (nat * text) -> A -> Prop) : Prop :=
  forall p s, match m s with
              | None => match_at a p s = None
              | Some (x, r) => exists g, match_at a p s = Some (g, r) /\ h g x
              end.
Lemma findall_scan : forall {A} a m (h : list (nat * text) -> A -> Prop), finds a m h ->
  forall s p k, Forall2 h (findall a p k s) (scan m k s).
Proof.
  intros A a m h F. induction s as [|c s IH]; intros p k; [constructor|]. cbn [findall scan].
  destruct k as [|k]; [|apply IH]. specialize (F p (c :: s)). destruct (m (c :: s)) as [[x r]|].
  - destruct F as (g & -> & H). constructor; [exact H | apply IH].
  - rewrite F. apply IH.
Qed.

(** * Words *)
Fixpoint wordk (w : text) (k : re) : re := match w with [] => k | c :: w' => RCat (chr_ c) (wordk w' k) end.
Lemma aeqb_sym : forall a b, aeqb a b = aeqb b a.
Proof. exact Ascii.eqb_sym. Qed.
Lemma reads_wordk : forall w k r l o bad,
  match strip w r with Some r1 => reads k r1 l o bad | None => o = None end -> reads (wordk w k) r l o bad.
Proof.
  induction w as [|c w IH]; intros k r l o bad H; [exact H|].
  cbn [wordk strip] in *. pose proof (reads_set _ _ r l (fun _ => False) (has_char c)) as S.
  destruct r as [|d r]; [subst o; now apply (reads_cat_none _ _ _ _ (fun _ => False))|].
  rewrite (aeqb_sym c d) in H. destruct (aeqb d c).
  - eapply reads_cat; [exact S | intros y [] | now apply IH].
  - subst o. now apply (reads_cat_none _ _ _ _ (fun _ => False)).
Qed.
Fixpoint alts (ws : list text) : re :=
  match ws with [] => RSet (mkSet false []) | [w] => word w | w :: ws' => RAlt (word w) (alts ws') end.
Definition somes {A} (l : list (option A)) : list A := flat_map (fun o => match o with Some x => [x] | None => [] end) l.
Lemma somes_cons : forall {A} (o : option A) l, somes (o :: l) = match o with Some x => [x] | None => [] end ++ somes l.
Proof. reflexivity. Qed.
Lemma reads_word_run : forall w t p r l, suffix r t ->
  run (word w) (at_ t p r l) = match strip w r with Some r' => [at_ t p r' l] | None => [] end.
Proof.
  induction w as [|c w IH]; intros t p r l X; [reflexivity|].
  cbn [word]. rewrite run_cat_eq. change (run (RCat (chr_ c) (word w)) (at_ t p r l)) with
    (flat_map (run (word w)) (run (chr_ c) (at_ t p r l))).
  unfold chr_. rewrite (run_set _ _ _ (has_char c)). cbn [rest at_]. destruct r as [|d r]; [reflexivity|].
  cbn [strip]. rewrite (aeqb_sym c d). destruct (aeqb d c); [|reflexivity].
  rewrite at_upto by (assumption || apply suffix_cons). cbn [flat_map]. rewrite app_nil_r.
  apply IH. eapply suffix_trans; [apply suffix_cons | exact X].
Qed.
Lemma run_alts : forall ws t p r l, suffix r t ->
  run (alts ws) (at_ t p r l) = map (fun r' => at_ t p r' l) (somes (map (fun w => strip w r) ws)).
Proof.
  induction ws as [|w ws IH]; intros t p r l X.
  - cbn. destruct r; reflexivity.
  - destruct ws as [|w' ws].
    + cbn [alts map]. rewrite (reads_word_run w t p r l X). cbn. now destruct (strip w r).
    + change (run (alts (w :: w' :: ws)) (at_ t p r l)) with (run (word w) (at_ t p r l) ++ run (alts (w' :: ws)) (at_ t p r l)).
      rewrite IH by exact X. rewrite (reads_word_run w t p r l X).
      change (map (fun w0 => strip w0 r) (w :: w' :: ws)) with (strip w r :: map (fun w0 => strip w0 r) (w' :: ws)).
      rewrite somes_cons, map_app. now destruct (strip w r).
Qed.
Lemma strip_suffix : forall w s r, strip w s = Some r -> suffix r s.
Proof. intros w s r E. exists w. now apply strip_app. Qed.

(** * REGEX_LENGTH *)
Definition cs_unit := mkSet false [IRange "A" "Z"; IRange "a" "z"; IChar "%"]%char.
Lemma has_unit : forall c, set_has cs_unit c = is_unit_char c. Proof. now apply all_chars. Qed.
Lemma length_compiled : the REGEX_LENGTH = RCat (RGroup 1 re_float) (RGroup 2 (RStar (RSet cs_unit))).
Proof. reflexivity. Qed.
Lemma reads_length : forall s, reads (the REGEX_LENGTH) s []
  (option_map (fun fr => let r := snd fr in (snd (span is_unit_char r), [(2, fst (span is_unit_char r)); (1, grab s r)])) (match_float s))
  (fun _ => True).
Proof.
  intros s. rewrite length_compiled. pose proof (reads_group 1 _ _ _ _ _ (reads_float s [])) as F.
  destruct (match_float s) as [[f r]|]; cbn [option_map fst snd] in *.
  - eapply reads_cat_all; [exact F | intros y _; now apply Forall_forall |].
    pose proof (reads_group 2 _ _ _ _ _ (reads_star cs_unit is_unit_char r [(1, grab s r)] has_unit)) as U.
    cbn [option_map fst snd] in U. destruct (span is_unit_char r) as [u r'] eqn:E. cbn [fst snd] in *.
    assert (grab r r' = u) as E' by (apply span_app in E; rewrite E; apply grab_app). rewrite E' in U.
    eapply reads_weaken; [exact U | trivial].
  - eapply reads_cat_none. exact F.
Qed.
Definition scan_length (s : text) : option ((text * text) * text) :=
  option_map (fun fr => let r := snd fr in ((grab s r, fst (span is_unit_char r)), snd (span is_unit_char r))) (match_float s).
Lemma finds_length : finds (the REGEX_LENGTH) scan_length (fun g x => group0 1 g = fst x /\ group0 2 g = snd x).
Proof.
  intros p s. pose proof (reads_match_at _ _ _ _ p (reads_length s)) as H. unfold scan_length.
  destruct (match_float s) as [[f r]|]; cbn [option_map fst snd] in *; [|exact H].
  eexists. split; [exact H|]. split; reflexivity.
Qed.
Theorem length_by_pattern_find : forall s,
  length_by_pattern s = Ok (match find_length s with Some au => au | None => (0%Q, []) end).
Proof.
  intros s. unfold length_by_pattern. pose proof (findall_scan _ _ _ finds_length s 0 0) as F.
  assert (forall s, match find_length s with
    | Some (a, u) => exists t tl, scan scan_length 0 s = (t, u) :: tl /\ py_float t = Ok a
    | None => scan scan_length 0 s = [] end) as H.
  { clear. induction s as [|c s IH]; [reflexivity|]. cbn [find_length scan].
    assert (scan_length (c :: s) = option_map (fun fr => let r := snd fr in
      ((grab (c :: s) r, fst (span is_unit_char r)), snd (span is_unit_char r))) (match_float (c :: s))) as -> by reflexivity.
    destruct (match_float (c :: s)) as [[f r]|] eqn:M; cbn [option_map fst snd].
    - eexists. eexists. split; [reflexivity|]. now apply float_of_grab.
    - exact IH. }
  specialize (H s). destruct (find_length s) as [[a u]|].
  - destruct H as (t & tl & E & P). rewrite E in F. inversion F as [|g x l l' (G1 & G2) F' EG EX]; subst.
    rewrite G1, G2. cbn. now rewrite P.
  - rewrite H in F. now inversion F.
Qed.

(** * REGEX_FLOAT *)
Definition scan_float (s : text) : option (text * text) := option_map (fun fr => (grab s (snd fr), snd fr)) (match_float s).
Lemma finds_float : finds (the REGEX_FLOAT) scan_float (fun g x => group0 0 g = x).
Proof.
  intros p s. change (the REGEX_FLOAT) with re_float.
  pose proof (reads_match_at _ _ _ _ p (reads_float s [])) as H. unfold scan_float.
  destruct (match_float s) as [[f r]|]; cbn [option_map fst snd] in *; [|exact H].
  eexists. split; [exact H | reflexivity].
Qed.
Theorem floats_by_pattern_find : forall s, floats_by_pattern s = Ok (find_floats 0 s).
Proof.
  intros s. unfold floats_by_pattern. pose proof (findall_scan _ _ _ finds_float s 0 0) as F.
  assert (map (group0 0) (findall (the REGEX_FLOAT) 0 0 s) = scan scan_float 0 s) as ->.
  { induction F as [|g x l l' G F IH]; [reflexivity|]. cbn. now rewrite G, IH. }
  clear F. generalize 0 as k. induction s as [|c s IH]; intros k; [reflexivity|]. cbn [scan find_floats].
  destruct k as [|k]; [|apply IH]. unfold scan_float at 1.
  destruct (match_float (c :: s)) as [[f r]|] eqn:M; cbn [option_map fst snd]; [|apply IH].
  cbn [floats]. rewrite (float_of_grab _ _ _ M). cbn [rbind]. rewrite IH. reflexivity.
Qed.

(** * REGEX_COORD_PAIR *)
Definition cs_space := mkSet false [ISpace].
Lemma has_space : forall c, set_has cs_space c = is_ws c. Proof. now apply all_chars. Qed.
Definition spaces := RStar (RSet cs_space).
Definition re_comma := RAlt (RCat spaces (RCat (chr_ ",") spaces)) (RAlt (RCat (RSet cs_space) spaces) (RLook (chr_ "-"))).
Lemma pair_compiled : the REGEX_COORD_PAIR = RCat (RGroup 1 re_float) (RCat re_comma (RGroup 2 re_float)).
Proof. reflexivity. Qed.
Lemma refuses_alt : forall a b bad, refuses a bad -> refuses b bad -> refuses (RAlt a b) bad.
Proof. intros a b bad A B y H. cbn. now rewrite (A y H), (B y H). Qed.
Lemma refuses_look : forall a bad, refuses a bad -> refuses (RLook a) bad.
Proof. intros a bad A y H. cbn. now rewrite (A y H). Qed.
Lemma refuses_chr : forall x q, forallb (fun n => negb (q (ascii_of_nat n) && aeqb (ascii_of_nat n) x)) (seq 0 256) = true ->
  refuses (chr_ x) (starts q).
Proof. intros x q H. apply (refuses_set _ (fun c => aeqb c x) _ (has_char x)). now apply (disjoint q (fun c => aeqb c x)). Qed.
Definition float_start (c : ascii) : bool := is_sign c || is_digit c || is_point c.
Lemma starts_or : forall p q t, starts (fun c => p c || q c) t <-> starts p t \/ starts q t.
Proof. intros p q [|c t]; cbn; [tauto|]. now rewrite orb_true_iff. Qed.
Lemma refuses_float : forall q, forallb (fun n => negb (q (ascii_of_nat n) && float_start (ascii_of_nat n))) (seq 0 256) = true ->
  refuses re_float (starts q).
Proof.
  intros q H. pose proof (disjoint q float_start H) as D.
  assert (forall t, starts q t -> ~ starts is_sign t /\ ~ starts is_digit t /\ ~ starts is_point t) as D'.
  { intros t Q. specialize (D t Q). unfold float_start in D. rewrite !starts_or in D. tauto. }
  unfold re_float. apply (refuses_opt _ is_sign _ _ has_sign); [intros t Q; now apply D'|].
  apply (refuses_star _ is_digit _ _ has_digit); [intros t Q; now apply D'|].
  apply (refuses_opt _ is_point _ _ has_point); [intros t Q; now apply D'|].
  apply refuses_cat, (refuses_plus _ is_digit _ has_digit). intros t Q; now apply D'.
Qed.
Lemma refuses_spaces : forall q b, forallb (fun n => negb (q (ascii_of_nat n) && is_ws (ascii_of_nat n))) (seq 0 256) = true ->
  refuses b (starts q) -> refuses (RCat spaces b) (starts q).
Proof. intros q b H R. apply (refuses_star _ is_ws _ _ has_space); [now apply (disjoint q is_ws) | exact R]. Qed.
Lemma comma_refuses_cont : refuses re_comma (starts cont).
Proof.
  apply refuses_alt; [|apply refuses_alt].
  - apply refuses_spaces; [reflexivity|]. apply refuses_cat, refuses_chr. reflexivity.
  - apply (refuses_plus _ is_ws _ has_space). apply (disjoint cont is_ws eq_refl).
  - apply refuses_look, refuses_chr. reflexivity.
Qed.
Definition comma_bad (c : ascii) : bool := is_ws c || aeqb c ",".
Lemma run_plus_ws : forall t p r l, suffix r t ->
  Forall (fun y => rest y = snd (span is_ws r) \/ starts is_ws (rest y)) (run (RCat (RSet cs_space) spaces) (at_ t p r l)).
Proof.
  intros t p r l X. destruct (reads_plus cs_space is_ws r l has_space) as (_ & H). specialize (H t p X).
  fold spaces in H. destruct (fst (span is_ws r)).
  - cbn [like option_map] in H. rewrite H. constructor.
  - destruct H as (tl & -> & F). constructor; [now left|]. eapply Forall_impl; [|exact F].
    intros y [-> | B]; [now left | now right].
Qed.
Lemma reads_comma_float : forall r l, reads (RCat re_comma (RGroup 2 re_float)) r l
  (match match_comma r with
   | None => None
   | Some r1 => option_map (fun fr => (snd fr, (2, grab r1 (snd fr)) :: l)) (match_float r1)
   end) (fun _ => True).
Proof.
  intros r l.
  assert (forall r1, reads (RGroup 2 re_float) r1 l
    (option_map (fun fr => (snd fr, (2, grab r1 (snd fr)) :: l)) (match_float r1)) (fun _ => True)) as FL.
  { intros r1. eapply reads_weaken; [|trivial]. pose proof (reads_group 2 _ _ _ _ _ (reads_float r1 l)) as F.
    destruct (match_float r1) as [[f r2]|]; exact F. }
  assert (refuses (RGroup 2 re_float) (starts comma_bad)) as RB.
  { apply refuses_group, refuses_float. reflexivity. }
  unfold match_comma. rewrite drop_ws_span.
  pose proof (span_app is_ws r) as SA. pose proof (span_all is_ws r) as SL. pose proof (span_stop is_ws r) as ST.
  pose proof (reads_star cs_space is_ws r l has_space) as W. fold spaces in W.
  pose proof (reads_plus cs_space is_ws r l has_space) as P. fold spaces in P.
  pose proof (fun t p => run_plus_ws t p r l) as RP.
  destruct (span is_ws r) as [ws r1] eqn:E. cbn [fst snd] in *. specialize (SA _ _ eq_refl). specialize (SL _ _ eq_refl).
  specialize (ST _ _ eq_refl).
  assert (refuses (RCat (chr_ ",") spaces) (starts is_ws)) as RC by (apply refuses_cat, refuses_chr; reflexivity).
  assert (forall t p, ws <> [] \/ ~ starts (fun c => aeqb c "-") r -> run (RLook (chr_ "-")) (at_ t p r l) = []) as LK.
  { intros t p N. cbn. destruct ws as [|w ws].
    - destruct N as [N | N]; [now destruct N|]. destruct r as [|c r]; [reflexivity|].
      cbn in N. destruct (aeqb c "-"); [now destruct N | reflexivity].
    - subst r. cbn [app]. apply andb_prop in SL as [SL _]. destruct (aeqb w "-") eqn:A; [|reflexivity].
      apply Ascii.eqb_eq in A. subst w. discriminate. }
  destruct r1 as [|c r2].
  - (* nothing behind the white space *)
    assert (reads re_comma r l (match ws with [] => None | _ => Some ([], l) end) (starts is_ws)) as RD.
    { unfold re_comma. eapply reads_alt_r.
      - eapply reads_cat; [exact W | exact RC |]. eapply reads_cat_none, (reads_set _ _ [] l (fun _ => False) (has_char ",")).
      - destruct ws as [|w ws].
        + eapply reads_alt_r; [exact P|]. apply reads_none. intros. apply LK. right. subst r. tauto.
        + eapply reads_alt_l; [exact P | trivial |]. intros t p X. rewrite LK; [constructor | now left]. }
    destruct ws as [|w ws].
    + eapply reads_cat_none, RD.
    + eapply reads_cat; [exact RD | | exact (FL [])].
      eapply refuses_weaken; [exact RB|]. apply (included is_ws comma_bad eq_refl).
  - destruct (aeqb c ",") eqn:C.
    + (* a comma *)
      eapply reads_cat; [| exact RB | apply FL].
      unfold re_comma. eapply reads_alt_l.
      * eapply reads_cat; [exact W | exact RC |]. eapply reads_cat; [| |].
        -- pose proof (reads_set _ _ (c :: r2) l (fun _ => False) (has_char ",")) as S. cbv beta iota in S. rewrite C in S. exact S.
        -- intros y [].
        -- rewrite drop_ws_span. apply (reads_star cs_space is_ws r2 l has_space).
      * apply (included is_ws comma_bad eq_refl).
      * intros t p X. cbn [run]. apply Forall_app. split.
        -- eapply Forall_impl; [|apply (RP t p X)]. intros y [Y | Y].
           ++ rewrite Y. cbn. unfold comma_bad. rewrite C. now rewrite orb_true_r.
           ++ revert Y. apply (included is_ws comma_bad eq_refl).
        -- pose proof (LK t p) as L. cbn [run] in L. rewrite L; [constructor|].
           destruct ws; [|now left]. right. subst r. cbn. apply Ascii.eqb_eq in C. subst c. discriminate.
    + assert (reads (RCat spaces (RCat (chr_ ",") spaces)) r l None (fun _ => False)) as N1.
      { eapply reads_cat; [exact W | exact RC |]. eapply reads_cat_none.
        pose proof (reads_set _ _ (c :: r2) l (fun _ => False) (has_char ",")) as S. cbv beta iota in S. rewrite C in S. exact S. }
      destruct ws as [|w ws].
      * cbn [app] in SA. subst r. cbn in ST. destruct (is_ws c); [now destruct ST|].
        destruct (aeqb c "-") eqn:M.
        -- eapply reads_cat; [|intros y B; apply (RB y); exact B | apply FL].
           unfold re_comma. eapply reads_alt_r; [exact N1|]. eapply reads_alt_r; [exact P|].
           split; [apply suffix_refl|]. intros t p X. cbn. rewrite M. cbn. apply like_one.
        -- eapply reads_cat_none. unfold re_comma. eapply reads_alt_r; [exact N1|]. eapply reads_alt_r; [exact P|].
           apply reads_none. intros. apply LK. right. cbn. now rewrite M.
      * assert (match r with w0 :: _ => is_ws w0 | [] => false end = true) as ->.
        { subst r. cbn. now apply andb_prop in SL as [-> _]. }
        eapply reads_cat; [| exact RB | apply FL].
        unfold re_comma. eapply reads_alt_r; [exact N1|]. eapply reads_alt_l; [exact P | |].
        -- apply (included is_ws comma_bad eq_refl).
        -- intros t p X. rewrite LK; [constructor | left; discriminate].
  Unshelve. all: exact (fun _ => False).
Qed.
Definition scan_pair (s : text) : option ((text * text) * text) :=
  match match_float s with
  | None => None
  | Some (_, r) => match match_comma r with
                   | None => None
                   | Some r1 => option_map (fun fr => ((grab s r, grab r1 (snd fr)), snd fr)) (match_float r1)
                   end
  end.
Lemma finds_pair : finds (the REGEX_COORD_PAIR) scan_pair (fun g x => group0 1 g = fst x /\ group0 2 g = snd x).
Proof.
  intros p s. rewrite pair_compiled.
  pose proof (reads_group 1 _ _ _ _ _ (reads_float s [])) as F. unfold scan_pair.
  destruct (match_float s) as [[f r]|]; cbn [option_map fst snd] in F.
  - assert (reads (RCat (RGroup 1 re_float) (RCat re_comma (RGroup 2 re_float))) s []
      (match match_comma r with
       | None => None
       | Some r1 => option_map (fun fr => (snd fr, (2, grab r1 (snd fr)) :: [(1, grab s r)])) (match_float r1)
       end) (fun _ => True)) as R.
    { eapply reads_cat; [exact F | | apply reads_comma_float]. apply refuses_cat, comma_refuses_cont. }
    apply (reads_match_at _ _ _ _ p) in R. destruct (match_comma r) as [r1|]; [|exact R].
    destruct (match_float r1) as [[f1 r2]|]; cbn [option_map fst snd] in *; [|exact R].
    eexists. split; [exact R|]. split; reflexivity.
  - apply (reads_match_at _ _ None (starts cont) p). eapply reads_cat_none, F.
Qed.
Theorem point_by_pattern_find : forall s, point_by_pattern s = point_of_text s.
Proof.
  intros s. unfold point_by_pattern, point_of_text. pose proof (findall_scan _ _ _ finds_pair s 0 0) as F.
  assert (forall s, match find_pair s with
    | Some (a, b) => exists t u tl, scan scan_pair 0 s = (t, u) :: tl /\ py_float t = Ok a /\ py_float u = Ok b
    | None => scan scan_pair 0 s = [] end) as H.
  { clear. induction s as [|c s IH]; [reflexivity|]. cbn [find_pair scan].
    remember (scan_pair (c :: s)) as sp eqn:SP. unfold scan_pair in SP. unfold match_pair.
    destruct (match_float (c :: s)) as [[f r]|] eqn:M; [|subst sp; exact IH].
    destruct (match_comma r) as [r1|]; [|subst sp; exact IH].
    destruct (match_float r1) as [[f1 r2]|] eqn:M1; cbn [option_map fst snd] in SP; subst sp; [|exact IH].
    eexists. eexists. eexists. split; [reflexivity|]. split; eapply float_of_grab; eassumption. }
  specialize (H s). destruct (find_pair s) as [[a b]|].
  - destruct H as (t & u & tl & E & P1 & P2). rewrite E in F. inversion F as [|g x l l' (G1 & G2) F' EG EX]; subst.
    rewrite G1, G2. cbn. now rewrite P1, P2.
  - rewrite H in F. now inversion F.
Qed.

(** * Transforms *)
Lemma like_true : forall l o, hd_error l = o -> like l o (fun _ => True).
Proof.
  intros [|x l] o <-; cbn; [reflexivity|]. exists l. split; [reflexivity|]. apply Forall_forall. now right.
Qed.
Lemma after_true : forall b bad, after_bad b bad (fun _ => True).
Proof. intros b bad y _. now apply Forall_forall. Qed.
(** The first of the words behind which [g] goes on. *)
Fixpoint first_word {A} (k : nat) (ws : list text) (r : text) (l : list (nat * text))
  (g : text -> list (nat * text) -> option A) : option A :=
  match ws with
  | [] => None
  | w :: ws' => match strip w r with
                | Some r1 => match g r1 ((k, w) :: l) with Some x => Some x | None => first_word k ws' r l g end
                | None => first_word k ws' r l g
                end
  end.
Lemma reads_alts_cat : forall k ws b g r l,
  (forall r1 l1, reads b r1 l1 (g r1 l1) (fun _ => True)) ->
  reads (RCat (RGroup k (alts ws)) b) r l (first_word k ws r l g) (fun _ => True).
Proof.
  intros k ws b g r l G. split.
  - induction ws as [|w ws IH]; [exact I|]. cbn. destruct (strip w r) as [r1|] eqn:E; [|exact IH].
    destruct (G r1 ((k, w) :: l)) as (S & _). destruct (g r1 ((k, w) :: l)) as [[r2 l2]|]; [|exact IH].
    eapply suffix_trans; [exact S | now apply (strip_suffix w)].
  - intros t p X. apply like_true. cbn [run]. rewrite (run_alts ws t p r l X).
    induction ws as [|w ws IH]; [reflexivity|]. cbn [map]. rewrite somes_cons. cbn [first_word].
    destruct (strip w r) as [r1|] eqn:E; [|exact IH]. cbn [map app flat_map].
    pose proof (strip_suffix _ _ _ E) as S1. pose proof (at_cap t p r l k r1 l X S1) as AC. unfold cap in AC.
    rewrite AC. assert (grab r r1 = w) as GW by (apply strip_app in E; rewrite E; apply grab_app). rewrite GW.
    destruct (G r1 ((k, w) :: l)) as (_ & H). specialize (H t p (suffix_trans _ _ _ S1 X)).
    destruct (g r1 ((k, w) :: l)) as [[r2 l2]|]; cbn [option_map fst snd] in H.
    + destruct H as (tl & -> & _). reflexivity.
    + cbn [like] in H. rewrite H. exact IH.
Qed.
Definition cs_wsp := mkSet false [ISpace; IChar "009"; IChar "010"]%char.
Definition cs_arg := mkSet true [IChar ")"]%char.
Lemma has_wsp : forall c, set_has cs_wsp c = is_ws c. Proof. now apply all_chars. Qed.
Lemma has_arg : forall c, set_has cs_arg c = not_close c. Proof. now apply all_chars. Qed.
Definition re_args := RCat (RStar (RSet cs_wsp)) (RCat (chr_ "(") (RCat (RGroup 2 (RCat (RSet cs_arg) (RStar (RSet cs_arg)))) (chr_ ")"))).
Lemma template_compiled : the REGEX_TRANSFORM_TEMPLATE = RCat REmpty (RCat (RGroup 1 (alts t_names)) re_args).
Proof. reflexivity. Qed.
Definition read_args (r : text) (l : list (nat * text)) : option (text * list (nat * text)) :=
  match drop_ws r with
  | c :: r1 =>
      if aeqb c "(" then
        match span not_close r1 with
        | ([], _) => None
        | (args, _ :: rest) => Some (rest, (2, args) :: l)
        | (_, []) => None
        end
      else None
  | [] => None
  end.
Lemma reads_args : forall r l, reads re_args r l (read_args r l) (fun _ => True).
Proof.
  intros r l. unfold re_args, read_args.
  eapply reads_cat; [apply (reads_star cs_wsp is_ws r l has_wsp) | |].
  { apply refuses_cat, refuses_chr. reflexivity. }
  rewrite <- drop_ws_span. pose proof (reads_set _ _ (drop_ws r) l (fun _ => False) (has_char "(")) as S. cbv beta in S.
  destruct (drop_ws r) as [|c r1]; [eapply reads_cat_none; exact S|].
  destruct (aeqb c "("); [|eapply reads_cat_none; exact S].
  eapply reads_cat; [exact S | intros y [] |].
  pose proof (reads_group 2 _ _ _ _ _ (reads_plus cs_arg not_close r1 l has_arg)) as P.
  pose proof (span_app not_close r1) as SA. pose proof (span_stop not_close r1) as ST.
  destruct (span not_close r1) as [args r2]. cbn [fst snd] in P. specialize (SA _ _ eq_refl). specialize (ST _ _ eq_refl).
  destruct args as [|a args]; [eapply reads_cat_none; exact P|]. cbn [option_map fst snd] in P.
  eapply reads_cat; [exact P | apply refuses_chr; reflexivity |].
  rewrite SA, grab_app. pose proof (reads_set _ _ r2 ((2, a :: args) :: l) (fun _ => True) (has_char ")")) as C. cbv beta in C.
  destruct r2 as [|d r2]; [exact C|]. cbn in ST. unfold not_close in ST. destruct (aeqb d ")"); [exact C|]. now destruct ST.
Qed.
Lemma strip_after : forall w s, strip w s = after w s.
Proof. induction w as [|c w IH]; intros s; [reflexivity|]. cbn. destruct s as [|d s]; [reflexivity|]. now destruct (aeqb c d). Qed.
Lemma first_word_names : forall ws s, first_word 1 ws s [] read_args =
  option_map (fun x => (snd x, [(2, snd (fst x)); (1, fst (fst x))])) (match_names ws s).
Proof.
  induction ws as [|w ws IH]; intros s; [reflexivity|]. cbn [first_word match_names]. unfold match_name.
  rewrite strip_after. destruct (after w s) as [r|]; [|apply IH]. unfold read_args.
  destruct (drop_ws r) as [|c r1]; [apply IH|]. destruct (aeqb c "("); [|apply IH].
  destruct (span not_close r1) as [[|a args] [|d rest]]; cbn; try apply IH. reflexivity.
Qed.
Lemma finds_template : finds (the REGEX_TRANSFORM_TEMPLATE) (match_names t_names)
  (fun g x => (group0 1 g, group0 2 g) = x).
Proof.
  intros p s. rewrite template_compiled.
  pose proof (reads_alts_cat 1 t_names re_args read_args s [] reads_args) as R.
  assert (reads (RCat REmpty (RCat (RGroup 1 (alts t_names)) re_args)) s [] (first_word 1 t_names s [] read_args) (fun _ => True)) as R'.
  { eapply reads_cat; [apply (reads_empty s [] (fun _ => False)) | intros y [] | exact R]. }
  clear R. apply (reads_match_at _ _ _ _ p) in R'. rewrite first_word_names in R'.
  destruct (match_names t_names s) as [[[nm args] rest]|]; cbn [option_map fst snd] in R'; [|exact R'].
  eexists. split; [exact R' | reflexivity].
Qed.
Theorem funcs_by_pattern_find : forall s, funcs_by_pattern s = find_funcs 0 s.
Proof.
  intros s. unfold funcs_by_pattern. pose proof (findall_scan _ _ _ finds_template s 0 0) as F.
  assert (map (fun m => (group0 1 m, group0 2 m)) (findall (the REGEX_TRANSFORM_TEMPLATE) 0 0 s) = scan (match_names t_names) 0 s) as ->.
  { induction F as [|g x l l' G F IH]; [reflexivity|]. cbn [map]. now rewrite G, IH. }
  clear F. generalize 0 as k. induction s as [|c s IH]; intros k; [reflexivity|]. cbn [scan find_funcs].
  destruct k as [|k]; [|apply IH]. destruct (match_names t_names (c :: s)) as [[[nm args] rest]|]; [|apply IH].
  now rewrite IH.
Qed.
Lemma parameter_compiled : the REGEX_TRANSFORM_PARAMETER =
  RCat (RGroup 1 re_float) (RCat (RStar (RSet cs_wsp)) (opt (RGroup 2 (alts t_units)))).
Proof. reflexivity. Qed.
Lemma reads_unit : forall r l, reads (opt (RGroup 2 (alts t_units))) r l
  (Some (snd (match_unit t_units r), match fst (match_unit t_units r) with [] => l | u => (2, u) :: l end)) (fun _ => True).
Proof.
  intros r l.
  assert (forall us, (forall u, In u us -> u <> []) -> suffix (snd (match_unit us r)) r /\
    forall t p, suffix r t -> hd_error (run (opt (RGroup 2 (alts us))) (at_ t p r l)) =
      Some (at_ t p (snd (match_unit us r)) (match fst (match_unit us r) with [] => l | u => (2, u) :: l end))) as H.
  { induction us as [|u us IH]; intros N.
    - split; [apply suffix_refl|]. intros t p X. destruct r; reflexivity.
    - destruct IH as (S & IH); [intros v V; apply N; now right|]. cbn [match_unit].
      destruct (after u r) as [r1|] eqn:E.
      + rewrite <- strip_after in E. pose proof (strip_suffix _ _ _ E) as S1. split; [exact S1|]. intros t p X.
        unfold opt. cbn [run]. rewrite (run_alts (u :: us) t p r l X). cbn [map]. rewrite somes_cons, E. cbn [map app hd_error].
        pose proof (at_cap t p r l 2 r1 l X S1) as AC. unfold cap in AC. rewrite AC.
        apply strip_app in E. assert (grab r r1 = u) as -> by (rewrite E; apply grab_app). cbn [fst snd].
        specialize (N u (or_introl eq_refl)). now destruct u.
      + split; [exact S|]. intros t p X. rewrite <- strip_after in E. specialize (IH t p X). revert IH. unfold opt. cbn [run].
        rewrite !run_alts by exact X. cbn [map]. rewrite somes_cons, E. cbn [app]. trivial. }
  destruct (H t_units) as (S & H').
  { intros u U. cbn in U. now repeat destruct U as [<- | U]. }
  split; [exact S|]. intros t p X. apply like_true. now apply H'.
Qed.
Definition scan_param (s : text) : option ((text * text) * text) :=
  match match_float s with
  | None => None
  | Some (_, r) => let '(u, r') := match_unit t_units (drop_ws r) in Some ((grab s r, u), r')
  end.
Lemma finds_parameter : finds (the REGEX_TRANSFORM_PARAMETER) scan_param (fun g x => group0 1 g = fst x /\ group0 2 g = snd x).
Proof.
  intros p s. rewrite parameter_compiled. unfold scan_param.
  pose proof (reads_group 1 _ _ _ _ _ (reads_float s [])) as F.
  destruct (match_float s) as [[f r]|]; cbn [option_map fst snd] in F.
  - pose proof (reads_star cs_wsp is_ws r [(1, grab s r)] has_wsp) as W. rewrite <- drop_ws_span in W.
    pose proof (reads_unit (drop_ws r) [(1, grab s r)]) as U.
    pose proof (reads_cat_all _ _ _ _ _ _ _ _ _ _ W (after_true _ _) U) as WU.
    pose proof (reads_cat_all _ _ _ _ _ _ _ _ _ _ F (after_true _ _) WU) as R.
    apply (reads_match_at _ _ _ _ p) in R. destruct (match_unit t_units (drop_ws r)) as [u r'].
    cbn [option_map fst snd] in R. eexists. split; [exact R|]. cbn [fst snd]. destruct u; split; reflexivity.
  - apply (reads_match_at _ _ None (starts cont) p). eapply reads_cat_none, F.
Qed.
Theorem params_by_pattern_find : forall s, params_by_pattern s = find_params 0 s.
Proof.
  intros s. unfold params_by_pattern. pose proof (findall_scan _ _ _ finds_parameter s 0 0) as F.
  assert (map (fun m => group0 1 m ++ group0 2 m) (findall (the REGEX_TRANSFORM_PARAMETER) 0 0 s) =
          map (fun x => fst x ++ snd x) (scan scan_param 0 s)) as ->.
  { induction F as [|g x l l' (G1 & G2) F IH]; [reflexivity|]. cbn [map]. now rewrite G1, G2, IH. }
  clear F. generalize 0 as k. induction s as [|c s IH]; intros k; [reflexivity|]. cbn [scan find_params].
  destruct k as [|k]; [|apply IH]. remember (scan_param (c :: s)) as sp eqn:SP. unfold scan_param in SP.
  unfold match_param. destruct (match_float (c :: s)) as [[f r]|]; [|subst sp; apply IH].
  destruct (match_unit t_units (drop_ws r)) as [u r']. subst sp. cbn [map fst snd]. now rewrite IH.
Qed.
