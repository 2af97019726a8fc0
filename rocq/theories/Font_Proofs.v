(** The font pattern on a text of the shorthand. *)
Require Import ZArith QArith Arith Ascii String List Bool Lia.
Require Import Verif.Text_Spec Verif.Text_Proofs Verif.FmtG_Proofs.
Require Import Verif.Base Verif.Length_Model Verif.Regex_Model Verif.Regex_Proofs Verif.RegexRead_Proofs Verif.RegexUse_Proofs Verif.Font_Spec Verif.Font_Model.
Import ListNotations.
Local Open Scope nat_scope.
Notation Any := (fun _ : text => True).

Definition style_alts := map T ["normal"; "italic"; "oblique"]%string.
Definition variant_alts := map T ["normal"; "small-caps"]%string.
Definition weight_alts := map T ["normal"; "bold"; "bolder"; "lighter"]%string.
Definition stretch_alts := map T ["normal"; "ultra-condensed"; "extra-condensed"; "condensed"; "semi-condensed"; "semi-expanded"; "expanded"; "extra-expanded"; "ultra-expanded"]%string.
Definition size_alts := map T ["xx-small"; "x-small"; "small"; "medium"; "large"; "x-large"; "xx-large"; "larger"; "smaller"]%string.
Definition generic_alts := map T ["serif"; "sans-serif"; "cursive"; "fantasy"; "monospace"]%string.
Definition unit_alts := map T ["em"; "pt"; "pc"; "px"; "%"]%string.
Definition re_d := RSet (mkSet false [IDigit]).
Definition re_s := RSet (mkSet false [ISpace]).
(** Words and, behind them, something else. *)
Fixpoint words_or (ws : list text) (a : re) : re := match ws with [] => a | w :: ws' => RAlt (word w) (words_or ws' a) end.
Definition re_three := RCat re_d (RCat re_d re_d).
Definition re_digits_unit := RCat (RCat re_d (RStar re_d)) (alts unit_alts).
Definition re_size := words_or size_alts re_digits_unit.
Definition re_key :=
  RAlt (RCat (RGroup 1 (alts style_alts)) re_s)
  (RAlt (RCat (RGroup 2 (alts variant_alts)) re_s)
  (RAlt (RCat (RGroup 3 (words_or weight_alts re_three)) re_s)
  (RCat (RGroup 4 (alts stretch_alts)) re_s))).
Definition re_tail := RCat (opt (chr_ ",")) (RCat (RCat re_s (RStar re_s)) (RCat (RGroup 8 (alts generic_alts)) (opt (chr_ ";")))).
Definition re_font :=
  RCat (RStar re_key) (RCat (RStar re_s) (RCat (RGroup 5 re_size)
  (RCat (opt (RCat (chr_ "/") (RGroup 6 re_size))) (RCat (RStar re_s) (RCat (RGroup 7 (RStar (RSet dot))) re_tail))))).
Lemma font_compiled : the REGEX_CSS_FONT = re_font.
Proof. vm_compute. reflexivity. Qed.

(** * Rules for the first way to match *)
Lemma any_weaken : forall a r l o bad, reads a r l o bad -> reads a r l o Any.
Proof. intros. eapply reads_weaken; [eassumption|]. auto. Qed.
Lemma reads_hd : forall a r l o, match o with Some (r', _) => suffix r' r | None => True end ->
  (forall t p, suffix r t -> hd_error (run a (at_ t p r l)) = option_map (fun x => at_ t p (fst x) (snd x)) o) -> reads a r l o Any.
Proof. intros a r l o S H. split; [exact S|]. intros t p X. apply like_true. now apply H. Qed.
Lemma hd_reads : forall a r l o bad t p, reads a r l o bad -> suffix r t ->
  hd_error (run a (at_ t p r l)) = option_map (fun x => at_ t p (fst x) (snd x)) o.
Proof. intros a r l o bad t p (_ & H) X. eapply like_hd. now apply H. Qed.
Lemma none_reads : forall a r l bad t p, reads a r l None bad -> suffix r t -> run a (at_ t p r l) = [].
Proof. intros a r l bad t p (_ & H) X. exact (H t p X). Qed.
Lemma goes_cat : forall a b r l r1 l1 x bad bad', reads a r l (Some (r1, l1)) bad -> reads b r1 l1 (Some x) bad' -> reads (RCat a b) r l (Some x) Any.
Proof.
  intros a b r l r1 l1 [r2 l2] bad bad' A B. apply reads_hd.
  - eapply suffix_trans; [apply B | apply A].
  - intros t p X. pose proof (hd_reads _ _ _ _ _ t p A X) as HA. cbn [run].
    destruct (run a (at_ t p r l)) as [|y tl]; [discriminate|]. cbn in HA. injection HA as ->. cbn [flat_map].
    assert (suffix r1 t) as X1 by (eapply suffix_trans; [apply A | exact X]).
    pose proof (hd_reads _ _ _ _ _ t p B X1) as HB. cbn [option_map fst snd] in *.
    destruct (run b (at_ t p r1 l1)); [discriminate | exact HB].
Qed.
Lemma alt_any : forall a b r l o o', reads a r l o Any -> reads b r l o' Any ->
  reads (RAlt a b) r l (match o with Some x => Some x | None => o' end) Any.
Proof.
  intros a b r l o o' A B. destruct o as [[r1 l1]|].
  - apply reads_hd; [apply A|]. intros t p X. pose proof (hd_reads _ _ _ _ _ t p A X) as HA. cbn [run].
    destruct (run a (at_ t p r l)); [discriminate | exact HA].
  - now apply (reads_alt_r _ _ _ _ Any).
Qed.
Lemma group_alt_cat : forall k a b c s, run (RCat (RGroup k (RAlt a b)) c) s = run (RAlt (RCat (RGroup k a) c) (RCat (RGroup k b) c)) s.
Proof. intros. cbn [run]. now rewrite map_app, flat_map_app. Qed.
Lemma reads_words_or : forall k ws a b g r l o, (forall r1 l1, reads b r1 l1 (g r1 l1) Any) ->
  reads (RCat (RGroup k a) b) r l o Any ->
  reads (RCat (RGroup k (words_or ws a)) b) r l (match first_word k ws r l g with Some x => Some x | None => o end) Any.
Proof.
  intros k ws a b g r l o G A. induction ws as [|w ws IH]; [exact A|]. cbn [words_or].
  eapply reads_eq; [apply group_alt_cat|].
  pose proof (alt_any _ _ _ _ _ _ (reads_alts_cat k [w] b g r l G) IH) as H. cbn [alts first_word] in *.
  destruct (strip w r) as [r1|]; [|exact H]. now destruct (g r1 ((k, w) :: l)).
Qed.
Fixpoint first_strip (ws : list text) (r : text) : option text :=
  match ws with [] => None | w :: ws' => match strip w r with Some r1 => Some r1 | None => first_strip ws' r end end.
Lemma word_any : forall w r l, reads (word w) r l (option_map (fun r' => (r', l)) (strip w r)) Any.
Proof. intros. apply reads_word. Qed.
Lemma words_or_any : forall ws a r l o, reads a r l o Any ->
  reads (words_or ws a) r l (match first_strip ws r with Some r1 => Some (r1, l) | None => o end) Any.
Proof.
  intros ws a r l o A. induction ws as [|w ws IH]; [exact A|]. cbn [words_or first_strip].
  pose proof (alt_any _ _ _ _ _ _ (word_any w r l) IH) as H. destruct (strip w r); exact H.
Qed.
Lemma alts_any : forall ws r l, reads (alts ws) r l (option_map (fun r' => (r', l)) (first_strip ws r)) Any.
Proof.
  induction ws as [|w ws IH]; intros r l.
  - apply reads_none. intros t p X. unfold at_. cbn. now destruct r.
  - destruct ws as [|w' ws].
    + cbn [alts first_strip]. pose proof (word_any w r l) as H. now destruct (strip w r).
    + change (alts (w :: w' :: ws)) with (RAlt (word w) (alts (w' :: ws))). cbn [first_strip].
      pose proof (alt_any _ _ _ _ _ _ (word_any w r l) (IH r l)) as H. cbn [first_strip] in H. now destruct (strip w r).
Qed.

(** * Repetition *)
Section Loop.
Variable f : st -> list st.
Fixpoint loop (n : nat) (s : st) : list st :=
  match n with
  | O => [s]
  | S n' => flat_map (fun s' => if pos s' =? pos s then [] else loop n' s') (f s) ++ [s]
  end.
Definition sane (s s' : st) : Prop := pos s <= pos s' /\ pos s' + List.length (rest s') = pos s + List.length (rest s).
Hypothesis f_sane : forall s s', In s' (f s) -> sane s s'.
Lemma loop_sane : forall n s s', In s' (loop n s) -> sane s s'.
Proof.
  unfold sane. induction n as [|n IH]; intros s s' H; cbn in H.
  - destruct H as [<-|[]]. split; lia.
  - apply in_app_or in H as [H|[<-|[]]]; [|split; lia]. apply in_flat_map in H as (y & Y & H).
    destruct (pos y =? pos s); [destruct H|]. apply IH in H. apply f_sane in Y. unfold sane in Y. lia.
Qed.
Lemma loop_fuel : forall n m s, List.length (rest s) <= n -> List.length (rest s) <= m -> loop n s = loop m s.
Proof.
  assert (forall s, rest s = [] -> flat_map (fun s' => if pos s' =? pos s then [] else loop 0 s') (f s) = []) as E.
  { intros s R. apply flat_map_nil, Forall_forall. intros y Y. apply f_sane in Y. unfold sane in Y. rewrite R in Y. cbn in Y.
    replace (pos y =? pos s) with true; [reflexivity|]. symmetry. apply Nat.eqb_eq. lia. }
  assert (forall n s, rest s = [] -> loop n s = [s]) as Z.
  { intros [|n] s R; [reflexivity|]. cbn. rewrite flat_map_nil; [reflexivity|]. apply Forall_forall. intros y Y.
    apply f_sane in Y. unfold sane in Y. rewrite R in Y. cbn in Y.
    replace (pos y =? pos s) with true; [reflexivity|]. symmetry. apply Nat.eqb_eq. lia. }
  induction n as [|n IH]; intros m s N M.
  - assert (rest s = []) as R by (destruct (rest s); [reflexivity | cbn in N; lia]). rewrite !Z by exact R. reflexivity.
  - destruct m as [|m].
    + assert (rest s = []) as R by (destruct (rest s); [reflexivity | cbn in M; lia]). rewrite !Z by exact R. reflexivity.
    + cbn. f_equal.
      assert (forall L, (forall y, In y L -> sane s y) ->
        flat_map (fun s' => if pos s' =? pos s then [] else loop n s') L = flat_map (fun s' => if pos s' =? pos s then [] else loop m s') L) as K.
      { induction L as [|y L IL]; intros HL; [reflexivity|]. cbn. rewrite IL by (intros; apply HL; now right). f_equal.
        destruct (pos y =? pos s) eqn:P; [reflexivity|]. apply Nat.eqb_neq in P.
        specialize (HL y (or_introl eq_refl)). unfold sane in HL. apply IH; lia. }
      apply K. apply f_sane.
Qed.
End Loop.
Lemma run_star : forall a s, run (RStar a) s = loop (run a) (List.length (rest s)) s.
Proof. reflexivity. Qed.
Lemma run_sane : forall r s s', In s' (run r s) -> sane s s'.
Proof.
  induction r; intros s0 s' H.
  - destruct H as [<-|[]]. unfold sane. lia.
  - cbn in H. destruct (rest s0) as [|c t] eqn:R; [destruct H|]. destruct (set_has s c); [|destruct H].
    destruct H as [<-|[]]. unfold sane, adv. rewrite R. cbn. lia.
  - cbn in H. apply in_flat_map in H as (y & Y & H). apply IHr1 in Y. apply IHr2 in H. unfold sane in *. lia.
  - cbn in H. apply in_app_or in H as [H|H]; auto.
  - rewrite run_star in H. apply (loop_sane (run r)) in H; assumption.
  - cbn in H. apply in_map_iff in H as (y & <- & Y). apply IHr in Y. unfold sane in *. cbn. exact Y.
  - cbn in H. destruct (run r s0) as [|y t]; [destruct H|]. destruct H as [<-|[]]. unfold sane. cbn. lia.
  - cbn in H. destruct (pos s0 =? 0); [|destruct H]. destruct H as [<-|[]]. unfold sane. lia.
  - cbn in H. destruct (rest s0) as [|c [|d t]]; try (destruct H; fail).
    + destruct H as [<-|[]]. unfold sane. lia.
    + destruct (aeqb c "010"); [|destruct H]. destruct H as [<-|[]]. unfold sane. lia.
Qed.
Lemma star_done : forall a r l bad, reads a r l None bad -> reads (RStar a) r l (Some (r, l)) Any.
Proof.
  intros a r l bad A. apply reads_hd; [apply suffix_refl|]. intros t p X. rewrite run_star.
  destruct (List.length (rest (at_ t p r l))) as [|n]; [reflexivity|]. cbn [loop].
  now rewrite (none_reads _ _ _ _ t p A X).
Qed.
Lemma star_step : forall a r l r1 l1 x bad, reads a r l (Some (r1, l1)) bad -> List.length r1 < List.length r ->
  reads (RStar a) r1 l1 (Some x) Any -> reads (RStar a) r l (Some x) Any.
Proof.
  intros a r l r1 l1 [r2 l2] bad A L B. apply reads_hd.
  - eapply suffix_trans; [apply B | apply A].
  - intros t p X. assert (suffix r1 t) as X1 by (eapply suffix_trans; [apply A | exact X]).
    pose proof (hd_reads _ _ _ _ _ t p A X) as HA. pose proof (hd_reads _ _ _ _ _ t p B X1) as HB.
    rewrite run_star in *. cbn [rest at_] in *. destruct (List.length r) as [|n] eqn:N; [lia|]. cbn [loop].
    destruct (run a (at_ t p r l)) as [|y tl]; [discriminate|]. cbn in HA. injection HA as ->. cbn [flat_map].
    assert (pos (at_ t p r1 l1) =? pos (at_ t p r l) = false) as ->.
    { apply Nat.eqb_neq. cbn. apply suffix_len in X, X1. lia. }
    rewrite (loop_fuel (run a) (run_sane a) n (List.length r1)) by (cbn; lia).
    destruct (loop (run a) (List.length r1) (at_ t p r1 l1)); [discriminate | exact HB].
Qed.

(** * Keywords *)
Lemma has_s : forall c, set_has (mkSet false [ISpace]) c = is_ws c. Proof. now apply all_chars. Qed.
Lemma has_d : forall c, set_has (mkSet false [IDigit]) c = is_digit c. Proof. now apply all_chars. Qed.
Definition one (q : ascii -> bool) (r : text) (l : list (nat * text)) : option (text * list (nat * text)) :=
  match r with c :: r' => if q c then Some (r', l) else None | [] => None end.
Lemma s_any : forall r l, reads re_s r l (one is_ws r l) Any.
Proof. intros. apply reads_set, has_s. Qed.
Lemma d_any : forall r l, reads re_d r l (one is_digit r l) Any.
Proof. intros. apply reads_set, has_d. Qed.
Definition key_group (k : key) : nat :=
  match k with KNormal | KStyle _ => 1 | KVariant _ => 2 | KWeight _ | KNumber _ _ _ => 3 | KStretch _ => 4 end.
(** What the third alternative reads. *)
Definition three (r : text) (l : list (nat * text)) : option (text * list (nat * text)) :=
  match r with
  | a :: b :: c :: d :: r' => if is_digit a && is_digit b && is_digit c && is_ws d then Some (r', (3, [a; b; c]) :: l) else None
  | _ => None
  end.
Lemma set_cat : forall cs q b g r l bad, (forall c, set_has cs c = q c) -> (forall r1, reads b r1 l (g r1) bad) ->
  reads (RCat (RSet cs) b) r l (match r with c :: r' => if q c then g r' else None | [] => None end) bad.
Proof.
  intros cs q b g r l bad E G. pose proof (reads_set cs q r l (fun _ => False) E) as S.
  destruct r as [|c r]; [eapply reads_cat_none; exact S|]. cbv beta iota in S. destruct (q c).
  - eapply reads_cat; [exact S | intros y [] | apply G].
  - eapply reads_cat_none; exact S.
Qed.
Lemma det_cat : forall a b r l o g bad, reads a r l o (fun _ => False) -> (forall r1 l1, reads b r1 l1 (g r1 l1) bad) ->
  reads (RCat a b) r l (match o with Some (r1, l1) => g r1 l1 | None => None end) bad.
Proof.
  intros a b r l [[r1 l1]|] g bad A B.
  - eapply reads_cat; [exact A | intros y [] | apply B].
  - eapply reads_cat_none; exact A.
Qed.
Lemma three_any : forall r l, reads (RCat (RGroup 3 re_three) re_s) r l (three r l) Any.
Proof.
  intros r l.
  pose proof (set_cat _ _ (RCat re_d re_d) _ r l (fun _ => False) has_d
    (fun r1 => set_cat _ _ re_d _ r1 l (fun _ => False) has_d (fun r2 => reads_set _ _ r2 l (fun _ => False) has_d))) as H.
  apply (reads_group 3) in H. pose proof (det_cat _ _ _ _ _ _ _ H s_any) as R. clear H.
  match type of R with reads _ _ _ ?o _ => assert (o = three r l) as <-; [|exact R] end.
  unfold three. destruct r as [|a r]; [reflexivity|]. destruct (is_digit a); [|destruct r as [|b [|c [|d r]]]; reflexivity].
  destruct r as [|b r]; [reflexivity|]. destruct (is_digit b); [|destruct r as [|c [|d r]]; reflexivity].
  destruct r as [|c r]; [reflexivity|]. destruct (is_digit c); [|destruct r as [|d r]; reflexivity].
  cbn [option_map fst snd andb]. destruct r as [|d r]; [reflexivity|]. cbn [one]. destruct (is_ws d); [|reflexivity].
  now rewrite (grab_app [a; b; c] (d :: r) : grab (a :: b :: c :: d :: r) (d :: r) = [a; b; c]).
Qed.

(** A word that starts otherwise does not match. *)
Definition alpha_words (ws : list text) : bool := forallb (fun w => match w with c :: _ => is_alpha c | [] => false end) ws.
Lemma strip_alpha : forall w r, alpha_words [w] = true -> ~ starts is_alpha r -> strip w r = None.
Proof.
  intros [|c w] r A N; [discriminate|]. cbn in A. rewrite andb_true_r in A. destruct r as [|d r]; [reflexivity|]. cbn.
  destruct (aeqb c d) eqn:C; [|reflexivity]. apply Ascii.eqb_eq in C. subst. now destruct N.
Qed.
Lemma first_word_alpha : forall {A} k ws r l (g : text -> list (nat * text) -> option A), alpha_words ws = true -> ~ starts is_alpha r -> first_word k ws r l g = None.
Proof.
  intros A k ws r l g W N. induction ws as [|w ws IH]; [reflexivity|]. cbn in W. apply andb_prop in W as [W1 W2].
  cbn. rewrite (strip_alpha w r); [now apply IH | cbn; now rewrite W1 | exact N].
Qed.
Lemma first_strip_alpha : forall ws r, alpha_words ws = true -> ~ starts is_alpha r -> first_strip ws r = None.
Proof.
  intros ws r W N. induction ws as [|w ws IH]; [reflexivity|]. cbn in W. apply andb_prop in W as [W1 W2].
  cbn. rewrite (strip_alpha w r); [now apply IH | cbn; now rewrite W1 | exact N].
Qed.
Definition key_reads (r : text) (l : list (nat * text)) : option (text * list (nat * text)) :=
  match first_word 1 style_alts r l (one is_ws) with
  | Some x => Some x
  | None =>
  match first_word 2 variant_alts r l (one is_ws) with
  | Some x => Some x
  | None =>
  match (match first_word 3 weight_alts r l (one is_ws) with Some x => Some x | None => three r l end) with
  | Some x => Some x
  | None => first_word 4 stretch_alts r l (one is_ws)
  end end end.
Lemma key_any : forall r l, reads re_key r l (key_reads r l) Any.
Proof.
  intros r l. unfold re_key, key_reads.
  apply alt_any; [apply (reads_alts_cat 1 style_alts re_s), s_any|].
  apply alt_any; [apply (reads_alts_cat 2 variant_alts re_s), s_any|].
  apply alt_any; [|apply (reads_alts_cat 4 stretch_alts re_s), s_any].
  apply reads_words_or; [apply s_any | apply three_any].
Qed.
Lemma key_step : forall k c r l, key_ok k -> wsp c -> key_reads (key_text k ++ c :: r) l = Some (r, (key_group k, key_text k) :: l).
Proof.
  intros k c r l O W. apply wsp_is_ws in W. unfold key_reads.
  destruct k as [|w|w|w|a b d|w]; cbn [key_ok] in O.
  - cbn -[is_ws].
    now rewrite W.
  - repeat (destruct O as [<-|O]; [cbn -[is_ws]; try change (is_ws "e"%char) with false; cbn -[is_ws]; now rewrite W|]). destruct O.
  - repeat (destruct O as [<-|O]; [cbn -[is_ws]; try change (is_ws "e"%char) with false; cbn -[is_ws]; now rewrite W|]). destruct O.
  - repeat (destruct O as [<-|O]; [cbn -[is_ws]; try change (is_ws "e"%char) with false; cbn -[is_ws]; now rewrite W|]). destruct O.
  - destruct O as (A & B & D).
    assert (~ starts is_alpha (key_text (KNumber a b d) ++ c :: r)) as N.
    { cbn. dig_split A; discriminate. }
    unfold key_reads. rewrite !first_word_alpha by (reflexivity || exact N).
    cbn [key_text dtext map app three]. now rewrite !dchar_digit, W by assumption.
  - repeat (destruct O as [<-|O]; [cbn -[is_ws]; try change (is_ws "e"%char) with false; cbn -[is_ws]; now rewrite W|]). destruct O.
Qed.
Fixpoint key_caps (ks : list (key * ascii)) (l : list (nat * text)) : list (nat * text) :=
  match ks with [] => l | (k, _) :: ks' => key_caps ks' ((key_group k, key_text k) :: l) end.
Lemma keys_read : forall ks r l, Forall (fun k => key_ok (fst k) /\ wsp (snd k)) ks -> (forall l, key_reads r l = None) ->
  reads (RStar re_key) (flat_map (fun k => key_text (fst k) ++ [snd k]) ks ++ r) l (Some (r, key_caps ks l)) Any.
Proof.
  intros ks r l F N. revert l. induction F as [|[k c] ks (O & W) F IH]; intros l.
  - cbn. eapply star_done. rewrite <- (N l). apply key_any.
  - cbn [flat_map fst snd key_caps]. rewrite <- !app_assoc. cbn [app fst snd] in *.
    eapply star_step; [|  |apply IH].
    + pose proof (key_any (key_text k ++ c :: flat_map (fun k => key_text (fst k) ++ [snd k]) ks ++ r) l) as H.
      rewrite (key_step k c _ l O W) in H. exact H.
    + rewrite (app_length (key_text k)). cbn [List.length]. lia.
Qed.

(** * Sizes *)
Lemma unit_start : forall u z, In u size_units -> exists c r, u ++ z = c :: r /\ is_digit c = false /\ is_ws c = false /\ strip u (u ++ z) = Some z /\ first_strip unit_alts (u ++ z) = Some z.
Proof.
  intros u z I. repeat (destruct I as [<-|I]; [eexists; eexists; repeat split; reflexivity|]). destruct I.
Qed.
Lemma digit_not_alpha : forall d r, is_dig d -> ~ starts is_alpha (dchar d :: r).
Proof. intros d r D. cbn. dig_split D; discriminate. Qed.
Lemma size_any : forall s z l, size_ok s -> reads re_size (size_text s ++ z) l (Some (z, l)) Any.
Proof.
  intros [ds u] z l (F & N & U). cbn [fst snd] in *. unfold size_text, re_size. cbn [fst snd]. rewrite <- app_assoc.
  assert (~ starts is_alpha (dtext ds ++ u ++ z)) as NA.
  { destruct ds as [|d ds]; [congruence|]. inversion F. now apply digit_not_alpha. }
  destruct (unit_start u z U) as (c & r & E & ND & _ & _ & FS).
  assert (reads re_digits_unit (dtext ds ++ u ++ z) l (Some (z, l)) Any) as D.
  { unfold re_digits_unit. eapply goes_cat.
    - pose proof (reads_plus _ _ (dtext ds ++ u ++ z) l has_d) as P.
      rewrite (Text_Proofs.span_app is_digit (dtext ds) (u ++ z) (dtext_digits ds F)) in P by (rewrite E; exact ND).
      cbn [fst snd] in P. destruct ds as [|d ds]; [congruence|]. exact P.
    - pose proof (alts_any unit_alts (u ++ z) l) as A. rewrite FS in A. exact A. }
  pose proof (words_or_any size_alts _ _ _ _ D) as W. rewrite first_strip_alpha in W by (reflexivity || exact NA). exact W.
Qed.
Lemma size_group : forall k s z l, size_ok s -> reads (RGroup k re_size) (size_text s ++ z) l (Some (z, (k, size_text s) :: l)) Any.
Proof.
  intros k s z l O. pose proof (reads_group k _ _ _ _ _ (size_any s z l O)) as G. cbn [option_map fst snd] in G. now rewrite grab_app in G.
Qed.
(** No keyword where the size is. *)
Lemma key_stop : forall w s z l, Forall wsp w -> size_ok s -> key_reads (w ++ size_text s ++ z) l = None.
Proof.
  intros w s z l W (F & N & U). unfold key_reads.
  assert (~ starts is_alpha (w ++ size_text s ++ z)) as NA.
  { destruct W as [|c w C W].
    - cbn. destruct s as [ds u]. cbn [fst] in *. destruct ds as [|d ds]; [congruence|]. inversion F. now apply digit_not_alpha.
    - apply wsp_is_ws in C. cbn. revert C. change (starts is_ws (c :: w) -> ~ starts is_alpha (c :: w)). now apply disjoint. }
  rewrite !first_word_alpha by (reflexivity || exact NA).
  destruct W as [|c w C W].
  - destruct s as [ds u]. unfold size_text. cbn [fst snd app] in *. rewrite <- app_assoc.
    destruct (unit_start u z U) as (c & r & E & ND & NW & _ & _). rewrite E.
    inversion F as [|d1 ds1 D1 F1]; subst; [congruence|]. inversion F1 as [|d2 ds2 D2 F2]; subst.
    { cbn [dtext map app three]. destruct r as [|b [|x r]]; try reflexivity. now rewrite ND, andb_false_r. }
    inversion F2 as [|d3 ds3 D3 F3]; subst.
    { cbn [dtext map app three]. destruct r as [|b r]; try reflexivity. now rewrite ND, !andb_false_r. }
    inversion F3 as [|d4 ds4 D4 F4]; subst.
    { cbn [dtext map app three]. now rewrite NW, !andb_false_r. }
    cbn [dtext map app three]. replace (is_ws (dchar d4)) with false by (dig_split D4; reflexivity). now rewrite !andb_false_r.
  - apply wsp_is_ws in C. cbn [app three].
    assert (is_digit c = false) as D.
    { apply not_true_is_false. revert C. change (starts is_ws (c :: w) -> ~ starts is_digit (c :: w)). now apply disjoint. }
    destruct (w ++ size_text s ++ z) as [|b [|x [|y r]]]; try reflexivity. now rewrite D.
Qed.

(** * Families *)
Definition ends_bad (z : text) : Prop := ~ starts (fun c => is_ws c || aeqb c ",") z.
Lemma tail_refuses : refuses re_tail ends_bad.
Proof.
  apply (refuses_opt _ (fun c => aeqb c ",") _ _ (has_char ",")).
  - intros z B S. apply B. destruct z as [|c z]; [exact S|]. cbn in *. now rewrite S, orb_true_r.
  - apply refuses_cat. apply (refuses_plus _ is_ws _ has_s). intros z B S. apply B. destruct z as [|c z]; [exact S|]. cbn in *. now rewrite S.
Qed.
Lemma generic_ok : forall g (sc : bool), In g generic_words -> let z := g ++ (if sc then [";"%char] else []) in
  forallb (fun c => negb (is_ws c || aeqb c ",")) z = true /\ first_strip generic_alts z = Some (if sc then [";"%char] else []) /\ g <> [].
Proof.
  intros g sc I. repeat (destruct I as [<-|I]; [destruct sc; vm_compute; repeat split; discriminate|]). destruct I.
Qed.
Lemma tail_any : forall c g (sc : bool) l, wsp c -> In g generic_words ->
  reads re_tail (c :: g ++ if sc then [";"%char] else []) l (Some ([], (8, g) :: l)) Any.
Proof.
  intros c g sc l W I. apply wsp_is_ws in W. destruct (generic_ok g sc I) as (B & S & N). cbv zeta in *. set (e := if sc then [";"%char] else []) in *.
  unfold re_tail. eapply goes_cat.
  { pose proof (reads_opt _ _ (c :: g ++ e) l (has_char ",")) as R. cbn [skip1] in R.
    assert (aeqb c "," = false) as E.
    { apply not_true_is_false. revert W. change (starts is_ws (c :: g) -> ~ starts (fun c => aeqb c ",") (c :: g)). now apply disjoint. }
    rewrite E in R. exact R. }
  assert (~ starts is_ws (g ++ e)) as NW.
  { destruct g as [|x g]; [congruence|]. cbn in B. apply andb_prop in B as [B _]. cbn. destruct (is_ws x); [discriminate B | discriminate]. }
  eapply goes_cat.
  { pose proof (reads_plus _ _ (c :: g ++ e) l has_s) as P. cbn [span] in P. rewrite W in P.
    pose proof (span_app_stop is_ws [] (g ++ e) eq_refl NW) as SS; cbn [app] in SS; rewrite SS in P. exact P. }
  eapply goes_cat.
  { pose proof (alts_any generic_alts (g ++ e) l) as A. rewrite S in A. apply (reads_group 8) in A. cbn [option_map fst snd] in A.
    rewrite grab_app in A. exact A. }
  pose proof (reads_opt _ _ e ((8, g) :: l) (has_char ";")) as R. unfold e in *. apply any_weaken in R. destruct sc; exact R.
Qed.
(** The greedy dot: what is tried before it leaves [v] leaves less than [v]. *)
Lemma dot_split : forall q u v n t p l, forallb q u = true -> suffix (u ++ v) t -> List.length (u ++ v) <= n ->
  exists A B, loop_set q n (at_ t p (u ++ v) l) = A ++ at_ t p v l :: B /\
              Forall (fun y => exists z x, y = at_ t p z l /\ v = x ++ z /\ x <> []) A.
Proof.
  intros q. 
  assert (forall v n t p l, suffix v t -> List.length v <= n -> exists A, loop_set q n (at_ t p v l) = A ++ [at_ t p v l] /\
     Forall (fun y => exists z x, y = at_ t p z l /\ v = x ++ z /\ x <> []) A) as H.
  { induction v as [|c v IH]; intros n t p l X L.
    - exists []. split; [destruct n; reflexivity | constructor].
    - destruct n as [|n]; [cbn in L; lia|]. cbn [loop_set]. change (rest (at_ t p (c :: v) l)) with (c :: v). cbv iota beta. destruct (q c); [|exists []; split; [reflexivity | constructor]].
      assert (suffix v t) as X' by (eapply suffix_trans; [apply suffix_cons | exact X]).
      destruct (IH n t p l X') as (A & E & F); [cbn in L; lia|].
      pose proof (at_upto t p (c :: v) l v X (suffix_cons c v)) as U. rewrite U, E.
      exists (A ++ [at_ t p v l]). split; [reflexivity|]. apply Forall_app. split.
      + eapply Forall_impl; [|exact F]. intros y (z & x & -> & -> & _). exists z, (c :: x). split; [reflexivity|]. split; [reflexivity | discriminate].
      + constructor; [|constructor]. exists v, [c]. split; [reflexivity|]. split; [reflexivity | discriminate]. }
  induction u as [|c u IH]; intros v n t p l Q X L.
  - destruct (H v n t p l X L) as (A & E & F). exists A, []. now split.
  - cbn [app] in *. destruct n as [|n]; [cbn in L; lia|]. cbn [forallb] in Q. apply andb_prop in Q as [Q1 Q2].
    cbn [loop_set]. change (rest (at_ t p (c :: u ++ v) l)) with (c :: u ++ v). cbv iota beta. rewrite Q1.
    assert (suffix (u ++ v) t) as X' by (eapply suffix_trans; [apply suffix_cons | exact X]).
    destruct (IH v n t p l Q2 X') as (A & B & E & F); [cbn in L; lia|].
    pose proof (at_upto t p (c :: u ++ v) l (u ++ v) X (suffix_cons c (u ++ v))) as U. rewrite U, E.
    exists A. eexists. split; [rewrite <- app_assoc; reflexivity | exact F].
Qed.
Lemma hd_app : forall {A} (a b : list A) x, hd_error a = Some x -> hd_error (a ++ b) = Some x.
Proof. intros A [|y a] b x H; [discriminate | exact H]. Qed.
Definition not_nl (c : ascii) : bool := negb (aeqb c "010").
Lemma has_dot : forall c, set_has dot c = not_nl c. Proof. now apply all_chars. Qed.
Lemma face_any : forall f c g (sc : bool) l, ~ In "010"%char f -> wsp c -> In g generic_words ->
  reads (RCat (RGroup 7 (RStar (RSet dot))) re_tail) (f ++ ","%char :: c :: g ++ if sc then [";"%char] else []) l
    (Some ([], (8, g) :: (7, f ++ ","%char :: nil) :: l)) Any.
Proof.
  intros f c g sc l NL W I. pose proof (tail_any c g sc) as T. destruct (generic_ok g sc I) as (B & _ & _). cbv zeta in *.
  set (e := if sc then [";"%char] else []) in *. set (v := c :: g ++ e) in *.
  set (u := f ++ ","%char :: nil) in *.
  replace (f ++ ","%char :: v) with (u ++ v) by (unfold u; now rewrite <- app_assoc).
  apply reads_hd; [exists (u ++ v); now rewrite app_nil_r|]. intros t p X.
  assert (forallb not_nl u = true) as Q.
  { apply forallb_forall. intros x Hx. unfold u in Hx. apply in_app_or in Hx as [Hx|[<-|[]]]; [|reflexivity].
    unfold not_nl. apply negb_true_iff, Ascii.eqb_neq. intros ->. contradiction. }
  destruct (dot_split not_nl u v _ t p l Q X (le_n _)) as (A & C & E & F).
  change (run (RCat (RGroup 7 (RStar (RSet dot))) re_tail) (at_ t p (u ++ v) l)) with
    (flat_map (run re_tail) (map (cap 7 (at_ t p (u ++ v) l)) (run (RStar (RSet dot)) (at_ t p (u ++ v) l)))).
  rewrite (run_star_set dot not_nl _ has_dot). change (rest (at_ t p (u ++ v) l)) with (u ++ v).
  rewrite E, map_app, flat_map_app. cbn [map flat_map].
  rewrite flat_map_nil.
  2: { apply Forall_map. eapply Forall_impl; [|exact F]. intros y (z & x & -> & V & NX). apply tail_refuses.
       change (ends_bad z).
       destruct x as [|x0 x]; [congruence|]. unfold v in V. cbn in V. injection V as _ V. rewrite V in B.
       rewrite forallb_app in B. apply andb_prop in B as [_ B]. unfold ends_bad. destruct z as [|z0 z]; [intros []|].
       cbn in *. destruct (is_ws z0 || aeqb z0 ","); [discriminate B | discriminate]. }
  cbn [app].
  assert (suffix v (u ++ v)) as SV by now exists u.
  rewrite (at_cap t p (u ++ v) l 7 v l X SV), grab_app.
  pose proof (hd_reads _ _ _ _ _ t p (T ((7, u) :: l) W I) (suffix_trans _ _ _ SV X)) as HT.
  apply hd_app. exact HT.
Qed.

(** * The whole pattern *)
Definition sh_caps (f : shorthand) : list (nat * text) :=
  (8, sh_generic f) :: (7, sh_face f ++ [","%char]) ::
  match sh_height f with None => [] | Some h => [(6, size_text h)] end ++ (5, size_text (sh_size f)) :: key_caps (sh_keys f) [].
Lemma blank_is_ws : forall c, is_ws c = true -> blank c.
Proof.
  assert (forall c, implb (is_ws c) (existsb (aeqb c) (["032"; "009"; "010"; "011"; "012"; "013"] ++ ["028"; "029"; "030"; "031"; "133"; "160"])%char) = true) as H.
  { now apply (all_chars (fun c => implb (is_ws c) _) (fun _ => true)). }
  intros c E. specialize (H c). rewrite E in H. cbn [implb] in H. apply existsb_exists in H as (x & I & Q). apply Ascii.eqb_eq in Q. subst x.
  apply in_app_or in I. exact I.
Qed.
Lemma font_reads : forall f, sh_ok f -> reads re_font (sh_text f) [] (Some ([], sh_caps f)) Any.
Proof.
  intros f (K & L & S & H & G & NG & NL & NB & W & I). unfold sh_text, re_font.
  eapply goes_cat; [apply keys_read; [exact K | intros l; now apply key_stop]|].
  assert (forall w z l, Forall wsp w -> ~ starts is_ws z -> reads (RStar re_s) (w ++ z) l (Some (z, l)) Any) as SP.
  { intros w z l A B. pose proof (reads_star _ _ (w ++ z) l has_s) as P.
    rewrite (Text_Proofs.span_app is_ws w z) in P.
    - eapply any_weaken. exact P.
    - apply forallb_forall. intros x Hx. rewrite Forall_forall in A. now apply wsp_is_ws, A.
    - destruct z as [|c z]; [reflexivity|]. cbn in B. now destruct (is_ws c). }
  eapply goes_cat.
  { apply SP; [exact L|]. destruct S as (F & N & _). destruct (sh_size f) as [ds u]. unfold size_text. cbn [fst snd] in *.
    destruct ds as [|d ds]; [congruence|]. inversion F as [|? ? D]; subst. cbn. dig_split D; discriminate. }
  eapply goes_cat; [apply size_group, S|].
  set (z := sh_face f ++ [","%char; sh_space f] ++ sh_generic f ++ (if sh_semicolon f then [";"%char] else [])).
  set (l5 := (5, size_text (sh_size f)) :: key_caps (sh_keys f) []).
  apply (goes_cat _ _ _ _ (sh_gap f ++ z) (match sh_height f with None => [] | Some h => [(6, size_text h)] end ++ l5) _ Any Any).
  { destruct (sh_height f) as [h|].
    - assert (reads (RCat (chr_ "/") (RGroup 6 re_size)) ("/"%char :: size_text h ++ sh_gap f ++ z) l5 (Some (sh_gap f ++ z, (6, size_text h) :: l5)) Any) as R.
      { eapply goes_cat; [|apply size_group, H].
        pose proof (reads_set _ _ ("/"%char :: size_text h ++ sh_gap f ++ z) l5 Any (has_char "/")) as R. exact R. }
      exact (alt_any _ REmpty _ _ _ _ R (reads_empty _ _ _)).
    - assert (reads (RCat (chr_ "/") (RGroup 6 re_size)) (sh_gap f ++ z) l5 None Any) as R.
      { eapply reads_cat_none. pose proof (reads_set _ _ (sh_gap f ++ z) l5 Any (has_char "/")) as R.
        destruct G as [|c w C G]; [congruence|]. cbn [app] in *. cbv beta iota in R.
        assert (aeqb c "/" = false) as E.
        { apply wsp_is_ws in C. apply not_true_is_false. revert C. change (starts is_ws (c :: w) -> ~ starts (fun c => aeqb c "/") (c :: w)). now apply disjoint. }
        rewrite E in R. exact R. }
      exact (alt_any _ REmpty _ _ _ _ R (reads_empty _ _ _)). }
  eapply goes_cat.
  { apply SP; [exact G|]. unfold z. destruct (sh_face f) as [|c r] eqn:E; [discriminate|]. cbn. intros C. now apply (NB c r eq_refl), blank_is_ws. }
  unfold z. apply face_any; assumption.
Qed.
Lemma findall_end : forall r p k s, List.length s <= k -> findall r p k s = [].
Proof.
  intros r p k s. revert p k. induction s as [|c s IH]; intros p k L; [reflexivity|]. cbn in L. destruct k as [|k]; [lia|]. cbn. apply IH. lia.
Qed.
Lemma font_findall : forall f, sh_ok f -> findall (the REGEX_CSS_FONT) 0 0 (sh_text f) = [(0, sh_text f) :: sh_caps f].
Proof.
  intros f O. pose proof (reads_match_at _ _ _ _ 0 (font_reads f O)) as M. cbn [option_map fst snd] in M.
  assert (grab (sh_text f) [] = sh_text f) as G by (rewrite <- (app_nil_r (sh_text f)) at 1; apply grab_app).
  rewrite G in M. rewrite font_compiled. destruct (sh_text f) as [|c s] eqn:E.
  { exfalso. unfold sh_text in E. destruct O as (_ & _ & _ & _ & _ & N & _).
    repeat (apply app_eq_nil in E as [_ E]). destruct (sh_gap f); [congruence | discriminate]. }
  cbn [findall]. rewrite M. cbn [List.length]. now rewrite findall_end by lia.
Qed.
Lemma caps_weight : forall ks, Forall (fun k => key_ok (fst k) /\ wsp (snd k)) ks ->
  match last_weight ks with
  | None => forall l, group 3 (key_caps ks l) = group 3 l
  | Some w => exists k, key_ok k /\ key_weight k = Some w /\ forall l, group 3 (key_caps ks l) = Some (key_text k)
  end.
Proof.
  induction 1 as [|[k c] ks (O & _) F IH]; [intros l; reflexivity|]. cbn [last_weight key_caps fst] in *. destruct (last_weight ks) as [w|].
  - destruct IH as (k' & O' & E & G). exists k'. auto.
  - destruct (key_weight k) as [w|] eqn:E.
    + exists k. split; [exact O|]. split; [exact E|]. intros l. rewrite IH. destruct k; try discriminate; reflexivity.
    + intros l. rewrite IH. destruct k; try discriminate; reflexivity.
Qed.
Lemma weight_number : forall a b c, is_dig a -> is_dig b -> is_dig c -> parse_font_weight (dtext [a; b; c]) = Ok (dval [a; b; c]).
Proof. intros a b c A B C. dig_split A; dig_split B; dig_split C; reflexivity. Qed.
Lemma weight_ok : forall k w, key_ok k -> key_weight k = Some w ->
  parse_font_weight (key_text k) = match w with Some n => Ok n | None => Err ValueError end /\ key_text k <> [].
Proof.
  intros [|v|v|v|a b c|v] w O E; try discriminate; cbn [key_ok key_weight key_text] in *.
  - repeat (destruct O as [<-|O]; [cbn in E; injection E as <-; split; [reflexivity | discriminate]|]). destruct O.
  - injection E as <-. destruct O as (A & B & C). split; [now apply weight_number | discriminate].
Qed.
Lemma drop_comma_app : forall s, drop_comma (s ++ [","%char]) = s.
Proof. intros s. unfold drop_comma. rewrite rev_unit. cbn. apply rev_involutive. Qed.
