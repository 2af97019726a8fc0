(** The scanners of the models compute what the patterns of constants.py match: lemmas. *)
Require Import ZArith Arith Ascii String List Bool Lia.
Require Import Verif.Base Verif.Regex_Model.
Import ListNotations.
Open Scope nat_scope.

(** * Character sets *)
Lemma all_chars : forall (f g : ascii -> bool),
  forallb (fun n => eqb (f (ascii_of_nat n)) (g (ascii_of_nat n))) (seq 0 256) = true ->
  forall c, f c = g c.
Proof.
  intros f g H c. rewrite forallb_forall in H. specialize (H (nat_of_ascii c)).
  rewrite ascii_nat_embedding in H. apply eqb_prop, H, in_seq.
  pose proof (nat_ascii_bounded c). lia.
Qed.

Lemma span_ext : forall p q, (forall c, p c = q c) -> forall s, span p s = span q s.
Proof. intros p q E. induction s as [|c s IH]; [reflexivity|]. cbn. now rewrite E, IH. Qed.
Lemma span_app : forall p s a b, span p s = (a, b) -> s = a ++ b.
Proof.
  intros p. induction s as [|c s IH]; intros a b E; cbn in E.
  - now injection E as <- <-.
  - destruct (p c).
    + destruct (span p s) as [a' b'] eqn:E'. injection E as <- <-. cbn. f_equal. now apply IH.
    + now injection E as <- <-.
Qed.
Lemma span_all : forall p s a b, span p s = (a, b) -> forallb p a = true.
Proof.
  intros p. induction s as [|c s IH]; intros a b E; cbn in E.
  - now injection E as <- <-.
  - destruct (p c) eqn:P.
    + destruct (span p s) as [a' b'] eqn:E'. injection E as <- <-. cbn. now rewrite P, (IH _ _ eq_refl).
    + now injection E as <- <-.
Qed.
(** The text starts with a character that satisfies [p]. *)
Definition starts (p : ascii -> bool) (s : text) : Prop :=
  match s with c :: _ => p c = true | [] => False end.
Lemma span_stop : forall p s a b, span p s = (a, b) -> ~ starts p b.
Proof.
  intros p. induction s as [|c s IH]; intros a b E; cbn in E.
  - injection E as <- <-. intros [].
  - destruct (p c) eqn:P.
    + destruct (span p s) as [a' b'] eqn:E'. injection E as <- <-. now apply (IH a').
    + injection E as <- <-. cbn. now rewrite P.
Qed.
Lemma drop_ws_span : forall s, drop_ws s = snd (span is_ws s).
Proof.
  induction s as [|c s IH]; [reflexivity|]. cbn. destruct (is_ws c); [|reflexivity].
  rewrite IH. now destruct (span is_ws s).
Qed.

(** * States *)
(** The state when [r] is left of the text. *)
Definition upto (r : text) (s : st) : st :=
  mkSt (pos s + (List.length (rest s) - List.length r)) r (caps s).
Definition suffix (r t : text) : Prop := exists a, t = a ++ r.
Lemma suffix_refl : forall t, suffix t t. Proof. intros t. now exists []. Qed.
Lemma suffix_trans : forall a b c, suffix a b -> suffix b c -> suffix a c.
Proof. intros a b c (x & ->) (y & ->). exists (y ++ x). now rewrite app_assoc. Qed.
Lemma suffix_cons : forall c r, suffix r (c :: r). Proof. intros c r. now exists [c]. Qed.
Lemma suffix_len : forall r t, suffix r t -> List.length r <= List.length t.
Proof. intros r t (a & ->). rewrite app_length. lia. Qed.
Lemma upto_self : forall s, upto (rest s) s = s.
Proof. intros [p r c]. unfold upto. cbn. f_equal. lia. Qed.
Lemma upto_upto : forall s r r', suffix r (rest s) -> suffix r' r -> upto r' (upto r s) = upto r' s.
Proof.
  intros [p t c] r r' A B. unfold upto. cbn in *. apply suffix_len in A, B. f_equal. lia.
Qed.
Lemma upto_adv1 : forall p c r l, adv 1 (mkSt p (c :: r) l) = upto r (mkSt p (c :: r) l).
Proof. intros. unfold adv, upto. f_equal. cbn [pos rest List.length]. lia. Qed.
Lemma span_suffix : forall p s, suffix (snd (span p s)) s.
Proof. intros p s. destruct (span p s) as [a b] eqn:E. apply span_app in E. now exists a. Qed.

(** * Priorities *)
(** The first way to match is [o]; all others are the same or leave a text for which [bad] holds. *)
Definition like (l : list st) (o : option st) (bad : text -> Prop) : Prop :=
  match o with
  | None => l = []
  | Some x => exists tl, l = x :: tl /\ Forall (fun y => y = x \/ bad (rest y)) tl
  end.
Definition refuses (r : re) (bad : text -> Prop) : Prop := forall y, bad (rest y) -> run r y = [].
Definition after_bad (r : re) (bad bad' : text -> Prop) : Prop :=
  forall y, bad (rest y) -> Forall (fun z => bad' (rest z)) (run r y).

Lemma like_hd : forall l o bad, like l o bad -> hd_error l = o.
Proof. intros l [x|] bad H; cbn in H; [destruct H as (tl & -> & _)|subst]; reflexivity. Qed.
Lemma like_weaken : forall l o (b b' : text -> Prop), like l o b -> (forall t, b t -> b' t) -> like l o b'.
Proof.
  intros l [x|] b b' H I; cbn in *; [|exact H]. destruct H as (tl & -> & H). exists tl. split; [reflexivity|].
  eapply Forall_impl; [|exact H]. intros y [E | E]; [now left | right; now apply I].
Qed.
Lemma like_one : forall x bad, like [x] (Some x) bad.
Proof. intros. exists []. split; [reflexivity | constructor]. Qed.

Lemma flat_map_nil : forall {A B} (f : A -> list B) l, Forall (fun y => f y = []) l -> flat_map f l = [].
Proof. intros A B f l H. induction H as [|y l E H IH]; [reflexivity|]. cbn. now rewrite E, IH. Qed.

(** Sequence, when what is tried next refuses all but the first. *)
Lemma like_cat : forall a b s x bad o bad',
  like (run a s) (Some x) bad -> refuses b bad -> like (run b x) o bad' -> like (run (RCat a b) s) o bad'.
Proof.
  intros a b s x bad o bad' (tl & E & F) R L. cbn [run]. rewrite E. cbn [flat_map].
  assert (Forall (fun y => run b y = run b x \/ run b y = []) tl) as G.
  { eapply Forall_impl; [|exact F]. intros y [-> | B]; [now left | right; now apply R]. }
  clear E F.
  destruct o as [z|]; cbn in L.
  - destruct L as (tl' & E & F'). exists (tl' ++ flat_map (run b) tl). rewrite E. split; [reflexivity|].
    apply Forall_app. split; [exact F'|]. rewrite E in G.
    induction G as [|y l [Y | Y] G IH]; cbn; [constructor| |]; rewrite Y; [|exact IH].
    cbn. constructor; [now left|]. apply Forall_app. split; [exact F' | exact IH].
  - rewrite L in *. cbn. apply flat_map_nil. eapply Forall_impl; [|exact G]. now intros y [-> | ->].
Qed.
(** Sequence, when what comes next can always go on. *)
Lemma like_cat_all : forall a b s x bad z bad',
  like (run a s) (Some x) bad -> after_bad b bad bad' -> like (run b x) (Some z) bad' ->
  like (run (RCat a b) s) (Some z) bad'.
Proof.
  intros a b s x bad z bad' (tl & E & F) R (tl' & E' & F'). cbn [run]. rewrite E. cbn [flat_map]. rewrite E'.
  exists (tl' ++ flat_map (run b) tl). split; [reflexivity|]. apply Forall_app. split; [exact F'|]. clear E.
  induction F as [|y l [-> | Y] F IH]; cbn; [constructor| |]; (apply Forall_app; split; [|exact IH]).
  - rewrite E'. constructor; [now left | exact F'].
  - eapply Forall_impl; [|apply R, Y]. intros w W. now right.
Qed.
Lemma cat_none : forall a b s, run a s = [] -> run (RCat a b) s = [].
Proof. intros a b s E. cbn. now rewrite E. Qed.
Lemma cat_refused : forall a b s bad,
  Forall (fun y => bad (rest y)) (run a s) -> refuses b bad -> run (RCat a b) s = [].
Proof.
  intros a b s bad F R. cbn. apply flat_map_nil. eapply Forall_impl; [|exact F]. intros y B. now apply R.
Qed.
Lemma refuses_cat : forall a b bad, refuses a bad -> refuses (RCat a b) bad.
Proof. intros a b bad R y B. apply cat_none. now apply R. Qed.
Lemma cat_assoc : forall a b c s, run (RCat a (RCat b c)) s = run (RCat (RCat a b) c) s.
Proof.
  intros. cbn. induction (run a s) as [|x l IH]; [reflexivity|]. cbn.
  rewrite flat_map_app. now rewrite <- IH.
Qed.
Lemma cat_cong : forall a b b', (forall x, run b x = run b' x) -> forall s, run (RCat a b) s = run (RCat a b') s.
Proof. intros a b b' E s. cbn [run]. now apply flat_map_ext. Qed.
Lemma refuses_weaken : forall r (b b' : text -> Prop), refuses r b -> (forall t, b' t -> b t) -> refuses r b'.
Proof. intros r b b' R I y B. now apply R, I. Qed.

Definition cap (k : nat) (s s' : st) : st :=
  mkSt (pos s') (rest s') ((k, firstn (pos s' - pos s) (rest s)) :: caps s').
Lemma like_group : forall k a s o bad, like (run a s) o bad -> like (run (RGroup k a) s) (option_map (cap k s) o) bad.
Proof.
  intros k a s [x|] bad H; cbn in *.
  - destruct H as (tl & -> & F). cbn. exists (map (cap k s) tl). split; [reflexivity|].
    apply Forall_map. eapply Forall_impl; [|exact F]. intros y [-> | B]; [now left | now right].
  - now rewrite H.
Qed.
Lemma refuses_group : forall k a bad, refuses a bad -> refuses (RGroup k a) bad.
Proof. intros k a bad R y B. cbn. now rewrite (R y B). Qed.

(** * One character *)
Lemma run_set : forall cs p s, (forall c, set_has cs c = p c) ->
  run (RSet cs) s = match rest s with c :: r => if p c then [upto r s] else [] | [] => [] end.
Proof.
  intros cs p [n t l] E. cbn [run rest]. destruct t as [|c r]; [reflexivity|]. rewrite E. now rewrite upto_adv1.
Qed.
Lemma refuses_set : forall cs p (bad : text -> Prop), (forall c, set_has cs c = p c) ->
  (forall t, bad t -> ~ starts p t) -> refuses (RSet cs) bad.
Proof.
  intros cs p bad E N y B. rewrite (run_set cs p y E). apply N in B. destruct (rest y) as [|c r]; [reflexivity|].
  cbn in B. now destruct (p c).
Qed.
(** * An optional character *)
Lemma run_opt_set : forall cs p s, (forall c, set_has cs c = p c) ->
  run (opt (RSet cs)) s = match rest s with c :: r => if p c then [upto r s; s] else [s] | [] => [s] end.
Proof.
  intros cs p s E. unfold opt. cbn [run]. pose proof (run_set cs p s E) as H. cbn [run] in H. rewrite H.
  destruct (rest s) as [|c r]; [reflexivity|]. now destruct (p c).
Qed.
Definition skip1 (p : ascii -> bool) (t : text) : text :=
  match t with c :: r => if p c then r else t | [] => [] end.
Lemma skip1_suffix : forall p t, suffix (skip1 p t) t.
Proof. intros p [|c r]; cbn; [apply suffix_refl|]. destruct (p c); [apply suffix_cons | apply suffix_refl]. Qed.
Lemma like_opt_set : forall cs p s, (forall c, set_has cs c = p c) ->
  like (run (opt (RSet cs)) s) (Some (upto (skip1 p (rest s)) s)) (starts p).
Proof.
  intros cs p s E. rewrite (run_opt_set cs p s E). unfold skip1. destruct (rest s) as [|c r] eqn:R.
  - rewrite <- R, upto_self. apply like_one.
  - destruct (p c) eqn:P.
    + exists [s]. split; [reflexivity|]. constructor; [|constructor]. right. now rewrite R.
    + rewrite <- R, upto_self. apply like_one.
Qed.
(** * Repetition of one character *)
Fixpoint loop_set (p : ascii -> bool) (n : nat) (s : st) : list st :=
  match n with
  | O => [s]
  | S m => match rest s with
           | c :: r => if p c then loop_set p m (upto r s) ++ [s] else [s]
           | [] => [s]
           end
  end.
Lemma run_star_set : forall cs p s, (forall c, set_has cs c = p c) ->
  run (RStar (RSet cs)) s = loop_set p (List.length (rest s)) s.
Proof.
  intros cs p s E. cbn [run]. generalize (List.length (rest s)) as n. intros n. revert s.
  induction n as [|n IH]; intros [q t l]; [reflexivity|]. cbn [loop_set rest pos] in *.
  destruct t as [|c r]; [reflexivity|]. rewrite E. destruct (p c); [|reflexivity].
  cbn [flat_map]. rewrite app_nil_r. rewrite upto_adv1. cbn [pos upto rest].
  assert (q + (List.length (c :: r) - List.length r) =? q = false) as ->.
  { apply Nat.eqb_neq. cbn [List.length]. lia. }
  f_equal. specialize (IH (upto r (mkSt q (c :: r) l))). exact IH.
Qed.
(** Every way to stop leaves a text of this form. *)
Lemma like_star_set : forall cs p s, (forall c, set_has cs c = p c) ->
  like (run (RStar (RSet cs)) s) (Some (upto (snd (span p (rest s))) s)) (starts p).
Proof.
  intros cs p s E. rewrite (run_star_set cs p s E).
  assert (forall n s, n = List.length (rest s) ->
     like (loop_set p n s) (Some (upto (snd (span p (rest s))) s)) (starts p)) as H; [|now apply H].
  induction n as [|n IH]; intros [q t l] N; cbn [rest] in N.
  - destruct t; [|discriminate]. cbn. exists []. split; [|constructor]. unfold upto. cbn. now rewrite Nat.add_0_r.
  - destruct t as [|c r]; [discriminate|]. cbn [loop_set rest span]. injection N as N.
    destruct (p c) eqn:P.
    + destruct (IH (upto r (mkSt q (c :: r) l)) N) as (tl & -> & F).
      exists (tl ++ [mkSt q (c :: r) l]).
      assert (upto (snd (span p r)) (upto r (mkSt q (c :: r) l)) =
              upto (snd (let '(a, b) := span p r in (c :: a, b))) (mkSt q (c :: r) l)) as EQ.
      { rewrite upto_upto; [|cbn; apply suffix_cons | apply span_suffix]. now destruct (span p r). }
      cbn [rest upto] in *. rewrite EQ in *. split; [reflexivity|].
      apply Forall_app. split; [exact F|]. constructor; [|constructor]. right. exact P.
    + cbn [snd]. exists []. split; [|constructor]. f_equal.
      symmetry. apply (upto_self (mkSt q (c :: r) l)).
Qed.
Lemma like_plus_set : forall cs p s, (forall c, set_has cs c = p c) ->
  like (run (RCat (RSet cs) (RStar (RSet cs))) s)
    (match fst (span p (rest s)) with [] => None | _ => Some (upto (snd (span p (rest s))) s) end) (starts p).
Proof.
  intros cs p s E. destruct (rest s) as [|c r] eqn:R; cbn [span].
  - apply cat_none. rewrite (run_set cs p s E), R. reflexivity.
  - destruct (p c) eqn:P.
    + assert (run (RSet cs) s = [upto r s]) as Q by now rewrite (run_set cs p s E), R, P.
      destruct (span p r) as [a b] eqn:SP. cbn [fst snd].
      eapply like_cat; [rewrite Q; apply (like_one _ (fun _ => False)) | intros y [] |].
      pose proof (like_star_set cs p (upto r s) E) as L. cbn [rest upto] in L. rewrite SP in L. cbn [snd] in L.
      rewrite upto_upto in L; [exact L | rewrite R; apply suffix_cons |].
      pose proof (span_suffix p r) as X. now rewrite SP in X.
    + apply cat_none. rewrite (run_set cs p s E), R, P. reflexivity.
Qed.
Lemma star_stay : forall cs p y, (forall c, set_has cs c = p c) -> ~ starts p (rest y) ->
  run (RStar (RSet cs)) y = [y].
Proof.
  intros cs p y E N. rewrite (run_star_set cs p y E). destruct (rest y) as [|c r] eqn:R; [reflexivity|].
  cbn. rewrite R. cbn in N. now destruct (p c).
Qed.
Lemma refuses_plus : forall cs p (bad : text -> Prop), (forall c, set_has cs c = p c) ->
  (forall t, bad t -> ~ starts p t) -> refuses (RCat (RSet cs) (RStar (RSet cs))) bad.
Proof. intros cs p bad E N. apply refuses_cat. now apply (refuses_set cs p). Qed.
(** Skipping a repetition that does not apply. *)
Lemma refuses_star : forall cs p (bad : text -> Prop) b, (forall c, set_has cs c = p c) ->
  (forall t, bad t -> ~ starts p t) -> refuses b bad -> refuses (RCat (RStar (RSet cs)) b) bad.
Proof.
  intros cs p bad b E N R y B. cbn [run]. fold (run (RStar (RSet cs)) y).
  change (flat_map (run b) (run (RStar (RSet cs)) y) = []).
  rewrite (star_stay cs p y E (N _ B)). cbn. now rewrite (R y B).
Qed.
Lemma refuses_opt : forall cs p (bad : text -> Prop) b, (forall c, set_has cs c = p c) ->
  (forall t, bad t -> ~ starts p t) -> refuses b bad -> refuses (RCat (opt (RSet cs)) b) bad.
Proof.
  intros cs p bad b E N R y B. change (flat_map (run b) (run (opt (RSet cs)) y) = []).
  rewrite (run_opt_set cs p y E). apply N in B as B'. destruct (rest y) as [|c r] eqn:Y.
  - cbn. rewrite app_nil_r. apply R. now rewrite Y.
  - cbn in B'. destruct (p c); [now destruct B'|]. cbn. rewrite app_nil_r. apply R. now rewrite Y.
Qed.

(** * Numbers *)
Definition cs_sign := mkSet false [IChar "-"; IChar "+"]%char.
Definition cs_digit := mkSet false [IRange "0" "9"]%char.
Definition cs_point := mkSet false [IChar "."]%char.
Definition cs_e := mkSet false [IChar "e"; IChar "E"]%char.
Definition is_sign (c : ascii) : bool := aeqb c "-" || aeqb c "+".
Definition is_point (c : ascii) : bool := aeqb c ".".
Definition is_e (c : ascii) : bool := aeqb c "e" || aeqb c "E".
Lemma has_sign : forall c, set_has cs_sign c = is_sign c. Proof. now apply all_chars. Qed.
Lemma has_digit : forall c, set_has cs_digit c = is_digit c. Proof. now apply all_chars. Qed.
Lemma has_point : forall c, set_has cs_point c = is_point c. Proof. now apply all_chars. Qed.
Lemma has_e : forall c, set_has cs_e c = is_e c. Proof. now apply all_chars. Qed.

Definition re_digits := RCat (RSet cs_digit) (RStar (RSet cs_digit)).
Definition re_exp := opt (RCat (RSet cs_e) (RCat (opt (RSet cs_sign)) re_digits)).
Definition re_float :=
  RCat (opt (RSet cs_sign)) (RCat (RStar (RSet cs_digit)) (RCat (opt (RSet cs_point)) (RCat re_digits re_exp))).
Lemma float_compiled : compile (T PATTERN_FLOAT) = Some re_float.
Proof. reflexivity. Qed.

(** What may follow a number that was cut short. *)
Definition cont (c : ascii) : bool := is_digit c || is_point c || is_e c.
Lemma disjoint : forall p q : ascii -> bool,
  forallb (fun n => negb (p (ascii_of_nat n) && q (ascii_of_nat n))) (seq 0 256) = true ->
  forall t, starts p t -> ~ starts q t.
Proof.
  intros p q H [|c r]; cbn; [tauto|]. intros P Q.
  assert (p c && q c = false) as X.
  { apply (all_chars (fun c => p c && q c) (fun _ => false)). clear - H.
    rewrite forallb_forall in *. intros n N. specialize (H n N). now destruct (p (ascii_of_nat n) && q (ascii_of_nat n)). }
  rewrite P, Q in X. discriminate.
Qed.
Lemma included : forall p q : ascii -> bool,
  forallb (fun n => implb (p (ascii_of_nat n)) (q (ascii_of_nat n))) (seq 0 256) = true ->
  forall t, starts p t -> starts q t.
Proof.
  intros p q H [|c r]; cbn; [tauto|]. intros P.
  assert (implb (p c) (q c) = true) as X.
  { apply (all_chars (fun c => implb (p c) (q c)) (fun _ => true)). clear - H.
    rewrite forallb_forall in *. intros n N. rewrite (H n N). reflexivity. }
  now rewrite P in X.
Qed.

Definition mantissa_end (t : text) : option text :=
  let '(ints, r1) := span is_digit t in
  let '(fr, r2) := match_frac r1 in
  match ints, fr with [], [] => None | _, _ => Some r2 end.
Lemma match_frac_suffix : forall t, suffix (snd (match_frac t)) t.
Proof.
  intros [|c r]; cbn; [apply suffix_refl|]. destruct (aeqb c "."); [|apply suffix_refl].
  destruct (span is_digit r) as [[|d ds] r'] eqn:E; [apply suffix_refl|]. cbn.
  pose proof (span_suffix is_digit r) as X. rewrite E in X. cbn in X.
  eapply suffix_trans; [exact X | apply suffix_cons].
Qed.
Lemma mantissa_suffix : forall t r, mantissa_end t = Some r -> suffix r t.
Proof.
  intros t r. unfold mantissa_end. destruct (span is_digit t) as [ints r1] eqn:E.
  pose proof (span_suffix is_digit t) as X. rewrite E in X. cbn in X.
  pose proof (match_frac_suffix r1) as Y. destruct (match_frac r1) as [fr r2]. cbn in Y.
  intros H. assert (r2 = r) as <- by (destruct ints, fr; congruence). eapply suffix_trans; eassumption.
Qed.
Lemma frac_none : forall t, fst (match_frac t) = [] -> snd (match_frac t) = t.
Proof.
  intros [|c r]; cbn; [reflexivity|]. destruct (aeqb c "."); [|reflexivity].
  destruct (span is_digit r) as [[|d ds] r']; [reflexivity | discriminate].
Qed.
Lemma frac_some : forall t, fst (match_frac t) <> [] -> starts is_point t.
Proof.
  intros [|c r]; cbn; [now intros H; apply H|]. unfold is_point. destruct (aeqb c "."); [reflexivity|]. cbn. tauto.
Qed.

Definition digit_or_point (t : text) : Prop := starts is_digit t \/ starts is_point t.
Definition re_frac := RCat (opt (RSet cs_point)) re_digits.
Lemma run_frac_digit : forall s, starts is_digit (rest s) -> run re_frac s = run re_digits s.
Proof.
  intros s D. unfold re_frac. change (flat_map (run re_digits) (run (opt (RSet cs_point)) s) = run re_digits s).
  rewrite (run_opt_set _ _ s has_point).
  pose proof (disjoint is_digit is_point eq_refl _ D) as N. destruct (rest s) as [|c r]; [destruct D|].
  cbn in N. destruct (is_point c); [now destruct N|]. cbn. now rewrite app_nil_r.
Qed.
Lemma like_frac : forall s, ~ starts is_digit (rest s) ->
  like (run re_frac s) (match fst (match_frac (rest s)) with [] => None | _ => Some (upto (snd (match_frac (rest s))) s) end)
    (starts is_digit).
Proof.
  intros s N. unfold re_frac. change (run (RCat (opt (RSet cs_point)) re_digits) s)
    with (flat_map (run re_digits) (run (opt (RSet cs_point)) s)).
  rewrite (run_opt_set _ _ s has_point).
  assert (run re_digits s = []) as Z.
  { apply (refuses_plus cs_digit is_digit (fun t => t = rest s) has_digit); [now intros t -> | reflexivity]. }
  destruct (rest s) as [|c r] eqn:R; cbn [match_frac].
  - cbn [fst flat_map]. now rewrite Z.
  - unfold is_point. destruct (aeqb c ".") eqn:C.
    + cbn [flat_map]. rewrite Z. cbn [app]. rewrite app_nil_r.
      pose proof (like_plus_set cs_digit is_digit (upto r s) has_digit) as L. cbn [rest upto] in L.
      pose proof (span_suffix is_digit r) as X.
      destruct (span is_digit r) as [[|d ds] r'] eqn:E; cbn [fst snd] in *; [exact L|].
      rewrite upto_upto in L; [exact L | rewrite R; apply suffix_cons | exact X].
    + cbn [fst flat_map]. now rewrite Z.
Qed.
Lemma like_mantissa : forall s,
  like (run (RCat (RStar (RSet cs_digit)) re_frac) s) (option_map (fun r => upto r s) (mantissa_end (rest s))) digit_or_point.
Proof.
  intros s. change (run (RCat (RStar (RSet cs_digit)) re_frac) s) with (flat_map (run re_frac) (run (RStar (RSet cs_digit)) s)).
  rewrite (run_star_set _ _ s has_digit).
  assert (forall n s, n = List.length (rest s) ->
    like (flat_map (run re_frac) (loop_set is_digit n s)) (option_map (fun r => upto r s) (mantissa_end (rest s))) digit_or_point) as H;
    [|now apply H]. clear s.
  assert (forall s, ~ starts is_digit (rest s) ->
    like (flat_map (run re_frac) [s]) (option_map (fun r => upto r s) (mantissa_end (rest s))) digit_or_point) as BASE.
  { intros s N. cbn [flat_map]. rewrite app_nil_r. pose proof (like_frac s N) as L.
    unfold mantissa_end. assert (span is_digit (rest s) = ([], rest s)) as ->.
    { destruct (rest s) as [|c r]; [reflexivity|]. cbn in *. now destruct (is_digit c). }
    destruct (match_frac (rest s)) as [[|d fr] r2]; cbn [fst snd option_map] in *; [exact L|].
    eapply like_weaken; [exact L|]. intros t D. now left. }
  induction n as [|n IH]; intros s N.
  - apply BASE. destruct (rest s); [intros []|discriminate].
  - cbn [loop_set]. destruct (rest s) as [|c r] eqn:R; [discriminate|]. destruct (is_digit c) eqn:D.
    2: { rewrite <- R. apply BASE. rewrite R. cbn. now rewrite D. }
    injection N as N. rewrite flat_map_app. cbn [flat_map]. rewrite app_nil_r.
    rewrite (run_frac_digit s); [|now rewrite R].
    pose proof (like_plus_set cs_digit is_digit s has_digit) as LP. fold re_digits in LP. rewrite R in LP.
    specialize (IH (upto r s)). cbn [rest upto] in IH. specialize (IH N).
    unfold mantissa_end in *. cbn [span] in *. rewrite D in *.
    pose proof (span_suffix is_digit r) as X. pose proof (span_stop is_digit r) as ST.
    destruct (span is_digit r) as [ints r1] eqn:E. cbn [fst snd] in *. specialize (ST _ _ eq_refl).
    pose proof (frac_none r1) as FN. pose proof (frac_some r1) as FS.
    pose proof (match_frac_suffix r1) as Y.
    destruct (match_frac r1) as [fr r2]. cbn [fst snd] in *.
    assert (suffix r (rest s)) as SR by (rewrite R; apply suffix_cons).
    destruct LP as (tlp & -> & FP). cbn [option_map].
    assert (Forall (fun y => y = upto r2 s \/ digit_or_point (rest y)) (upto r1 s :: tlp)) as BADS.
    { assert (upto r1 s = upto r2 s \/ digit_or_point (rest (upto r1 s))) as A.
      { destruct fr as [|d fr]; [left; now rewrite FN | right; right; now apply FS]. }
      constructor; [exact A|]. eapply Forall_impl; [|exact FP].
      intros y [-> | B]; [exact A | right; now left]. }
    destruct ints as [|i ints]; [destruct fr as [|d fr]|]; cbn [option_map] in IH.
    + unfold like in IH. rewrite IH. cbn [app]. rewrite FN by reflexivity. exists tlp. split; [reflexivity|].
      inversion BADS; subst. rewrite FN in * by reflexivity. assumption.
    + destruct IH as (tl & -> & F). rewrite upto_upto in * by (assumption || (eapply suffix_trans; eassumption)).
      eexists. split; [reflexivity|]. apply Forall_app. split; assumption.
    + destruct IH as (tl & -> & F). rewrite upto_upto in * by (assumption || (eapply suffix_trans; eassumption)).
      eexists. split; [reflexivity|]. apply Forall_app. split; assumption.
Qed.
Lemma opt_sign_skip : forall t, snd (opt_sign t) = skip1 is_sign t.
Proof.
  intros [|c r]; [reflexivity|]. cbn. unfold is_sign. destruct (aeqb c "-"); [reflexivity|]. now destruct (aeqb c "+").
Qed.
Lemma like_exp : forall s, like (run re_exp s) (Some (upto (snd (match_exp (rest s))) s)) (starts cont).
Proof.
  intros s. unfold re_exp, opt. cbn [run].
  match goal with |- like (?A ++ [s]) _ _ => set (L := A) end.
  assert (L = run (RCat (RSet cs_e) (RCat (opt (RSet cs_sign)) re_digits)) s) as EL by reflexivity.
  clearbody L.
  assert (like [s] (Some (upto (rest s) s)) (starts cont)) as STAY by (rewrite upto_self; apply like_one).
  destruct (rest s) as [|c r] eqn:R; cbn [match_exp snd].
  { rewrite EL, (cat_none _ _ s); [exact STAY|]. rewrite (run_set _ _ s has_e), R. reflexivity. }
  fold (is_e c). destruct (is_e c) eqn:C.
  2: { rewrite EL, (cat_none _ _ s); [exact STAY|]. rewrite (run_set _ _ s has_e), R, C. reflexivity. }
  assert (run (RSet cs_e) s = [upto r s]) as R1 by now rewrite (run_set _ _ s has_e), R, C.
  assert (suffix r (rest s)) as SR by (rewrite R; apply suffix_cons).
  pose proof (opt_sign_skip r) as OS. destruct (opt_sign r) as [[b0 ng] r1]. cbn [snd] in OS. subst r1.
  pose proof (like_opt_set cs_sign is_sign (upto r s) has_sign) as L1. cbn [rest upto] in L1.
  rewrite upto_upto in L1 by (assumption || apply skip1_suffix).
  pose proof (like_plus_set cs_digit is_digit (upto (skip1 is_sign r) s) has_digit) as L2. cbn [rest upto] in L2.
  assert (like L (match fst (span is_digit (skip1 is_sign r)) with [] => None
                  | _ => Some (upto (snd (span is_digit (skip1 is_sign r))) s) end) (starts is_digit)) as LL.
  { rewrite EL. eapply like_cat; [rewrite R1; apply (like_one _ (fun _ => False)) | intros y [] |].
    eapply like_cat; [exact L1 | |].
    - apply (refuses_plus _ is_digit _ has_digit). apply (disjoint is_sign is_digit eq_refl).
    - rewrite upto_upto in L2; [exact L2 | eapply suffix_trans; [apply skip1_suffix | exact SR] | apply span_suffix]. }
  destruct (span is_digit (skip1 is_sign r)) as [[|d ds] r2]; cbn [fst snd] in LL |- *.
  - cbn in LL. rewrite LL. exact STAY.
  - destruct LL as (tl & -> & F). eexists. split; [reflexivity|]. apply Forall_app. split.
    + eapply Forall_impl; [|exact F]. intros y [-> | B]; [now left | right].
      revert B. apply (included is_digit cont eq_refl).
    + constructor; [|constructor]. right. rewrite R. cbn. unfold cont. rewrite C. now rewrite !orb_true_r.
Qed.
Lemma match_float_end : forall t,
  match_float t = None /\ mantissa_end (skip1 is_sign t) = None \/
  exists f r2, match_float t = Some (f, snd (match_exp r2)) /\ mantissa_end (skip1 is_sign t) = Some r2.
Proof.
  intros t. unfold match_float, mantissa_end. pose proof (opt_sign_skip t) as OS.
  destruct (opt_sign t) as [[b ng] r0]. cbn [snd] in OS. subst r0.
  destruct (span is_digit (skip1 is_sign t)) as [ints r1]. destruct (match_frac r1) as [fr r2].
  destruct (match_exp r2) as [ex r3] eqn:E.
  destruct ints, fr; [now left | right..]; eexists; exists r2; rewrite E; split; reflexivity.
Qed.
Lemma match_exp_suffix : forall t, suffix (snd (match_exp t)) t.
Proof.
  intros [|c r]; cbn; [apply suffix_refl|]. destruct (aeqb c "e" || aeqb c "E"); [|apply suffix_refl].
  pose proof (opt_sign_skip r) as OS. destruct (opt_sign r) as [[b ng] r1]. cbn in OS. subst r1.
  pose proof (span_suffix is_digit (skip1 is_sign r)) as X.
  destruct (span is_digit (skip1 is_sign r)) as [[|d ds] r2]; [apply suffix_refl|]. cbn in *.
  eapply suffix_trans; [exact X|]. eapply suffix_trans; [apply skip1_suffix | apply suffix_cons].
Qed.
Lemma match_float_suffix : forall t f r, match_float t = Some (f, r) -> suffix r t.
Proof.
  intros t f r H. destruct (match_float_end t) as [(E & _) | (f' & r2 & E & M)]; [congruence|].
  rewrite E in H. injection H as _ <-. eapply suffix_trans; [apply match_exp_suffix|].
  eapply suffix_trans; [apply mantissa_suffix; exact M | apply skip1_suffix].
Qed.
(** The pattern of a number finds what [match_float] finds, and any other way to match leaves a text
    that begins with a digit, a point or an e. *)
Theorem like_float : forall s,
  like (run re_float s) (option_map (fun fr => upto (snd fr) s) (match_float (rest s))) (starts cont).
Proof.
  intros s. unfold re_float.
  pose proof (like_opt_set cs_sign is_sign s has_sign) as L1.
  set (s1 := upto (skip1 is_sign (rest s)) s) in *.
  assert (refuses (RCat (RStar (RSet cs_digit)) (RCat (opt (RSet cs_point)) (RCat re_digits re_exp))) (starts is_sign)) as RF.
  { apply (refuses_star _ is_digit _ _ has_digit); [apply (disjoint is_sign is_digit eq_refl)|].
    apply (refuses_opt _ is_point _ _ has_point); [apply (disjoint is_sign is_point eq_refl)|].
    apply refuses_cat. apply (refuses_plus _ is_digit _ has_digit). apply (disjoint is_sign is_digit eq_refl). }
  eapply like_cat; [exact L1 | exact RF |]. clear L1 RF.
  assert (run (RCat (RStar (RSet cs_digit)) (RCat (opt (RSet cs_point)) (RCat re_digits re_exp))) s1 =
          run (RCat (RCat (RStar (RSet cs_digit)) re_frac) re_exp) s1) as ->.
  { rewrite <- (cat_assoc (RStar (RSet cs_digit)) re_frac re_exp). apply cat_cong. intros x.
    exact (cat_assoc (opt (RSet cs_point)) re_digits re_exp x). }
  pose proof (like_mantissa s1) as LM. cbn [rest upto s1] in LM. fold s1 in LM.
  pose proof (mantissa_suffix (skip1 is_sign (rest s))) as MS.
  destruct (match_float_end (rest s)) as [(E & M) | (f & r2 & E & M)]; rewrite E; rewrite M in LM; cbn [option_map snd] in *.
  - apply cat_none. exact LM.
  - specialize (MS _ M).
    assert (upto r2 s1 = upto r2 s) as U by (unfold s1; apply upto_upto; [apply skip1_suffix | exact MS]).
    rewrite U in LM. eapply like_cat_all; [exact LM | |].
    + intros y B. assert (starts cont (rest y)) as Y.
      { destruct B as [B | B]; [revert B; apply (included is_digit cont eq_refl) | revert B; apply (included is_point cont eq_refl)]. }
      assert (~ starts is_e (rest y)) as NE.
      { destruct B as [B | B]; revert B; [apply (disjoint is_digit is_e eq_refl) | apply (disjoint is_point is_e eq_refl)]. }
      assert (run re_exp y = [y]) as ->.
      { unfold re_exp, opt. change (run (RCat (RSet cs_e) (RCat (opt (RSet cs_sign)) re_digits)) y ++ [y] = [y]).
        rewrite (cat_none _ _ y); [reflexivity|]. apply (refuses_set _ is_e (fun t => ~ starts is_e t) has_e); [tauto | exact NE]. }
      now constructor.
    + pose proof (like_exp (upto r2 s)) as L. cbn [rest upto] in L.
      rewrite upto_upto in L; [exact L | eapply suffix_trans; [exact MS | apply skip1_suffix] | apply match_exp_suffix].
Qed.
