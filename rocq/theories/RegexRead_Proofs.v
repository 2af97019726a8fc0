(** Reading a text by a pattern: rules, and the patterns of constants.py one by one. *)
Require Import ZArith QArith Arith Ascii String List Bool Lia.
Require Import Verif.Base Verif.Regex_Model Verif.Regex_Proofs.
Import ListNotations.
Open Scope nat_scope.

(** When [r] is left of the text [t] that was begun at position [p]. *)
Definition at_ (t : text) (p : nat) (r : text) (l : list (nat * text)) : st :=
  mkSt (p + (List.length t - List.length r)) r l.
(** What was read from [a] on when [b] is left. *)
Definition grab (a b : text) : text := firstn (List.length a - List.length b) a.
Lemma grab_app : forall a b, grab (a ++ b) b = a.
Proof. intros. unfold grab. rewrite app_length, Nat.add_sub. now rewrite firstn_app, Nat.sub_diag, firstn_all, app_nil_r. Qed.
Lemma grab_self : forall a, grab a a = [].
Proof. intros. apply (grab_app [] a). Qed.
Lemma grab_split : forall a b, suffix b a -> a = grab a b ++ b.
Proof. intros a b (x & ->). now rewrite grab_app. Qed.
Lemma at_upto : forall t p r l r', suffix r t -> suffix r' r -> upto r' (at_ t p r l) = at_ t p r' l.
Proof.
  intros. unfold upto, at_. cbn. apply suffix_len in H, H0. f_equal. lia.
Qed.
Lemma at_cap : forall t p r l k r' l', suffix r t -> suffix r' r ->
  cap k (at_ t p r l) (at_ t p r' l') = at_ t p r' ((k, grab r r') :: l').
Proof.
  intros. unfold cap, at_, grab. cbn [pos rest caps]. apply suffix_len in H, H0.
  replace (p + (List.length t - List.length r') - (p + (List.length t - List.length r)))
    with (List.length r - List.length r') by lia. reflexivity.
Qed.

Definition reads (a : re) (r : text) (l : list (nat * text)) (o : option (text * list (nat * text))) (bad : text -> Prop) : Prop :=
  match o with Some (r', _) => suffix r' r | None => True end /\
  forall t p, suffix r t -> like (run a (at_ t p r l)) (option_map (fun x => at_ t p (fst x) (snd x)) o) bad.

Lemma reads_match_at : forall a s o bad p, reads a s [] o bad ->
  match_at a p s = option_map (fun x => ((0, grab s (fst x)) :: snd x, fst x)) o.
Proof.
  intros a s o bad p (_ & H). specialize (H s p (suffix_refl s)). unfold match_at.
  assert (mkSt p s [] = at_ s p s []) as -> by (unfold at_; rewrite Nat.sub_diag; now rewrite Nat.add_0_r).
  destruct o as [[r l]|]; cbn in *.
  - destruct H as (tl & -> & _). unfold at_, grab. cbn [pos rest caps].
    replace (p + (List.length s - List.length r) - p) with (List.length s - List.length r) by lia. reflexivity.
  - now rewrite H.
Qed.
Lemma reads_weaken : forall a r l o (b b' : text -> Prop), reads a r l o b -> (forall t, b t -> b' t) -> reads a r l o b'.
Proof. intros a r l o b b' (S & H) I. split; [exact S|]. intros t p X. eapply like_weaken; [now apply H | exact I]. Qed.
Lemma reads_cat : forall a b r l r1 l1 bad o bad',
  reads a r l (Some (r1, l1)) bad -> refuses b bad -> reads b r1 l1 o bad' -> reads (RCat a b) r l o bad'.
Proof.
  intros a b r l r1 l1 bad o bad' (S1 & H1) R (S2 & H2). split.
  - destruct o as [[r' l']|]; [|exact I]. eapply suffix_trans; eassumption.
  - intros t p X. eapply like_cat; [apply (H1 t p X) | exact R |]. cbn. apply H2. eapply suffix_trans; eassumption.
Qed.
Lemma reads_cat_all : forall a b r l r1 l1 r2 l2 bad bad',
  reads a r l (Some (r1, l1)) bad -> after_bad b bad bad' -> reads b r1 l1 (Some (r2, l2)) bad' ->
  reads (RCat a b) r l (Some (r2, l2)) bad'.
Proof.
  intros a b r l r1 l1 r2 l2 bad bad' (S1 & H1) R (S2 & H2). split.
  - eapply suffix_trans; eassumption.
  - intros t p X. eapply like_cat_all; [apply (H1 t p X) | exact R |]. cbn. apply (H2 t p). eapply suffix_trans; eassumption.
Qed.
Lemma reads_none : forall a r l bad, (forall t p, suffix r t -> run a (at_ t p r l) = []) -> reads a r l None bad.
Proof. intros a r l bad H. split; [exact I|]. exact H. Qed.
Lemma reads_cat_none : forall a b r l bad bad', reads a r l None bad -> reads (RCat a b) r l None bad'.
Proof. intros a b r l bad bad' (_ & H). split; [exact I|]. intros t p X. apply cat_none. now apply H. Qed.
Lemma reads_refused : forall b r l (bad bad' : text -> Prop), refuses b bad -> bad r -> reads b r l None bad'.
Proof. intros b r l bad bad' R B. apply reads_none. intros t p _. now apply R. Qed.
Lemma reads_group : forall k a r l o bad, reads a r l o bad ->
  reads (RGroup k a) r l (option_map (fun x => (fst x, (k, grab r (fst x)) :: snd x)) o) bad.
Proof.
  intros k a r l o bad (S & H). split.
  - now destruct o as [[r' l']|].
  - intros t p X. specialize (H t p X). apply (like_group k) in H. destruct o as [[r' l']|]; [|exact H].
    cbn [option_map fst snd] in *. rewrite at_cap in H; assumption.
Qed.
Lemma reads_set : forall cs q r l bad, (forall c, set_has cs c = q c) ->
  reads (RSet cs) r l (match r with c :: r' => if q c then Some (r', l) else None | [] => None end) bad.
Proof.
  intros cs q r l bad E. split.
  - destruct r as [|c r]; [exact I|]. destruct (q c); [apply suffix_cons | exact I].
  - intros t p X. rewrite (run_set cs q _ E). cbn [rest at_]. destruct r as [|c r]; [reflexivity|].
    destruct (q c); [|reflexivity]. rewrite at_upto by (assumption || apply suffix_cons). apply like_one.
Qed.
Lemma reads_opt : forall cs q r l, (forall c, set_has cs c = q c) ->
  reads (opt (RSet cs)) r l (Some (skip1 q r, l)) (starts q).
Proof.
  intros cs q r l E. split; [apply skip1_suffix|]. intros t p X.
  pose proof (like_opt_set cs q (at_ t p r l) E) as L. cbn [rest at_] in L.
  rewrite at_upto in L by (assumption || apply skip1_suffix). exact L.
Qed.
Lemma reads_star : forall cs q r l, (forall c, set_has cs c = q c) ->
  reads (RStar (RSet cs)) r l (Some (snd (span q r), l)) (starts q).
Proof.
  intros cs q r l E. split; [apply span_suffix|]. intros t p X.
  pose proof (like_star_set cs q (at_ t p r l) E) as L. cbn [rest at_] in L.
  rewrite at_upto in L by (assumption || apply span_suffix). exact L.
Qed.
Lemma reads_plus : forall cs q r l, (forall c, set_has cs c = q c) ->
  reads (RCat (RSet cs) (RStar (RSet cs))) r l
    (match fst (span q r) with [] => None | _ => Some (snd (span q r), l) end) (starts q).
Proof.
  intros cs q r l E. split; [destruct (fst (span q r)); [exact I | apply span_suffix]|]. intros t p X.
  pose proof (like_plus_set cs q (at_ t p r l) E) as L. cbn [rest at_] in L.
  destruct (fst (span q r)); [exact L|]. rewrite at_upto in L by (assumption || apply span_suffix). exact L.
Qed.
Lemma reads_float : forall r l, reads re_float r l (option_map (fun fr => (snd fr, l)) (match_float r)) (starts cont).
Proof.
  intros r l. pose proof (match_float_suffix r) as MS. split.
  - destruct (match_float r) as [[f r']|]; [apply (MS f); reflexivity | exact I].
  - intros t p X. pose proof (like_float (at_ t p r l)) as L. cbn [rest at_] in L.
    destruct (match_float r) as [[f r']|]; cbn [option_map fst snd] in *; [|exact L].
    rewrite at_upto in L; [exact L | assumption | now apply (MS f)].
Qed.
Lemma reads_empty : forall r l bad, reads REmpty r l (Some (r, l)) bad.
Proof. intros. split; [apply suffix_refl|]. intros. apply like_one. Qed.
(** A choice of which the first part does not match. *)
Lemma reads_alt_r : forall a b r l bad o bad', reads a r l None bad -> reads b r l o bad' -> reads (RAlt a b) r l o bad'.
Proof.
  intros a b r l bad o bad' (_ & H1) (S & H2). split; [exact S|]. intros t p X. cbn [run].
  specialize (H1 t p X). cbn in H1. rewrite H1. now apply H2.
Qed.
(** A choice of which the first part matches and the second leaves something bad or nothing. *)
Lemma reads_alt_l : forall a b r l x bad (bad' : text -> Prop), reads a r l (Some x) bad ->
  (forall u, bad u -> bad' u) ->
  (forall t p, suffix r t -> Forall (fun y => bad' (rest y)) (run b (at_ t p r l))) ->
  reads (RAlt a b) r l (Some x) bad'.
Proof.
  intros a b r l [r1 l1] bad bad' (S & H) I F. split; [exact S|]. intros t p X. cbn [run].
  destruct (H t p X) as (tl & -> & G). eexists. split; [reflexivity|]. apply Forall_app. split.
  - eapply Forall_impl; [|exact G]. intros y [E | B]; [now left | right; now apply I].
  - eapply Forall_impl; [|apply (F t p X)]. intros y B. now right.
Qed.

(** A word, letter by letter. *)
Definition chr_ (c : ascii) : re := RSet (mkSet false [IChar c]).
Fixpoint word (w : text) : re :=
  match w with [] => REmpty | c :: w' => cat (chr_ c) (word w') end.
Lemma has_char : forall x c, set_has (mkSet false [IChar x]) c = aeqb c x.
Proof. intros. unfold set_has. cbn. now rewrite orb_false_r; destruct (aeqb c x). Qed.
Fixpoint strip (p s : text) : option text :=
  match p, s with
  | [], _ => Some s
  | x :: p', y :: s' => if aeqb x y then strip p' s' else None
  | _ :: _, [] => None
  end.
Lemma strip_app : forall w s r, strip w s = Some r -> s = w ++ r.
Proof.
  induction w as [|c w IH]; intros s r E; cbn in E; [now injection E as ->|].
  destruct s as [|d s]; [discriminate|]. destruct (aeqb c d) eqn:C; [|discriminate].
  apply Ascii.eqb_eq in C. subst d. cbn. f_equal. now apply IH.
Qed.
Lemma run_cat_eq : forall a b s, run (cat a b) s = run (RCat a b) s.
Proof. intros a b s. destruct b; try reflexivity. cbn. now induction (run a s) as [|x l IH]; [|cbn; rewrite <- IH]. Qed.
Lemma reads_eq : forall a b r l o bad, (forall s, run a s = run b s) -> reads b r l o bad -> reads a r l o bad.
Proof. intros a b r l o bad E (S & H). split; [exact S|]. intros t p X. rewrite E. now apply H. Qed.
Lemma reads_word : forall w r l bad, reads (word w) r l (option_map (fun r' => (r', l)) (strip w r)) bad.
Proof.
  induction w as [|c w IH]; intros r l bad; [apply reads_empty|].
  apply (reads_eq _ (RCat (chr_ c) (word w))); [apply run_cat_eq|].
  pose proof (reads_set _ _ r l (fun _ => False) (has_char c)) as S.
  destruct r as [|d r]; [now apply (reads_cat_none _ _ _ _ (fun _ => False))|].
  cbn [strip]. replace (aeqb c d) with (aeqb d c).
  2: { apply Ascii.eqb_sym. }
  destruct (aeqb d c).
  - eapply reads_cat; [exact S | intros y [] | apply IH].
  - now apply (reads_cat_none _ _ _ _ (fun _ => False)).
Qed.

(** * The text of a number *)
Lemma span_app_stop : forall p a b, forallb p a = true -> ~ starts p b -> span p (a ++ b) = (a, b).
Proof.
  intros p a b A N. induction a as [|c a IH]; cbn in *.
  - destruct b as [|d b]; [reflexivity|]. cbn in *. now destruct (p d).
  - apply andb_prop in A as [C A]. now rewrite C, IH.
Qed.
Lemma exp_parts : forall t ex r, match_exp t = (ex, r) ->
  exists x, t = x ++ r /\ match_exp x = (ex, []) /\ ~ starts (fun c => is_digit c || is_point c) x.
Proof.
  intros t ex r H. destruct t as [|c t]; cbn in H.
  { injection H as <- <-. exists []. repeat split; try reflexivity. tauto. }
  destruct (aeqb c "e" || aeqb c "E") eqn:C.
  2: { injection H as <- <-. exists []. repeat split; try reflexivity. tauto. }
  destruct (opt_sign t) as [[b ng] r1] eqn:OS.
  destruct (span is_digit r1) as [[|d ds] r2] eqn:SP.
  { injection H as <- <-. exists []. repeat split; try reflexivity. tauto. }
  injection H as <- <-. pose proof (span_app _ _ _ _ SP) as A. pose proof (span_all _ _ _ _ SP) as B.
  assert (~ starts (fun c => is_digit c || is_point c) (c :: grab (c :: t) r2)) as NS.
  { assert (starts is_e (c :: grab (c :: t) r2)) as E by exact C. revert E.
    apply disjoint. reflexivity. }
  assert (span is_digit (d :: ds) = (d :: ds, [])) as SP'.
  { rewrite <- (app_nil_r (d :: ds)) at 1. apply span_app_stop; [exact B | intros []]. }
  destruct t as [|e t].
  { cbn in OS. injection OS as <- <- <-. discriminate. }
  cbn in OS. destruct (aeqb e "-") eqn:E1; [|destruct (aeqb e "+") eqn:E2];
    injection OS as <- <- <-.
  - exists (c :: e :: d :: ds). subst t. repeat split; [|exact NS].
    unfold match_exp. rewrite C. unfold opt_sign. rewrite E1. rewrite SP'. reflexivity.
  - exists (c :: e :: d :: ds). subst t. repeat split; [|exact NS].
    unfold match_exp. rewrite C. unfold opt_sign. rewrite E1, E2. rewrite SP'. reflexivity.
  - exists (c :: d :: ds). rewrite A. repeat split; [|exact NS].
    unfold match_exp. rewrite C. unfold opt_sign.
    assert (e = d) as -> by (cbn in A; congruence). rewrite E1, E2, SP'. reflexivity.
Qed.
Lemma frac_parts : forall t fr r, match_frac t = (fr, r) -> ~ starts is_digit t ->
  forall x, (fr = [] -> True) -> ~ starts (fun c => is_digit c || is_point c) x ->
  exists y, t = y ++ r /\ match_frac (y ++ x) = (fr, x) /\ ~ starts is_digit (y ++ x).
Proof.
  intros t fr r H ND x _ NX.
  assert (~ starts is_digit x) as NX'.
  { intros X. apply NX. destruct x as [|c x]; [destruct X|]. cbn in *. now rewrite X. }
  assert (match_frac x = ([], x)) as MX.
  { destruct x as [|c x]; [reflexivity|]. cbn in *. unfold is_point in NX.
    destruct (aeqb c "."); [now rewrite orb_true_r in NX | reflexivity]. }
  destruct t as [|c t]; cbn in H.
  { injection H as <- <-. exists []. now repeat split. }
  destruct (aeqb c ".") eqn:C.
  2: { injection H as <- <-. exists []. now repeat split. }
  destruct (span is_digit t) as [[|d ds] r'] eqn:SP.
  { injection H as <- <-. exists []. now repeat split. }
  injection H as <- <-. exists (c :: d :: ds). pose proof (span_app _ _ _ _ SP) as A.
  pose proof (span_all _ _ _ _ SP) as B. split; [now rewrite A|]. split.
  - change (match_frac (c :: (d :: ds) ++ x) = (d :: ds, x)). cbn [match_frac]. rewrite C.
    rewrite (span_app_stop is_digit (d :: ds) x B NX'). reflexivity.
  - exact ND.
Qed.
Lemma float_grab : forall s f r, match_float s = Some (f, r) -> match_float (grab s r) = Some (f, []).
Proof.
  intros s f r H. pose proof (match_float_suffix s f r H) as SF.
  assert (exists z, s = z ++ r /\ match_float z = Some (f, [])) as (z & E & M).
  2: { subst s. now rewrite grab_app. }
  clear SF. unfold match_float in H. destruct (opt_sign s) as [[b ng] r0] eqn:OS.
  destruct (span is_digit r0) as [ints r1] eqn:SP. destruct (match_frac r1) as [fr r2] eqn:MF.
  destruct (match_exp r2) as [ex r3] eqn:ME.
  assert (Some (mkF ng ints fr ex, r3) = Some (f, r) /\ (ints <> [] \/ fr <> [])) as (H' & NE).
  { destruct ints as [|i ints].
    - destruct fr as [|d fr]; [discriminate|]. split; [exact H | right; discriminate].
    - split; [exact H | left; discriminate]. }
  injection H' as <- <-. clear H.
  destruct (exp_parts _ _ _ ME) as (x & -> & MX & NX).
  destruct (frac_parts _ _ _ MF (span_stop _ _ _ _ SP) x (fun _ => I) NX) as (y & -> & MY & NY).
  pose proof (span_app _ _ _ _ SP) as A. pose proof (span_all _ _ _ _ SP) as B. subst r0.
  pose proof (span_app_stop is_digit ints (y ++ x) B NY) as SP'.
  assert (forall sg, (forall u, opt_sign (sg ++ u) = (b, ng, u)) ->
     exists z, sg ++ ints ++ y ++ x ++ r3 = z ++ r3 /\ match_float z = Some (mkF ng ints fr ex, [])) as FIN.
  { intros sg S. exists (sg ++ ints ++ y ++ x). split; [now rewrite !app_assoc|].
    unfold match_float. rewrite S, SP', MY, MX. destruct ints, fr; [now destruct NE | reflexivity..]. }
  destruct s as [|c s].
  { cbn in OS. injection OS as <- <- E. symmetry in E. apply app_eq_nil in E as [-> E]. apply app_eq_nil in E as [-> E].
    apply app_eq_nil in E as [-> ->]. exists []. split; [reflexivity|].
    unfold match_float. cbn in *. injection MY as <-. now destruct NE. }
  cbn in OS. destruct (aeqb c "-") eqn:E1; [|destruct (aeqb c "+") eqn:E2]; injection OS as <- <- E.
  - subst s. apply (FIN [c]). intros u. cbn. now rewrite E1.
  - subst s. apply (FIN [c]). intros u. cbn. now rewrite E1, E2.
  - rewrite E. exists (ints ++ y ++ x). split; [now rewrite !app_assoc|].
    unfold match_float.
    assert (opt_sign (ints ++ y ++ x) = (false, false, ints ++ y ++ x)) as ->.
    { destruct (ints ++ y ++ x) as [|c' u] eqn:Q; [reflexivity|].
      assert (c' = c) as ->.
      { rewrite !app_assoc in E. rewrite app_assoc in Q. rewrite Q in E. cbn in E. congruence. }
      cbn. now rewrite E1, E2. }
    rewrite SP', MY, MX. destruct ints, fr; [now destruct NE | reflexivity..].
Qed.
Lemma float_of_grab : forall s f r, match_float s = Some (f, r) -> py_float (grab s r) = Ok (fnum_val f).
Proof. intros s f r H. unfold py_float. now rewrite (float_grab s f r H). Qed.
