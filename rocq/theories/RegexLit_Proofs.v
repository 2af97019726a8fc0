(** What the number pattern matches, against the literals of Text_Spec. *)
Require Import ZArith QArith Ascii String List Bool Lia.
Require Import Verif.Base Verif.Text_Spec Verif.Text_Proofs.
Import ListNotations.
Local Open Scope nat_scope.

Lemma digits_dtext : forall s, forallb is_digit s = true -> exists ds, Forall is_dig ds /\ s = dtext ds.
Proof.
  induction s as [|c s IH]; intros H.
  - exists []. split; [constructor | reflexivity].
  - cbn in H. apply andb_true_iff in H as [H1 H2]. destruct (IH H2) as (ds & F & ->).
    apply is_digit_dchar in H1 as (d & Hd & ->). exists (d :: ds). split; [now constructor | reflexivity].
Qed.

Lemma opt_sign_spec : forall s, exists g b r, opt_sign s = (b, match g with SMinus => true | _ => false end, r) /\ s = sgn_text g ++ r.
Proof.
  intros [|x r]; [exists SNone, false, []; auto|]. cbn [opt_sign].
  destruct (aeqb x "-") eqn:X1; [apply aeqb_true in X1; subst; exists SMinus, true, r; auto|].
  destruct (aeqb x "+") eqn:X2; [apply aeqb_true in X2; subst; exists SPlus, true, r; auto|].
  exists SNone, false, (x :: r); auto.
Qed.
Lemma match_exp_spec : forall s e r, match_exp s = (e, r) ->
  (e = None /\ s = r) \/
  exists (up : bool) g ds, Forall is_dig ds /\ ds <> [] /\ e = Some (match g with SMinus => true | _ => false end, dtext ds) /\
    s = (if up then "E"%char else "e"%char) :: sgn_text g ++ dtext ds ++ r.
Proof.
  intros [|c s] e r H; cbn [match_exp] in H; [inversion H; auto|].
  destruct (aeqb c "e" || aeqb c "E") eqn:C; [|inversion H; auto].
  destruct (opt_sign_spec s) as (g & b & r1 & E & ->). rewrite E in H.
  destruct (span is_digit r1) as [ds r2] eqn:S. apply span_spec in S as (-> & F & _).
  destruct ds as [|d ds]; [inversion H; auto|]. injection H as <- <-. right.
  apply digits_dtext in F as (zs & Fz & Ez). rewrite Ez.
  exists (aeqb c "E"), g, zs. split; [exact Fz|]. split; [intros ->; discriminate|]. split; [reflexivity|].
  apply orb_true_iff in C as [C|C]; apply aeqb_true in C; subst; reflexivity.
Qed.
Lemma match_frac_spec : forall s f r, match_frac s = (f, r) ->
  (f = [] /\ s = r) \/ exists ds, Forall is_dig ds /\ ds <> [] /\ f = dtext ds /\ s = "."%char :: dtext ds ++ r.
Proof.
  intros [|c s] f r H; cbn [match_frac] in H; [inversion H; auto|].
  destruct (aeqb c ".") eqn:C; [|inversion H; auto]. apply aeqb_true in C; subst c.
  destruct (span is_digit s) as [ds r2] eqn:S. apply span_spec in S as (-> & F & _).
  destruct ds as [|d ds]; [inversion H; auto|]. injection H as <- <-. right.
  apply digits_dtext in F as (zs & Fz & Ez). exists zs. rewrite Ez. repeat split; auto. intros ->; discriminate.
Qed.

(** A match is a literal. *)
Lemma match_float_is_lit : forall s f r, match_float s = Some (f, r) ->
  exists l, lit_ok l /\ s = lit_text l ++ r /\ f = fnum_of l.
Proof.
  intros s f r H. unfold match_float in H.
  destruct (opt_sign_spec s) as (g & b & r0 & E & ->). rewrite E in H. clear E.
  destruct (span is_digit r0) as [is_ r1] eqn:S. apply span_spec in S as (-> & F & _).
  apply digits_dtext in F as (zi & Fi & ->).
  destruct (match_frac r1) as [fr r2] eqn:M. destruct (match_exp r2) as [ex r3] eqn:X.
  apply match_exp_spec in X.
  assert (exists e, match e with None => True | Some (_, _, ds) => Forall is_dig ds /\ ds <> [] end /\
    ex = (match e with None => None | Some (_, g, ds) => Some (match g with SMinus => true | _ => false end, dtext ds) end) /\
    r2 = (match e with None => [] | Some (up, g, ds) => (if up : bool then "E"%char else "e"%char) :: sgn_text g ++ dtext ds end) ++ r3) as (e & Fe & Ee & Er).
  { destruct X as [(-> & ->)|(up & g' & ds & A & B & -> & ->)]; [exists None; auto|].
    exists (Some (up, g', ds)). split; [auto|]. split; [reflexivity|]. cbn. now rewrite <- app_assoc. }
  apply match_frac_spec in M. destruct M as [(-> & ->)|(ds & A & B & -> & ->)].
  - destruct zi as [|z zi]; [discriminate|]. cbn in H. injection H as <- <-.
    exists (mkLit g (z :: zi) [] e). split; [|split].
    + split; [exact Fi|]. split; [constructor|]. split; [left; discriminate | exact Fe].
    + unfold lit_text; cbn [l_sgn l_int l_frac l_exp]. rewrite Er, <- !app_assoc. reflexivity.
    + unfold fnum_of, exp_of; cbn [l_sgn l_int l_frac l_exp]. now rewrite Ee.
  - destruct ds as [|d ds]; [congruence|].
    assert (Some (mkF (match g with SMinus => true | _ => false end) (dtext zi) (dtext (d :: ds)) ex, r3) = Some (f, r)) as H'.
    { rewrite <- H. destruct zi; reflexivity. }
    clear H. injection H' as <- <-.
    exists (mkLit g zi (d :: ds) e). split; [|split].
    + split; [exact Fi|]. split; [exact A|]. split; [right; discriminate | exact Fe].
    + unfold lit_text; cbn [l_sgn l_int l_frac l_exp]. rewrite Er, <- !app_assoc. reflexivity.
    + unfold fnum_of, exp_of; cbn [l_sgn l_int l_frac l_exp]. now rewrite Ee.
Qed.

(** No literal at the start of the text is longer. *)
Lemma span_longer : forall p a b, forallb p a = true -> exists x, fst (span p (a ++ b)) = a ++ x /\ b = x ++ snd (span p (a ++ b)).
Proof.
  induction a as [|c a IH]; intros b H; cbn [app span] in *.
  - exists (fst (span p b)). split; [reflexivity|]. destruct (span p b) as [u v] eqn:E. now apply span_spec in E.
  - cbn in H. apply andb_true_iff in H as [H1 H2]. rewrite H1. destruct (IH b H2) as (x & E1 & E2).
    destruct (span p (a ++ b)) as [u v]. cbn in *. exists x. now rewrite E1.
Qed.
Lemma match_exp_shorter : forall s, List.length (snd (match_exp s)) <= List.length s.
Proof.
  intros s. destruct (match_exp s) as [e r] eqn:E. cbn. apply match_exp_spec in E as [(_ & ->)|(up & g & ds & _ & _ & _ & ->)]; [lia|].
  cbn. rewrite !app_length. lia.
Qed.
Lemma match_frac_shorter : forall s, List.length (snd (match_frac s)) <= List.length s.
Proof.
  intros s. destruct (match_frac s) as [e r] eqn:E. cbn. apply match_frac_spec in E as [(_ & ->)|(ds & _ & _ & _ & ->)]; [lia|].
  cbn. rewrite !app_length. lia.
Qed.
Definition exp_text (e : option (bool * sgn * list Z)) : text :=
  match e with None => [] | Some (up, s, ds) => (if up : bool then "E"%char else "e"%char) :: sgn_text s ++ dtext ds end.
Lemma match_exp_longest : forall e r,
  match e with None => True | Some (_, _, ds) => Forall is_dig ds /\ ds <> [] end ->
  List.length (snd (match_exp (exp_text e ++ r))) <= List.length r.
Proof.
  intros [[[up g] ds]|] r H; [|apply match_exp_shorter]. destruct H as (F & N).
  cbn [exp_text app]. cbn [match_exp].
  assert (forall up : bool, aeqb (if up then "E"%char else "e"%char) "e" || aeqb (if up then "E"%char else "e"%char) "E" = true) as -> by now intros [].
  destruct (opt_sign_text g (dtext ds ++ r)) as [b E]; [intros; eapply dtext_sign_free; eauto|].
  rewrite <- app_assoc. change text with (list ascii) in *. rewrite E.
  destruct (span_longer is_digit (dtext ds) r (dtext_digits ds F)) as (x & E1 & E2).
  destruct (span is_digit (dtext ds ++ r)) as [u v]. cbn in E1, E2. subst u r.
  destruct ds as [|d ds]; [congruence|]. cbn [dtext map app]. cbn. rewrite app_length. lia.
Qed.
Lemma exp_no_digit : forall e r,
  match e with None => False | Some _ => True end -> (match exp_text e ++ r with c :: _ => is_digit c | [] => false end) = false.
Proof. intros [[[[] g] ds]|] r []; reflexivity. Qed.
Lemma exp_no_point : forall e r,
  match e with None => False | Some _ => True end -> match_frac (exp_text e ++ r) = ([], exp_text e ++ r).
Proof. intros [[[[] g] ds]|] r []; reflexivity. Qed.

Lemma match_float_longest : forall l r, lit_ok l ->
  exists f r', match_float (lit_text l ++ r) = Some (f, r') /\ List.length r' <= List.length r.
Proof.
  intros l r (Fi & Ff & Ne & Fe). 
  assert (lit_text l = sgn_text (l_sgn l) ++ dtext (l_int l) ++
    (match l_frac l with [] => [] | fs => "."%char :: dtext fs end) ++ exp_text (l_exp l)) as -> by reflexivity.
  unfold match_float. rewrite <- !app_assoc.
  set (FT := match l_frac l with [] => [] | z :: l0 => "."%char :: dtext (z :: l0) end).
  destruct (opt_sign_text (l_sgn l) (dtext (l_int l) ++ FT ++ exp_text (l_exp l) ++ r)) as [b Hb].
  { intros c r' E. destruct (l_int l) as [|i is] eqn:EI.
    - destruct Ne as [Ne|Ne]; [congruence|]. unfold FT in E. destruct (l_frac l); [congruence|].
      simpl in E. inversion E; subst. split; discriminate.
    - eapply dtext_sign_free; [ | | exact E]; auto. congruence. }
  unfold text in *. rewrite Hb. clear Hb b.
  pose proof (dtext_digits _ Fi) as Di. pose proof (dtext_digits _ Ff) as Df.
  destruct (l_frac l) as [|d ds] eqn:EF; unfold FT; clear FT.
  - (* no fraction *)
    destruct Ne as [Ne|Ne]; [|congruence]. cbn [app].
    destruct (l_exp l) as [e|] eqn:EE.
    + pose proof (exp_no_digit (Some e) r I) as ND.
      rewrite (span_app _ _ _ Di ND), (exp_no_point (Some e) r I).
      destruct (l_int l) as [|z zi]; [congruence|].
      destruct (match_exp (exp_text (Some e) ++ r)) as [ex r3] eqn:X.
      eexists. exists r3. split; [reflexivity|]. pose proof (match_exp_longest (Some e) r Fe) as L. now rewrite X in L.
    + cbn [exp_text app]. destruct (span_longer is_digit (dtext (l_int l)) r Di) as (x & E1 & E2).
      destruct (span is_digit (dtext (l_int l) ++ r)) as [u v]. cbn in E1, E2. subst u r.
      destruct (match_frac v) as [fr r2] eqn:M. destruct (match_exp r2) as [ex r3] eqn:X.
      pose proof (match_frac_shorter v) as L1. pose proof (match_exp_shorter r2) as L2. rewrite M in L1. rewrite X in L2. cbn in L1, L2.
      destruct (l_int l) as [|z zi]; [congruence|]. cbn. eexists. exists r3. split; [reflexivity|]. rewrite app_length. lia.
  - assert (span is_digit (dtext (l_int l) ++ ("."%char :: dtext (d :: ds)) ++ exp_text (l_exp l) ++ r)
      = (dtext (l_int l), ("."%char :: dtext (d :: ds)) ++ exp_text (l_exp l) ++ r)) as -> by now apply span_app.
    cbn [app match_frac]. change (aeqb "." ".") with true. cbn iota.
    destruct (span_longer is_digit (dtext (d :: ds)) (exp_text (l_exp l) ++ r) Df) as (x & E1 & E2).
    assert (match l_exp l with None => True | Some _ => x = [] end) as NX.
    { destruct (l_exp l) as [e|] eqn:EE; [|exact I].
      rewrite (span_app _ _ _ Df (exp_no_digit (Some e) r I)) in E1. cbn [fst] in E1.
      rewrite <- (app_nil_r (dtext (d :: ds))) in E1 at 1. now apply app_inv_head in E1. }
    destruct (span is_digit (dtext (d :: ds) ++ exp_text (l_exp l) ++ r)) as [u v] eqn:S. cbn [fst snd] in E1, E2.
    subst u. cbn [dtext map app].
    assert (exists ex r3, match_exp v = (ex, r3) /\ List.length r3 <= List.length r) as (ex & r3 & X & L).
    { destruct (match_exp v) as [ex r3] eqn:X. exists ex, r3. split; [reflexivity|].
      destruct (l_exp l) as [e|].
      - subst x. cbn [app] in E2. subst v. pose proof (match_exp_longest (Some e) r Fe) as L. now rewrite X in L.
      - cbn [exp_text app] in E2. subst r. pose proof (match_exp_shorter v) as L. rewrite X in L. cbn in L. rewrite app_length. lia. }
    rewrite X. destruct (dtext (l_int l)); eexists; exists r3; (split; [reflexivity | exact L]).
Qed.
