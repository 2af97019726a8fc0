(** Proofs about instructions that lack numbers. *)
Require Import ZArith QArith Qcanon Ascii String List Bool Lia.
Require Import Verif.Base Verif.Path_Model Verif.PathText_Model Verif.Text_Spec Verif.Text_Proofs Verif.PathText_Spec Verif.PathDraw_Spec Verif.PathText_Proofs Verif.PathShort_Spec.
Import ListNotations.
Open Scope Z_scope.

Lemma barren_facts : forall u, barren u -> match_float (drop_sep u) = None /\ starts_z (drop_sep u) = false.
Proof.
  intros u B. destruct (drop_sep_split u) as (w & W & E). destruct (B w _ W E) as [N Z]. split.
  - destruct (match_float (drop_sep u)) as [[f r]|] eqn:M; [|reflexivity]. exfalso. apply N. destruct (match_float_sound _ _ _ M) as (l & L & D). exists l, r. auto.
  - destruct (drop_sep u) as [|c r]; [reflexivity|]. cbn. unfold is_z. destruct (aeqb c "Z") eqn:E1; [exfalso; apply Z|].
    + apply Ascii.eqb_eq in E1. subst c. eauto.
    + destruct (aeqb c "z") eqn:E2; [exfalso; apply Z|reflexivity]. apply Ascii.eqb_eq in E2. subst c. eauto.
Qed.
Lemma barren_drop : forall u, barren u -> barren (drop_sep u).
Proof.
  intros u B w r W E. destruct (drop_sep_split u) as (w' & W' & E'). apply (B (w' ++ w) r); [apply Forall_app; auto|]. rewrite <- app_assoc, <- E. exact E'.
Qed.
Lemma number_barren : forall u, barren u -> number (mkLex u false) = (None, mkLex (drop_sep u) false).
Proof. intros u B. destruct (barren_facts u B) as [M Z]. unfold number; cbn [rem ic]. rewrite M, Z. reflexivity. Qed.
Lemma more_barren : forall u, barren u -> more (mkLex u false) = (false, mkLex (drop_sep u) false).
Proof. intros u B. destruct (barren_facts u B) as [M Z]. unfold more; cbn [rem ic]. rewrite M, Z. reflexivity. Qed.
Lemma match_float_digit : forall c r, is_digit c = true -> opt_sign (c :: r) = (false, false, c :: r) -> match_float (c :: r) <> None.
Proof.
  intros c r D O. unfold match_float. rewrite O. cbn [span]. rewrite D. destruct (span is_digit r) as [a b]. destruct (match_frac b) as [f r2]. destruct (match_exp r2). discriminate.
Qed.
Lemma flag_barren : forall u, barren u -> flag (mkLex u false) = (None, mkLex (drop_sep u) false).
Proof.
  intros u B. destruct (barren_facts u B) as [M _]. unfold flag; cbn [rem ic]. destruct (drop_sep u) as [|c r]; [reflexivity|].
  destruct (aeqb c "0") eqn:E0. { apply Ascii.eqb_eq in E0. subst c. exfalso. revert M. apply match_float_digit; reflexivity. }
  destruct (aeqb c "1") eqn:E1; [|reflexivity]. apply Ascii.eqb_eq in E1. subst c. exfalso. revert M. apply match_float_digit; reflexivity.
Qed.
Lemma coordr_barren : forall rel p u, barren u -> coordr rel p (mkLex u false) = Ok (None, mkLex (drop_sep u) false).
Proof. intros rel p u B. unfold coordr, rcoord, coord. rewrite number_barren by auto. destruct rel; reflexivity. Qed.
Lemma coordr_one : forall rel p x s u, toks_text [TNum x] s u -> barren u -> coordr rel p (mkLex s false) = Err ValueError.
Proof.
  intros rel p x s u T B. apply num_inv in T as (w & s' & L & W & N & T & ->). apply nil_inv in T. subst s'. unfold coordr, rcoord, coord. rewrite number_tok by auto. rewrite number_barren by auto. destruct rel; reflexivity.
Qed.
Ltac lack H := destruct H as (?rest & ?NE & ?E).
Ltac prefix ts E := destruct ts as [|?t ts]; [|cbn [app] in E; injection E as <- E].

Definition fails (step : lex -> path -> Res (lex * path)) (a : atom lit) (ts : list tok) : Prop :=
  forall s u p, toks_text ts s u -> barren u -> step (mkLex s false) p = Err ValueError.
Lemma or_close_false : forall u, or_close (mkLex u false) None = Err ValueError. Proof. reflexivity. Qed.
Lemma fails1 : forall draw rel q ts, lacking (DLine q) ts -> fails (step1 draw rel) (DLine q) ts.
Proof.
  intros draw rel q ts (rest & NE & E) s u p T B. cbn [args two] in E. unfold step1. prefix ts E.
  - apply nil_inv in T. subst s. rewrite coordr_barren by auto. reflexivity.
  - prefix ts E; [|symmetry in E; apply app_eq_nil in E as [-> ->]; contradiction]. erewrite coordr_one by eauto. reflexivity.
Qed.
Lemma fails_line : forall rel q ts, lacking (DLine q) ts -> ts <> [] -> fails (step_line rel) (DLine q) ts.
Proof.
  intros rel q ts (rest & NE & E) N s u p T B. cbn [args two] in E. unfold step_line. prefix ts E; [contradiction|].
  prefix ts E; [|symmetry in E; apply app_eq_nil in E as [-> ->]; contradiction]. erewrite coordr_one by eauto. reflexivity.
Qed.
Lemma fails_move : forall rel q ts, lacking (DMove q) ts -> ts <> [] -> fails (step_move rel) (DMove q) ts.
Proof.
  intros rel q ts (rest & NE & E) N s u p T B. cbn [args two] in E. unfold step_move. prefix ts E; [contradiction|].
  prefix ts E; [|symmetry in E; apply app_eq_nil in E as [-> ->]; contradiction]. erewrite coordr_one by eauto. reflexivity.
Qed.
Lemma fails2 : forall draw rel c q ts, lacking (DQuad c q) ts -> fails (step2 draw rel) (DQuad c q) ts.
Proof.
  intros draw rel c q ts (rest & NE & E) s u p T B. cbn [args two app] in E. unfold step2. prefix ts E.
  { apply nil_inv in T. subst s. rewrite coordr_barren by auto. cbn [rbind snd fst]. rewrite coordr_barren by (apply barren_drop; auto). reflexivity. }
  prefix ts E. { erewrite coordr_one by eauto. reflexivity. }
  change (TNum (fst c) :: TNum (snd c) :: ts) with (two c ++ ts) in T. destruct (coordr_two rel p _ _ _ _ false T) as (s' & T' & ->). cbn [rbind snd fst].
  prefix ts E. { apply nil_inv in T'. subst s'. rewrite coordr_barren by auto. reflexivity. }
  prefix ts E; [|symmetry in E; apply app_eq_nil in E as [-> ->]; contradiction]. erewrite coordr_one by eauto. reflexivity.
Qed.
Lemma fails3 : forall draw rel c d q ts, lacking (DCubic c d q) ts -> fails (step3 draw rel) (DCubic c d q) ts.
Proof.
  intros draw rel c d q ts (rest & NE & E) s u p T B. cbn [args two app] in E. unfold step3. prefix ts E.
  { apply nil_inv in T. subst s. rewrite coordr_barren by auto. cbn [rbind snd fst]. rewrite coordr_barren by (apply barren_drop; auto). cbn [rbind snd fst]. rewrite coordr_barren by (do 2 apply barren_drop; auto). reflexivity. }
  prefix ts E. { erewrite coordr_one by eauto. reflexivity. }
  change (TNum (fst c) :: TNum (snd c) :: ts) with (two c ++ ts) in T. destruct (coordr_two rel p _ _ _ _ false T) as (s' & T' & ->). cbn [rbind snd fst].
  prefix ts E. { apply nil_inv in T'. subst s'. rewrite coordr_barren by auto. cbn [rbind snd fst]. rewrite coordr_barren by (apply barren_drop; auto). reflexivity. }
  prefix ts E. { erewrite coordr_one by eauto. reflexivity. }
  change (TNum (fst d) :: TNum (snd d) :: ts) with (two d ++ ts) in T'. destruct (coordr_two rel p _ _ _ _ false T') as (s'' & T'' & ->). cbn [rbind snd fst].
  prefix ts E. { apply nil_inv in T''. subst s''. rewrite coordr_barren by auto. reflexivity. }
  prefix ts E; [|symmetry in E; apply app_eq_nil in E as [-> ->]; contradiction]. erewrite coordr_one by eauto. reflexivity.
Qed.
Lemma arc_tail : forall rel p u (sw : option bool) (K : parg -> Res (lex * path)), barren u ->
  (do c <- coordr rel p (mkLex u false); if rel && match sw with None => true | Some _ => false end then Err ValueError else do a <- or_close (snd c) (fst c); K a) = Err ValueError.
Proof. intros rel p u sw K B. rewrite coordr_barren by auto. cbn [rbind snd fst]. destruct (rel && _); reflexivity. Qed.
Lemma failsa : forall rel rx ry r l s q ts, lacking (DArc rx ry r l s q) ts -> fails (stepa rel) (DArc rx ry r l s q) ts.
Proof.
  intros rel rx ry r l s q ts (rest & NE & E) s0 u p T B. cbn [args two app] in E. unfold stepa.
  assert (B1 := barren_drop _ B). assert (B2 := barren_drop _ B1). assert (B3 := barren_drop _ B2). assert (B4 := barren_drop _ B3). assert (B5 := barren_drop _ B4).
  prefix ts E. { apply nil_inv in T. subst s0. repeat (rewrite number_barren by auto). repeat (rewrite flag_barren by auto). rewrite coordr_barren by auto. destruct rel; reflexivity. }
  apply num_inv in T as (w1 & s1 & L1 & W1 & N1 & T & ->). rewrite number_tok by auto.
  prefix ts E. { apply nil_inv in T. subst s1. repeat (rewrite number_barren by auto). repeat (rewrite flag_barren by auto). rewrite coordr_barren by auto. destruct rel; reflexivity. }
  apply num_inv in T as (w2 & s2 & L2 & W2 & N2 & T & ->). rewrite number_tok by auto.
  prefix ts E. { apply nil_inv in T. subst s2. repeat (rewrite number_barren by auto). repeat (rewrite flag_barren by auto). rewrite coordr_barren by auto. destruct rel; reflexivity. }
  apply num_inv in T as (w3 & s3 & L3 & W3 & N3 & T & ->). rewrite number_tok by auto.
  prefix ts E. { apply nil_inv in T. subst s3. repeat (rewrite flag_barren by auto). rewrite coordr_barren by auto. destruct rel; reflexivity. }
  apply flag_inv in T as (w4 & s4 & W4 & T & ->). rewrite flag_tok by auto.
  prefix ts E. { apply nil_inv in T. subst s4. rewrite flag_barren by auto. rewrite coordr_barren by auto. destruct rel; reflexivity. }
  apply flag_inv in T as (w5 & s5 & W5 & T & ->). rewrite flag_tok by auto.
  prefix ts E. { apply nil_inv in T. subst s5. rewrite coordr_barren by auto. destruct rel; reflexivity. }
  prefix ts E; [|symmetry in E; apply app_eq_nil in E as [-> ->]; contradiction]. erewrite coordr_one by eauto. reflexivity.
Qed.
Lemma more_toks : forall l ts s u k, toks_text (TNum l :: ts) s u -> exists s', more (mkLex s k) = (true, mkLex s' k) /\ toks_text (TNum l :: ts) s' u.
Proof.
  intros l ts s u k T. apply num_inv in T as (w & s' & L & W & N & T & ->). rewrite more_num by auto. eexists. split; [reflexivity|]. apply (tt_num l []); auto.
Qed.
Lemma lacking_num : forall a ts, lacking a ts -> ts <> [] -> exists l r, ts = TNum l :: r.
Proof.
  intros a [|t ts] (rest & NE & E) N; [contradiction|]. destruct a; cbn [args two app] in E; try discriminate E; injection E as <- E; eauto.
Qed.
Definition broken (p : path) (o : outcome) : Prop := o = Exc ValueError p.
Lemma run_short : forall m rel a ts v u p, lacking a ts -> toks_text ts v u -> barren u ->
  match a with DHor _ | DVer _ => False | DArc _ _ _ _ _ _ => ts <> [] | _ => True end -> (0 < m)%nat -> run m (letter_of rel a) (mkLex v false) p = Exc ValueError p.
Proof.
  intros m rel a ts v u p L T B A M. destruct m as [|m]; [lia|].
  assert (DL : forall step, fails step a ts -> do_loop (S m) step (mkLex v false) p = Exc ValueError p) by (intros step F; cbn [do_loop]; rewrite (F _ _ p T B); reflexivity).
  destruct a; try contradiction.
  - assert (H : run (S m) (letter_of rel (DMove p0)) (mkLex v false) p =
      let '(b, s1) := more (mkLex v false) in if negb b then Exc ValueError p else match step_move rel s1 p with Err e => Exc e p | Ok (s2, q) => while_loop (S m) (step_line rel) s2 q end) by (destruct rel; reflexivity).
    rewrite H. destruct ts as [|t ts].
    + apply nil_inv in T. subst v. rewrite more_barren by auto. reflexivity.
    + destruct (lacking_num _ _ L ltac:(discriminate)) as (x & r & E). injection E as -> ->. destruct (more_toks _ _ _ _ false T) as (s' & -> & T'). cbn [negb].
      rewrite (fails_move rel p0 _ L ltac:(discriminate) _ _ p T' B). reflexivity.
  - replace (run (S m) (letter_of rel (DLine p0)) (mkLex v false) p) with (do_loop (S m) (step1 line rel) (mkLex v false) p) by (destruct rel; reflexivity). apply DL, fails1, L.
  - replace (run (S m) (letter_of rel (DQuad c p0)) (mkLex v false) p) with (do_loop (S m) (step2 quad rel) (mkLex v false) p) by (destruct rel; reflexivity). apply DL, fails2, L.
  - replace (run (S m) (letter_of rel (DSmoothQuad p0)) (mkLex v false) p) with (do_loop (S m) (step1 smooth_quad rel) (mkLex v false) p) by (destruct rel; reflexivity). apply DL. exact (fails1 smooth_quad rel p0 ts L).
  - replace (run (S m) (letter_of rel (DCubic c d p0)) (mkLex v false) p) with (do_loop (S m) (step3 cubic rel) (mkLex v false) p) by (destruct rel; reflexivity). apply DL, fails3, L.
  - replace (run (S m) (letter_of rel (DSmoothCubic d p0)) (mkLex v false) p) with (do_loop (S m) (step2 smooth_cubic rel) (mkLex v false) p) by (destruct rel; reflexivity). apply DL. exact (fails2 smooth_cubic rel d p0 ts L).
  - replace (run (S m) (letter_of rel (DArc rx ry rot large sweep p0)) (mkLex v false) p) with (while_loop (S m) (stepa rel) (mkLex v false) p) by (destruct rel; reflexivity).
    destruct (lacking_num _ _ L A) as (x & r & ->). destruct (more_toks _ _ _ _ false T) as (s' & E & T'). unfold while_loop. rewrite E. cbn [do_loop]. rewrite (failsa _ _ _ _ _ _ _ _ L _ _ p T' B). reflexivity.
  - destruct L as (rest & NE & E). cbn [args] in E. symmetry in E. apply app_eq_nil in E as [_ E]. contradiction.
Qed.
Lemma not_close : forall a ts, lacking a ts -> a <> DClose.
Proof. intros a ts (rest & NE & E) ->. cbn [args] in E. symmetry in E. apply app_eq_nil in E as [_ E]. contradiction. Qed.
Lemma short_final : forall prev t, short prev t -> final broken prev t.
Proof.
  intros prev t S n m p N M. destruct S as [rel a ts w v u W L T B A|rel a ts v u O L NE T B].
  - assert (NZ := not_close _ _ L). destruct (cmd_letter rel a) as (C1 & C2 & C3). rewrite app_length in M; cbn [List.length] in M.
    assert (C : commands m (mkLex (letter_of rel a :: v) false) p = Exc ValueError p).
    { destruct m as [|m]; [lia|]. cbn [commands]. unfold lex_command; cbn [rem ic drop_sep]. rewrite C2, C1. rewrite (run_short m rel a ts v u p L T B A) by lia. reflexivity. }
    destruct prev as [[rel' c]|]; cbn [follows].
    + intros step _. unfold cont. destruct (more_letter w rel a v false W) as (k2 & -> & K2). destruct k2; [destruct (NZ (K2 eq_refl eq_refl))|]. unfold is_result; cbn [fst snd]. unfold broken. exact C.
    + split.
      * rewrite drop_sep_app by auto. cbn [drop_sep]. rewrite C2. unfold is_result; cbn [fst snd]. exact C.
      * intros k'. destruct (more_letter w rel a v k' W) as (k2 & E & _). rewrite drop_sep_app by auto. cbn [drop_sep]. rewrite C2. eauto.
  - unfold may_omit in O. subst prev. cbn [follows]. intros step (A1 & A2 & R & _). unfold is_result; cbn [fst snd]. unfold broken, cont.
    destruct (lacking_num _ _ L NE) as (x & r & ->). destruct (more_toks _ _ _ _ false T) as (s' & -> & T'). destruct n as [|n]; [lia|]. cbn [do_loop].
    assert (F : step (mkLex s' false) p = Err ValueError).
    { assert (NZ := not_close _ _ L). destruct a; cbn [letter_of] in *; try congruence; inversion R; subst.
      - eapply fails1; eauto. - eapply fails_line; eauto. - destruct L as (rest & NR & E). cbn [args] in E. injection E as <- E. destruct r, rest; try discriminate. contradiction.
      - destruct L as (rest & NR & E). cbn [args] in E. injection E as <- E. destruct r, rest; try discriminate. contradiction.
      - eapply fails2; eauto. - eapply (fails1 smooth_quad rel p0); eauto. - eapply fails3; eauto. - eapply (fails2 smooth_cubic rel d p0); eauto. - eapply failsa; eauto. }
    rewrite F. reflexivity.
Qed.
Lemma ending_after : forall l prev, ending prev l = match rev l with [] => prev | (rel, a) :: _ => implied rel a end.
Proof.
  induction l as [|[rel a] l IH]; intros prev; [reflexivity|]. cbn [ending rev]. rewrite IH. destruct (rev l) as [|[r b] k]; reflexivity.
Qed.
Lemma parse_short : forall l s t p q, spelled None l s t -> short (implied_after l) t -> draw_all p (values l) = (q, None) -> parse s p = (q, Some ValueError).
Proof.
  intros l s t p q SP SH D. assert (F : final broken (ending None l) t). { rewrite ending_after. apply short_final. exact SH. }
  pose proof (parse_spelled broken ltac:(intros ? ? ? ? H; discriminate H) l s t p SP F) as R. rewrite D in R. unfold is_result in R; cbn [fst snd] in R. unfold parse. rewrite R. reflexivity.
Qed.
