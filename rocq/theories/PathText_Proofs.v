(** Spelled path data is drawn as its instructions. *)
Require Import ZArith QArith Qcanon Ascii String List Bool Lia.
Require Import Verif.Base Verif.Text_Spec Verif.Text_Proofs Verif.Transform_Proofs Verif.Path_Model Verif.PathText_Model Verif.PathText_Spec.
Import ListNotations.
Open Scope Z_scope.

(** * Lexing *)
Lemma sepch_is_sep : forall c, sepch c <-> is_sep c = true.
Proof.
  intros c. split.
  - intros H. repeat (destruct H as [<-|H]; [reflexivity|]). destruct H.
  - unfold is_sep, aeqb. rewrite !orb_true_iff, !Ascii.eqb_eq. unfold sepch, In. intuition.
Qed.
Lemma drop_sep_app : forall w s, Forall sepch w -> drop_sep (w ++ s) = drop_sep s.
Proof. induction 1 as [|c w C F IH]; auto. cbn [app drop_sep]. rewrite (proj1 (sepch_is_sep c) C). auto. Qed.
Lemma drop_sep_split : forall s, exists w, Forall sepch w /\ s = w ++ drop_sep s.
Proof.
  induction s as [|c s (w & F & E)]. exists []; auto. cbn [drop_sep]. destruct (is_sep c) eqn:S.
  - exists (c :: w). split. constructor; auto. apply sepch_is_sep; auto. cbn [app]. rewrite <- E. auto.
  - exists []; auto.
Qed.
Lemma drop_sep_idem : forall s, drop_sep (drop_sep s) = drop_sep s.
Proof.
  induction s as [|c s IH]; auto. cbn [drop_sep]. destruct (is_sep c) eqn:S; auto. cbn [drop_sep]. rewrite S. auto.
Qed.
Lemma drop_sep_lit : forall l r, lit_ok l -> drop_sep (lit_text l ++ r) = lit_text l ++ r.
Proof.
  intros l r H. destruct (lit_start l H) as (c & t & -> & I). cbn [app].
  repeat (destruct I as [<-|I]; [reflexivity|]). destruct I.
Qed.
Lemma qlit_fnum : forall l, lit_ok l -> Q2Qc (fnum_val (fnum_of l)) = qlit l.
Proof. intros l H. unfold qlit. apply Qc_is_canon. cbn [this Q2Qc]. rewrite !Qred_correct. apply fnum_val_lit; auto. Qed.
Lemma number_tok : forall l w s k, lit_ok l -> Forall sepch w -> no_cont l s ->
  number (mkLex (w ++ lit_text l ++ s) k) = (Some (qlit l), mkLex s k).
Proof.
  intros l w s k L W N. unfold number; cbn [rem ic]. rewrite drop_sep_app, drop_sep_lit, match_float_lit, qlit_fnum by auto. reflexivity.
Qed.
Lemma flag_tok : forall (b : bool) w s k, Forall sepch w ->
  flag (mkLex (w ++ (if b then "1"%char else "0"%char) :: s) k) = (Some b, mkLex s k).
Proof. intros b w s k W. unfold flag; cbn [rem ic]. rewrite drop_sep_app by auto. destruct b; reflexivity. Qed.
Lemma more_num : forall l w s k, lit_ok l -> Forall sepch w -> no_cont l s ->
  more (mkLex (w ++ lit_text l ++ s) k) = (true, mkLex (lit_text l ++ s) k).
Proof. intros l w s k L W N. unfold more; cbn [rem ic]. rewrite drop_sep_app, drop_sep_lit, match_float_lit by auto. reflexivity. Qed.

Lemma digit_dchar : forall c, is_digit c = true -> exists d, is_dig d /\ c = dchar d.
Proof.
  intros c H. destruct c as [[] [] [] [] [] [] [] []]; try discriminate H;
  first [ exists 0; split; [unfold is_dig; lia|reflexivity] | exists 1; split; [unfold is_dig; lia|reflexivity]
        | exists 2; split; [unfold is_dig; lia|reflexivity] | exists 3; split; [unfold is_dig; lia|reflexivity]
        | exists 4; split; [unfold is_dig; lia|reflexivity] | exists 5; split; [unfold is_dig; lia|reflexivity]
        | exists 6; split; [unfold is_dig; lia|reflexivity] | exists 7; split; [unfold is_dig; lia|reflexivity]
        | exists 8; split; [unfold is_dig; lia|reflexivity] | exists 9; split; [unfold is_dig; lia|reflexivity] ].
Qed.
Lemma span_digits : forall s a b, span is_digit s = (a, b) -> s = a ++ b /\ exists ds, Forall is_dig ds /\ a = dtext ds.
Proof.
  induction s as [|c s IH]; intros a b H; cbn [span] in H.
  - injection H as <- <-. split; auto. exists []; auto.
  - destruct (is_digit c) eqn:D.
    + destruct (span is_digit s) as [a' b'] eqn:S. injection H as <- <-. destruct (IH _ _ eq_refl) as (E & ds & F & G).
      split. cbn [app]. rewrite <- E. auto. destruct (digit_dchar c D) as (d & Dd & ->). exists (d :: ds). split; auto. rewrite G. reflexivity.
    + injection H as <- <-. split; auto. exists []; auto.
Qed.
Lemma match_float_sound : forall s f r, match_float s = Some (f, r) -> exists l, lit_ok l /\ s = lit_text l ++ r.
Proof.
  intros s f r. unfold match_float. destruct (opt_sign s) as [[x neg] r0] eqn:O.
  assert (S0 : exists sg, s = sgn_text sg ++ r0).
  { unfold opt_sign in O. destruct s as [|c s]. injection O as _ _ <-. exists SNone; auto.
    destruct (aeqb c "-") eqn:E1. unfold aeqb in E1; apply Ascii.eqb_eq in E1. injection O as _ _ <-. subst. exists SMinus; auto.
    destruct (aeqb c "+") eqn:E2. unfold aeqb in E2; apply Ascii.eqb_eq in E2. injection O as _ _ <-. subst. exists SPlus; auto.
    injection O as _ _ <-. exists SNone; auto. }
  destruct S0 as (sg & ->). destruct (span is_digit r0) as [ints r1] eqn:S1. destruct (span_digits _ _ _ S1) as (-> & di & Di & ->).
  destruct (match_frac r1) as [fr r2] eqn:MF.
  assert (F : exists df, Forall is_dig df /\ fr = dtext df /\ r1 = (match df with [] => [] | fs => "."%char :: dtext fs end) ++ r2).
  { unfold match_frac in MF. destruct r1 as [|c r1]. injection MF as <- <-. exists []; auto.
    destruct (aeqb c ".") eqn:E. 2: { injection MF as <- <-. exists []; auto. }
    unfold aeqb in E; apply Ascii.eqb_eq in E. subst c. destruct (span is_digit r1) as [a b] eqn:S2. destruct (span_digits _ _ _ S2) as (E2 & df & Df & Ea).
    destruct a as [|y a]. injection MF as <- <-. exists []; auto.
    injection MF as <- <-. exists df. split; auto. split; auto. destruct df; [discriminate|]. cbn [app]. rewrite <- Ea, E2. reflexivity. }
  destruct F as (df & Df & -> & ->).
  intros H. assert (NE : di <> [] \/ df <> []). { destruct di; [destruct df; [discriminate|right; discriminate]|left; discriminate]. }
  assert (H' : (let '(ex, r3) := match_exp r2 in Some (mkF neg (dtext di) (dtext df) ex, r3)) = Some (f, r)).
  { destruct di; auto. destruct df; auto. destruct NE; congruence. }
  clear H. destruct (match_exp r2) as [ex r3] eqn:ME. injection H' as _ ->.
  assert (X : exists oe, match oe with None => True | Some (_, _, ds) => Forall is_dig ds /\ ds <> [] end /\
     r2 = match oe with None => [] | Some (up, sg, ds) => (if up : bool then "E"%char else "e"%char) :: sgn_text sg ++ dtext ds end ++ r).
  { unfold match_exp in ME. destruct r2 as [|c r2]. injection ME as <- <-. exists None; auto.
    destruct (aeqb c "e" || aeqb c "E") eqn:E. 2: { injection ME as <- <-. exists None; auto. }
    destruct (opt_sign r2) as [[x1 n1] r4] eqn:O1.
    assert (S4 : exists sg, r2 = sgn_text sg ++ r4).
    { unfold opt_sign in O1. destruct r2 as [|c1 r2]. injection O1 as _ _ <-. exists SNone; auto.
      destruct (aeqb c1 "-") eqn:E1. unfold aeqb in E1; apply Ascii.eqb_eq in E1. injection O1 as _ _ <-. subst. exists SMinus; auto.
      destruct (aeqb c1 "+") eqn:E2. unfold aeqb in E2; apply Ascii.eqb_eq in E2. injection O1 as _ _ <-. subst. exists SPlus; auto.
      injection O1 as _ _ <-. exists SNone; auto. }
    destruct S4 as (sg2 & ->). destruct (span is_digit r4) as [ds r5] eqn:S5. destruct (span_digits _ _ _ S5) as (-> & de & De & ->).
    destruct de as [|d de]. injection ME as <- <-. exists None; auto.
    injection ME as <- <-. exists (Some (aeqb c "E", sg2, d :: de)). split. split; auto; discriminate.
    rewrite <- app_comm_cons, <- app_assoc. f_equal. apply orb_true_iff in E as [E|E]; unfold aeqb in E; apply Ascii.eqb_eq in E; subst; reflexivity. }
  destruct X as (oe & Oe & ->).
  exists (mkLit sg di df oe). split. unfold lit_ok; cbn [l_int l_frac l_exp]; auto.
  unfold lit_text; cbn [l_sgn l_int l_frac l_exp]. rewrite <- !app_assoc. destruct df; reflexivity.
Qed.

(** * Instructions on the model's own path *)
Definition base (p : path) (rel : bool) (q : pt) : pt :=
  if rel then match current_point p with Some c => padd q c | None => q end else q.
Definition draw_atom (p : path) (rel : bool) (a : atom Qc) : Res path :=
  let b := fun q => APt (base p rel q) in
  match a with
  | DMove q => move p (b q) rel
  | DLine q => line p (b q) rel
  | DHor x => horizontal p (Some x) rel
  | DVer y => vertical p (Some y) rel
  | DQuad c q => quad p (b c) (b q) rel
  | DSmoothQuad q => smooth_quad p (b q) rel
  | DCubic c d q => cubic p (b c) (b d) (b q) rel
  | DSmoothCubic d q => smooth_cubic p (b d) (b q) rel
  | DArc rx ry r l s q => arc p (Some rx) (Some ry) (Some r) (Some l) (Some s) (b q) rel
  | DClose => closed p rel
  end.
Fixpoint draw_all (p : path) (l : list (bool * atom Qc)) : path * option exn :=
  match l with
  | [] => (p, None)
  | (rel, a) :: l' => match draw_atom p rel a with Ok q => draw_all q l' | Err e => (p, Some e) end
  end.

(** * Reading the arguments of one instruction *)
Lemma num_inv : forall l ts s t, toks_text (TNum l :: ts) s t -> exists w s', lit_ok l /\ Forall sepch w /\ no_cont l s' /\ toks_text ts s' t /\ s = w ++ lit_text l ++ s'.
Proof. intros l ts s t H. inversion H; subst. exists w, s0. auto. Qed.
Lemma flag_inv : forall b ts s t, toks_text (TFlag b :: ts) s t -> exists w s', Forall sepch w /\ toks_text ts s' t /\ s = w ++ (if b then "1"%char else "0"%char) :: s'.
Proof. intros b ts s t H. inversion H; subst. exists w, s0. auto. Qed.
Lemma nil_inv : forall s t, toks_text [] s t -> s = t.
Proof. intros s t H. inversion H; auto. Qed.
Ltac tinv := repeat match goal with
  | H : toks_text (TNum _ :: _) _ _ |- _ => apply num_inv in H as (? & ? & ? & ? & ? & H & ->)
  | H : toks_text (TFlag _ :: _) _ _ |- _ => apply flag_inv in H as (? & ? & ? & H & ->)
  | H : toks_text [] _ _ |- _ => apply nil_inv in H; subst
  end.
Lemma coordr_two : forall rel p q ts s t k, toks_text (two q ++ ts) s t -> exists s', toks_text ts s' t /\
  coordr rel p (mkLex s k) = Ok (Some (base p rel (on2 qlit q)), mkLex s' k).
Proof.
  intros rel p [x y] ts s t k H. unfold two in H; cbn [fst snd app] in H. tinv.
  eexists. split; [eassumption|]. unfold coordr, rcoord, coord, base. rewrite !number_tok by auto. cbn [on2 fst snd rbind].
  destruct rel; auto. destruct (current_point p); auto.
Qed.
Lemma coordr_last : forall rel p q s t k, toks_text (two q) s t ->
  coordr rel p (mkLex s k) = Ok (Some (base p rel (on2 qlit q)), mkLex t k).
Proof.
  intros rel p q s t k H. rewrite <- (app_nil_r (two q)) in H. destruct (coordr_two rel p _ _ _ _ k H) as (s' & E & ->).
  inversion E; subst. reflexivity.
Qed.
Definition reads (step : lex -> path -> Res (lex * path)) (rel : bool) (a : atom lit) : Prop :=
  forall s1 s2 k p, toks_text (args a) s1 s2 ->
  step (mkLex s1 k) p = rbind (draw_atom p rel (map_atom qlit a)) (fun q => Ok (mkLex s2 k, q)).
Ltac coords := repeat match goal with
  | H : toks_text (two ?q ++ _) ?s _ |- context [coordr ?rel ?p (mkLex ?s ?k)] =>
      let s' := fresh "s" in let E := fresh "E" in destruct (coordr_two rel p _ _ _ _ k H) as (s' & E & ->); cbn [rbind fst snd]; clear H
  | H : toks_text (two ?q) ?s ?t |- context [coordr ?rel ?p (mkLex ?s ?k)] => rewrite (coordr_last rel p _ _ _ k H); cbn [rbind fst snd]
  end.
Lemma reads_line : forall rel q, reads (step1 line rel) rel (DLine q).
Proof. intros rel q s1 s2 k p H. cbn [args] in H. unfold step1. coords. reflexivity. Qed.
Lemma reads_step_line : forall rel q, reads (step_line rel) rel (DLine q).
Proof. intros rel q s1 s2 k p H. cbn [args] in H. unfold step_line. coords. reflexivity. Qed.
Lemma reads_move : forall rel q, reads (step_move rel) rel (DMove q).
Proof. intros rel q s1 s2 k p H. cbn [args] in H. unfold step_move. coords. reflexivity. Qed.
Lemma reads_squad : forall rel q, reads (step1 smooth_quad rel) rel (DSmoothQuad q).
Proof. intros rel q s1 s2 k p H. cbn [args] in H. unfold step1. coords. reflexivity. Qed.
Lemma reads_quad : forall rel c q, reads (step2 quad rel) rel (DQuad c q).
Proof. intros rel c q s1 s2 k p H. cbn [args] in H. unfold step2. coords. reflexivity. Qed.
Lemma reads_scubic : forall rel c q, reads (step2 smooth_cubic rel) rel (DSmoothCubic c q).
Proof. intros rel c q s1 s2 k p H. cbn [args] in H. unfold step2. coords. reflexivity. Qed.
Lemma reads_cubic : forall rel c d q, reads (step3 cubic rel) rel (DCubic c d q).
Proof. intros rel c d q s1 s2 k p H. cbn [args] in H. unfold step3. coords. reflexivity. Qed.
Lemma reads_hor : forall rel x, reads (stepv horizontal rel) rel (DHor x).
Proof.
  intros rel x s1 s2 k p H. cbn [args] in H. tinv.
  unfold stepv. rewrite number_tok by auto. reflexivity.
Qed.
Lemma reads_ver : forall rel x, reads (stepv vertical rel) rel (DVer x).
Proof.
  intros rel x s1 s2 k p H. cbn [args] in H. tinv.
  unfold stepv. rewrite number_tok by auto. reflexivity.
Qed.
Lemma reads_arc : forall rel rx ry r l s q, reads (stepa rel) rel (DArc rx ry r l s q).
Proof.
  intros rel rx ry r l s q s1 s2 k p H. cbn [args app] in H.
  apply num_inv in H as (? & ? & ? & ? & ? & H & ->). apply num_inv in H as (? & ? & ? & ? & ? & H & ->). apply num_inv in H as (? & ? & ? & ? & ? & H & ->).
  apply flag_inv in H as (? & ? & ? & H & ->). apply flag_inv in H as (? & ? & ? & H & ->). change ([TNum (fst q); TNum (snd q)]) with (two q) in H.
  unfold stepa. rewrite !number_tok, !flag_tok by auto. coords. rewrite andb_false_r. reflexivity.
Qed.

Lemma toks_len : forall ts s t, toks_text ts s t -> (List.length t + List.length ts <= List.length s)%nat.
Proof.
  induction 1; cbn [List.length]; auto. lia.
  - destruct (lit_start l H) as (c & u & E & _). rewrite !app_length, E. cbn [List.length]. lia.
  - rewrite app_length. cbn [List.length]. lia.
Qed.
Lemma args_len : forall a s t, toks_text (args a) s t -> a <> DClose -> (List.length t < List.length s)%nat.
Proof. intros a s t H N. apply toks_len in H. destruct a; cbn [args two app List.length] in H; try lia. congruence. Qed.
(** Arguments begin with a number: _more says so, and skipping separators first changes nothing. *)
Lemma args_more : forall a s t k, toks_text (args a) s t -> a <> DClose -> exists s', more (mkLex s k) = (true, mkLex s' k) /\ toks_text (args a) s' t
  /\ (List.length s' <= List.length s)%nat.
Proof.
  intros a s t k H N.
  assert (G : exists l ts, args a = TNum l :: ts) by (destruct a; [..|congruence]; unfold args, two; cbn [app]; eauto).
  destruct G as (l & ts & E). rewrite E in *. inversion H; subst. exists (lit_text l ++ s0). split; [|split].
  - apply more_num; auto.
  - apply (tt_num l [] ts s0 t); auto.
  - rewrite !app_length. lia.
Qed.
Lemma cmd_letter : forall rel (a : atom lit), is_command (letter_of rel a) = true /\ is_sep (letter_of rel a) = false /\
  forall s, match_float (letter_of rel a :: s) = None.
Proof.
  intros rel a. split; [|split].
  - destruct a, rel; reflexivity.
  - destruct a, rel; reflexivity.
  - intros s. apply float_start; destruct a, rel; reflexivity || discriminate.
Qed.
Lemma more_letter : forall w rel (a : atom lit) s k, Forall sepch w -> exists k', more (mkLex (w ++ letter_of rel a :: s) k) = (false, mkLex (letter_of rel a :: s) k') /\ (k = false -> k' = true -> a = DClose).
Proof.
  intros w rel a s k W. destruct (cmd_letter rel a) as (_ & B & C). unfold more; cbn [rem ic]. rewrite drop_sep_app by auto.
  cbn [drop_sep]. rewrite B, C. eexists. split; [reflexivity|]. intros ->. cbn. destruct a, rel; cbn; auto; discriminate.
Qed.
Lemma stop_facts : forall t, stop t -> match_float (drop_sep t) = None /\ forall k, lex_command (mkLex t k) = None /\ lex_command (mkLex (drop_sep t) k) = None.
Proof.
  intros t (w & r & W & -> & H). rewrite drop_sep_app by auto.
  assert (D : drop_sep r = r /\ match_float r = None /\ forall k, lex_command (mkLex r k) = None).
  { destruct H as [->|(c & r' & -> & NS & NC & NL)]; [auto|]. 
    assert (S : is_sep c = false). { destruct (is_sep c) eqn:E; auto. exfalso; apply NS, sepch_is_sep; auto. }
    assert (D : drop_sep (c :: r') = c :: r') by (cbn [drop_sep]; rewrite S; auto).
    split; auto. split.
    - destruct (match_float (c :: r')) as [[f u]|] eqn:E; auto. exfalso. destruct (match_float_sound _ _ _ E) as (l & L1 & L2). eauto.
    - intros k. unfold lex_command; cbn [rem]. rewrite D. destruct (is_command c) eqn:E; auto. exfalso. apply NC.
      unfold is_command in E. apply existsb_exists in E as (x & I & E). unfold aeqb in E. apply Ascii.eqb_eq in E. subst x. exact I. }
  destruct D as (D1 & D2 & D3). rewrite D1. split; auto. intros k. split; auto.
  unfold lex_command in *; cbn [rem] in *. rewrite drop_sep_app by auto. apply D3.
Qed.

(** * The whole text *)
Inductive real_step : bool -> ascii -> (lex -> path -> Res (lex * path)) -> Prop :=
| rs_line : forall rel, real_step rel "L" (step1 line rel)
| rs_line' : forall rel, real_step rel "L" (step_line rel)
| rs_squad : forall rel, real_step rel "T" (step1 smooth_quad rel)
| rs_hor : forall rel, real_step rel "H" (stepv horizontal rel)
| rs_ver : forall rel, real_step rel "V" (stepv vertical rel)
| rs_cubic : forall rel, real_step rel "C" (step3 cubic rel)
| rs_quad : forall rel, real_step rel "Q" (step2 quad rel)
| rs_scubic : forall rel, real_step rel "S" (step2 smooth_cubic rel)
| rs_arc : forall rel, real_step rel "A" (stepa rel).
#[local] Hint Constructors real_step : rd.
(** What is known of the outcome once the instructions are drawn depends on the text that follows. *)
Section Whole.
Variable good : path -> outcome -> Prop.
Hypothesis good_lex : forall p q s s', good p (Fin s q) -> good p (Fin s' q).
Definition is_result (o : outcome) (r : path * option exn) : Prop :=
  match snd r with None => good (fst r) o | Some e => o = Exc e (fst r) end.
Definition cont (n m : nat) (step : lex -> path -> Res (lex * path)) (s : lex) (p : path) : outcome :=
  match (let '(b, s2) := more s in if b then do_loop n step s2 p else Fin s2 p) with
  | Fin s2 q => commands m s2 q
  | o => o
  end.
Definition agrees (step : lex -> path -> Res (lex * path)) (rel : bool) (c : ascii) : Prop :=
  c <> "M"%char /\ c <> "Z"%char /\ real_step rel c step /\ forall a, letter_of false a = c -> reads step rel a.
Definition follows (prev : option (bool * ascii)) (n m : nat) (s : text) (p : path) (r : path * option exn) : Prop :=
  match prev with
  | None => is_result (commands m (mkLex (drop_sep s) false) p) r /\ forall k', exists k2, more (mkLex s k') = (false, mkLex (drop_sep s) k2)
  | Some (rel, c) => forall step, agrees step rel c -> is_result (cont n m step (mkLex s false) p) r
  end.
(** A run that is a do-while loop with a reading step. *)
Lemma do_loop_cont : forall n m step rel a s1 s2 k p r, reads step rel a -> toks_text (args a) s1 s2 ->
  (forall q, draw_atom p rel (map_atom qlit a) = Ok q -> is_result (cont n m step (mkLex s2 k) q) (r q)) ->
  is_result (match do_loop (S n) step (mkLex s1 k) p with Fin s q => commands m s q | o => o end)
            (match draw_atom p rel (map_atom qlit a) with Ok q => r q | Err e => (p, Some e) end).
Proof.
  intros n m step rel a s1 s2 k p r R T H. cbn [do_loop]. rewrite (R _ _ k p T).
  destruct (draw_atom p rel (map_atom qlit a)) as [q|e]; cbn [rbind].
  - exact (H q eq_refl).
  - reflexivity.
Qed.
Lemma agrees_of : forall step rel c, c <> "M"%char -> c <> "Z"%char -> real_step rel c step -> (forall a, letter_of false a = c -> reads step rel a) -> agrees step rel c.
Proof. unfold agrees; auto. Qed.
Ltac agr := apply agrees_of; [discriminate|discriminate|constructor|intros [] E; try discriminate E; auto using reads_line, reads_step_line, reads_squad, reads_quad, reads_scubic, reads_cubic, reads_hor, reads_ver, reads_arc].
Lemma agr_L : forall rel, agrees (step1 line rel) rel "L". Proof. intros; agr. Qed.
Lemma agr_L' : forall rel, agrees (step_line rel) rel "L". Proof. intros; agr. Qed.
Lemma agr_T : forall rel, agrees (step1 smooth_quad rel) rel "T". Proof. intros; agr. Qed.
Lemma agr_H : forall rel, agrees (stepv horizontal rel) rel "H". Proof. intros; agr. Qed.
Lemma agr_V : forall rel, agrees (stepv vertical rel) rel "V". Proof. intros; agr. Qed.
Lemma agr_C : forall rel, agrees (step3 cubic rel) rel "C". Proof. intros; agr. Qed.
Lemma agr_Q : forall rel, agrees (step2 quad rel) rel "Q". Proof. intros; agr. Qed.
Lemma agr_S : forall rel, agrees (step2 smooth_cubic rel) rel "S". Proof. intros; agr. Qed.
Lemma agr_A : forall rel, agrees (stepa rel) rel "A". Proof. intros; agr. Qed.
#[local] Hint Resolve agr_L agr_L' agr_T agr_H agr_V agr_C agr_Q agr_S agr_A reads_line reads_step_line reads_squad reads_quad reads_scubic reads_cubic reads_hor reads_ver reads_arc reads_move : rd.

Lemma run_draws : forall m rel a s1 s2 k p r, (k = true -> a = DClose) -> toks_text (args a) s1 s2 -> (List.length s1 < m)%nat ->
  (forall q n, draw_atom p rel (map_atom qlit a) = Ok q -> (List.length s2 < n)%nat -> follows (implied rel a) n m s2 q (r q)) ->
  is_result (match run m (letter_of rel a) (mkLex s1 k) p with Fin s q => commands m s q | o => o end)
            (match draw_atom p rel (map_atom qlit a) with Ok q => r q | Err e => (p, Some e) end).
Proof.
  intros m rel a s1 s2 k p r K T L H.
  assert (W : forall step s1 k, (k = true -> a = DClose) -> toks_text (args a) s1 s2 -> (List.length s1 < m)%nat -> a <> DClose -> reads step rel a -> agrees step rel (letter_of false a) -> implied rel a = Some (rel, letter_of false a) ->
    is_result (match do_loop m step (mkLex s1 k) p with Fin s q => commands m s q | o => o end)
            (match draw_atom p rel (map_atom qlit a) with Ok q => r q | Err e => (p, Some e) end)).
  { clear K T L s1 k. intros step s1 k K T L NZ R A I. assert (LS := args_len _ _ _ T NZ). destruct m as [|n']; [lia|].
    destruct k; [now destruct (NZ (K eq_refl))|]. eapply do_loop_cont; eauto. intros q E. assert (F := H q n' E ltac:(lia)). rewrite I in F. exact (F step A). }
  assert (V : forall step, a <> DClose -> reads step rel a -> agrees step rel (letter_of false a) -> implied rel a = Some (rel, letter_of false a) ->
    is_result (match while_loop m step (mkLex s1 k) p with Fin s q => commands m s q | o => o end)
            (match draw_atom p rel (map_atom qlit a) with Ok q => r q | Err e => (p, Some e) end)).
  { intros step NZ R A I. destruct (args_more _ _ _ k T NZ) as (s' & M & T' & L'). unfold while_loop. rewrite M. apply W; auto. lia. }
  destruct a; unfold run;
    [ | destruct rel; apply W; auto with rd; discriminate
      | destruct rel; apply W; auto with rd; discriminate
      | destruct rel; [apply W|apply V]; auto with rd; discriminate
      | destruct rel; apply W; auto with rd; discriminate
      | destruct rel; apply W; auto with rd; discriminate
      | destruct rel; apply W; auto with rd; discriminate
      | destruct rel; apply W; auto with rd; discriminate
      | destruct rel; apply V; auto with rd; discriminate | ].
  - assert (NZ : DMove p0 <> DClose) by discriminate. destruct (args_more _ _ _ k T NZ) as (s' & M & T' & L').
    assert (R := reads_move rel p0 _ _ k p T').
    replace (is_lower (letter_of rel (DMove p0))) with rel by (destruct rel; reflexivity).
    replace (aeqb (letter (letter_of rel (DMove p0))) "Z") with false by (destruct rel; reflexivity).
    replace (aeqb (letter (letter_of rel (DMove p0))) "M") with true by (destruct rel; reflexivity).
    rewrite M. cbn [negb]. rewrite R. destruct (draw_atom p rel (map_atom qlit (DMove p0))) as [q|e] eqn:E; cbn [rbind]; [|reflexivity].
    destruct k; [now destruct (NZ (K eq_refl))|]. assert (F := H q m eq_refl). cbn in F. assert (LS := args_len _ _ _ T NZ). specialize (F ltac:(lia) (step_line rel) (agr_L' rel)). exact F.
  - replace (is_lower (letter_of rel (@DClose lit))) with rel by (destruct rel; reflexivity).
    replace (aeqb (letter (letter_of rel (@DClose lit))) "Z") with true by (destruct rel; reflexivity).
    cbn [args] in T. apply nil_inv in T. subst s2. cbn [map_atom draw_atom] in *. unfold closed in *.
    destruct (H _ m eq_refl L) as [F M]. destruct (M k) as (k2 & ->). cbn [rem]. exact F.
Qed.

Lemma lex_drop : forall s k, lex_command (mkLex (drop_sep s) k) = lex_command (mkLex s k).
Proof. intros s k. unfold lex_command; cbn [rem]. rewrite drop_sep_idem. reflexivity. Qed.
Lemma commands_drop : forall m s k p r, is_result (commands m (mkLex (drop_sep s) k) p) r <-> is_result (commands m (mkLex s k) p) r.
Proof.
  intros [|m] s k p r; [reflexivity|]. cbn [commands]. rewrite lex_drop. destruct (lex_command (mkLex s k)) as [[c s1]|]; [reflexivity|].
  unfold is_result. destruct (snd r). split; discriminate. split; apply good_lex.
Qed.
Fixpoint ending (prev : option (bool * ascii)) (l : list (bool * atom lit)) : option (bool * ascii) :=
  match l with [] => prev | (rel, a) :: l' => ending (implied rel a) l' end.
Definition final (prev : option (bool * ascii)) (t : text) : Prop :=
  forall n m p, (List.length t < n)%nat -> (List.length t < m)%nat -> follows prev n m t p (p, None).
Lemma spelled_follows : forall prev l s t, spelled prev l s t -> final (ending prev l) t -> forall n m p, (List.length s < n)%nat -> (List.length s < m)%nat ->
  follows prev n m s p (draw_all p (values l)).
Proof.
  induction 1 as [prev t|prev rel a w s1 s2 l t W T SP IH|prev rel a s1 s2 l t O T SP IH]; cbn [ending]; intros ST n m p N M.
  - exact (ST n m p N M).
  - cbn [values map draw_all fst snd]. fold (values l).
    destruct (cmd_letter rel a) as (C1 & C2 & C3).
    rewrite app_length in N, M; cbn [List.length] in N, M.
    assert (C : forall k, (k = true -> a = DClose) -> is_result (commands m (mkLex (letter_of rel a :: s1) k) p) (match draw_atom p rel (map_atom qlit a) with Ok q => draw_all q (values l) | Err e => (p, Some e) end)).
    { intros k' KC. destruct m as [|m]; [lia|]. cbn [commands]. unfold lex_command; cbn [rem ic drop_sep]. rewrite C2, C1.
      apply (run_draws m rel a s1 s2 k' p (fun q => draw_all q (values l))); auto. lia.
      intros q n' E L. apply toks_len in T. apply IH; auto. lia. }
    destruct prev as [[rel' c]|]; cbn [follows].
    + intros step _. unfold cont. destruct (more_letter w rel a s1 false W) as (k2 & -> & K2). apply C. auto.
    + rewrite drop_sep_app by auto. cbn [drop_sep]. rewrite C2. split; [apply C; discriminate|]. intros k'. destruct (more_letter w rel a s1 k' W) as (k2 & E & _). eauto.
  - unfold may_omit in O. subst prev. cbn [values map draw_all fst snd follows]. fold (values l). intros step A.
    assert (NZ : a <> DClose). { intros ->. destruct A as (_ & A & _). apply A. reflexivity. }
    assert (I : implied rel a = Some (rel, letter_of false a)).
    { destruct A as (A & _). destruct a; try reflexivity. exfalso; apply A; reflexivity. congruence. }
    destruct (args_more _ _ _ false T NZ) as (s' & MM & T' & L'). assert (LS := args_len _ _ _ T NZ).
    unfold cont. rewrite MM. destruct n as [|n]; [lia|].
    apply (do_loop_cont n m step rel a s' s2 false p (fun q => draw_all q (values l))); auto.
    + destruct A as (_ & _ & _ & A). auto.
    + intros q E. rewrite I in IH, ST. apply (IH ST n m q); auto; lia.
Qed.
Lemma parse_spelled : forall l s t p, spelled None l s t -> final (ending None l) t -> is_result (commands (fuel_for s) (mkLex s false) p) (draw_all p (values l)).
Proof.
  intros l s t p SP ST. destruct (spelled_follows None l s t SP ST (fuel_for s) (fuel_for s) p) as [F _]; [unfold fuel_for; lia..|].
  apply (proj1 (commands_drop _ s _ _ _)) in F. exact F.
Qed.
End Whole.
Definition ended (p : path) (o : outcome) : Prop := exists s, o = Fin s p.
Lemma ended_lex : forall p q s s', ended p (Fin s q) -> ended p (Fin s' q).
Proof. intros p q s s' (x & E). injection E as _ ->. eexists; reflexivity. Qed.
Lemma stop_final : forall prev t, stop t -> final ended prev t.
Proof.
  intros prev t ST n m p N M. destruct (stop_facts t ST) as (A & B).
  assert (C : forall k, is_result ended (commands m (mkLex (drop_sep t) k) p) (p, None)).
  { intros k'. destruct m as [|m]; [lia|]. cbn [commands]. rewrite (proj2 (B k')). cbn. eexists; eauto. }
  assert (MM : forall k', exists k2, more (mkLex t k') = (false, mkLex (drop_sep t) k2)).
  { intros k'. unfold more; cbn [rem ic]. rewrite A. eauto. }
  destruct prev as [[rel c]|]; cbn [follows]; [|auto].
  intros step _. unfold cont. destruct (MM false) as (k2 & ->). apply C.
Qed.
(** The parser draws the instructions, whatever their spelling. *)
Lemma parse_draws : forall l s t p, spelled None l s t -> stop t -> parse s p = draw_all p (values l).
Proof.
  intros l s t p SP ST. pose proof (parse_spelled ended ended_lex l s t p SP (stop_final _ t ST)) as F.
  unfold parse. unfold is_result in F. destruct (draw_all p (values l)) as [q [e|]]; cbn [fst snd] in F.
  - rewrite F. reflexivity.
  - destruct F as (s' & ->). reflexivity.
Qed.
