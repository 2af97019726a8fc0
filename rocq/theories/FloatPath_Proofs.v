(** Path data in floating point: spelled instructions are drawn, as in PathText_Proofs; what is printed is a spelling; how far relative drawing drifts. *)
Require Import ZArith QArith Qcanon Qabs Qreals Reals Ascii String List Bool Lqa Lia Lra.
From Flocq Require Import Core BinarySingleNaN.
Require Import Verif.Base Verif.Text_Spec Verif.Text_Proofs Verif.Transform_Proofs Verif.Path_Model Verif.PathText_Model Verif.PathText_Spec Verif.PathText_Proofs Verif.PathDraw_Proofs Verif.PathD_Model Verif.PathD_Proofs
  Verif.Float_Model Verif.Float_Spec Verif.Float_Proofs Verif.FloatView_Model Verif.FloatView_Proofs Verif.FloatWalk_Proofs Verif.FloatText_Model Verif.FloatText_Spec Verif.FloatText_Proofs Verif.FloatPath_Model Verif.FloatPath_Spec.
Import ListNotations.
Open Scope Z_scope.

Lemma number_tok_f : forall l w s k, lit_ok l -> Forall sepch w -> no_cont l s ->
  number_f (mkLex (w ++ lit_text l ++ s) k) = (Some (qlit_f l), mkLex s k).
Proof.
  intros l w s k L W N. unfold number_f; cbn [rem ic]. rewrite drop_sep_app, drop_sep_lit, match_float_lit by auto. reflexivity.
Qed.
(** * Instructions on the model's own path *)
Definition base_f (p : path_f) (rel : bool) (q : pt_f) : pt_f :=
  if rel then match current_point_f p with Some c => padd_f q c | None => q end else q.
Definition draw_atom_f (p : path_f) (rel : bool) (a : atom fl) : Res path_f :=
  let b := fun q => APt_f (base_f p rel q) in
  match a with
  | DMove q => move_f p (b q) rel
  | DLine q => line_f p (b q) rel
  | DHor x => horizontal_f p (Some x) rel
  | DVer y => vertical_f p (Some y) rel
  | DQuad c q => quad_f p (b c) (b q) rel
  | DSmoothQuad q => smooth_quad_f p (b q) rel
  | DCubic c d q => cubic_f p (b c) (b d) (b q) rel
  | DSmoothCubic d q => smooth_cubic_f p (b d) (b q) rel
  | DArc rx ry r l s q => arc_f p (Some rx) (Some ry) (Some r) (Some l) (Some s) (b q) rel
  | DClose => closed_f p rel
  end.
Fixpoint draw_all_f (p : path_f) (l : list (bool * atom fl)) : path_f * option exn :=
  match l with
  | [] => (p, None)
  | (rel, a) :: l' => match draw_atom_f p rel a with Ok q => draw_all_f q l' | Err e => (p, Some e) end
  end.

Lemma coordr_two_f : forall rel p q ts s t k, toks_text (two q ++ ts) s t -> exists s', toks_text ts s' t /\
  coordr_f rel p (mkLex s k) = Ok (Some (base_f p rel (on2 qlit_f q)), mkLex s' k).
Proof.
  intros rel p [x y] ts s t k H. unfold two in H; cbn [fst snd app] in H. tinv.
  eexists. split; [eassumption|]. unfold coordr_f, rcoord_f, coord_f, base_f. rewrite !number_tok_f by auto. cbn [on2 fst snd rbind].
  destruct rel; auto. destruct (current_point_f p); auto.
Qed.
Lemma coordr_last_f : forall rel p q s t k, toks_text (two q) s t ->
  coordr_f rel p (mkLex s k) = Ok (Some (base_f p rel (on2 qlit_f q)), mkLex t k).
Proof.
  intros rel p q s t k H. rewrite <- (app_nil_r (two q)) in H. destruct (coordr_two_f rel p _ _ _ _ k H) as (s' & E & ->).
  inversion E; subst. reflexivity.
Qed.
Definition reads_f (step : lex -> path_f -> Res (lex * path_f)) (rel : bool) (a : atom lit) : Prop :=
  forall s1 s2 k p, toks_text (args a) s1 s2 ->
  step (mkLex s1 k) p = rbind (draw_atom_f p rel (map_atom qlit_f a)) (fun q => Ok (mkLex s2 k, q)).
Ltac coords_f := repeat match goal with
  | H : toks_text (two ?q ++ _) ?s _ |- context [coordr_f ?rel ?p (mkLex ?s ?k)] =>
      let s' := fresh "s" in let E := fresh "E" in destruct (coordr_two_f rel p _ _ _ _ k H) as (s' & E & ->); cbn [rbind fst snd]; clear H
  | H : toks_text (two ?q) ?s ?t |- context [coordr_f ?rel ?p (mkLex ?s ?k)] => rewrite (coordr_last_f rel p _ _ _ k H); cbn [rbind fst snd]
  end.
Lemma reads_line_f : forall rel q, reads_f (step1_f line_f rel) rel (DLine q).
Proof. intros rel q s1 s2 k p H. cbn [args] in H. unfold step1_f. coords_f. reflexivity. Qed.
Lemma reads_step_line_f : forall rel q, reads_f (step_line_f rel) rel (DLine q).
Proof. intros rel q s1 s2 k p H. cbn [args] in H. unfold step_line_f. coords_f. reflexivity. Qed.
Lemma reads_move_f : forall rel q, reads_f (step_move_f rel) rel (DMove q).
Proof. intros rel q s1 s2 k p H. cbn [args] in H. unfold step_move_f. coords_f. reflexivity. Qed.
Lemma reads_squad_f : forall rel q, reads_f (step1_f smooth_quad_f rel) rel (DSmoothQuad q).
Proof. intros rel q s1 s2 k p H. cbn [args] in H. unfold step1_f. coords_f. reflexivity. Qed.
Lemma reads_quad_f : forall rel c q, reads_f (step2_f quad_f rel) rel (DQuad c q).
Proof. intros rel c q s1 s2 k p H. cbn [args] in H. unfold step2_f. coords_f. reflexivity. Qed.
Lemma reads_scubic_f : forall rel c q, reads_f (step2_f smooth_cubic_f rel) rel (DSmoothCubic c q).
Proof. intros rel c q s1 s2 k p H. cbn [args] in H. unfold step2_f. coords_f. reflexivity. Qed.
Lemma reads_cubic_f : forall rel c d q, reads_f (step3_f cubic_f rel) rel (DCubic c d q).
Proof. intros rel c d q s1 s2 k p H. cbn [args] in H. unfold step3_f. coords_f. reflexivity. Qed.
Lemma reads_hor_f : forall rel x, reads_f (stepv_f horizontal_f rel) rel (DHor x).
Proof.
  intros rel x s1 s2 k p H. cbn [args] in H. tinv.
  unfold stepv_f. rewrite number_tok_f by auto. reflexivity.
Qed.
Lemma reads_ver_f : forall rel x, reads_f (stepv_f vertical_f rel) rel (DVer x).
Proof.
  intros rel x s1 s2 k p H. cbn [args] in H. tinv.
  unfold stepv_f. rewrite number_tok_f by auto. reflexivity.
Qed.
Lemma reads_arc_f : forall rel rx ry r l s q, reads_f (stepa_f rel) rel (DArc rx ry r l s q).
Proof.
  intros rel rx ry r l s q s1 s2 k p H. cbn [args app] in H.
  apply num_inv in H as (? & ? & ? & ? & ? & H & ->). apply num_inv in H as (? & ? & ? & ? & ? & H & ->). apply num_inv in H as (? & ? & ? & ? & ? & H & ->).
  apply flag_inv in H as (? & ? & ? & H & ->). apply flag_inv in H as (? & ? & ? & H & ->). change ([TNum (fst q); TNum (snd q)]) with (two q) in H.
  unfold stepa_f. rewrite !number_tok_f, !flag_tok by auto. coords_f. rewrite andb_false_r. reflexivity.
Qed.

(** * The whole text *)
Inductive real_step_f : bool -> ascii -> (lex -> path_f -> Res (lex * path_f)) -> Prop :=
| rs_line_f : forall rel, real_step_f rel "L" (step1_f line_f rel)
| rs_line_f' : forall rel, real_step_f rel "L" (step_line_f rel)
| rs_squad_f : forall rel, real_step_f rel "T" (step1_f smooth_quad_f rel)
| rs_hor_f : forall rel, real_step_f rel "H" (stepv_f horizontal_f rel)
| rs_ver_f : forall rel, real_step_f rel "V" (stepv_f vertical_f rel)
| rs_cubic_f : forall rel, real_step_f rel "C" (step3_f cubic_f rel)
| rs_quad_f : forall rel, real_step_f rel "Q" (step2_f quad_f rel)
| rs_scubic_f : forall rel, real_step_f rel "S" (step2_f smooth_cubic_f rel)
| rs_arc_f : forall rel, real_step_f rel "A" (stepa_f rel).
#[local] Hint Constructors real_step_f : rd.
(** What is known of the outcome once the instructions are drawn depends on the text that follows. *)
Section Whole.
Variable good : path_f -> outcome_f -> Prop.
Hypothesis good_lex : forall p q s s', good p (Fin_f s q) -> good p (Fin_f s' q).
Definition is_result_f (o : outcome_f) (r : path_f * option exn) : Prop :=
  match snd r with None => good (fst r) o | Some e => o = Exc_f e (fst r) end.
Definition cont_f (n m : nat) (step : lex -> path_f -> Res (lex * path_f)) (s : lex) (p : path_f) : outcome_f :=
  match (let '(b, s2) := more s in if b then do_loop_f n step s2 p else Fin_f s2 p) with
  | Fin_f s2 q => commands_f m s2 q
  | o => o
  end.
Definition agrees_f (step : lex -> path_f -> Res (lex * path_f)) (rel : bool) (c : ascii) : Prop :=
  c <> "M"%char /\ c <> "Z"%char /\ real_step_f rel c step /\ forall a, letter_of false a = c -> reads_f step rel a.
Definition follows_f (prev : option (bool * ascii)) (n m : nat) (s : text) (p : path_f) (r : path_f * option exn) : Prop :=
  match prev with
  | None => is_result_f (commands_f m (mkLex (drop_sep s) false) p) r /\ forall k', exists k2, more (mkLex s k') = (false, mkLex (drop_sep s) k2)
  | Some (rel, c) => forall step, agrees_f step rel c -> is_result_f (cont_f n m step (mkLex s false) p) r
  end.
(** A run that is a do-while loop with a reading step. *)
Lemma do_loop_cont_f : forall n m step rel a s1 s2 k p r, reads_f step rel a -> toks_text (args a) s1 s2 ->
  (forall q, draw_atom_f p rel (map_atom qlit_f a) = Ok q -> is_result_f (cont_f n m step (mkLex s2 k) q) (r q)) ->
  is_result_f (match do_loop_f (S n) step (mkLex s1 k) p with Fin_f s q => commands_f m s q | o => o end)
            (match draw_atom_f p rel (map_atom qlit_f a) with Ok q => r q | Err e => (p, Some e) end).
Proof.
  intros n m step rel a s1 s2 k p r R T H. cbn [do_loop_f]. rewrite (R _ _ k p T).
  destruct (draw_atom_f p rel (map_atom qlit_f a)) as [q|e]; cbn [rbind].
  - exact (H q eq_refl).
  - reflexivity.
Qed.
Lemma agrees_of_f : forall step rel c, c <> "M"%char -> c <> "Z"%char -> real_step_f rel c step -> (forall a, letter_of false a = c -> reads_f step rel a) -> agrees_f step rel c.
Proof. unfold agrees_f; auto. Qed.
Ltac agr_f := apply agrees_of_f; [discriminate|discriminate|constructor|intros [] E; try discriminate E; auto using reads_line_f, reads_step_line_f, reads_squad_f, reads_quad_f, reads_scubic_f, reads_cubic_f, reads_hor_f, reads_ver_f, reads_arc_f].
Lemma agr_L_f : forall rel, agrees_f (step1_f line_f rel) rel "L". Proof. intros; agr_f. Qed.
Lemma agr_L_f' : forall rel, agrees_f (step_line_f rel) rel "L". Proof. intros; agr_f. Qed.
Lemma agr_T_f : forall rel, agrees_f (step1_f smooth_quad_f rel) rel "T". Proof. intros; agr_f. Qed.
Lemma agr_H_f : forall rel, agrees_f (stepv_f horizontal_f rel) rel "H". Proof. intros; agr_f. Qed.
Lemma agr_V_f : forall rel, agrees_f (stepv_f vertical_f rel) rel "V". Proof. intros; agr_f. Qed.
Lemma agr_C_f : forall rel, agrees_f (step3_f cubic_f rel) rel "C". Proof. intros; agr_f. Qed.
Lemma agr_Q_f : forall rel, agrees_f (step2_f quad_f rel) rel "Q". Proof. intros; agr_f. Qed.
Lemma agr_S_f : forall rel, agrees_f (step2_f smooth_cubic_f rel) rel "S". Proof. intros; agr_f. Qed.
Lemma agr_A_f : forall rel, agrees_f (stepa_f rel) rel "A". Proof. intros; agr_f. Qed.
#[local] Hint Resolve agr_L_f agr_L_f' agr_T_f agr_H_f agr_V_f agr_C_f agr_Q_f agr_S_f agr_A_f reads_line_f reads_step_line_f reads_squad_f reads_quad_f reads_scubic_f reads_cubic_f reads_hor_f reads_ver_f reads_arc_f reads_move_f : rd.

Lemma run_draws_f : forall m rel a s1 s2 k p r, (k = true -> a = DClose) -> toks_text (args a) s1 s2 -> (List.length s1 < m)%nat ->
  (forall q n, draw_atom_f p rel (map_atom qlit_f a) = Ok q -> (List.length s2 < n)%nat -> follows_f (implied rel a) n m s2 q (r q)) ->
  is_result_f (match run_f m (letter_of rel a) (mkLex s1 k) p with Fin_f s q => commands_f m s q | o => o end)
            (match draw_atom_f p rel (map_atom qlit_f a) with Ok q => r q | Err e => (p, Some e) end).
Proof.
  intros m rel a s1 s2 k p r K T L H.
  assert (W : forall step s1 k, (k = true -> a = DClose) -> toks_text (args a) s1 s2 -> (List.length s1 < m)%nat -> a <> DClose -> reads_f step rel a -> agrees_f step rel (letter_of false a) -> implied rel a = Some (rel, letter_of false a) ->
    is_result_f (match do_loop_f m step (mkLex s1 k) p with Fin_f s q => commands_f m s q | o => o end)
            (match draw_atom_f p rel (map_atom qlit_f a) with Ok q => r q | Err e => (p, Some e) end)).
  { clear K T L s1 k. intros step s1 k K T L NZ R A I. assert (LS := args_len _ _ _ T NZ). destruct m as [|n']; [lia|].
    destruct k; [now destruct (NZ (K eq_refl))|]. eapply do_loop_cont_f; eauto. intros q E. assert (F := H q n' E ltac:(lia)). rewrite I in F. exact (F step A). }
  assert (V : forall step, a <> DClose -> reads_f step rel a -> agrees_f step rel (letter_of false a) -> implied rel a = Some (rel, letter_of false a) ->
    is_result_f (match while_loop_f m step (mkLex s1 k) p with Fin_f s q => commands_f m s q | o => o end)
            (match draw_atom_f p rel (map_atom qlit_f a) with Ok q => r q | Err e => (p, Some e) end)).
  { intros step NZ R A I. destruct (args_more _ _ _ k T NZ) as (s' & M & T' & L'). unfold while_loop_f. rewrite M. apply W; auto. lia. }
  destruct a; unfold run_f;
    [ | destruct rel; apply W; auto with rd; discriminate
      | destruct rel; apply W; auto with rd; discriminate
      | destruct rel; [apply W|apply V]; auto with rd; discriminate
      | destruct rel; apply W; auto with rd; discriminate
      | destruct rel; apply W; auto with rd; discriminate
      | destruct rel; apply W; auto with rd; discriminate
      | destruct rel; apply W; auto with rd; discriminate
      | destruct rel; apply V; auto with rd; discriminate | ].
  - assert (NZ : DMove p0 <> DClose) by discriminate. destruct (args_more _ _ _ k T NZ) as (s' & M & T' & L').
    assert (R := reads_move_f rel p0 _ _ k p T').
    replace (is_lower (letter_of rel (DMove p0))) with rel by (destruct rel; reflexivity).
    replace (aeqb (letter (letter_of rel (DMove p0))) "Z") with false by (destruct rel; reflexivity).
    replace (aeqb (letter (letter_of rel (DMove p0))) "M") with true by (destruct rel; reflexivity).
    rewrite M. cbn [negb]. rewrite R. destruct (draw_atom_f p rel (map_atom qlit_f (DMove p0))) as [q|e] eqn:E; cbn [rbind]; [|reflexivity].
    destruct k; [now destruct (NZ (K eq_refl))|]. assert (F := H q m eq_refl). cbn in F. assert (LS := args_len _ _ _ T NZ). specialize (F ltac:(lia) (step_line_f rel) (agr_L_f' rel)). exact F.
  - replace (is_lower (letter_of rel (@DClose lit))) with rel by (destruct rel; reflexivity).
    replace (aeqb (letter (letter_of rel (@DClose lit))) "Z") with true by (destruct rel; reflexivity).
    cbn [args] in T. apply nil_inv in T. subst s2. cbn [map_atom draw_atom_f] in *. unfold closed_f in *.
    destruct (H _ m eq_refl L) as [F M]. destruct (M k) as (k2 & ->). cbn [rem]. exact F.
Qed.

Lemma commands_drop_f : forall m s k p r, is_result_f (commands_f m (mkLex (drop_sep s) k) p) r <-> is_result_f (commands_f m (mkLex s k) p) r.
Proof.
  intros [|m] s k p r; [reflexivity|]. cbn [commands_f]. rewrite lex_drop. destruct (lex_command (mkLex s k)) as [[c s1]|]; [reflexivity|].
  unfold is_result_f. destruct (snd r). split; discriminate. split; apply good_lex.
Qed.
Definition final_f (prev : option (bool * ascii)) (t : text) : Prop :=
  forall n m p, (List.length t < n)%nat -> (List.length t < m)%nat -> follows_f prev n m t p (p, None).
Lemma spelled_follows_f : forall prev l s t, spelled prev l s t -> final_f (ending prev l) t -> forall n m p, (List.length s < n)%nat -> (List.length s < m)%nat ->
  follows_f prev n m s p (draw_all_f p (values_f l)).
Proof.
  induction 1 as [prev t|prev rel a w s1 s2 l t W T SP IH|prev rel a s1 s2 l t O T SP IH]; cbn [ending]; intros ST n m p N M.
  - exact (ST n m p N M).
  - cbn [values_f map draw_all_f fst snd]. fold (values_f l).
    destruct (cmd_letter rel a) as (C1 & C2 & C3).
    rewrite app_length in N, M; cbn [List.length] in N, M.
    assert (C : forall k, (k = true -> a = DClose) -> is_result_f (commands_f m (mkLex (letter_of rel a :: s1) k) p) (match draw_atom_f p rel (map_atom qlit_f a) with Ok q => draw_all_f q (values_f l) | Err e => (p, Some e) end)).
    { intros k' KC. destruct m as [|m]; [lia|]. cbn [commands_f]. unfold lex_command; cbn [rem ic drop_sep]. rewrite C2, C1.
      apply (run_draws_f m rel a s1 s2 k' p (fun q => draw_all_f q (values_f l))); auto. lia.
      intros q n' E L. apply toks_len in T. apply IH; auto. lia. }
    destruct prev as [[rel' c]|]; cbn [follows_f].
    + intros step _. unfold cont_f. destruct (more_letter w rel a s1 false W) as (k2 & -> & K2). apply C. auto.
    + rewrite drop_sep_app by auto. cbn [drop_sep]. rewrite C2. split; [apply C; discriminate|]. intros k'. destruct (more_letter w rel a s1 k' W) as (k2 & E & _). eauto.
  - unfold may_omit in O. subst prev. cbn [values_f map draw_all_f fst snd follows_f]. fold (values_f l). intros step A.
    assert (NZ : a <> DClose). { intros ->. destruct A as (_ & A & _). apply A. reflexivity. }
    assert (I : implied rel a = Some (rel, letter_of false a)).
    { destruct A as (A & _). destruct a; try reflexivity. exfalso; apply A; reflexivity. congruence. }
    destruct (args_more _ _ _ false T NZ) as (s' & MM & T' & L'). assert (LS := args_len _ _ _ T NZ).
    unfold cont_f. rewrite MM. destruct n as [|n]; [lia|].
    apply (do_loop_cont_f n m step rel a s' s2 false p (fun q => draw_all_f q (values_f l))); auto.
    + destruct A as (_ & _ & _ & A). auto.
    + intros q E. rewrite I in IH, ST. apply (IH ST n m q); auto; lia.
Qed.
Lemma parse_spelled_f : forall l s t p, spelled None l s t -> final_f (ending None l) t -> is_result_f (commands_f (fuel_for s) (mkLex s false) p) (draw_all_f p (values_f l)).
Proof.
  intros l s t p SP ST. destruct (spelled_follows_f None l s t SP ST (fuel_for s) (fuel_for s) p) as [F _]; [unfold fuel_for; lia..|].
  apply (proj1 (commands_drop_f _ s _ _ _)) in F. exact F.
Qed.
End Whole.
Definition ended_f (p : path_f) (o : outcome_f) : Prop := exists s, o = Fin_f s p.
Lemma ended_lex_f : forall p q s s', ended_f p (Fin_f s q) -> ended_f p (Fin_f s' q).
Proof. intros p q s s' (x & E). injection E as _ ->. eexists; reflexivity. Qed.
Lemma stop_final_f : forall prev t, stop t -> final_f ended_f prev t.
Proof.
  intros prev t ST n m p N M. destruct (stop_facts t ST) as (A & B).
  assert (C : forall k, is_result_f ended_f (commands_f m (mkLex (drop_sep t) k) p) (p, None)).
  { intros k'. destruct m as [|m]; [lia|]. cbn [commands_f]. rewrite (proj2 (B k')). cbn. eexists; eauto. }
  assert (MM : forall k', exists k2, more (mkLex t k') = (false, mkLex (drop_sep t) k2)).
  { intros k'. unfold more; cbn [rem ic]. rewrite A. eauto. }
  destruct prev as [[rel c]|]; cbn [follows_f]; [|auto].
  intros step _. unfold cont_f. destruct (MM false) as (k2 & ->). apply C.
Qed.
(** The parser draws the instructions, whatever their spelling. *)
Lemma parse_draws_f : forall l s t p, spelled None l s t -> stop t -> parse_f s p = draw_all_f p (values_f l).
Proof.
  intros l s t p SP ST. pose proof (parse_spelled_f ended_f ended_lex_f l s t p SP (stop_final_f _ t ST)) as F.
  unfold parse_f. unfold is_result_f in F. destruct (draw_all_f p (values_f l)) as [q [e|]]; cbn [fst snd] in F.
  - rewrite F. reflexivity.
  - destruct F as (s' & ->). reflexivity.
Qed.

(** * Drawing with a pen, in floats *)
Definition moves_ended_f (p : path_f) : Prop := Forall (fun s => is_move_f s = true -> s_end_f s <> None) p.
(** The last control point, for smooth continuation. *)
Inductive memory_f := NoCurve_f | AfterQuad_f (c : pt_f) | AfterCubic_f (c : pt_f).
Record pen_f := mkPen_f { at__f : option pt_f; sub_f : pt_f; mem_f : memory_f }.
Definition pen0_f : pen_f := mkPen_f None (fz 0, fz 0) NoCurve_f.
Definition here_f (k : pen_f) : pt_f := match at__f k with Some p => p | None => (fz 0, fz 0) end.
Definition shift_f (k : pen_f) (rel : bool) (p : pt_f) : pt_f :=
  if rel then match at__f k with Some c => padd_f p c | None => p end else p.
Definition mirror_f (c p : pt_f) : pt_f := padd_f p (psub_f p c).
(** SVG: a smooth curve continues the last curve if that is of the same sort ([strict]); the lenient
    reading continues any Bezier curve. *)
Definition smooth_quad_control_f (strict : bool) (k : pen_f) : pt_f :=
  match mem_f k with AfterQuad_f c => mirror_f c (here_f k) | AfterCubic_f c => if strict then here_f k else mirror_f c (here_f k) | NoCurve_f => here_f k end.
Definition smooth_cubic_control_f (strict : bool) (k : pen_f) : pt_f :=
  match mem_f k with AfterCubic_f c => mirror_f c (here_f k) | AfterQuad_f c => if strict then here_f k else mirror_f c (here_f k) | NoCurve_f => here_f k end.
Definition stroke_f (strict : bool) (k : pen_f) (rel : bool) (a : atom fl) : drawn_f * pen_f :=
  let sh := shift_f k rel in
  match a with
  | DMove p => (SMove_f (at__f k) (sh p), mkPen_f (Some (sh p)) (sh p) NoCurve_f)
  | DLine p => (SLine_f (here_f k) (sh p), mkPen_f (Some (sh p)) (sub_f k) NoCurve_f)
  | DHor x => let p := (if rel then fadd (fst (here_f k)) x else x, snd (here_f k)) in (SLine_f (here_f k) p, mkPen_f (Some p) (sub_f k) NoCurve_f)
  | DVer y => let p := (fst (here_f k), if rel then fadd (snd (here_f k)) y else y) in (SLine_f (here_f k) p, mkPen_f (Some p) (sub_f k) NoCurve_f)
  | DQuad c p => (SQuad_f (here_f k) (sh c) (sh p), mkPen_f (Some (sh p)) (sub_f k) (AfterQuad_f (sh c)))
  | DSmoothQuad p => let c := smooth_quad_control_f strict k in (SQuad_f (here_f k) c (sh p), mkPen_f (Some (sh p)) (sub_f k) (AfterQuad_f c))
  | DCubic c d p => (SCubic_f (here_f k) (sh c) (sh d) (sh p), mkPen_f (Some (sh p)) (sub_f k) (AfterCubic_f (sh d)))
  | DSmoothCubic d p => let c := smooth_cubic_control_f strict k in (SCubic_f (here_f k) c (sh d) (sh p), mkPen_f (Some (sh p)) (sub_f k) (AfterCubic_f (sh d)))
  | DArc rx ry r l s p => (SArc_f (here_f k) rx ry r l s (sh p), mkPen_f (Some (sh p)) (sub_f k) NoCurve_f)
  | DClose => (SClose_f (here_f k) (sub_f k), mkPen_f (Some (sub_f k)) (sub_f k) NoCurve_f)
  end.
Fixpoint svg_f (strict : bool) (k : pen_f) (l : list (bool * atom fl)) : list drawn_f :=
  match l with
  | [] => []
  | (rel, a) :: l' => let '(d, k') := stroke_f strict k rel a in d :: svg_f strict k' l'
  end.
Lemma last_seg_snoc_f : forall p s, last_seg_f (p ++ [s]) = Some s.
Proof. induction p as [|a p IH]; intros s; auto. cbn [app last_seg_f]. destruct (p ++ [s]) eqn:E. destruct p; discriminate. rewrite <- E. apply IH. Qed.
Lemma current_snoc_f : forall p s, current_point_f (p ++ [s]) = s_end_f s.
Proof. intros. unfold current_point_f. rewrite last_seg_snoc_f. reflexivity. Qed.
Lemma last_move_snoc_f : forall p s, last_move_f (p ++ [s]) = if is_move_f s then Some s else last_move_f p.
Proof.
  induction p as [|a p IH]; intros s; cbn [app last_move_f].
  - reflexivity.
  - rewrite IH. destruct (is_move_f s); auto.
Qed.
Lemma link_same_f : forall b f s, s_start_f s = s_end_f f -> link_f b f s = (f, s).
Proof. intros b f s H. unfold link_f. rewrite H. destruct (s_end_f f) eqn:E; auto. destruct (near_f p p); auto. destruct b, f, s; cbn in *; subst; reflexivity. Qed.
Lemma validate_last_same_f : forall p s, s_start_f s = current_point_f p -> validate_connection_f (p ++ [s]) (Z.of_nat (length p) - 1) = p ++ [s].
Proof.
  intros p s H. unfold validate_connection_f, validate_connection2_f. destruct (snoc_cases _ p) as [->|(p' & f & ->)].
  - reflexivity.
  - rewrite current_snoc_f in H. rewrite !app_length; cbn [length].
    replace ((Z.of_nat (length p' + 1) - 1 <? 0) || (Z.of_nat (length p' + 1 + 1) <=? Z.of_nat (length p' + 1) - 1 + 1)) with false by lia.
    replace (Z.to_nat (Z.of_nat (length p' + 1) - 1)) with (length p') by lia.
    assert (N1 : nth_error ((p' ++ [f]) ++ [s]) (length p') = Some f).
    { rewrite <- app_assoc. rewrite nth_error_app2, Nat.sub_diag by lia. reflexivity. }
    assert (N2 : nth_error ((p' ++ [f]) ++ [s]) (S (length p')) = Some s).
    { rewrite nth_error_app2; rewrite app_length; cbn [length]; [|lia]. replace (S (length p') - (length p' + 1))%nat with O by lia. reflexivity. }
    rewrite N1, N2, link_same_f by auto. rewrite (upd_same _ _ _ _ N1), (upd_same _ _ _ _ N2). reflexivity.
Qed.
Lemma last_move_ended_f : forall p m, moves_ended_f p -> last_move_f p = Some m -> exists e, s_end_f m = Some e.
Proof.
  induction 1 as [|s p H F IH]; cbn [last_move_f]; [discriminate|]. destruct (last_move_f p).
  - intros E; injection E as <-. auto.
  - destruct (is_move_f s) eqn:M; [|discriminate]. intros E; injection E as <-. destruct (s_end_f s); eauto. exfalso; apply H; auto.
Qed.
Lemma append_same_f : forall p s, s_start_f s = current_point_f p -> (is_close_f s = true -> moves_ended_f p /\ s_end_f s = z_point_f p) -> append_f p s = p ++ [s].
Proof.
  intros p s H C. unfold append_f. rewrite validate_last_same_f by auto. destruct (is_close_f s) eqn:Z; auto.
  destruct (C eq_refl) as [M E]. unfold validate_close_f. rewrite nth_snoc. apply upd_same. rewrite nth_snoc. f_equal.
  rewrite firstn_all2 by (rewrite app_length; cbn [length]; lia). rewrite last_move_snoc_f.
  assert (NM : is_move_f s = false) by (unfold is_move_f, is_close_f in *; destruct (s_kind_f s); congruence). rewrite NM.
  unfold z_point_f in E. destruct (last_move_f p) as [m|] eqn:LM.
  - destruct (last_move_ended_f _ _ M LM) as (e & Ee). rewrite Ee in *. destruct s as [k a b c d]; cbn in *. unfold set_end_f; cbn. congruence.
  - destruct p as [|f p]; cbn [app] in *; destruct s as [k a b c d]; unfold set_end_f; cbn in *; congruence.
Qed.

Record tracks_f (p : path_f) (k : pen_f) : Prop := {
  tk_ne_f : p <> [];
  tk_at_f : current_point_f p = at__f k;
  tk_sub_f : z_point_f p = Some (sub_f k);
  tk_here_f : at__f k = Some (here_f k);
  tk_moves_f : moves_ended_f p;
  tk_mem_f : match mem_f k with
           | NoCurve_f => smooth_point_f p = Ok (Some (here_f k))
           | AfterQuad_f c | AfterCubic_f c => smooth_point_f p = Ok (Some (reflect_f c (here_f k)))
           end }.
Lemma mirror_reflect_f : forall c p, mirror_f c p = reflect_f c p.
Proof. reflexivity. Qed.
Lemma tracks_smooth_quad_f : forall p k, tracks_f p k -> smooth_point_f p = Ok (Some (smooth_quad_control_f false k)).
Proof. intros p k [? ? ? ? ? M]. unfold smooth_quad_control_f. destruct (mem_f k); rewrite ?mirror_reflect_f; auto. Qed.
Lemma tracks_smooth_cubic_f : forall p k, tracks_f p k -> smooth_point_f p = Ok (Some (smooth_cubic_control_f false k)).
Proof. intros p k [? ? ? ? ? M]. unfold smooth_cubic_control_f. destruct (mem_f k); rewrite ?mirror_reflect_f; auto. Qed.
Lemma tracks_base_f : forall p k rel q, tracks_f p k -> base_f p rel q = shift_f k rel q.
Proof. intros p k rel q [? A ? H ? ?]. unfold base_f, shift_f. destruct rel; auto. rewrite A. reflexivity. Qed.
Lemma z_snoc_f : forall p s, p <> [] -> is_move_f s = false -> z_point_f (p ++ [s]) = z_point_f p.
Proof. intros p s N M. unfold z_point_f. rewrite last_move_snoc_f, M. destruct p; [congruence|reflexivity]. Qed.
Lemma smooth_snoc_f : forall p s, smooth_point_f (p ++ [s]) = match s_kind_f s with KQuad_f c => reflected_f c (s_end_f s) | KCubic_f _ c2 => reflected_f c2 (s_end_f s) | _ => Ok (s_end_f s) end.
Proof. intros p s. unfold smooth_point_f. rewrite last_seg_snoc_f. reflexivity. Qed.
Lemma ended_snoc_f : forall p s, moves_ended_f p -> (is_move_f s = true -> s_end_f s <> None) -> moves_ended_f (p ++ [s]).
Proof. intros p s M E. apply Forall_app. split; auto. Qed.
Lemma draw_stroke_f : forall p k rel a, tracks_f p k -> exists s, draw_atom_f p rel a = Ok (p ++ [s]) /\ view_f s = Some (fst (stroke_f false k rel a)) /\ tracks_f (p ++ [s]) (snd (stroke_f false k rel a)).
Proof.
  intros p k rel a TK. pose proof (tracks_base_f p k rel) as B. destruct TK as [N A SB H M ME] eqn:E; clear E. pose proof TK as TK'.
  assert (B' : forall q, base_f p rel q = shift_f k rel q) by auto. clear B.
  assert (A' : current_point_f p = Some (here_f k)) by congruence.
  assert (G : forall s d k', s_start_f s = current_point_f p -> is_move_f s = false -> (is_close_f s = true -> s_end_f s = z_point_f p) -> view_f s = Some d ->
     s_end_f s = Some (here_f k') -> at__f k' = Some (here_f k') -> sub_f k' = sub_f k ->
     match mem_f k' with NoCurve_f => match s_kind_f s with KQuad_f _ | KCubic_f _ _ => False | _ => True end
                     | AfterQuad_f c => s_kind_f s = KQuad_f (Some c) | AfterCubic_f c => exists b, s_kind_f s = KCubic_f b (Some c) end ->
     append_f p s = p ++ [s] /\ view_f s = Some d /\ tracks_f (p ++ [s]) k').
  { intros s d k' S1 S2 S3 V E1 E2 E3 E4. split; [|split; auto].
    - apply append_same_f; auto.
    - constructor; auto.
      + destruct p; discriminate.
      + rewrite current_snoc_f. congruence.
      + rewrite z_snoc_f by auto. congruence.
      + apply ended_snoc_f; auto. congruence.
      + rewrite smooth_snoc_f. destruct (mem_f k').
        * destruct (s_kind_f s); try contradiction; congruence.
        * rewrite E4, E1. reflexivity.
        * destruct E4 as (b & E4). rewrite E4, E1. reflexivity. }
  assert (G' : forall s d k', s_start_f s = current_point_f p -> is_move_f s = false -> (is_close_f s = true -> s_end_f s = z_point_f p) -> view_f s = Some d ->
     s_end_f s = Some (here_f k') -> at__f k' = Some (here_f k') -> sub_f k' = sub_f k ->
     match mem_f k' with NoCurve_f => match s_kind_f s with KQuad_f _ | KCubic_f _ _ => False | _ => True end
                     | AfterQuad_f c => s_kind_f s = KQuad_f (Some c) | AfterCubic_f c => exists b, s_kind_f s = KCubic_f b (Some c) end ->
     exists s', Ok (append_f p s) = Ok (p ++ [s']) /\ view_f s' = Some d /\ tracks_f (p ++ [s']) k').
  { intros. exists s. destruct (G s d k') as (E1 & E2 & E3); auto. rewrite E1. auto. }
  destruct a; cbn [draw_atom_f stroke_f fst snd].
  - eexists. split; [unfold move_f; f_equal; apply append_same_f; [reflexivity|discriminate]|]. unfold resolve_f. rewrite B'. split.
    + unfold view_f; cbn. congruence.
    + constructor; cbn; try congruence.
      * destruct p; discriminate.
      * rewrite current_snoc_f. reflexivity.
      * unfold z_point_f. rewrite last_move_snoc_f. reflexivity.
      * apply ended_snoc_f; auto; discriminate.
      * rewrite smooth_snoc_f. reflexivity.
  - unfold line_f. cbn [resolve_f]. rewrite B', A'. apply G'; cbn; auto; discriminate.
  - unfold horizontal_f. rewrite A'. apply G'; cbn; auto; discriminate.
  - unfold vertical_f. rewrite A'. apply G'; cbn; auto; discriminate.
  - unfold quad_f. cbn [resolve_f]. rewrite !B', A'. apply G'; cbn; auto; discriminate.
  - unfold smooth_quad_f. rewrite (tracks_smooth_quad_f p k TK'). cbn [rbind]. set (c := smooth_quad_control_f false k). cbn [resolve_f]. rewrite !B', A'. apply G'; cbn; auto; discriminate.
  - unfold cubic_f. cbn [resolve_f cubic_kind_f rbind]. rewrite !B', A'. apply G'; cbn; auto; try discriminate. eexists; reflexivity.
  - unfold smooth_cubic_f. rewrite (tracks_smooth_cubic_f p k TK'). set (c := smooth_cubic_control_f false k). cbn [resolve_f cubic_kind_f rbind]. rewrite !B', A'. apply G'; cbn; auto; try discriminate. eexists; reflexivity.
  - unfold arc_f. cbn [resolve_f orq_f orb_]. rewrite !B', A'. set (e := shift_f k rel p0).
    match goal with |- context [if ?b then Ok ?x else Ok ?x] => replace (if b then Ok x else Ok x) with (Ok x) by (destruct b; reflexivity) end.
    apply G'; cbn; auto; discriminate.
  - unfold closed_f. rewrite A', SB. apply G'; cbn; auto.
Qed.
Lemma draw_svg_f : forall l p k, tracks_f p k -> exists segs, draw_all_f p l = (p ++ segs, None) /\ map view_f segs = map Some (svg_f false k l).
Proof.
  induction l as [|[rel a] l IH]; intros p k T.
  - exists []. rewrite app_nil_r. auto.
  - cbn [draw_all_f svg_f]. destruct (draw_stroke_f p k rel a T) as (s & D & V & T'). rewrite D. destruct (stroke_f false k rel a) as [d k']; cbn [fst snd] in *.
    destruct (IH _ _ T') as (segs & E & MV). exists (s :: segs). rewrite E, <- app_assoc. cbn [map app]. rewrite V, MV. auto.
Qed.
Lemma first_move_tracks_f : forall rel q, exists s, draw_atom_f [] rel (DMove q) = Ok [s] /\ view_f s = Some (fst (stroke_f false pen0_f rel (DMove q))) /\ tracks_f [s] (snd (stroke_f false pen0_f rel (DMove q))).
Proof.
  intros rel q. assert (Q : shift_f pen0_f rel q = q) by (destruct rel; reflexivity).
  cbn [draw_atom_f stroke_f fst snd]. rewrite Q. eexists. split; [reflexivity|]. unfold base_f. cbn [current_point_f last_seg_f]. split.
  - destruct rel; reflexivity.
  - constructor; cbn; auto; try discriminate; destruct rel; auto; constructor; cbn; auto; discriminate.
Qed.
Lemma draw_svg0_f : forall l, begins_with_move l -> exists segs, draw_all_f [] l = (segs, None) /\ map view_f segs = map Some (svg_f false pen0_f l).
Proof.
  intros l (rel & q & l' & ->). cbn [draw_all_f svg_f]. destruct (first_move_tracks_f rel q) as (s & D & V & T). rewrite D.
  destruct (stroke_f false pen0_f rel (DMove q)) as [d k]; cbn [fst snd] in *. destruct (draw_svg_f l' _ _ T) as (segs & E & MV). exists (s :: segs). rewrite E. cbn [map app]. rewrite V, MV. auto.
Qed.
Lemma values_begin_f : forall l, begins_with_move l -> begins_with_move (values_f l).
Proof. intros l (rel & q & l' & ->). unfold values_f. cbn [map fst snd map_atom]. repeat eexists. Qed.
Lemma parse_svg_f : forall l s t, spelled None l s t -> stop t -> begins_with_move l ->
  exists segs, parse_f s [] = (segs, None) /\ map view_f segs = map Some (svg_f false pen0_f (values_f l)).
Proof. intros l s t S T B. rewrite (parse_draws_f l s t [] S T). apply draw_svg0_f, values_begin_f, B. Qed.


(** * Printing and reading back *)
Lemma pair_settles : forall p, good_pt p -> exists l, lit_ok (fst l) /\ lit_ok (snd l) /\ pstr_f p = lit_text (fst l) ++ ","%char :: lit_text (snd l) /\ pstr_f (on2 qlit_f l) = pstr_f p /\ same11 p (on2 qlit_f l).
Proof.
  intros [a b] [A B]. cbn [fst snd] in *. destruct (coord_settles a A) as (l1 & x & L1 & E1 & X & _ & S1 & N1), (coord_settles b B) as (l2 & y & L2 & E2 & Y & _ & S2 & N2).
  exists (l1, l2). cbn [fst snd]. split; auto. split; auto. unfold pstr_f, fpoint_str, same11, on2, qlit_f. cbn [fst snd fx fy]. rewrite <- X, <- Y, S1, S2, E1, E2. auto.
Qed.
Lemma cmd_abs : forall up lo cur, cmd_f up lo cur false = up. Proof. intros up lo [c|]; reflexivity. Qed.
Lemma ptxt_abs : forall cur p, ptxt_f cur false p = pstr_f p. Proof. intros [c|] p; reflexivity. Qed.
Definition same_text (s : seg_f) (w : text) : Prop := forall cur, seg_d_f s cur false = Ok w.
Lemma view_move : forall s o e, view_f s = Some (SMove_f o e) -> s_kind_f s = KMove_f /\ s_end_f s = Some e.
Proof. intros [k a b r m] o e. unfold view_f. cbn. destruct k as [| | |[?|]|[?|] [?|]|], a as [?|], b as [?|]; intros E; try discriminate E; injection E; intros; subst; auto. Qed.
Lemma view_line : forall s a e, view_f s = Some (SLine_f a e) -> s_kind_f s = KLine_f /\ s_end_f s = Some e.
Proof. intros [k x b r m] a e. unfold view_f. cbn. destruct k as [| | |[?|]|[?|] [?|]|], x as [?|], b as [?|]; intros E; try discriminate E; injection E; intros; subst; auto. Qed.
Lemma view_close : forall s a e, view_f s = Some (SClose_f a e) -> s_kind_f s = KClose_f.
Proof. intros [k x b r m] a e. unfold view_f. cbn. destruct k as [| | |[?|]|[?|] [?|]|], x as [?|], b as [?|]; intros E; try discriminate E; injection E; intros; subst; auto. Qed.
Lemma view_quad : forall s a c e, view_f s = Some (SQuad_f a c e) -> s_kind_f s = KQuad_f (Some c) /\ s_end_f s = Some e.
Proof. intros [k x b r m] a c e. unfold view_f. cbn. destruct k as [| | |[?|]|[?|] [?|]|], x as [?|], b as [?|]; intros E; try discriminate E; injection E; intros; subst; auto. Qed.
Lemma view_cubic : forall s a c d e, view_f s = Some (SCubic_f a c d e) -> s_kind_f s = KCubic_f (Some c) (Some d) /\ s_end_f s = Some e.
Proof. intros [k x b r m] a c d e. unfold view_f. cbn. destruct k as [| | |[?|]|[?|] [?|]|], x as [?|], b as [?|]; intros E; try discriminate E; injection E; intros; subst; auto. Qed.
Lemma seg_settles : forall s, printable s -> exists a w, (s_kind_f s = KMove_f -> exists q, a = DMove q) /\ same_text s (letter_of false a :: w) /\ (forall u, ends_number u -> toks_text (args a) (w ++ u) u) /\
  forall k s', view_f s' = Some (fst (stroke_f false k false (map_atom qlit_f a))) -> same_text s' (letter_of false a :: w) /\ alike s s'.
Proof.
  intros s P. unfold printable in P. destruct (s_kind_f s) as [| | |c|c d|g] eqn:K; [destruct (s_end_f s) as [e|] eqn:E; [|destruct P] | clear P | destruct (s_end_f s) as [e|] eqn:E; [|destruct P] | destruct c as [c|]; [|destruct P]; destruct (s_end_f s) as [e|] eqn:E; [|destruct P] |
    destruct c as [c|]; [|destruct P]; destruct d as [d|]; [|destruct P]; destruct (s_end_f s) as [e|] eqn:E; [|destruct P] | destruct P].
  - destruct (pair_settles e P) as (l & L1 & L2 & T & S & N). exists (DMove l), (" "%char :: pstr_f e). split; [eauto|]. split; [|split].
    + intros cur. unfold seg_d_f. rewrite K, E, cmd_abs, ptxt_abs. reflexivity.
    + intros u U. rewrite T. cbn [args]. rewrite <- (app_nil_r (two l)). cbn [app]. apply toks_pair; auto. constructor.
    + intros k s' V. cbn [map_atom stroke_f fst] in V. unfold shift_f in V. apply view_move in V as [K' E']. split.
      * intros cur. unfold seg_d_f. rewrite K', E', cmd_abs, ptxt_abs, S. reflexivity.
      * unfold alike. rewrite K, E, K', E'. auto.
  - exists DClose, []. split; [discriminate|]. split; [|split].
    + intros cur. unfold seg_d_f. rewrite K, cmd_abs. destruct (s_end_f s); reflexivity.
    + intros u U. constructor.
    + intros k s' V. cbn [map_atom stroke_f fst] in V. apply view_close in V as K'. split.
      * intros cur. unfold seg_d_f. rewrite K', cmd_abs. destruct (s_end_f s'); reflexivity.
      * unfold alike. rewrite K, K'. destruct (s_end_f s); auto.
  - destruct (pair_settles e P) as (l & L1 & L2 & T & S & N). exists (DLine l), (" "%char :: pstr_f e). split; [discriminate|]. split; [|split].
    + intros cur. unfold seg_d_f. rewrite K, E, cmd_abs, ptxt_abs. reflexivity.
    + intros u U. rewrite T. cbn [args]. rewrite <- (app_nil_r (two l)). cbn [app]. apply toks_pair; auto. constructor.
    + intros k s' V. cbn [map_atom stroke_f fst] in V. unfold shift_f in V. apply view_line in V as [K' E']. split.
      * intros cur. unfold seg_d_f. rewrite K', E', cmd_abs, ptxt_abs, S. reflexivity.
      * unfold alike. rewrite K, E, K', E'. auto.
  - destruct P as [P1 P2]. destruct (pair_settles c P1) as (l & L1 & L2 & T & S & N), (pair_settles e P2) as (l' & L1' & L2' & T' & S' & N'). exists (DQuad l l'), (" "%char :: pstr_f c ++ " "%char :: pstr_f e). split; [discriminate|]. split; [|split].
    + intros cur. unfold seg_d_f. rewrite K, E, cmd_abs, !ptxt_abs. reflexivity.
    + intros u U. rewrite T, T'. cbn [args]. rewrite <- (app_nil_r (two l')). rewrite <- app_comm_cons, <- app_assoc, <- app_comm_cons. apply toks_pair; auto; [right; eexists; reflexivity|]. apply toks_pair; auto. constructor.
    + intros k s' V. cbn [map_atom stroke_f fst] in V. unfold shift_f in V. apply view_quad in V as [K' E']. split.
      * intros cur. unfold seg_d_f. rewrite K', E', cmd_abs, !ptxt_abs, S, S'. reflexivity.
      * unfold alike. rewrite K, E, K', E'. auto.
  - destruct P as (P1 & P3 & P2). destruct (pair_settles c P1) as (l & L1 & L2 & T & S & N), (pair_settles e P2) as (l' & L1' & L2' & T' & S' & N'), (pair_settles d P3) as (m & M1 & M2 & T3 & S3 & N3).
    exists (DCubic l m l'), (" "%char :: pstr_f c ++ " "%char :: pstr_f d ++ " "%char :: pstr_f e). split; [discriminate|]. split; [|split].
    + intros cur. unfold seg_d_f. rewrite K, E, cmd_abs, !ptxt_abs. reflexivity.
    + intros u U. cbn [args]. rewrite <- (app_nil_r (two l')). rewrite <- (app_comm_cons _ u), <- (app_assoc (pstr_f c)), <- (app_comm_cons _ u), <- (app_assoc (pstr_f d)), <- (app_comm_cons _ u). rewrite T, T', T3. apply toks_pair; auto; [right; eexists; reflexivity|]. apply toks_pair; auto; [right; eexists; reflexivity|]. apply toks_pair; auto. constructor.
    + intros k s' V. cbn [map_atom stroke_f fst] in V. unfold shift_f in V. apply view_cubic in V as [K' E']. split.
      * intros cur. unfold seg_d_f. rewrite K', E', cmd_abs, !ptxt_abs, S, S3, S'. reflexivity.
      * unfold alike. rewrite K, E, K', E'. auto.
Qed.
Lemma path_settles : forall p pl, Forall printable p -> exists ws l, (forall cur, svg_d_from_f cur false p = Ok ws) /\ spelled pl l (spaced ws) [] /\
  (forall s p', p = s :: p' -> exists a l' w ws', l = (false, a) :: l' /\ ws = (letter_of false a :: w) :: ws' /\ (s_kind_f s = KMove_f -> exists q, a = DMove q)) /\
  forall k q, map view_f q = map Some (svg_f false k (values_f l)) -> (forall cur, svg_d_from_f cur false q = Ok ws) /\ Forall2 alike p q.
Proof.
  induction p as [|s p IH]; intros pl F.
  - exists [], []. split; [reflexivity|]. split; [constructor|]. split; [discriminate|]. intros k [|x q] E; [|discriminate]. split; [reflexivity|constructor].
  - inversion F as [|? ? P F']; subst. destruct (seg_settles s P) as (a & w & M & TX & TK & RE). destruct (IH (implied false a) F') as (ws & l & E & SP & _ & Q).
    exists ((letter_of false a :: w) :: ws), ((false, a) :: l). split; [|split; [|split]].
    + intros cur. cbn [svg_d_from_f]. rewrite TX. cbn [rbind]. rewrite E. reflexivity.
    + unfold spaced; cbn [map concat]. fold (spaced ws). change ((" "%char :: letter_of false a :: w) ++ spaced ws) with ([" "%char] ++ letter_of false a :: (w ++ spaced ws)).
      eapply sp_letter; eauto. constructor; [cbn; tauto|constructor]. apply TK, spaced_ends.
    + intros s0 p' K. injection K as <- <-. exists a, l, w, ws. auto.
    + intros k q V. cbn [values_f map fst snd svg_f] in V. destruct q as [|x q].
      { destruct (stroke_f false k false (map_atom qlit_f a)); discriminate V. }
      specialize (RE k x). destruct (stroke_f false k false (map_atom qlit_f a)) as [d k']. cbn [map fst] in *. injection V as V1 V2. destruct (RE V1) as [R1 R2]. destruct (Q k' q V2) as [Q1 Q2].
      split; [|constructor; auto]. intros cur. cbn [svg_d_from_f]. rewrite R1. cbn [rbind]. rewrite Q1. reflexivity.
Qed.
Lemma path_settles_lemma : forall s p, s_kind_f s = KMove_f -> Forall printable (s :: p) -> exists t q, svg_d_f (s :: p) false = Ok t /\ parse_f t [] = (q, None) /\ svg_d_f q false = Ok t /\ Forall2 alike (s :: p) q.
Proof.
  intros s p K F. destruct (path_settles (s :: p) None F) as (ws & l & E & SP & FI & Q). destruct (FI s p eq_refl) as (a & l' & w & ws' & -> & -> & M). destruct (M K) as (q0 & ->).
  assert (NS : drop_sep (spaced ((letter_of false (DMove q0) :: w) :: ws')) = words ((letter_of false (DMove q0) :: w) :: ws')) by (rewrite words_spaced; reflexivity).
  assert (SP' := spelled_strip _ _ _ _ _ _ SP eq_refl). rewrite NS in SP'. assert (B : begins_with_move ((false, DMove q0) :: l')) by (repeat eexists).
  assert (SN : stop []) by (exists [], []; split; [constructor|auto]).
  destruct (parse_svg_f _ _ _ SP' SN B) as (q & Q1 & Q2). destruct (Q _ _ Q2) as [Q3 Q4]. exists (words ((letter_of false (DMove q0) :: w) :: ws')), q.
  unfold svg_d_f. rewrite E, Q3. auto.
Qed.

(** * Drift *)
Open Scope R_scope.
Lemma rv_add : forall a b, rv (a + b)%Qc = rv a + rv b.
Proof. intros a b. unfold rv. rewrite <- Q2R_plus. apply Qeq_eqR. unfold Qcplus, Q2Qc. cbn [this]. apply Qred_correct. Qed.
Lemma rv_sub : forall a b, rv (a - b)%Qc = rv a - rv b.
Proof. intros a b. unfold rv. rewrite <- Q2R_minus. apply Qeq_eqR. unfold Qcminus, Qcplus, Qcopp, Q2Qc. cbn [this]. rewrite !Qred_correct. reflexivity. Qed.
Lemma rv_lit : forall l, rv (qlit l) = Q2R (lit_val l).
Proof. intros l. unfold rv, qlit, Q2Qc. cbn [this]. apply Qeq_eqR, Qred_correct. Qed.
Lemma INR_S_pos : forall n, 0 <= INR n. Proof. intros. apply pos_INR. Qed.
Section Drift.
  Variable B : R.
  Hypothesis B1 : bpow radix2 (-900) <= B.
  Hypothesis B2 : B <= bpow radix2 900.
  Let D := u * B.
  Lemma B_pos : 0 < B. Proof. pose proof (bpow_gt_0 radix2 (-900)). lra. Qed.
  Lemma D_pos : 0 < D. Proof. apply Rmult_lt_0_compat; [apply u_pos|apply B_pos]. Qed.
  Lemma D_small : D <= / 9000000000000000 * B. Proof. pose proof B_pos. unfold D. rewrite u_val. nra. Qed.
  Lemma eta_D : eta <= / 1000 * D.
  Proof.
    apply Rle_trans with (/ 1024 * (u * bpow radix2 (-900))).
    - replace (/ 1024) with (bpow radix2 (-10)) by reflexivity. unfold eta, u. rewrite <- !bpow_plus. apply bpow_le. lia.
    - pose proof u_pos. pose proof (bpow_gt_0 radix2 (-900)). unfold D. assert (u * bpow radix2 (-900) <= u * B) by (apply Rmult_le_compat_l; lra). nra.
  Qed.
  Lemma near_weak : forall e e' x c, e <= e' -> near_num e x c -> near_num e' x c. Proof. intros e e' x c L [F N]. split; auto. lra. Qed.
  Lemma near_pt_weak : forall e e' p q, e <= e' -> near_pt e p q -> near_pt e' p q. Proof. intros e e' p q L [A C]. split; eapply near_weak; eauto. Qed.
  Lemma lit_close : forall l k, lit_ok l -> 0 <= k <= 2 -> Rabs (rv (qlit l)) <= k * B -> near_num ((k + / 100) * D) (qlit_f l) (qlit l).
  Proof.
    intros l k L K H. rewrite rv_lit in H. pose proof B_pos. pose proof eta_D. pose proof D_pos.
    assert (BR : Rabs (rnd (Q2R (Qabs (lit_val l)))) < bpow radix2 1024).
    { apply rnd_big. rewrite Q2R_abs, Rabs_Rabsolu. eapply Rle_trans; [exact H|]. apply Rle_trans with (2 * bpow radix2 900); [nra|]. unfold big. change (2 * bpow radix2 900) with (bpow radix2 1 * bpow radix2 900). rewrite <- bpow_plus. apply bpow_le. lia. }
    destruct (ffnum_spec l (Qabs (lit_val l)) L ltac:(reflexivity) BR) as (F & V & S). split; [exact F|]. unfold qlit_f. rewrite V, <- rnd_signed, <- lit_signed, rv_lit by auto.
    eapply Rle_trans; [apply rnd_err|]. assert (u * Rabs (Q2R (lit_val l)) <= k * D) by (unfold D; pose proof u_pos; nra). lra.
  Qed.
  Lemma fits_big : forall r, Rabs r <= 4 * B -> Rabs r <= big.
  Proof. intros r H. eapply Rle_trans; [exact H|]. apply Rle_trans with (4 * bpow radix2 900); [lra|]. unfold big. change (4 * bpow radix2 900) with (bpow radix2 2 * bpow radix2 900). rewrite <- bpow_plus. apply bpow_le. lia. Qed.
  Lemma rel_err : forall s e r, Rabs e <= u -> Rabs s <= r -> Rabs (s * (1 + e) - s) <= u * r.
  Proof. intros s e r E H. replace (s * (1 + e) - s) with (s * e) by ring. rewrite Rabs_mult. rewrite (Rmult_comm u). apply Rmult_le_compat; auto; apply Rabs_pos. Qed.
  Lemma sum_close : forall a b x y r t, near_num a x r -> near_num b y t -> Rabs (rv (r + t)%Qc) <= B -> a + b <= / 100 * B -> near_num (a + b + (1 + / 10) * D) (fadd x y) (r + t)%Qc.
  Proof.
    intros a b x y r t [F N] [G M] S L. rewrite rv_add in S. pose proof B_pos. set (v := rv r) in *. set (w := rv t) in *.
    assert (X : Rabs (value x + value y) <= (1 + / 100) * B). { apply abs_ge in N, M, S. apply abs_le. lra. }
    destruct (fadd_rel x y F G) as (e & E & FI & V); [apply fits_big; lra|]. split; auto. rewrite rv_add. fold v w. rewrite V.
    pose proof (rel_err _ e _ E X) as RE. pose proof u_pos. apply abs_ge in N, M, RE. apply abs_le. unfold D. nra.
  Qed.
  Lemma diff_close : forall a b x y r t, near_num a x r -> near_num b y t -> Rabs (rv (r - t)%Qc) <= 2 * B -> a + b <= / 100 * B -> near_num (a + b + (2 + / 10) * D) (fsub x y) (r - t)%Qc.
  Proof.
    intros a b x y r t [F N] [G M] S L. rewrite rv_sub in S. pose proof B_pos. set (v := rv r) in *. set (w := rv t) in *.
    assert (X : Rabs (value x - value y) <= (2 + / 100) * B). { apply abs_ge in N, M, S. apply abs_le. lra. }
    destruct (fsub_rel x y F G) as (e & E & FI & V); [apply fits_big; lra|]. split; auto. rewrite rv_sub. fold v w. rewrite V.
    pose proof (rel_err _ e _ E X) as RE. pose proof u_pos. apply abs_ge in N, M, RE. apply abs_le. unfold D. nra.
  Qed.
  (** The errors after [n] instructions. *)
  Let E (n : nat) := 4 * INR n * D.
  Let M (n : nat) := 8 * (INR n * INR n) * D.
  Section Step.
    Variable n : nat.
    Hypothesis N : INR n <= 1000000.
    Lemma n0 : 0 <= INR n. Proof. apply pos_INR. Qed.
    Lemma E_S : E (S n) = E n + 4 * D. Proof. unfold E. rewrite S_INR. ring. Qed.
    Lemma M_S : M (S n) = M n + 16 * INR n * D + 8 * D. Proof. unfold M. rewrite S_INR. ring. Qed.
    Lemma E_pos : 0 <= E n. Proof. pose proof n0. pose proof D_pos. unfold E. nra. Qed.
    Lemma M_pos : 0 <= M n. Proof. pose proof n0. pose proof D_pos. unfold M. nra. Qed.
    Lemma EM_small : E n + M n + 5 * D <= / 200 * B.
    Proof.
      pose proof n0. pose proof D_pos. pose proof D_small. pose proof B_pos. unfold E, M. assert (INR n * INR n <= 1000000000000) by nra.
      assert (4 * INR n + 8 * (INR n * INR n) + 5 <= 9000000000000) by lra. assert ((4 * INR n + 8 * (INR n * INR n) + 5) * D <= 9000000000000 * D) by (apply Rmult_le_compat_r; lra). lra.
    Qed.
    Lemma E_M : E (S n) <= M (S n). Proof. unfold E, M. pose proof n0. pose proof D_pos. rewrite S_INR. assert (4 * (INR n + 1) <= 8 * ((INR n + 1) * (INR n + 1))) by nra. nra. Qed.
    Definition at_near (kf : pen_f) (k : pen) : Prop := exists p q, at__f kf = Some p /\ at_ k = Some q /\ near_pt (E n) p q /\ small B q.
    Definition mem_near (kf : pen_f) (k : pen) : Prop :=
      match mem_f kf, mem k with
      | NoCurve_f, NoCurve => True
      | AfterQuad_f c, AfterQuad c' | AfterCubic_f c, AfterCubic c' => near_pt (M n) c c' /\ small B c'
      | _, _ => False
      end.
    Definition pens (kf : pen_f) (k : pen) : Prop := at_near kf k /\ near_pt (E n) (sub_f kf) (sub k) /\ small B (sub k) /\ mem_near kf k.
    Lemma coord_rel : forall l x c, lit_ok l -> near_num (E n) x c -> Rabs (rv c) <= B -> Rabs (rv (qlit l + c)%Qc) <= B -> near_num (E (S n)) (fadd (qlit_f l) x) (qlit l + c)%Qc.
    Proof.
      intros l x c L H C S. pose proof D_pos. pose proof EM_small. pose proof E_pos. pose proof M_pos. assert (Q : Rabs (rv (qlit l)) <= 2 * B). { rewrite rv_add in S. apply abs_ge in S, C. apply abs_le. lra. }
      pose proof (lit_close l 2 L ltac:(lra) Q) as LC. eapply near_weak; [|apply (sum_close _ _ _ _ _ _ LC H S)]; [rewrite E_S|]; lra.
    Qed.
    Lemma coord_rel' : forall l x c, lit_ok l -> near_num (E n) x c -> Rabs (rv c) <= B -> Rabs (rv (qlit l + c)%Qc) <= B -> near_num (E (S n)) (fadd x (qlit_f l)) (qlit l + c)%Qc.
    Proof.
      intros l x c L H C S. pose proof D_pos. pose proof EM_small. pose proof E_pos. pose proof M_pos. assert (Q : Rabs (rv (qlit l)) <= 2 * B). { rewrite rv_add in S. apply abs_ge in S, C. apply abs_le. lra. }
      pose proof (lit_close l 2 L ltac:(lra) Q) as LC. rewrite Qcplus_comm in *. eapply near_weak; [|apply (sum_close _ _ _ _ _ _ H LC S)]; [rewrite E_S|]; lra.
    Qed.
    Lemma coord_abs : forall l, lit_ok l -> Rabs (rv (qlit l)) <= B -> near_num (E (S n)) (qlit_f l) (qlit l).
    Proof. intros l L H. pose proof D_pos. pose proof E_pos. eapply near_weak; [|apply (lit_close l 1 L ltac:(lra))]; [rewrite E_S|]; lra. Qed.
    Lemma shift_near : forall kf k rel l, at_near kf k -> lit_ok (fst l) -> lit_ok (snd l) -> small B (shift k rel (on2 qlit l)) -> near_pt (E (S n)) (shift_f kf rel (on2 qlit_f l)) (shift k rel (on2 qlit l)).
    Proof.
      intros kf k rel [a b] (p & q & EF & EQ & [N1 N2] & [S1 S2]) A C [S3 S4]. unfold shift_f, shift, here in *. rewrite EF, EQ in *. destruct rel; cbn [on2 fst snd padd_f] in *.
      - split; apply coord_rel; auto.
      - split; apply coord_abs; auto.
    Qed.
    Lemma here_near : forall kf k, at_near kf k -> near_pt (E n) (here_f kf) (here k) /\ small B (here k).
    Proof. intros kf k (p & q & EF & EQ & H). unfold here_f, here. rewrite EF, EQ. auto. Qed.
    Lemma mirror_near : forall c p c' p', near_pt (M n) c c' -> small B c' -> near_pt (E n) p p' -> small B p' -> small B (mirror c' p') -> near_pt (M (S n)) (mirror_f c p) (mirror c' p').
    Proof.
      assert (G : forall c p c' p', near_num (M n) c c' -> Rabs (rv c') <= B -> near_num (E n) p p' -> Rabs (rv p') <= B -> Rabs (rv (p' + p' - c')%Qc) <= B -> near_num (M (S n)) (fadd p (fsub p c)) (p' + p' - c')%Qc).
      { intros c p c' p' A A2 C C2 S. pose proof D_pos. pose proof EM_small. pose proof E_pos. pose proof M_pos. pose proof n0. replace (p' + p' - c')%Qc with (p' + (p' - c'))%Qc in * by ring.
        assert (S2 : Rabs (rv (p' - c')%Qc) <= 2 * B). { rewrite rv_sub. apply abs_ge in A2, C2. apply abs_le. lra. }
        pose proof (diff_close _ _ _ _ _ _ C A S2 ltac:(lra)) as DC. eapply near_weak; [|apply (sum_close _ _ _ _ _ _ C DC S)]; [|].
        - rewrite M_S. unfold E at 1 2. nra.
        - pose proof n0. assert (E n + (E n + M n + (2 + / 10) * D) <= / 100 * B) by lra. auto. }
      intros [c1 c2] [p1 p2] [c1' c2'] [p1' p2'] [A1 A2] [A3 A4] [C1 C2] [C3 C4] [S1 S2]. unfold mirror_f, mirror, padd_f, psub_f in *. cbn [fst snd] in *. split; apply G; auto.
    Qed.
    Lemma E_le : E n <= E (S n). Proof. rewrite E_S. pose proof D_pos. lra. Qed.
    Lemma M_le : M n <= M (S n). Proof. rewrite M_S. pose proof D_pos. pose proof n0. nra. Qed.
    Lemma quad_near : forall kf k, pens kf k -> small B (smooth_quad_control false k) -> near_pt (M (S n)) (smooth_quad_control_f false kf) (smooth_quad_control false k).
    Proof.
      intros kf k (A & _ & _ & MN) S. destruct (here_near _ _ A) as [H1 H2]. unfold smooth_quad_control_f, smooth_quad_control, mem_near in *.
      destruct (mem_f kf), (mem k); try contradiction; try (apply mirror_near; tauto). eapply near_pt_weak; [|exact H1]. pose proof E_le. pose proof E_M. lra.
    Qed.
    Lemma cubic_near : forall kf k, pens kf k -> small B (smooth_cubic_control false k) -> near_pt (M (S n)) (smooth_cubic_control_f false kf) (smooth_cubic_control false k).
    Proof.
      intros kf k (A & _ & _ & MN) S. destruct (here_near _ _ A) as [H1 H2]. unfold smooth_cubic_control_f, smooth_cubic_control, mem_near in *.
      destruct (mem_f kf), (mem k); try contradiction; try (apply mirror_near; tauto). eapply near_pt_weak; [|exact H1]. pose proof E_le. pose proof E_M. lra.
    Qed.
  End Step.
  Definition numbers_ok (a : atom lit) : Prop := forall l, In (TNum l) (args a) -> lit_ok l.
  Lemma stroke_near : forall n, INR n <= 1000000 -> forall kf k rel a, pens n kf k -> numbers_ok a -> @arcless lit (rel, a) ->
    inside B (fst (stroke false k rel (map_atom qlit a))) ->
    near_drawn (E (S n)) (M (S n)) (fst (stroke_f false kf rel (map_atom qlit_f a))) (fst (stroke false k rel (map_atom qlit a))) /\
    pens (S n) (snd (stroke_f false kf rel (map_atom qlit_f a))) (snd (stroke false k rel (map_atom qlit a))).
  Proof.
    intros n N kf k rel a P OK AL I. pose proof P as (A & SN & SS & MN). destruct (here_near n _ _ A) as [H1 H2].
    pose proof (near_pt_weak _ _ _ _ (E_le n) H1) as H1'. pose proof (near_pt_weak _ _ _ _ (E_le n) SN) as SN'.
    assert (SH : forall l, lit_ok (fst l) -> lit_ok (snd l) -> small B (shift k rel (on2 qlit l)) -> near_pt (E (S n)) (shift_f kf rel (on2 qlit_f l)) (shift k rel (on2 qlit l))) by (intros; apply shift_near; auto).
    assert (EM : forall p q, near_pt (E (S n)) p q -> near_pt (M (S n)) p q) by (intros; eapply near_pt_weak; [apply E_M|auto]).
    assert (PE : forall p q sf s, near_pt (E (S n)) p q -> small B q -> near_pt (E (S n)) sf s -> small B s -> pens (S n) (mkPen_f (Some p) sf NoCurve_f) (mkPen (Some q) s NoCurve)).
    { intros. split; [|split; [|split]]; auto. exists p, q. auto. exact Logic.I. }
    assert (PQ : forall p q c c' b, near_pt (E (S n)) p q -> small B q -> near_pt (M (S n)) c c' -> small B c' ->
      pens (S n) (mkPen_f (Some p) (sub_f kf) (if b : bool then AfterQuad_f c else AfterCubic_f c)) (mkPen (Some q) (sub k) (if b then AfterQuad c' else AfterCubic c'))).
    { intros. split; [|split; [|split]]; auto. exists p, q. auto. destruct b; cbn; auto. }
    unfold numbers_ok in OK. destruct a; cbn [map_atom stroke stroke_f fst snd inside near_drawn args two app In] in *.
    - destruct A as (x & y & E1 & E2 & A). rewrite E1, E2. unfold here_f, here in *. rewrite E1, E2 in *. assert (near_pt (E (S n)) (shift_f kf rel (on2 qlit_f p)) (shift k rel (on2 qlit p))) by (apply SH; auto 8). auto 8.
    - destruct I as [_ I]. assert (near_pt (E (S n)) (shift_f kf rel (on2 qlit_f p)) (shift k rel (on2 qlit p))) by (apply SH; auto 8). auto 8.
    - destruct I as [_ I]. match goal with |- (_ /\ near_pt _ ?p ?q) /\ _ => assert (G : near_pt (E (S n)) p q) end; [|auto 8].
      split; cbn [fst snd]; [|apply H1']. unfold shift in *. destruct rel; cbn [fst snd] in *; [apply coord_rel'|apply coord_abs]; auto. apply H1. apply H2. apply I. apply I.
    - destruct I as [_ I]. match goal with |- (_ /\ near_pt _ ?p ?q) /\ _ => assert (G : near_pt (E (S n)) p q) end; [|auto 8].
      split; cbn [fst snd]; [apply H1'|]. unfold shift in *. destruct rel; cbn [fst snd] in *; [apply coord_rel'|apply coord_abs]; auto. apply H1. apply H2. apply I. apply I.
    - destruct I as (_ & I1 & I2). assert (near_pt (E (S n)) (shift_f kf rel (on2 qlit_f p)) (shift k rel (on2 qlit p))) by (apply SH; auto 8). assert (near_pt (E (S n)) (shift_f kf rel (on2 qlit_f c)) (shift k rel (on2 qlit c))) by (apply SH; auto 8).
      split; auto. apply (PQ _ _ _ _ true); auto.
    - destruct I as (_ & I1 & I2). assert (near_pt (E (S n)) (shift_f kf rel (on2 qlit_f p)) (shift k rel (on2 qlit p))) by (apply SH; auto 8). pose proof (quad_near n N _ _ P I1).
      split; auto. apply (PQ _ _ _ _ true); auto.
    - destruct I as (_ & I1 & I2 & I3). assert (near_pt (E (S n)) (shift_f kf rel (on2 qlit_f p)) (shift k rel (on2 qlit p))) by (apply SH; auto 8). assert (near_pt (E (S n)) (shift_f kf rel (on2 qlit_f c)) (shift k rel (on2 qlit c))) by (apply SH; auto 8). assert (near_pt (E (S n)) (shift_f kf rel (on2 qlit_f d)) (shift k rel (on2 qlit d))) by (apply SH; auto 8).
      split; auto. apply (PQ _ _ _ _ false); auto.
    - destruct I as (_ & I1 & I2 & I3). assert (near_pt (E (S n)) (shift_f kf rel (on2 qlit_f p)) (shift k rel (on2 qlit p))) by (apply SH; auto 8). assert (near_pt (E (S n)) (shift_f kf rel (on2 qlit_f d)) (shift k rel (on2 qlit d))) by (apply SH; auto 8). pose proof (cubic_near n N _ _ P I1).
      split; auto. apply (PQ _ _ _ _ false); auto.
    - contradiction.
    - auto.
  Qed.
  Lemma drift_from : forall l n kf k q, (forall i, (i < n + List.length l)%nat -> INR i <= 1000000) -> pens n kf k -> Forall (fun x => numbers_ok (snd x)) l -> Forall arcless l ->
    Forall (inside B) (svg false k (values l)) -> map view_f q = map Some (svg_f false kf (values_f l)) -> drifts B n q (svg false k (values l)).
  Proof.
    induction l as [|[rel a] l IH]; intros n kf k q NB P OK AL I V.
    - destruct q; [exact Logic.I|discriminate].
    - inversion OK; inversion AL; subst. cbn [values values_f map svg svg_f fst snd] in *. fold (values l) in *. fold (values_f l) in *. assert (N0 : INR n <= 1000000) by (apply NB; cbn; lia).
      pose proof (stroke_near n N0 kf k rel a P) as ST. destruct (stroke_f false kf rel (map_atom qlit_f a)) as [d_f kf'], (stroke false k rel (map_atom qlit a)) as [d k']. cbn [fst snd] in ST.
      inversion I; subst. destruct q as [|s q]; [discriminate|]. cbn [map] in V. injection V as V1 V2. destruct ST as [S1 S2]; auto. cbn [drifts]. split.
      + exists d_f. split; auto. unfold E, M, D, u in S1. rewrite <- !Rmult_assoc in *. exact S1.
      + eapply IH; eauto. intros i HI. apply NB. cbn. lia.
  Qed.
End Drift.
Lemma toks_numbers : forall ts s t, toks_text ts s t -> forall l, In (TNum l) ts -> lit_ok l.
Proof. induction 1; cbn; intros l' H'; [contradiction|destruct H' as [H'|H']; [injection H' as <-; auto|auto]|destruct H' as [H'|H']; [discriminate|auto]]. Qed.
Lemma spelled_numbers : forall pv l s t, spelled pv l s t -> Forall (fun x => numbers_ok (snd x)) l.
Proof. induction 1; constructor; auto; intros l' H'; eapply toks_numbers; eauto. Qed.
Lemma path_drift_lemma : forall B l s t, bpow radix2 (-900) <= B <= bpow radix2 900 -> spelled None l s t -> stop t -> begins_with_move l -> Forall arcless l -> (Z.of_nat (List.length l) <= 1000000)%Z ->
  Forall (inside B) (svg false pen0 (values l)) -> exists q, parse_f s [] = (q, None) /\ drifts B 0 q (svg false pen0 (values l)).
Proof.
  intros B l s t [B1 B2] SP ST BM AL LN I. destruct (parse_svg_f l s t SP ST BM) as (q & PQ & V). exists q. split; auto. pose proof (spelled_numbers _ _ _ _ SP) as OK. clear SP ST PQ.
  destruct BM as (rel & p & l' & ->). inversion OK; inversion AL; subst. cbn [values values_f map svg svg_f fst snd map_atom stroke stroke_f] in *. fold (values l') in *. fold (values_f l') in *.
  inversion I as [|? ? I1 I2]; subst. destruct q as [|x q]; [discriminate|]. cbn [map] in V. injection V as V1 V2.
  assert (SF : shift_f pen0_f rel (on2 qlit_f p) = on2 qlit_f p) by (destruct rel; reflexivity).
  assert (SQ : shift pen0 rel (on2 qlit p) = on2 qlit p). { destruct rel, p; auto. unfold shift, on2. cbn. f_equal; ring. }
  rewrite SF in *. rewrite SQ in *. cbn [inside at_ at__f pen0 pen0_f] in *.
  assert (NP : near_pt (4 * INR 1 * (u * B)) (on2 qlit_f p) (on2 qlit p)). { destruct p as [a b], I1 as [I1 I3]. split; apply (coord_abs B B1 B2 0); auto; try apply H1; cbn; auto. }
  cbn [drifts]. split.
  - eexists. split; [exact V1|]. cbn [near_drawn]. change (bpow radix2 (-53)) with u. rewrite <- Rmult_assoc in NP. exact NP.
  - eapply (drift_from B B1 B2); eauto.
    + intros i HI. cbn [List.length] in LN. rewrite INR_IZR_INZ. apply IZR_le. lia.
    + split; [|split; [|split]]; cbn; auto. exists (on2 qlit_f p), (on2 qlit p). cbn. auto.
Qed.

(** * Relative printing *)
Lemma view_close' : forall s a e, view_f s = Some (SClose_f a e) -> s_kind_f s = KClose_f /\ s_end_f s = Some e.
Proof. intros [k x b r m] a e. unfold view_f. cbn. destruct k as [| | |[?|]|[?|] [?|]|], x as [?|], b as [?|]; intros E; try discriminate E; injection E; intros; subst; auto. Qed.
Section Relative.
  Variable B : R.
  Hypothesis B0 : 0 < B.
  Hypothesis B2 : B <= bpow radix2 900.
  Let S1 := B / 90000000000.
  Lemma big_ok : forall r, Rabs r <= 4 * B -> Rabs r <= big.
  Proof. intros r H. eapply Rle_trans; [exact H|]. apply Rle_trans with (4 * bpow radix2 900); [lra|]. unfold big. change (4 * bpow radix2 900) with (bpow radix2 2 * bpow radix2 900). rewrite <- bpow_plus. apply bpow_le. lia. Qed.
  Lemma u_small : u <= / 1000000000000000. Proof. unfold u. change (bpow radix2 (-53)) with (/ 9007199254740992). lra. Qed.
  (** One coordinate: printed relative to [c], read, added to [r]. *)
  Lemma coord_step : forall x c y, finite x -> finite c -> Rabs (value x) <= B -> Rabs (value c) <= B -> Rabs (value y - value (fsub x c)) <= / 199000000000 * Rabs (value (fsub x c)) ->
    Rabs (value y - (value x - value c)) <= / 99000000000 * B.
  Proof.
    intros x c y X C HX HC HY. destruct (fsub_rel x c X C) as (e & E & F & V). { apply big_ok. apply abs_ge in HX, HC. apply abs_le. lra. }
    assert (D : Rabs (value x - value c) <= 2 * B) by (apply abs_ge in HX, HC; apply abs_le; lra). pose proof (rel_err _ e _ E D) as RE. rewrite <- V in RE. pose proof u_small. pose proof u_pos.
    assert (u * (2 * B) <= 2 * / 1000000000000000 * B) by nra. assert (A : Rabs (value (fsub x c)) <= (2 + / 100000000000) * B) by (apply abs_ge in RE, D; apply abs_le; lra).
    assert (Z : Rabs (value y - value (fsub x c)) <= / 199000000000 * ((2 + / 100000000000) * B)). { eapply Rle_trans; [exact HY|]. apply Rmult_le_compat_l; [lra|exact A]. }
    apply abs_ge in Z, RE. apply abs_le. lra.
  Qed.
  Lemma coord_add : forall e x c y r, 0 <= e <= / 100 * B -> finite x -> finite c -> Rabs (value x) <= B -> Rabs (value c) <= B -> finite y -> finite r -> Rabs (value r - value c) <= e ->
    Rabs (value y - value (fsub x c)) <= / 199000000000 * Rabs (value (fsub x c)) -> finite (fadd y r) /\ Rabs (value (fadd y r) - value x) <= e + S1.
  Proof.
    intros e x c y r HE X C HX HC Y R HR HY. pose proof (coord_step x c y X C HX HC HY) as ST. assert (SB : Rabs (value y + value r) <= 2 * B) by (apply abs_ge in ST, HR, HX, HC; apply abs_le; lra).
    destruct (fadd_rel y r Y R) as (d & D & F & V); [apply big_ok; lra|]. split; auto. pose proof (rel_err _ d _ D SB) as RE. rewrite <- V in RE. pose proof u_small. pose proof u_pos.
    assert (u * (2 * B) <= 2 * / 1000000000000000 * B) by nra. apply abs_ge in ST, HR, RE. apply abs_le. unfold S1. lra.
  Qed.
  Definition bounded (p : pt_f) : Prop := finite (fst p) /\ finite (snd p) /\ Rabs (value (fst p)) <= B /\ Rabs (value (snd p)) <= B.
  Lemma pair_step : forall cur e, bounded cur -> reachable B cur e -> exists l, lit_ok (fst l) /\ lit_ok (snd l) /\ pstr_f (psub_f e cur) = lit_text (fst l) ++ ","%char :: lit_text (snd l) /\
    forall d r, 0 <= d <= / 100 * B -> finite (fst r) -> finite (snd r) -> apart d cur r -> apart (d + S1) e (padd_f (on2 qlit_f l) r).
  Proof.
    intros [c1 c2] [e1 e2] (C1 & C2 & C3 & C4) (E1 & E2 & E3 & E4 & G1 & G2). cbn [fst snd psub_f] in *. destruct (coord_settles _ G1) as (l1 & x & L1 & T1 & X & F1 & _ & N1), (coord_settles _ G2) as (l2 & y & L2 & T2 & Y & F2 & _ & N2).
    exists (l1, l2). cbn [fst snd]. split; auto. split; auto. split. { unfold pstr_f, fpoint_str, psub_f. cbn [fst snd fx fy]. rewrite T1, T2. reflexivity. }
    intros d [r1 r2] HD R1 R2 [[_ A1] [_ A2]]. unfold apart, padd_f, on2, qlit_f. cbn [fst snd] in *. rewrite <- X, <- Y. split; [apply (coord_add d e1 c1 x r1)|apply (coord_add d e2 c2 y r2)]; auto.
  Qed.
  Lemma n_small : forall n, INR n <= 1000000 -> 0 <= INR n * S1 <= / 100 * B.
  Proof. intros n H. pose proof (pos_INR n). unfold S1. split; [apply Rmult_le_pos; lra|]. apply Rle_trans with (1000000 * (B / 90000000000)); [apply Rmult_le_compat_r; lra|lra]. Qed.
  Lemma apart_mono : forall e e' p q, e <= e' -> apart e p q -> apart e' p q.
  Proof. intros e e' p q L [[A1 A2] [A3 A4]]. unfold apart. repeat split; auto; lra. Qed.
  Definition rel_text (s : seg_f) (cur : pt_f) (w : text) : Prop := seg_d_f s (Some cur) true = Ok w.
  Definition follows_pen (n : nat) (k : pen_f) (cur mv : pt_f) : Prop := exists r, at__f k = Some r /\ apart (INR n * S1) cur r /\ apart (INR n * S1) mv (sub_f k) /\ bounded cur /\ bounded mv.
  Lemma reach_bounded : forall cur e, reachable B cur e -> bounded e. Proof. intros cur e (A1 & A2 & A3 & A4 & _). repeat split; auto. Qed.
  Lemma path_rel : forall p n k cur mv pl, (forall i, (i < n + List.length p)%nat -> INR i <= 1000000) -> steps_ok B cur mv p -> follows_pen n k cur mv -> exists ws l, svg_d_from_f (Some cur) true p = Ok ws /\ spelled pl l (spaced ws) [] /\
    forall q, map view_f q = map Some (svg_f false k (values_f l)) -> strays B n p q.
  Proof.
    induction p as [|s p IH]; intros n k cur mv pl NB SO FP.
    - exists [], []. split; [reflexivity|]. split; [constructor|]. intros [|x q] E; [exact Logic.I|discriminate].
    - assert (N0 : INR n <= 1000000) by (apply NB; cbn; lia). pose proof (n_small n N0) as NS. assert (SI : INR (S n) * S1 = INR n * S1 + S1) by (rewrite S_INR; ring).
      assert (WK : forall p q, apart (INR n * S1) p q -> apart (INR (S n) * S1) p q). { intros p0 q0. apply apart_mono. rewrite SI. unfold S1. lra. }
      assert (NB' : forall i, (i < S n + List.length p)%nat -> INR i <= 1000000) by (intros i HI; apply NB; cbn; lia).
      assert (FIN : forall a w e mv', s_end_f s = Some e -> rel_text s cur (letter_of true a :: w) -> (forall u, ends_number u -> toks_text (args a) (w ++ u) u) -> steps_ok B e mv' p ->
        follows_pen (S n) (snd (stroke_f false k true (map_atom qlit_f a))) e mv' -> (forall s', view_f s' = Some (fst (stroke_f false k true (map_atom qlit_f a))) -> strays1 (INR (S n) * S1) s s') ->
        exists ws l, svg_d_from_f (Some cur) true (s :: p) = Ok ws /\ spelled pl l (spaced ws) [] /\ forall q, map view_f q = map Some (svg_f false k (values_f l)) -> strays B n (s :: p) q).
      { intros a w e mv' E TX TK SO' FP' ST. destruct (IH (S n) _ e mv' (implied true a) NB' SO' FP') as (ws & l & W & SP & Q). exists ((letter_of true a :: w) :: ws), ((true, a) :: l). split; [|split].
        - cbn [svg_d_from_f]. rewrite TX. cbn [rbind]. rewrite E, W. reflexivity.
        - unfold spaced; cbn [map concat]. fold (spaced ws). change ((" "%char :: letter_of true a :: w) ++ spaced ws) with ([" "%char] ++ letter_of true a :: (w ++ spaced ws)).
          eapply sp_letter; eauto. constructor; [cbn; tauto|constructor]. apply TK, spaced_ends.
        - intros q V. cbn [values_f map fst snd svg_f] in V. destruct (stroke_f false k true (map_atom qlit_f a)) as [d k']. cbn [map fst snd] in *. destruct q as [|x q]; [discriminate|]. injection V as V1 V2. split; [apply ST; auto|apply Q; auto]. }
      destruct FP as (r & AT & AR & AM & BC & BM). assert (FR : finite (fst r) /\ finite (snd r)) by (destruct AR as [[? _] [? _]]; auto). destruct FR as [FR1 FR2].
      cbn [steps_ok] in SO. destruct (s_kind_f s) as [| | |c|c d|g] eqn:K;
        [destruct (s_end_f s) as [e|] eqn:E; [|destruct SO] | destruct (s_end_f s) as [e|] eqn:E; [|destruct SO] | destruct (s_end_f s) as [e|] eqn:E; [|destruct SO] | destruct c as [c|]; [|destruct SO]; destruct (s_end_f s) as [e|] eqn:E; [|destruct SO] |
         destruct c as [c|]; [|destruct SO]; destruct d as [d|]; [|destruct SO]; destruct (s_end_f s) as [e|] eqn:E; [|destruct SO] | destruct SO].
      + destruct SO as [R SO]. destruct (pair_step cur e BC R) as (l & L1 & L2 & TT & A). specialize (A _ r NS FR1 FR2 AR). rewrite <- SI in A. pose proof (reach_bounded _ _ R).
        apply (FIN (DMove l) (" "%char :: pstr_f (psub_f e cur)) e e); auto.
        * unfold rel_text, seg_d_f. rewrite K, E. reflexivity.
        * intros u U. rewrite TT. cbn [args]. rewrite <- (app_nil_r (two l)). cbn [app]. apply toks_pair; auto. constructor.
        * cbn [map_atom stroke_f snd]. unfold shift_f. rewrite AT. eexists. split; [reflexivity|]. auto.
        * intros s' V. cbn [map_atom stroke_f fst] in V. unfold shift_f in V. rewrite AT in V. apply view_move in V as [K' E']. unfold strays1. rewrite K, E, K', E'. auto.
      + destruct SO as [-> SO]. apply (FIN DClose [] mv mv); auto.
        * unfold rel_text, seg_d_f. rewrite K. reflexivity.
        * intros u U. constructor.
        * cbn [map_atom stroke_f snd]. eexists. split; [reflexivity|]. auto.
        * intros s' V. cbn [map_atom stroke_f fst] in V. apply view_close' in V as [K' E']. unfold strays1. rewrite K, E, K', E'. auto.
      + destruct SO as [R SO]. destruct (pair_step cur e BC R) as (l & L1 & L2 & TT & A). specialize (A _ r NS FR1 FR2 AR). rewrite <- SI in A. pose proof (reach_bounded _ _ R).
        apply (FIN (DLine l) (" "%char :: pstr_f (psub_f e cur)) e mv); auto.
        * unfold rel_text, seg_d_f. rewrite K, E. reflexivity.
        * intros u U. rewrite TT. cbn [args]. rewrite <- (app_nil_r (two l)). cbn [app]. apply toks_pair; auto. constructor.
        * cbn [map_atom stroke_f snd]. unfold shift_f. rewrite AT. eexists. split; [reflexivity|]. auto.
        * intros s' V. cbn [map_atom stroke_f fst] in V. unfold shift_f in V. rewrite AT in V. apply view_line in V as [K' E']. unfold strays1. rewrite K, E, K', E'. auto.
      + destruct SO as (R & R' & SO). destruct (pair_step cur c BC R) as (l & L1 & L2 & TT & A), (pair_step cur e BC R') as (l' & L1' & L2' & TT' & A'). specialize (A _ r NS FR1 FR2 AR). specialize (A' _ r NS FR1 FR2 AR). rewrite <- SI in A, A'. pose proof (reach_bounded _ _ R').
        apply (FIN (DQuad l l') (" "%char :: pstr_f (psub_f c cur) ++ " "%char :: pstr_f (psub_f e cur)) e mv); auto.
        * unfold rel_text, seg_d_f. rewrite K, E. reflexivity.
        * intros u U. rewrite TT, TT'. cbn [args]. rewrite <- (app_nil_r (two l')). rewrite <- app_comm_cons, <- app_assoc, <- app_comm_cons. apply toks_pair; auto; [right; eexists; reflexivity|]. apply toks_pair; auto. constructor.
        * cbn [map_atom stroke_f snd]. unfold shift_f. rewrite AT. eexists. split; [reflexivity|]. auto.
        * intros s' V. cbn [map_atom stroke_f fst] in V. unfold shift_f in V. rewrite AT in V. apply view_quad in V as [K' E']. unfold strays1. rewrite K, E, K', E'. auto.
      + destruct SO as (R & R3 & R' & SO). destruct (pair_step cur c BC R) as (l & L1 & L2 & TT & A), (pair_step cur e BC R') as (l' & L1' & L2' & TT' & A'), (pair_step cur d BC R3) as (l3 & L13 & L23 & TT3 & A3).
        specialize (A _ r NS FR1 FR2 AR). specialize (A' _ r NS FR1 FR2 AR). specialize (A3 _ r NS FR1 FR2 AR). rewrite <- SI in A, A', A3. pose proof (reach_bounded _ _ R').
        set (x1 := pstr_f (psub_f c cur)) in *. set (x2 := pstr_f (psub_f d cur)) in *. set (x3 := pstr_f (psub_f e cur)) in *.
        apply (FIN (DCubic l l3 l') (" "%char :: x1 ++ " "%char :: x2 ++ " "%char :: x3) e mv); auto.
        * unfold rel_text, seg_d_f. rewrite K, E. reflexivity.
        * intros u U. cbn [args]. rewrite <- (app_nil_r (two l')). rewrite <- (app_comm_cons _ u), <- (app_assoc x1), <- (app_comm_cons _ u), <- (app_assoc x2), <- (app_comm_cons _ u). rewrite TT, TT', TT3. apply toks_pair; auto; [right; eexists; reflexivity|]. apply toks_pair; auto; [right; eexists; reflexivity|]. apply toks_pair; auto. constructor.
        * cbn [map_atom stroke_f snd]. unfold shift_f. rewrite AT. eexists. split; [reflexivity|]. auto.
        * intros s' V. cbn [map_atom stroke_f fst] in V. unfold shift_f in V. rewrite AT in V. apply view_cubic in V as [K' E']. unfold strays1. rewrite K, E, K', E'. auto.
  Qed.
  Lemma origin_ok : finite (fz 0) /\ value (fz 0) = 0.
  Proof. split; [reflexivity|reflexivity]. Qed.
  Lemma path_relative_lemma : forall s p, s_kind_f s = KMove_f -> (Z.of_nat (List.length p) < 1000000)%Z -> steps_ok B (fz 0, fz 0) (fz 0, fz 0) (s :: p) ->
    exists t q, svg_d_f (s :: p) true = Ok t /\ parse_f t [] = (q, None) /\ strays B 0 (s :: p) q.
  Proof.
    intros s p K LN SO. cbn [steps_ok] in SO. rewrite K in SO. destruct (s_end_f s) as [e|] eqn:E; [|destruct SO]. destruct SO as [R SO].
    assert (BC : bounded (fz 0, fz 0)). { destruct origin_ok as [F V]. unfold bounded. cbn [fst snd]. rewrite V, Rabs_R0. repeat split; auto; lra. }
    destruct R as (R1 & R2 & R3 & R4 & G1 & G2). cbn [fst snd psub_f] in G1, G2. destruct (coord_settles _ G1) as (l1 & x & L1 & T1 & X & F1 & _ & N1), (coord_settles _ G2) as (l2 & y & L2 & T2 & Y & F2 & _ & N2).
    assert (AE : apart (INR 1 * S1) e (on2 qlit_f (l1, l2))).
    { destruct origin_ok as [F V]. pose proof (coord_step _ _ _ R1 F R3 ltac:(rewrite V, Rabs_R0; lra) N1) as C1. pose proof (coord_step _ _ _ R2 F R4 ltac:(rewrite V, Rabs_R0; lra) N2) as C2. rewrite V, Rminus_0_r in C1, C2.
      unfold apart, on2, qlit_f. cbn [fst snd]. rewrite <- X, <- Y. change (INR 1) with 1. unfold S1. repeat split; auto; lra. }
    set (k := mkPen_f (Some (on2 qlit_f (l1, l2))) (on2 qlit_f (l1, l2)) NoCurve_f).
    destruct (path_rel p 1 k e e (implied true (DMove (l1, l2)))) as (ws & l & W & SP & Q); auto.
    { intros i HI. rewrite INR_IZR_INZ. apply IZR_le. lia. }
    { eexists. split; [reflexivity|]. cbn [sub_f k]. assert (bounded e) by (repeat split; auto). auto. }
    set (wd := "m"%char :: " "%char :: pstr_f (psub_f e (fz 0, fz 0))).
    assert (SP0 : spelled None ((true, DMove (l1, l2)) :: l) (spaced (wd :: ws)) []).
    { unfold spaced; cbn [map concat]. fold (spaced ws). change ((" "%char :: wd) ++ spaced ws) with ([" "%char] ++ letter_of true (DMove (l1, l2)) :: ((" "%char :: pstr_f (psub_f e (fz 0, fz 0))) ++ spaced ws)).
      eapply sp_letter; eauto. constructor; [cbn; tauto|constructor].
      unfold pstr_f, fpoint_str, psub_f. cbn [fst snd fx fy]. rewrite T1, T2. cbn [args]. rewrite <- (app_nil_r (two (l1, l2))). cbn [app]. apply (toks_pair (l1, l2)); auto. apply spaced_ends. constructor. }
    assert (NS : drop_sep (spaced (wd :: ws)) = words (wd :: ws)) by (rewrite words_spaced; reflexivity).
    assert (SP' := spelled_strip _ _ _ _ _ _ SP0 eq_refl). rewrite NS in SP'. assert (SN : stop []) by (exists [], []; split; [constructor|auto]).
    destruct (parse_svg_f _ _ _ SP' SN) as (q & Q1 & Q2); [repeat eexists|]. exists (words (wd :: ws)), q. split; [|split; [exact Q1|]].
    - unfold svg_d_f. cbn [svg_d_from_f]. unfold seg_d_f. rewrite K, E. cbn [rbind]. rewrite W. reflexivity.
    - cbn [values_f map fst snd map_atom svg_f stroke_f] in Q2. fold (values_f l) in Q2. change (shift_f pen0_f true (on2 qlit_f (l1, l2))) with (on2 qlit_f (l1, l2)) in Q2. fold k in Q2. destruct q as [|x' q]; [discriminate|]. cbn [map] in Q2. injection Q2 as V1 V2.
      cbn [strays]. split; [|apply Q; exact V2]. apply view_move in V1 as [K' E']. unfold strays1. rewrite K, E, K', E'. exact AE.
  Qed.
End Relative.
