(** Property theorems about path data (C34-C39, C41). *)
Require Import ZArith QArith Qcanon Ascii String List Bool Lia.
Require Import Verif.Base Verif.Text_Spec Verif.Path_Model Verif.PathText_Model Verif.PathText_Spec Verif.PathText_Proofs Verif.PathDraw_Spec Verif.PathDraw_Proofs.
Import ListNotations.
Open Scope Z_scope.

(** * Instructions used in the examples: m 1,2 l 3,4 -5,.6 z *)
Definition ex_n (d : Z) : lit := mkLit SNone [d] [] None.
Definition ex_m5 : lit := mkLit SMinus [5] [] None.
Definition ex_p6 : lit := mkLit SNone [] [6] None.
Definition ex_instructions : list (bool * atom lit) :=
  [(true, DMove (ex_n 1, ex_n 2)); (true, DLine (ex_n 3, ex_n 4)); (true, DLine (ex_m5, ex_p6)); (true, DClose)].
Lemma ex_n_ok : forall d, is_dig d -> lit_ok (ex_n d).
Proof. intros d H. repeat split; cbn; auto. left; discriminate. Qed.
Lemma ex_m5_ok : lit_ok ex_m5. Proof. repeat split; cbn; auto. constructor; auto; unfold is_dig; lia. left; discriminate. Qed.
Lemma ex_p6_ok : lit_ok ex_p6. Proof. repeat split; cbn; auto. constructor; auto; unfold is_dig; lia. right; discriminate. Qed.
Ltac lok := first [apply ex_m5_ok | apply ex_p6_ok | apply ex_n_ok; unfold is_dig; lia].
Lemma ex_ok : Forall (fun x => toks_ok (args (snd x))) ex_instructions.
Proof. repeat (constructor; [repeat (constructor; [lok|]); constructor|]). constructor. Qed.
Ltac ncont := apply Transform_Proofs.nc_no_cont; cbn; repeat split; discriminate || reflexivity.
Ltac seps := repeat constructor; cbn; tauto.
(** Letters left out, separators mixed and left out, something else behind. *)
Lemma ex_spelled : spelled None ex_instructions (T "m1 2,3 4-5 .6z x") (T " x").
Proof.
  apply (sp_letter None true (DMove (ex_n 1, ex_n 2)) [] (T "1 2,3 4-5 .6z x") (T ",3 4-5 .6z x")); [constructor| |].
  { apply (tt_num (ex_n 1) [] _ (T " 2,3 4-5 .6z x")); [lok|constructor|ncont|]. apply (tt_num (ex_n 2) (T " ") _ (T ",3 4-5 .6z x")); [lok|seps|ncont|constructor]. }
  apply (sp_omit _ true (DLine (ex_n 3, ex_n 4)) (T ",3 4-5 .6z x") (T "-5 .6z x")); [reflexivity| |].
  { apply (tt_num (ex_n 3) (T ",") _ (T " 4-5 .6z x")); [lok|seps|ncont|]. apply (tt_num (ex_n 4) (T " ") _ (T "-5 .6z x")); [lok|seps|ncont|constructor]. }
  apply (sp_omit _ true (DLine (ex_m5, ex_p6)) (T "-5 .6z x") (T "z x")); [reflexivity| |].
  { apply (tt_num ex_m5 [] _ (T " .6z x")); [lok|constructor|ncont|].
    apply (tt_num ex_p6 (T " ") _ (T "z x")); [lok|seps|ncont|constructor]. }
  apply (sp_letter _ true DClose [] (T " x") (T " x")); [constructor|constructor|constructor].
Qed.
Lemma ex_stop : stop (T " x").
Proof.
  exists (T " "), (T "x"). split; [seps|]. split; [reflexivity|]. right. exists "x"%char, []. split; [reflexivity|]. split; [|split].
  - cbn. intuition discriminate.
  - cbn. intuition discriminate.
  - intros (l & u & L & E). destruct (Transform_Proofs.lit_start l L) as (c & r & K & P). rewrite K in E. injection E as E _. subst c. revert P. vm_compute. intuition discriminate.
Qed.
Lemma stop_nil : stop [].
Proof. exists [], []. split; [constructor|]. split; auto. Qed.

(** * C34 *)
(** Every string is read in finitely many turns: the parser never asks for more, and more would not change the result. *)
Theorem path_parse_ends : forall s p n, (fuel_for s <= n)%nat ->
  commands n (mkLex s false) p <> OutOfFuel /\ commands n (mkLex s false) p = commands (fuel_for s) (mkLex s false) p.
Proof. exact parse_fuel. Qed.
Print Assumptions path_parse_ends.
(** From the first character on that is no part of path data nothing is read: neither the drawing nor the exception depends on it. *)
Theorem path_parse_foreign : forall s c v p, foreign c -> parse (s ++ c :: v) p = parse s p.
Proof. intros s c v p F. exact (parse_w c v F s p). Qed.
Example path_parse_foreign_ex : foreign "x" /\ parse (T "M1,2 L3" ++ "x"%char :: T "4,5") [] = parse (T "M1,2 L3") [] /\ snd (parse (T "M1,2 L3") []) = Some ValueError /\ List.length (fst (parse (T "M1,2 L3") [])) = 1%nat.
Proof.
  assert (F : foreign "x") by (split; [|split]; cbn; intuition discriminate). split; [exact F|]. split; [apply path_parse_foreign; exact F|]. vm_compute. auto.
Qed.
Print Assumptions path_parse_foreign.
(** Parsing only appends. *)
Theorem path_parse_appends : forall s p q e, moves_ended p -> parse s p = (q, e) -> exists r, q = p ++ r.
Proof. intros s p q e M H. apply grows_prefix. eapply parse_grows; eauto. Qed.
Print Assumptions path_parse_appends.
(** Whatever follows a spelling of instructions, what they draw is kept; if they cannot be drawn, the exception and the part drawn are the same whatever follows.
    (After a close a number must not follow: that is refused before the close is drawn.) *)
Theorem path_parse_keeps : forall l s t p q e, spelled None l s t ->
  (forall l' rel, l = l' ++ [(rel, DClose)] -> ~ exists w n u, Forall sepch w /\ lit_ok n /\ t = w ++ lit_text n ++ u) ->
  moves_ended p -> parse (explicit l) p = (q, e) -> match e with Some e => parse s p = (q, Some e) | None => exists r e, parse s p = (q ++ r, e) end.
Proof.
  intros l s t p q e SP C M D. apply (parse_keeps l s t p q e SP C M). rewrite <- D. symmetry. eapply parse_draws. apply explicit_spelled. eapply spelled_ok; eauto. apply stop_nil.
Qed.
Example path_parse_keeps_ex : spelled None [(false, DMove (ex_n 1, ex_n 2))] (T "M1,2 L3") (T " L3") /\ snd (parse (explicit [(false, DMove (ex_n 1, ex_n 2))]) []) = None.
Proof.
  split; [|vm_compute; reflexivity]. apply (sp_letter None false (DMove (ex_n 1, ex_n 2)) [] (T "1,2 L3") (T " L3")); [constructor| |constructor].
  apply (tt_num (ex_n 1) [] _ (T ",2 L3")); [lok|constructor|ncont|]. apply (tt_num (ex_n 2) (T ",") _ (T " L3")); [lok|seps|ncont|constructor].
Qed.
Print Assumptions path_parse_keeps.

(** * C35 *)
Theorem path_parse_connected : forall s q e, parse s [] = (q, e) -> connected q.
Proof. intros s q e H. eapply grows_connected; [eapply parse_grows; eauto| |apply connected_nil]; constructor. Qed.
Example path_parse_connected_ex : let q := fst (parse (T "m1 2,3 4-5 .6zl1,1") []) in connected q /\ List.length q = 5%nat.
Proof. split; [|vm_compute; reflexivity]. destruct (parse (T "m1 2,3 4-5 .6zl1,1") []) as [q e] eqn:E. eapply path_parse_connected; eauto. Qed.
Print Assumptions path_parse_connected.
(** Also when the text is appended to a connected path. *)
Theorem path_parse_connected_onto : forall s p q e, moves_ended p -> connected p -> parse s p = (q, e) -> connected q.
Proof. intros s p q e M C H. eapply grows_connected; [eapply parse_grows; eauto|auto|auto]. Qed.
Print Assumptions path_parse_connected_onto.

(** * What is drawn is what SVG says, but for smooth curves after a curve of the other sort (C36, C38) *)
Theorem path_parse_svg_lenient : forall l s t, spelled None l s t -> stop t -> begins_with_move l ->
  exists segs, parse s [] = (segs, None) /\ map view segs = map Some (svg false pen0 (values l)).
Proof. exact parse_svg. Qed.
Example path_parse_svg_ex : spelled None ex_instructions (T "m1 2,3 4-5 .6z x") (T " x") /\ stop (T " x") /\ begins_with_move ex_instructions.
Proof. split; [apply ex_spelled|]. split; [apply ex_stop|]. repeat eexists. Qed.
Print Assumptions path_parse_svg_lenient.

(** * C36 *)
(** A text and any text of its absolute form draw the same. *)
Theorem path_relative_absolute : forall l s t l' s' t', spelled None l s t -> stop t -> begins_with_move l -> spelled None l' s' t' -> stop t' ->
  values l' = map (pair false) (absolutes false pen0 (values l)) ->
  snd (parse s []) = None /\ snd (parse s' []) = None /\ map view (fst (parse s [])) = map view (fst (parse s' [])) /\
  Forall (fun o => o <> None) (map view (fst (parse s []))).
Proof.
  intros l s t l' s' t' S ST B S' ST' V. destruct (parse_svg l s t S ST B) as (g & E & M).
  assert (B' : begins_with_move (values l')). { rewrite V. destruct B as (rel & q & k & ->). unfold values. cbn [map fst snd map_atom absolutes absolute]. repeat eexists. }
  rewrite (parse_draws l' s' t' [] S' ST'). destruct (draw_svg0 _ B') as (g' & E' & M'). rewrite E, E'. cbn [fst snd]. rewrite M, M', V, svg_absolutes.
  repeat split; auto. apply Forall_forall. intros x I. apply in_map_iff in I as (d & <- & _). discriminate.
Qed.
(** m1,2 l3,4 and M1,2 L4,6 *)
Example path_relative_absolute_ex :
  values [(false, DMove (ex_n 1, ex_n 2)); (false, DLine (ex_n 4, ex_n 6))] =
  map (pair false) (absolutes false pen0 (values [(true, DMove (ex_n 1, ex_n 2)); (true, DLine (ex_n 3, ex_n 4))])).
Proof. unfold values. cbn [map fst snd map_atom absolutes absolute]. repeat f_equal; unfold shift, on2; cbn [fst snd]; f_equal; apply Qc_is_canon; vm_compute; reflexivity. Qed.
Print Assumptions path_relative_absolute.
(** A relative instruction on any path with a current point draws what the absolute one draws. *)
Theorem path_relative_step : forall p k rel a, tracks p k -> exists s s',
  draw_atom p rel a = Ok (p ++ [s]) /\ draw_atom p false (absolute k rel a) = Ok (p ++ [s']) /\ view s = view s' /\ view s <> None.
Proof.
  intros p k rel a T. destruct (draw_stroke p k rel a T) as (s & D & V & _). destruct (draw_stroke p k false (absolute k rel a) T) as (s' & D' & V' & _).
  rewrite stroke_absolute in V'. exists s, s'. repeat split; auto; congruence.
Qed.
Print Assumptions path_relative_step.

(** * C37 *)
(** Leaving letters out is as writing them. *)
Theorem path_implicit_repetition : forall l s t p, spelled None l s t -> stop t -> parse s p = parse (explicit l) p.
Proof.
  intros l s t p S ST. rewrite (parse_draws l s t p S ST). symmetry. eapply parse_draws. apply explicit_spelled. eapply spelled_ok; eauto. apply stop_nil.
Qed.
Example path_implicit_repetition_ex : explicit ex_instructions = T "m 1 2l 3 4l -5 .6z" /\ parse (T "m1 2,3 4-5 .6z x") [] = parse (T "m 1 2l 3 4l -5 .6z") [].
Proof. split; [reflexivity|]. exact (path_implicit_repetition ex_instructions _ _ [] ex_spelled ex_stop). Qed.
Print Assumptions path_implicit_repetition.

(** * C39 *)
(** Any two spellings of the same instructions give the same path and the same exception, if any. *)
Theorem path_separators : forall l s t s' t' p, spelled None l s t -> stop t -> spelled None l s' t' -> stop t' -> parse s p = parse s' p.
Proof. intros l s t s' t' p S ST S' ST'. rewrite (parse_draws l s t p S ST), (parse_draws l s' t' p S' ST'). reflexivity. Qed.
Example path_separators_ex : spelled None ex_instructions (T "m1 2,3 4-5 .6z x") (T " x") /\ spelled None ex_instructions (T "m 1 2l 3 4l -5 .6z") [].
Proof. split; [apply ex_spelled|]. apply (explicit_spelled ex_instructions None ex_ok). Qed.
Print Assumptions path_separators.
(** More: numbers written differently but of equal value. *)
Theorem path_numbers_by_value : forall l l' s t s' t' p, spelled None l s t -> stop t -> spelled None l' s' t' -> stop t' -> values l = values l' -> parse s p = parse s' p.
Proof. intros l l' s t s' t' p S ST S' ST' V. rewrite (parse_draws l s t p S ST), (parse_draws l' s' t' p S' ST'), V. reflexivity. Qed.
Print Assumptions path_numbers_by_value.

(** * C38 *)
(** Full statement: for every such text the drawing is [svg true]. It holds where no smooth curve follows a curve of the other sort. *)
Theorem path_smooth_partial : forall l s t, spelled None l s t -> stop t -> begins_with_move l -> smooth_matched l ->
  exists segs, parse s [] = (segs, None) /\ map view segs = map Some (svg true pen0 (values l)).
Proof.
  intros l s t S ST B M. destruct (parse_svg l s t S ST B) as (segs & E & V). exists segs. split; auto. rewrite V. f_equal.
  apply svg_strict; [|apply smooth_matched_values; auto]. destruct B as (rel & q & k & ->). exact I.
Qed.
Definition ex_smooth : list (bool * atom lit) :=
  [(false, DMove (ex_n 0, ex_n 0)); (false, DSmoothCubic (ex_n 1, ex_n 1) (ex_n 2, ex_n 0)); (true, DSmoothCubic (ex_n 3, ex_n 1) (ex_n 4, ex_n 0)); (false, DSmoothQuad (ex_n 7, ex_n 7))].
Example path_smooth_ex : smooth_matched (firstn 3 ex_smooth) /\ ~ smooth_matched ex_smooth.
Proof. cbn. intuition. Qed.
Print Assumptions path_smooth_partial.
(** M0,0 Q1,1 2,0 S3,1 4,0: SVG has the third curve start with the control (2,0), the code with (3,-1). *)
Theorem path_smooth_refuted : exists l s segs, spelled None l s [] /\ begins_with_move l /\ parse s [] = (segs, None) /\ map view segs <> map Some (svg true pen0 (values l)).
Proof.
  set (l := [(false, DMove (ex_n 0, ex_n 0)); (false, DQuad (ex_n 1, ex_n 1) (ex_n 2, ex_n 0)); (false, DSmoothCubic (ex_n 3, ex_n 1) (ex_n 4, ex_n 0))]).
  assert (S : spelled None l (explicit l) []).
  { apply explicit_spelled. repeat (constructor; [repeat (constructor; [lok|]); constructor|]). constructor. }
  assert (B : begins_with_move l) by (repeat eexists).
  destruct (parse_svg l _ _ S stop_nil B) as (segs & E & V). exists l, (explicit l), segs. split; auto. split; auto. split; auto.
  rewrite V. intros K.
  apply (f_equal (fun x => match nth_error x 2 with Some (Some (SCubic _ c _ _)) => this (fst c) | _ => 0%Q end)) in K. vm_compute in K. discriminate K.
Qed.
Print Assumptions path_smooth_refuted.

(** * C41 *)
Theorem path_close_returns : forall s q e a z b a1 m a2, parse s [] = (q, e) -> q = a ++ z :: b -> s_kind z = KClose ->
  a = a1 ++ m :: a2 -> s_kind m = KMove -> Forall (fun x => s_kind x <> KMove) a2 ->
  s_end z = s_end m /\ s_end m <> None /\ match b with [] => True | n :: _ => s_start n = s_end m end.
Proof. exact close_returns. Qed.
Example path_close_returns_ex : exists m a2 z n, fst (parse (T "M1,2 L3,4 z l1,1") []) = [m] ++ a2 ++ z :: [n] /\ s_kind m = KMove /\ s_kind z = KClose /\ Forall (fun x => s_kind x <> KMove) a2.
Proof.
  exists (nth 0 (fst (parse (T "M1,2 L3,4 z l1,1") [])) (mkSeg KMove None None true true)), [nth 1 (fst (parse (T "M1,2 L3,4 z l1,1") [])) (mkSeg KMove None None true true)].
  eexists. eexists. split; [|split; [vm_compute; reflexivity|split]].
  3: { constructor; [vm_compute; discriminate|constructor]. }
  vm_compute. reflexivity. reflexivity.
Qed.
Print Assumptions path_close_returns.
