(** Lemmas for Alias_Thms.v: path data draws on the objects what it draws on the values. *)
Require Import ZArith QArith Qcanon List Bool Ascii Lia.
Require Import Verif.Base Verif.Path_Model Verif.PathText_Model Verif.PathEdit_Model Verif.Alias_Model Verif.Alias_Spec
  Verif.Alias_Proofs Verif.AliasOps_Proofs Verif.AliasRev_Proofs Verif.AliasPath_Proofs.
Import ListNotations.
Local Open Scope Z_scope.

Definition v_next (next : lex -> path -> Res (lex * drawing)) (s : lex) (p : path) : Res (lex * path) :=
  do n <- next s p; do q <- v_draw (snd n) p; Ok (fst n, q).
Lemma next1_step d draw rel s p : (forall a r q, v_draw (d a r) q = draw q a r) -> v_next (next1 d rel) s p = step1 draw rel s p.
Proof.
  intro H. unfold v_next, next1, step1. destruct (coordr rel p s) as [c|]; [|reflexivity]. cbn [rbind]. destruct (or_close (snd c) (fst c)); [|reflexivity].
  cbn [rbind fst snd]. rewrite H. reflexivity.
Qed.
Lemma next2_step d draw rel s p : (forall a b r q, v_draw (d a b r) q = draw q a b r) -> v_next (next2 d rel) s p = step2 draw rel s p.
Proof.
  intro H. unfold v_next, next2, step2. destruct (coordr rel p s) as [c|]; [|reflexivity]. cbn [rbind]. destruct (coordr rel p (snd c)) as [c2|]; [|reflexivity]. cbn [rbind].
  destruct (or_close (snd c2) (fst c)); [|reflexivity]. cbn [rbind]. destruct (or_close (snd c2) (fst c2)); [|reflexivity]. cbn [rbind fst snd]. rewrite H. reflexivity.
Qed.
Lemma next3_step d draw rel s p : (forall a b c r q, v_draw (d a b c r) q = draw q a b c r) -> v_next (next3 d rel) s p = step3 draw rel s p.
Proof.
  intro H. unfold v_next, next3, step3. destruct (coordr rel p s) as [c|]; [|reflexivity]. cbn [rbind]. destruct (coordr rel p (snd c)) as [c2|]; [|reflexivity]. cbn [rbind].
  destruct (coordr rel p (snd c2)) as [c3|]; [|reflexivity]. cbn [rbind].
  destruct (or_close (snd c3) (fst c)); [|reflexivity]. cbn [rbind]. destruct (or_close (snd c3) (fst c2)); [|reflexivity]. cbn [rbind].
  destruct (or_close (snd c3) (fst c3)); [|reflexivity]. cbn [rbind fst snd]. rewrite H. reflexivity.
Qed.
Lemma nextv_step d draw rel s p : (forall v r q, v_draw (d v r) q = draw q v r) -> v_next (nextv d rel) s p = stepv draw rel s p.
Proof. intro H. unfold v_next, nextv, stepv. destruct (number s). cbn [rbind fst snd]. rewrite H. reflexivity. Qed.
Lemma nexta_step rel s p : v_next (nexta rel) s p = stepa rel s p.
Proof.
  unfold v_next, nexta, stepa. destruct (number s) as [rx s1]. destruct (number s1) as [ry s2]. destruct (number s2) as [rot s3]. destruct (flag s3) as [lg s4]. destruct (flag s4) as [sw s5].
  destruct (coordr rel p s5) as [c|]; [|reflexivity]. cbn [rbind]. destruct (rel && match sw with None => true | Some _ => false end); [reflexivity|].
  destruct (or_close (snd c) (fst c)); [|reflexivity]. reflexivity.
Qed.
Lemma next_line_step rel s p : v_next (next_point DLine rel) s p = step_line rel s p.
Proof. unfold v_next, next_point, step_line. destruct (coordr rel p s) as [c|]; [|reflexivity]. cbn [rbind]. destruct (fst c); reflexivity. Qed.
Lemma next_move_step rel s p : v_next (next_point DMove rel) s p = step_move rel s p.
Proof. unfold v_next, next_point, step_move. destruct (coordr rel p s) as [c|]; [|reflexivity]. cbn [rbind]. destruct (fst c); reflexivity. Qed.

Definition does_s (h : heap) (l : list nat) (x : Res (lex * st)) (q : Res (lex * path)) : Prop :=
  match x with
  | Err e => q = Err e
  | Ok (s, (h', l')) => exists p, q = Ok (s, p) /\ does h l h' l' p
  end.
Lemma h_step_does next s h l X : wf h l X -> does_s h l (h_step next s (h, l)) (v_next next s (reads h l)).
Proof.
  intro W. unfold h_step, v_next. cbn [fst snd]. destruct (next s (reads h l)) as [[s1 d]|e]; [|reflexivity]. cbn [rbind fst snd].
  pose proof (h_draw_does h l d X W) as D. destruct (h_draw (h, l) d) as [[h' l']|e]; cbn in D |- *; [|rewrite D; reflexivity].
  destruct D as (p & -> & D). exists p. split; [reflexivity|exact D].
Qed.
Definition does_o (h : heap) (l : list nat) (x : h_outcome) (q : outcome) : Prop :=
  match x, q with
  | HFin s (h', l'), Fin t p => s = t /\ does h l h' l' p
  | HExc e, Exc f _ => e = f
  | HOut, OutOfFuel => True
  | _, _ => False
  end.
Lemma does_o_after h l h1 l1 q1 x q : does h l h1 l1 q1 -> does_o h1 l1 x q -> does_o h l x q.
Proof.
  intros D R. destruct x as [s [h' l']| |], q; cbn in *; auto. destruct R as [E R]. split; [exact E|]. eapply does_trans; eauto.
Qed.
Lemma h_do_loop_does next step : (forall s p, v_next next s p = step s p) -> forall n s h l X, wf h l X ->
  does_o h l (h_do_loop n next s (h, l)) (do_loop n step s (reads h l)).
Proof.
  intros E. induction n as [|n IH]; intros s h l X W; cbn [h_do_loop do_loop]; [exact I|].
  pose proof (h_step_does next s h l X W) as D. rewrite E in D. destruct (h_step next s (h, l)) as [[s1 [h1 l1]]|e]; cbn [does_s] in D; [|rewrite D; reflexivity].
  destruct D as (p & -> & D). destruct (more s1) as [b s2]. pose proof (does_reads _ _ _ _ _ D) as R. subst p.
  destruct b; [|split; [reflexivity|exact D]]. eapply does_o_after; [exact D|]. eapply IH. eapply does_wf; eauto.
Qed.
Lemma h_while_loop_does next step : (forall s p, v_next next s p = step s p) -> forall n s h l X, wf h l X ->
  does_o h l (h_while_loop n next s (h, l)) (while_loop n step s (reads h l)).
Proof.
  intros E n s h l X W. unfold h_while_loop, while_loop. destruct (more s) as [b s1]. destruct b; [eapply h_do_loop_does; eauto|]. split; [reflexivity|apply does_refl].
Qed.
Lemma h_run_does n c s h l X : wf h l X -> does_o h l (h_run n c s (h, l)) (run n c s (reads h l)).
Proof.
  intro W. unfold h_run, run. set (rel := is_lower c). set (k := letter c).
  destruct (aeqb k "Z").
  { destruct (more s) as [b s1]. destruct b; [reflexivity|]. pose proof (h_draw_does h l (DClose rel) X W) as D. cbn [v_draw] in D.
    destruct (h_draw (h, l) (DClose rel)) as [[h' l']|e]; cbn [does_r] in D; [|rewrite D; reflexivity]. destruct D as (p & -> & D). split; [reflexivity|exact D]. }
  destruct (aeqb k "M").
  { destruct (more s) as [b s1]. destruct (negb b); [reflexivity|].
    pose proof (h_step_does (next_point DMove rel) s1 h l X W) as D. rewrite next_move_step in D.
    destruct (h_step (next_point DMove rel) s1 (h, l)) as [[s2 [h1 l1]]|e]; cbn [does_s] in D; [|rewrite D; reflexivity].
    destruct D as (p & -> & D). pose proof (does_reads _ _ _ _ _ D) as R. subst p. eapply does_o_after; [exact D|].
    eapply h_while_loop_does; [intros; apply next_line_step|]. eapply does_wf; eauto. }
  destruct (aeqb k "L"); [eapply h_do_loop_does; eauto; intros; apply next1_step; reflexivity|].
  destruct (aeqb k "T"); [eapply h_do_loop_does; eauto; intros; apply next1_step; reflexivity|].
  destruct (aeqb k "H"); [eapply h_do_loop_does; eauto; intros; apply nextv_step; reflexivity|].
  destruct (aeqb k "V"); [destruct rel; [eapply h_do_loop_does|eapply h_while_loop_does]; eauto; intros; apply nextv_step; reflexivity|].
  destruct (aeqb k "C"); [eapply h_do_loop_does; eauto; intros; apply next3_step; reflexivity|].
  destruct (aeqb k "Q"); [eapply h_do_loop_does; eauto; intros; apply next2_step; reflexivity|].
  destruct (aeqb k "S"); [eapply h_do_loop_does; eauto; intros; apply next2_step; reflexivity|].
  eapply h_while_loop_does; eauto. intros. apply nexta_step.
Qed.
Lemma h_commands_does : forall n s h l X, wf h l X -> does_o h l (h_commands n s (h, l)) (commands n s (reads h l)).
Proof.
  induction n as [|n IH]; intros s h l X W; cbn [h_commands commands]; [exact I|].
  destruct (lex_command s) as [[c s1]|]; [|split; [reflexivity|apply does_refl]].
  pose proof (h_run_does n c s1 h l X W) as D. destruct (h_run n c s1 (h, l)) as [s2 [h1 l1]|e|], (run n c s1 (reads h l)) as [t p|f p|]; cbn [does_o] in D; try contradiction; auto.
  destruct D as [-> D]. pose proof (does_reads _ _ _ _ _ D) as R. subst p. eapply does_o_after; [exact D|]. eapply IH. eapply does_wf; eauto.
Qed.
Lemma h_parse_does t h l X : wf h l X -> does_r h l (h_parse t (h, l)) (path_iadd (reads h l) (ATextual t)).
Proof.
  intro W. unfold h_parse. cbn [path_iadd]. unfold parse. pose proof (h_commands_does (fuel_for t) (mkLex t false) h l X W) as D.
  destruct (h_commands (fuel_for t) (mkLex t false) (h, l)) as [s2 [h1 l1]|e|], (commands (fuel_for t) (mkLex t false) (reads h l)) as [u p|f p|]; cbn [does_o] in D; try contradiction; cbn [does_r].
  - exists p. split; [reflexivity|apply D].
  - now rewrite D.
  - reflexivity.
Qed.
