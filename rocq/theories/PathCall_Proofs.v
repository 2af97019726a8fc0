(** Lemmas for PathCall_Thms. *)
Require Import ZArith QArith Qcanon Qabs Ascii String List Bool Lia.
Require Import Verif.Base Verif.Path_Model Verif.PathText_Spec Verif.PathDraw_Spec Verif.PathDraw_Proofs Verif.PathCall_Model Verif.PathCall_Spec.
Import ListNotations.
Open Scope Z_scope.

Lemma no_move_last : forall b, Forall (fun s => s_kind s <> KMove) b -> last_move b = None.
Proof. induction 1 as [|s b H F IH]; cbn; auto. rewrite IH. unfold is_move. destruct (s_kind s); congruence. Qed.
Lemma last_move_at : forall a m b, s_kind m = KMove -> Forall (fun s => s_kind s <> KMove) b -> last_move (a ++ m :: b) = Some m.
Proof. intros a m b M F. induction a as [|x a IH]; cbn [app last_move]; [|rewrite IH; auto]. rewrite (no_move_last b F). unfold is_move. rewrite M. reflexivity. Qed.
Lemma start_z : forall p q, subpath_start p (Some q) -> z_point p = Some q.
Proof.
  intros p q [(a & m & b & -> & M & F & E)|[F E]]; unfold z_point.
  - rewrite last_move_at, <- E; auto.
  - rewrite no_move_last by auto. destruct p; [discriminate|congruence].
Qed.
Lemma aims_resolve : forall p a q, aims p a q -> resolve p a = Some q.
Proof. intros p a q H. destruct H; cbn; auto. apply start_z; auto. Qed.
Lemma kind_move : forall s, is_move s = false -> s_kind s <> KMove.
Proof. intros s H E. unfold is_move in H. rewrite E in H. discriminate. Qed.
Lemma start_snoc : forall p s o, p <> [] -> is_move s = false -> subpath_start p o -> subpath_start (p ++ [s]) o.
Proof.
  intros p s o N M [(a & m & b & -> & K & F & E)|[F E]].
  - left. exists a, m, (b ++ [s]). rewrite <- app_assoc. repeat split; auto. apply Forall_app. split; auto. constructor; auto. apply kind_move; auto.
  - right. split; [apply Forall_app; split; auto; constructor; auto; apply kind_move; auto|]. destruct p; [congruence|exact E].
Qed.
Lemma aims_snoc : forall p s a q, p <> [] -> is_move s = false -> aims p a q -> aims (p ++ [s]) a q.
Proof. intros p s a q N M H. destruct H; constructor. apply start_snoc; auto. Qed.
Lemma cur_nonempty : forall p a, current_point p = Some a -> p <> []. Proof. intros p a H ->. discriminate. Qed.

Section Again.
  Context {A B S : Type} (f : path -> A -> bool -> Res path) (later : bool -> bool) (at_ : path -> S -> Prop) (for_ : path -> A -> B -> Prop) (den : bool -> S -> B -> drawn) (next : bool -> S -> B -> S) (sm : bool).
  Hypothesis one : forall p t x b rel, at_ p t -> for_ p x b -> exists s, f p x rel = Ok (p ++ [s]) /\ view s = Some (den rel t b) /\ at_ (p ++ [s]) (next rel t b) /\ s_rel s = rel /\ s_smooth s = sm /\ is_move s = false.
  Hypothesis full : forall p t, at_ p t -> p <> [].
  Hypothesis stable : forall p s x b, p <> [] -> is_move s = false -> for_ p x b -> for_ (p ++ [s]) x b.
  Fixpoint trace (rel : bool) (t : S) (l : list B) : list drawn := match l with [] => [] | b :: r => den rel t b :: trace (later rel) (next rel t b) r end.
  Fixpoint marks (rel : bool) (l : list B) : list (bool * bool) := match l with [] => [] | _ :: r => (rel, sm) :: marks (later rel) r end.
  Lemma again_draws : forall args vals p t rel, at_ p t -> Forall2 (for_ p) args vals ->
    exists q, again f later p args rel = (q, None) /\ adds_drawing p q (trace rel t vals) /\ added_flags p q (marks rel vals) /\ exists t', at_ q t'.
  Proof.
    induction args as [|x args IH]; intros vals p t rel C F; inversion F; subst; cbn [again trace marks].
    - exists p. split; auto. split; [exists []; rewrite app_nil_r; auto|]. split; [exists []; rewrite app_nil_r; auto|eauto].
    - destruct (one p t x y rel C H1) as (s & E & V & C' & R & SM & M). rewrite E.
      destruct (IH l' (p ++ [s]) (next rel t y) (later rel) C') as (q & E2 & (g & -> & D) & (g' & Q & Fl) & T').
      { clear - H3 M C stable full. induction H3; constructor; auto. apply stable; eauto. }
      apply app_inv_head in Q. subst g'. exists ((p ++ [s]) ++ g). split; auto. rewrite <- app_assoc in *. split; [exists (s :: g)|split; [exists (s :: g)|auto]]; split; auto; cbn; rewrite ?V, ?D, ?R, ?SM, ?Fl; reflexivity.
  Qed.
End Again.
Definition here_ (p : path) (a : pt) : Prop := current_point p = Some a.
Lemma here_full : forall p a, here_ p a -> p <> []. Proof. exact cur_nonempty. Qed.
Lemma snoc_here : forall p s b, s_end s = Some b -> here_ (p ++ [s]) b. Proof. intros. unfold here_. rewrite current_snoc. auto. Qed.
Ltac drawn1 := eexists; split; [f_equal; apply append_same; [reflexivity|discriminate]|].
Lemma line_one : forall p a x b rel, here_ p a -> aims p x b -> exists s, line p x rel = Ok (p ++ [s]) /\ view s = Some (SLine a b) /\ here_ (p ++ [s]) b /\ s_rel s = rel /\ s_smooth s = true /\ is_move s = false.
Proof. intros p a x b rel C H. apply aims_resolve in H. unfold line. drawn1. unfold view. cbn. unfold here_ in C. rewrite ?C, H. repeat split; auto. apply snoc_here. auto. Qed.
Lemma vertical_one : forall p a y z (rel : bool), here_ p a -> y = z -> let b : pt := (fst a, if rel then snd a + z else z)%Qc in
  exists s, vertical p (Some y) rel = Ok (p ++ [s]) /\ view s = Some (SLine a b) /\ here_ (p ++ [s]) b /\ s_rel s = rel /\ s_smooth s = true /\ is_move s = false.
Proof. intros p a y z rel C -> b. unfold vertical. rewrite C. eexists. split; [f_equal; apply append_same; [symmetry; exact C|discriminate]|]. repeat split; auto. apply snoc_here. auto. Qed.
Lemma horizontal_one : forall p a y z (rel : bool), here_ p a -> y = z -> let b : pt := (if rel then fst a + z else z, snd a)%Qc in
  exists s, horizontal p (Some y) rel = Ok (p ++ [s]) /\ view s = Some (SLine a b) /\ here_ (p ++ [s]) b /\ s_rel s = rel /\ s_smooth s = true /\ is_move s = false.
Proof. intros p a y z rel C -> b. unfold horizontal. rewrite C. eexists. split; [f_equal; apply append_same; [symmetry; exact C|discriminate]|]. repeat split; auto. apply snoc_here. auto. Qed.
Lemma quad_one : forall p a x y rel, here_ p a -> aims2 p x y -> exists s, quad p (fst x) (snd x) rel = Ok (p ++ [s]) /\ view s = Some (SQuad a (fst y) (snd y)) /\ here_ (p ++ [s]) (snd y) /\ s_rel s = rel /\ s_smooth s = false /\ is_move s = false.
Proof. intros p a x y rel C [H K]. apply aims_resolve in H, K. unfold quad. drawn1. unfold view. cbn. unfold here_ in C. rewrite ?C, H, K. repeat split; auto. apply snoc_here. auto. Qed.
Lemma cubic_one : forall p a x y rel, here_ p a -> aims3 p x y -> exists s, cubic p (fst (fst x)) (snd (fst x)) (snd x) rel = Ok (p ++ [s]) /\ view s = Some (SCubic a (fst (fst y)) (snd (fst y)) (snd y)) /\ here_ (p ++ [s]) (snd y) /\ s_rel s = rel /\ s_smooth s = false /\ is_move s = false.
Proof. intros p a x y rel C [[H K] L]. apply aims_resolve in H, K, L. unfold cubic. rewrite H, K. cbn [cubic_kind rbind]. drawn1. unfold view. cbn. unfold here_ in C. rewrite ?C, L. repeat split; auto. apply snoc_here. auto. Qed.
(** Smooth curves: the current point and the next control point. *)
Definition bend (p : path) (t : pt * pt) : Prop := current_point p = Some (fst t) /\ smooth_point p = Ok (Some (snd t)).
Lemma bend_full : forall p t, bend p t -> p <> []. Proof. intros p t [H _]. eapply cur_nonempty; eauto. Qed.
Lemma reflect_beyond : forall c b, reflect c b = beyond c b. Proof. intros [cx cy] [bx b_y]. reflexivity. Qed.
Lemma smooth_from_is : forall p c, smooth_from p c -> smooth_point p = Ok (Some c).
Proof.
  intros p c H. destruct H as [p s c b K E|p s c d b K E|p s b Q K E]; unfold smooth_point; rewrite last_seg_snoc.
  - rewrite K, E. cbn. rewrite reflect_beyond. reflexivity.
  - rewrite K, E. cbn. rewrite reflect_beyond. reflexivity.
  - rewrite E. destruct (s_kind s); auto; [exfalso; eapply Q|exfalso; eapply K]; reflexivity.
Qed.
Lemma squad_one : forall p t x b rel, bend p t -> aims p x b -> exists s, smooth_quad p x rel = Ok (p ++ [s]) /\ view s = Some (SQuad (fst t) (snd t) b) /\ bend (p ++ [s]) (b, beyond (snd t) b) /\ s_rel s = rel /\ s_smooth s = true /\ is_move s = false.
Proof.
  intros p t x b rel [C SP] H. apply aims_resolve in H. unfold smooth_quad. rewrite SP. cbn [rbind]. drawn1. unfold view. cbn. unfold here_ in C. rewrite ?C, H. repeat split; auto; cbn [fst snd].
  - rewrite current_snoc. auto.
  - apply smooth_from_is. apply sf_quad; auto.
Qed.
Lemma scubic_one : forall p t x y rel, bend p t -> aims2 p x y -> exists s, smooth_cubic p (fst x) (snd x) rel = Ok (p ++ [s]) /\ view s = Some (SCubic (fst t) (snd t) (fst y) (snd y)) /\ bend (p ++ [s]) (snd y, beyond (fst y) (snd y)) /\ s_rel s = rel /\ s_smooth s = true /\ is_move s = false.
Proof.
  intros p t x y rel [C SP] [H K]. apply aims_resolve in H, K. unfold smooth_cubic. rewrite SP, H. cbn [rbind cubic_kind]. drawn1. unfold view. cbn. unfold here_ in C. rewrite ?C, K. repeat split; auto; cbn [fst snd].
  - rewrite current_snoc. auto.
  - apply smooth_from_is. eapply sf_cubic; reflexivity.
Qed.
Lemma arc_one : forall p a x g rel, here_ p a -> aims6 p x g -> exists s, arc p (Some (x_rx x)) (Some (x_ry x)) (Some (x_rot x)) (Some (x_large x)) (Some (x_sweep x)) (x_end x) rel = Ok (p ++ [s]) /\
  view s = Some (SArc a (g_rx g) (g_ry g) (g_rot g) (g_large g) (g_sweep g) (g_end g)) /\ here_ (p ++ [s]) (g_end g) /\ s_rel s = rel /\ s_smooth s = true /\ is_move s = false.
Proof.
  intros p a x g rel C (E1 & E2 & E3 & E4 & E5 & H). apply aims_resolve in H. unfold arc. unfold here_ in C. rewrite C, H, E1, E2, E3, E4, E5. 
  eexists. split; [match goal with |- (if ?b then ?x else ?x) = _ => replace (if b then x else x) with x by (destruct b; reflexivity) end; f_equal; apply append_same; [symmetry; exact C|discriminate]|].
  repeat split; auto. apply snoc_here. auto.
Qed.
Lemma aims2_snoc : forall p s a q, p <> [] -> is_move s = false -> aims2 p a q -> aims2 (p ++ [s]) a q. Proof. intros p s a q N M [H K]. split; apply aims_snoc; auto. Qed.
Lemma aims3_snoc : forall p s a q, p <> [] -> is_move s = false -> aims3 p a q -> aims3 (p ++ [s]) a q. Proof. intros p s a q N M [H K]. split; [apply aims2_snoc|apply aims_snoc]; auto. Qed.
Lemma aims6_snoc : forall p s a q, p <> [] -> is_move s = false -> aims6 p a q -> aims6 (p ++ [s]) a q. Proof. intros p s a q N M (A & B & C & D & E & F). repeat split; auto. apply aims_snoc; auto. Qed.
Lemma pairs_flat : forall {A} (l : list (A * A)) rest, (List.length rest < 2)%nat -> pairs (flat_map (fun x => [fst x; snd x]) l ++ rest) = (l, negb (none rest)).
Proof. intros A l rest R. induction l as [|[a b] l IH]; cbn [flat_map app fst snd pairs]; [destruct rest as [|x [|y r]]; auto; cbn in R; lia|rewrite IH; reflexivity]. Qed.
Lemma triples_flat : forall {A} (l : list (A * A * A)) rest, (List.length rest < 3)%nat -> triples (flat_map (fun x => [fst (fst x); snd (fst x); snd x]) l ++ rest) = (l, negb (none rest)).
Proof. intros A l rest R. induction l as [|[[a b] c] l IH]; cbn [flat_map app fst snd triples]; [destruct rest as [|x [|y [|z r]]]; auto; cbn in R; lia|rewrite IH; reflexivity]. Qed.
Lemma none_flat : forall {A B} (l : list A) (f : A -> list B) rest, (forall x, f x <> []) -> none (flat_map f l ++ rest) = none l && none rest.
Proof. intros A B [|x l] f rest N; cbn [flat_map app none andb]; auto. specialize (N x). destruct (f x); [congruence|reflexivity]. Qed.
Lemma marks_first : forall {B} (sm : bool) rel (l : list B), marks (fun _ => false) sm rel l = match l with [] => [] | _ :: r => (rel, sm) :: repeat (false, sm) (List.length r) end.
Proof. intros B sm rel [|b l]; cbn [marks]; auto. f_equal. induction l; cbn; congruence. Qed.
Lemma marks_all : forall {B} (sm : bool) rel (l : list B), marks (fun r => r) sm rel l = repeat (rel, sm) (List.length l).
Proof. intros B sm rel l. induction l; cbn; congruence. Qed.
Lemma lines_trace : forall later rel a l, trace later (fun _ a b => SLine a b) (fun _ _ b => b) rel a l = lines_to a l.
Proof. intros later rel a l. revert rel a. induction l; intros; cbn; congruence. Qed.
Lemma up_trace : forall rel a l, trace (fun r => r) (fun rel a z => SLine a (fst a, if rel then snd a + z else z)%Qc) (fun (rel : bool) (a : pt) z => (fst a, if rel then snd a + z else z)%Qc) rel a l = up_to rel a l.
Proof. intros rel a l. revert a. induction l; intros; cbn; congruence. Qed.
Lemma along_trace : forall rel a l, trace (fun r => r) (fun rel a z => SLine a (if rel then fst a + z else z, snd a)%Qc) (fun (rel : bool) (a : pt) z => (if rel then fst a + z else z, snd a)%Qc) rel a l = along_to rel a l.
Proof. intros rel a l. revert a. induction l; intros; cbn; congruence. Qed.
Lemma quads_trace : forall later rel a l, trace later (fun _ a y => SQuad a (fst y) (snd y)) (fun _ _ y => snd y) rel a l = quads_to a l.
Proof. intros later rel a l. revert rel a. induction l as [|[c b] l IH]; intros; cbn; congruence. Qed.
Lemma cubics_trace : forall later rel a l, trace later (fun _ a y => SCubic a (fst (fst y)) (snd (fst y)) (snd y)) (fun _ _ y => snd y) rel a l = cubics_to a l.
Proof. intros later rel a l. revert rel a. induction l as [|[[c d] b] l IH]; intros; cbn; congruence. Qed.
Lemma squads_trace : forall later rel t l, trace later (fun _ t b => SQuad (fst t) (snd t) b) (fun _ t b => (b, beyond (snd t) b)) rel t l = smooth_quads_to (fst t) (snd t) l.
Proof. intros later rel t l. revert rel t. induction l; intros; cbn; [reflexivity|]. rewrite IHl. reflexivity. Qed.
Lemma scubics_trace : forall later rel t l, trace later (fun _ t y => SCubic (fst t) (snd t) (fst y) (snd y)) (fun _ t y => (snd y, beyond (fst y) (snd y))) rel t l = smooth_cubics_to (fst t) (snd t) l.
Proof. intros later rel t l. revert rel t. induction l as [|[d b] l IH]; intros; cbn; [reflexivity|]. rewrite IH. reflexivity. Qed.
Lemma arcs_trace : forall later rel a l, trace later (fun _ a g => SArc a (g_rx g) (g_ry g) (g_rot g) (g_large g) (g_sweep g) (g_end g)) (fun _ _ g => g_end g) rel a l = arcs_to a l.
Proof. intros later rel a l. revert rel a. induction l; intros; cbn; congruence. Qed.
Lemma here_smooth_ok : forall p t, bend p t -> smooth_index p = IndexError. Proof. intros p t [_ H]. unfold smooth_index. rewrite H. reflexivity. Qed.
Lemma forall2_refl : forall {A} (l : list A), Forall2 eq l l. Proof. induction l; constructor; auto. Qed.
