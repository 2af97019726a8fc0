(** Drawing only appends connected segments; parsing ends; what is drawn is what SVG says. *)
Require Import ZArith QArith Qcanon Qabs Ascii String List Bool Lia.
Require Import Verif.Base Verif.Text_Spec Verif.Text_Proofs Verif.Path_Model Verif.PathText_Model Verif.PathText_Spec Verif.PathText_Proofs Verif.PathDraw_Spec.
Import ListNotations.
Open Scope Z_scope.

(** * append *)
Lemma near1_refl : forall a, near1 a a = true.
Proof.
  intros a. unfold near1. apply Qle_bool_iff. setoid_replace (this a - this a)%Q with 0%Q by ring. discriminate.
Qed.
Lemma near_refl : forall p, near p p = true.
Proof. intros p. unfold near. rewrite !near1_refl. reflexivity. Qed.
Lemma last_seg_snoc : forall p s, last_seg (p ++ [s]) = Some s.
Proof. induction p as [|a p IH]; intros s; auto. cbn [app last_seg]. destruct (p ++ [s]) eqn:E. destruct p; discriminate. rewrite <- E. apply IH. Qed.
Lemma current_snoc : forall p s, current_point (p ++ [s]) = s_end s.
Proof. intros. unfold current_point. rewrite last_seg_snoc. reflexivity. Qed.
Lemma last_move_snoc : forall p s, last_move (p ++ [s]) = if is_move s then Some s else last_move p.
Proof.
  induction p as [|a p IH]; intros s; cbn [app last_move].
  - reflexivity.
  - rewrite IH. destruct (is_move s); auto.
Qed.
Lemma upd_same : forall A (l : list A) n x, nth_error l n = Some x -> upd l n x = l.
Proof. induction l as [|a l IH]; intros [|n] x H; try discriminate; cbn [upd nth_error] in *. congruence. rewrite IH; auto. Qed.
Lemma snoc_cases : forall A (l : list A), l = [] \/ exists l' x, l = l' ++ [x].
Proof. intros A l. destruct (rev l) as [|x r] eqn:E. left. rewrite <- (rev_involutive l), E. reflexivity. right. exists (rev r), x. rewrite <- (rev_involutive l), E. reflexivity. Qed.
Lemma nth_snoc : forall A (l : list A) x, nth_error (l ++ [x]) (length l) = Some x.
Proof. intros. rewrite nth_error_app2, Nat.sub_diag by lia. reflexivity. Qed.
Lemma link_same : forall b f s, s_start s = s_end f -> link b f s = (f, s).
Proof. intros b f s H. unfold link. rewrite H. destruct (s_end f); auto. rewrite near_refl. auto. Qed.
Lemma validate_last_same : forall p s, s_start s = current_point p -> validate_connection (p ++ [s]) (Z.of_nat (length p) - 1) = p ++ [s].
Proof.
  intros p s H. unfold validate_connection, validate_connection2. destruct (snoc_cases _ p) as [->|(p' & f & ->)].
  - reflexivity.
  - rewrite current_snoc in H. rewrite !app_length; cbn [length].
    replace ((Z.of_nat (length p' + 1) - 1 <? 0) || (Z.of_nat (length p' + 1 + 1) <=? Z.of_nat (length p' + 1) - 1 + 1)) with false by lia.
    replace (Z.to_nat (Z.of_nat (length p' + 1) - 1)) with (length p') by lia.
    assert (N1 : nth_error ((p' ++ [f]) ++ [s]) (length p') = Some f).
    { rewrite <- app_assoc. rewrite nth_error_app2, Nat.sub_diag by lia. reflexivity. }
    assert (N2 : nth_error ((p' ++ [f]) ++ [s]) (S (length p')) = Some s).
    { rewrite nth_error_app2; rewrite app_length; cbn [length]; [|lia]. replace (S (length p') - (length p' + 1))%nat with O by lia. reflexivity. }
    rewrite N1, N2, link_same by auto. rewrite (upd_same _ _ _ _ N1), (upd_same _ _ _ _ N2). reflexivity.
Qed.
Lemma last_move_ended : forall p m, moves_ended p -> last_move p = Some m -> exists e, s_end m = Some e.
Proof.
  induction 1 as [|s p H F IH]; cbn [last_move]; [discriminate|]. destruct (last_move p).
  - intros E; injection E as <-. auto.
  - destruct (is_move s) eqn:M; [|discriminate]. intros E; injection E as <-. destruct (s_end s); eauto. exfalso; apply H; auto.
Qed.
Lemma append_same : forall p s, s_start s = current_point p -> (is_close s = true -> moves_ended p /\ s_end s = z_point p) -> append p s = p ++ [s].
Proof.
  intros p s H C. unfold append. rewrite validate_last_same by auto. destruct (is_close s) eqn:Z; auto.
  destruct (C eq_refl) as [M E]. unfold validate_close. rewrite nth_snoc. apply upd_same. rewrite nth_snoc. f_equal.
  rewrite firstn_all2 by (rewrite app_length; cbn [length]; lia). rewrite last_move_snoc.
  assert (NM : is_move s = false) by (unfold is_move, is_close in *; destruct (s_kind s); congruence). rewrite NM.
  unfold z_point in E. destruct (last_move p) as [m|] eqn:LM.
  - destruct (last_move_ended _ _ M LM) as (e & Ee). rewrite Ee in *. destruct s as [k a b c d]; cbn in *. unfold set_end; cbn. congruence.
  - destruct p as [|f p]; cbn [app] in *; destruct s as [k a b c d]; unfold set_end; cbn in *; congruence.
Qed.

(** * Every drawing method appends one fitting segment *)
Definition fits (p : path) (s : seg) : Prop :=
  s_start s = current_point p /\ (is_close s = true -> s_end s = z_point p) /\ (is_move s = true -> s_end s <> None).
Inductive grows : path -> path -> Prop :=
| g_refl : forall p, grows p p
| g_step : forall p q s, grows p q -> fits q s -> grows p (q ++ [s]).
Lemma grows_trans : forall p q r, grows p q -> grows q r -> grows p r.
Proof. intros p q r H G. induction G; auto. constructor; auto. Qed.
Lemma grows_one : forall p s, fits p s -> grows p (p ++ [s]). Proof. intros. constructor; [constructor|auto]. Qed.
Lemma grows_moves : forall p q, grows p q -> moves_ended p -> moves_ended q.
Proof. induction 1; auto. intros M. unfold moves_ended in *. apply Forall_app. split; auto. constructor; auto. apply H0. Qed.
Definition adds (p q : path) : Prop := exists s, q = p ++ [s] /\ fits p s.
Ltac appd := match goal with |- adds ?p (append ?p ?s) => exists s; split; [apply append_same; [reflexivity|try discriminate]|] end.
Ltac plainfit := split; [reflexivity|split; [discriminate|try discriminate]].
Lemma line_adds : forall p a rel q, line p a rel = Ok q -> adds p q.
Proof. intros p a rel q E. injection E as <-. appd. plainfit. Qed.
Lemma move_adds : forall p a rel q, (a = AZ -> z_point p <> None) -> move p a rel = Ok q -> adds p q.
Proof. intros p a rel q N E. injection E as <-. appd. plainfit. destruct a; [discriminate|cbn; auto]. Qed.
Lemma vertical_adds : forall p v rel q, vertical p v rel = Ok q -> adds p q.
Proof.
  intros p v rel q E. unfold vertical in E. destruct (current_point p) eqn:C; [|discriminate]. destruct v; [|destruct rel; discriminate].
  injection E as <-. rewrite <- C. appd. plainfit.
Qed.
Lemma horizontal_adds : forall p v rel q, horizontal p v rel = Ok q -> adds p q.
Proof.
  intros p v rel q E. unfold horizontal in E. destruct (current_point p) eqn:C; [|discriminate]. destruct v; [|destruct rel; discriminate].
  injection E as <-. rewrite <- C. appd. plainfit.
Qed.
Lemma smooth_quad_adds : forall p a rel q, smooth_quad p a rel = Ok q -> adds p q.
Proof. intros p a rel q E. unfold smooth_quad in E. destruct (smooth_point p); [|discriminate]. injection E as <-. appd. plainfit. Qed.
Lemma quad_adds : forall p c a rel q, quad p c a rel = Ok q -> adds p q.
Proof. intros p c a rel q E. injection E as <-. appd. plainfit. Qed.
Lemma cubic_kind_is : forall a b k, cubic_kind a b = Ok k -> exists c d, k = KCubic c d.
Proof. intros [a|] [b|] k E; try discriminate; injection E as <-; eauto. Qed.
Lemma smooth_cubic_adds : forall p c a rel q, smooth_cubic p c a rel = Ok q -> adds p q.
Proof.
  intros p c a rel q E. unfold smooth_cubic in E. destruct (smooth_point p); [|discriminate]. cbn [rbind] in E.
  destruct (cubic_kind a0 (resolve p c)) eqn:K; [|discriminate]. destruct (cubic_kind_is _ _ _ K) as (x & y & ->). injection E as <-. appd. plainfit.
Qed.
Lemma cubic_adds : forall p c d a rel q, cubic p c d a rel = Ok q -> adds p q.
Proof.
  intros p c d a rel q E. unfold cubic in E. 
  destruct (cubic_kind (resolve p c) (resolve p d)) eqn:K; [|discriminate]. destruct (cubic_kind_is _ _ _ K) as (x & y & ->). injection E as <-. appd. plainfit.
Qed.
Lemma arc_adds : forall p rx ry r l s a rel q, arc p rx ry r l s a rel = Ok q -> adds p q.
Proof.
  intros p rx ry r l s a rel q E. unfold arc in E. destruct (current_point p) eqn:C; [|discriminate]. destruct (resolve p a); [|discriminate].
  rewrite <- C in E. 
  assert (E' : Ok (append p {| s_kind := KArc (mkArc (orq rx) (orq ry) (orq r) (orb_ l) (orb_ s)); s_start := current_point p; s_end := Some p1; s_rel := rel; s_smooth := true |}) = Ok q).
  { destruct (near p0 p1 || isz rx || isz ry); auto. destruct rx; [|discriminate]. destruct ry; [|discriminate]. destruct r; [|discriminate]. auto. }
  injection E' as <-. appd. plainfit.
Qed.
Lemma closed_adds : forall p rel q, moves_ended p -> closed p rel = Ok q -> adds p q.
Proof. intros p rel q M E. injection E as <-. appd. auto. split; [reflexivity|split; [reflexivity|discriminate]]. Qed.

(** * One turn of a loop appends one segment and gets on with the text *)
Definition len (s : lex) : nat := List.length (rem s).
Lemma drop_sep_len : forall s, (List.length (drop_sep s) <= List.length s)%nat.
Proof. induction s as [|c s IH]; auto. cbn [drop_sep]. destruct (is_sep c); cbn [List.length] in *; lia. Qed.
Lemma match_float_len : forall s f r, match_float s = Some (f, r) -> (List.length r < List.length s)%nat.
Proof.
  intros s f r H. destruct (match_float_sound _ _ _ H) as (l & L & ->). destruct (Transform_Proofs.lit_start l L) as (c & u & -> & _).
  rewrite app_length. cbn [List.length]. lia.
Qed.
Lemma more_len : forall s b s', more s = (b, s') -> (len s' <= len s)%nat.
Proof. intros s b s' H. unfold more in H. unfold len. pose proof (drop_sep_len (rem s)). destruct (match_float (drop_sep (rem s))); injection H as <- <-; auto. Qed.
Lemma number_some : forall s v s', number s = (Some v, s') -> (len s' < len s)%nat.
Proof.
  intros s v s' H. unfold number in H. unfold len. pose proof (drop_sep_len (rem s)). destruct (match_float (drop_sep (rem s))) as [[f r]|] eqn:E; [|discriminate].
  injection H as _ <-. apply match_float_len in E. cbn [rem]. lia.
Qed.
Lemma number_none : forall s s', number s = (None, s') -> (len s' <= len s)%nat /\ fst (more s') = false.
Proof.
  intros s s' H. unfold number in H. unfold len. pose proof (drop_sep_len (rem s)). destruct (match_float (drop_sep (rem s))) as [[f r]|] eqn:E; [discriminate|].
  injection H as <-. cbn [rem]. split; auto. unfold more; cbn [rem]. rewrite drop_sep_idem, E. reflexivity.
Qed.
Lemma flag_len : forall s o s', flag s = (o, s') -> (len s' <= len s)%nat.
Proof.
  intros s o s' H. unfold flag in H. unfold len. pose proof (drop_sep_len (rem s)). destruct (drop_sep (rem s)) as [|c r].
  - injection H as _ <-. cbn [rem]. auto.
  - cbn [List.length] in *. destruct (aeqb c "0"); [injection H as _ <-; cbn [rem]; lia|]. destruct (aeqb c "1"); injection H as _ <-; cbn [rem List.length]; lia.
Qed.
Lemma coordr_cases : forall rel p s o s', coordr rel p s = Ok (o, s') ->
  match o with Some _ => (len s' < len s)%nat | None => (len s' <= len s)%nat /\ fst (more s') = false end.
Proof.
  intros rel p s o s' H.
  assert (C : exists o1, coord s = Ok (o1, s') /\ (o = None <-> o1 = None)).
  { unfold coordr, rcoord in H. destruct rel; [|exists o; split; auto; reflexivity]. destruct (coord s) as [[o1 s1]|] eqn:E; [|discriminate]. cbn [rbind fst snd] in H.
    injection H as <- <-. exists o1. split; auto. destruct o1; [destruct (current_point p); split; discriminate|split; auto]. }
  destruct C as (o1 & C & OO). unfold coord in C. destruct (number s) as [[x|] s1] eqn:N1.
  - destruct (number s1) as [[y|] s2] eqn:N2; [|discriminate]. injection C as <- <-. apply number_some in N1, N2.
    destruct o; [lia|]. exfalso. destruct OO as [OO _]. discriminate (OO eq_refl).
  - injection C as <- <-. destruct o; [exfalso; destruct OO as [_ OO]; discriminate (OO eq_refl)|]. eapply number_none; eauto.
Qed.
Definition turn (step : lex -> path -> Res (lex * path)) : Prop :=
  forall s p s' q, step s p = Ok (s', q) -> adds p q /\ (len s' <= len s)%nat /\ ((len s' < len s)%nat \/ fst (more s') = false).
Lemma or_close_inv : forall s o a, or_close s o = Ok a -> True. Proof. auto. Qed.
Ltac cc H := match type of H with
  | rbind (coordr ?rel ?p ?s) _ = Ok _ => let E := fresh "E" in destruct (coordr rel p s) as [[? ?]|] eqn:E; [|discriminate H]; apply coordr_cases in E; cbn [rbind fst snd] in H
  | rbind ?x _ = Ok _ => let E := fresh "E" in destruct x eqn:E; [|discriminate H]; cbn [rbind] in H
  end.
Ltac measure := match goal with o : option pt |- _ => destruct o end.
Lemma turn1 : forall draw rel, (forall p a rel q, draw p a rel = Ok q -> adds p q) -> turn (step1 draw rel).
Proof.
  intros draw rel D s p s' q H. unfold step1 in H. repeat cc H. injection H as <- <-. split; [eauto|].
  repeat match goal with o : option pt |- _ => destruct o end; intuition lia.
Qed.
Lemma turn2 : forall draw rel, (forall p a b rel q, draw p a b rel = Ok q -> adds p q) -> turn (step2 draw rel).
Proof.
  intros draw rel D s p s' q H. unfold step2 in H. repeat cc H. injection H as <- <-. split; [eauto|].
  repeat match goal with o : option pt |- _ => destruct o end; intuition lia.
Qed.
Lemma turn3 : forall draw rel, (forall p a b c rel q, draw p a b c rel = Ok q -> adds p q) -> turn (step3 draw rel).
Proof.
  intros draw rel D s p s' q H. unfold step3 in H. repeat cc H. injection H as <- <-. split; [eauto|].
  repeat match goal with o : option pt |- _ => destruct o end; intuition lia.
Qed.
Lemma turnv : forall draw rel, (forall p v rel q, draw p v rel = Ok q -> adds p q) -> turn (stepv draw rel).
Proof.
  intros draw rel D s p s' q H. unfold stepv in H. destruct (number s) as [v s1] eqn:N. cc H. injection H as <- <-. split; [eauto|].
  destruct v; [apply number_some in N|apply number_none in N]; intuition lia.
Qed.
Lemma number_len : forall s o s', number s = (o, s') -> (len s' <= len s)%nat.
Proof. intros s [v|] s' N; [apply number_some in N|apply number_none in N]; intuition lia. Qed.
Lemma turna : forall rel, turn (stepa rel).
Proof.
  intros rel s p s' q H. unfold stepa in H.
  destruct (number s) as [rx s1] eqn:N1. destruct (number s1) as [ry s2] eqn:N2. destruct (number s2) as [ro s3] eqn:N3.
  destruct (flag s3) as [la s4] eqn:N4. destruct (flag s4) as [sw s5] eqn:N5. apply number_len in N1, N2, N3. apply flag_len in N4, N5. cc H.
  match type of H with (if ?b then _ else _) = _ => destruct b; [discriminate|] end. repeat cc H. injection H as <- <-.
  split; [eapply arc_adds; eauto|].
  repeat match goal with o : option pt |- _ => destruct o end; intuition lia.
Qed.
Lemma turn_line : forall rel, turn (step_line rel).
Proof.
  intros rel s p s' q H. unfold step_line in H. cc H. destruct o; [|discriminate]. cc H. injection H as <- <-. split; [eapply line_adds; eauto|]. lia.
Qed.
Lemma turn_move : forall rel, turn (step_move rel).
Proof.
  intros rel s p s' q H. unfold step_move in H. cc H. destruct o; [|discriminate]. cc H. injection H as <- <-. split; [eapply move_adds; eauto; discriminate|]. lia.
Qed.

(** * Loops and commands *)
Definition outc (p : path) (bound : nat) (o : outcome) : Prop :=
  match o with Fin s q => grows p q /\ (len s <= bound)%nat | Exc _ q => grows p q | OutOfFuel => False end.
Lemma adds_grows : forall p q, adds p q -> grows p q. Proof. intros p q (s & -> & F). apply grows_one; auto. Qed.
Lemma outc_weaken : forall p q b b' o, grows p q -> (b <= b')%nat -> outc q b o -> outc p b' o.
Proof. intros p q b b' [s r|e r|] G L H; cbn [outc] in *; auto. destruct H. split. eapply grows_trans; eauto. lia. eapply grows_trans; eauto. Qed.
Lemma do_loop_ok : forall step, turn step -> forall n s p, (len s < n)%nat -> outc p (len s) (do_loop n step s p).
Proof.
  intros step T. induction n as [|n IH]; intros s p L; [lia|]. cbn [do_loop]. destruct (step s p) as [[s1 p1]|e] eqn:S; [|constructor].
  destruct (T _ _ _ _ S) as (A & B & C). destruct (more s1) as [b s2] eqn:M. pose proof (more_len _ _ _ M). destruct b.
  - destruct C as [C|C]; [|discriminate]. eapply (outc_weaken p p1); [apply adds_grows; auto| |apply IH]; lia.
  - split. apply adds_grows; auto. lia.
Qed.
Lemma while_loop_ok : forall step, turn step -> forall n s p, (len s < n)%nat -> outc p (len s) (while_loop n step s p).
Proof.
  intros step T n s p L. unfold while_loop. destruct (more s) as [b s1] eqn:M. apply more_len in M. destruct b.
  - eapply (outc_weaken p p); [constructor| |apply do_loop_ok; auto]; lia.
  - split. constructor. lia.
Qed.
Lemma run_ok : forall n c s p, moves_ended p -> (len s < n)%nat -> outc p (len s) (run n c s p).
Proof.
  intros n c s p M L. unfold run.
  assert (T1 : turn (step1 line (is_lower c))) by (apply turn1, line_adds).
  assert (T2 : turn (step1 smooth_quad (is_lower c))) by (apply turn1, smooth_quad_adds).
  assert (T3 : turn (stepv horizontal (is_lower c))) by (apply turnv, horizontal_adds).
  assert (T4 : turn (stepv vertical (is_lower c))) by (apply turnv, vertical_adds).
  assert (T5 : turn (step3 cubic (is_lower c))) by (apply turn3, cubic_adds).
  assert (T6 : turn (step2 quad (is_lower c))) by (apply turn2, quad_adds).
  assert (T7 : turn (step2 smooth_cubic (is_lower c))) by (apply turn2, smooth_cubic_adds).
  destruct (aeqb (letter c) "Z").
  { destruct (more s) as [b s1] eqn:E. apply more_len in E. destruct b; [constructor|]. destruct (closed p (is_lower c)) eqn:Z; [|constructor].
    split; auto. apply adds_grows. eapply closed_adds; eauto. }
  destruct (aeqb (letter c) "M").
  { destruct (more s) as [b s1] eqn:E. apply more_len in E. destruct b; cbn [negb]; [|constructor].
    destruct (step_move (is_lower c) s1 p) as [[s2 q]|] eqn:S; [|constructor]. destruct (turn_move _ _ _ _ _ S) as (A & B & _).
    eapply (outc_weaken p q); [apply adds_grows; auto| |apply while_loop_ok; [apply turn_line|]]; lia. }
  repeat match goal with |- outc _ _ (if ?b then _ else _) => destruct b end; try (apply do_loop_ok; auto); try (apply while_loop_ok; auto).
  apply turna.
Qed.
Lemma lex_command_len : forall s c s', lex_command s = Some (c, s') -> (len s' < len s)%nat.
Proof.
  intros s c s' H. unfold lex_command in H. unfold len. pose proof (drop_sep_len (rem s)). destruct (drop_sep (rem s)) as [|a r]; [discriminate|].
  destruct (is_command a); [|discriminate]. injection H as _ <-. cbn [rem List.length] in *. lia.
Qed.
Lemma commands_ok : forall n s p, moves_ended p -> (len s < n)%nat -> outc p (len s) (commands n s p).
Proof.
  induction n as [|n IH]; intros s p M L; [lia|]. cbn [commands]. destruct (lex_command s) as [[c s1]|] eqn:C; [|split; [constructor|lia]].
  apply lex_command_len in C. pose proof (run_ok n c s1 p M ltac:(lia)) as R. destruct (run n c s1 p) as [s2 q|e q|]; cbn [outc] in R; auto.
  destruct R as [G R]. eapply (outc_weaken p q); [auto| |apply IH]; [lia|eapply grows_moves; eauto|lia].
Qed.
(** Enough fuel is enough: more gives the same. *)
Lemma do_loop_fuel : forall step n s p, do_loop n step s p <> OutOfFuel -> forall m, (n <= m)%nat -> do_loop m step s p = do_loop n step s p.
Proof.
  induction n as [|n IH]; intros s p H m L; [cbn in H; congruence|]. destruct m as [|m]; [lia|]. cbn [do_loop] in *.
  destruct (step s p) as [[s1 p1]|e]; auto. destruct (more s1) as [[] s2]; auto. apply IH; auto. lia.
Qed.
Lemma while_loop_fuel : forall step n s p, while_loop n step s p <> OutOfFuel -> forall m, (n <= m)%nat -> while_loop m step s p = while_loop n step s p.
Proof. intros step n s p H m L. unfold while_loop in *. destruct (more s) as [[] s1]; auto. apply do_loop_fuel; auto. Qed.
Lemma run_fuel : forall n c s p, run n c s p <> OutOfFuel -> forall m, (n <= m)%nat -> run m c s p = run n c s p.
Proof.
  intros n c s p H m L. unfold run in *. destruct (aeqb (letter c) "Z"); auto. destruct (aeqb (letter c) "M").
  { destruct (more s) as [b s1]. destruct b; cbn [negb] in *; auto. destruct (step_move (is_lower c) s1 p) as [[s2 q]|]; auto. apply while_loop_fuel; auto. }
  repeat match goal with |- (if ?b then _ else _) = _ => destruct b end; try (apply do_loop_fuel; auto); try (apply while_loop_fuel; auto).
Qed.
Lemma commands_fuel : forall n s p, commands n s p <> OutOfFuel -> forall m, (n <= m)%nat -> commands m s p = commands n s p.
Proof.
  induction n as [|n IH]; intros s p H m L; [cbn in H; congruence|]. destruct m as [|m]; [lia|]. cbn [commands] in *.
  destruct (lex_command s) as [[c s1]|]; auto. assert (R : run n c s1 p <> OutOfFuel) by (intros K; rewrite K in H; congruence).
  rewrite (run_fuel n c s1 p R m) by lia. destruct (run n c s1 p); auto. apply IH; auto. lia.
Qed.
Lemma parse_grows : forall s p q e, moves_ended p -> parse s p = (q, e) -> grows p q.
Proof.
  intros s p q e M H. unfold parse in H. pose proof (commands_ok (fuel_for s) (mkLex s false) p M) as C.
  unfold len, fuel_for in C; cbn [rem] in C. specialize (C ltac:(lia)). change (S (S (List.length s))) with (fuel_for s) in C.
  destruct (commands (fuel_for s) (mkLex s false) p); cbn [outc] in C; try (injection H as <- _); tauto.
Qed.

(** * Connectedness *)
Lemma end_of_current : forall p, end_of p (current_point p).
Proof.
  intros p. destruct (snoc_cases _ p) as [->|(a & s & ->)]. left; auto. right. exists a, s. rewrite current_snoc. auto.
Qed.
Lemma last_move_spec : forall p,
  match last_move p with
  | Some m => exists a b, p = a ++ m :: b /\ s_kind m = KMove /\ Forall (fun s => s_kind s <> KMove) b
  | None => Forall (fun s => s_kind s <> KMove) p
  end.
Proof.
  induction p as [|s p IH]; cbn [last_move]; [constructor|]. destruct (last_move p) as [m|].
  - destruct IH as (a & b & -> & K & F). exists (s :: a), b. auto.
  - destruct (is_move s) eqn:M; unfold is_move in M.
    + exists [], p. split; auto. split; auto. destruct (s_kind s); congruence.
    + constructor; auto. destruct (s_kind s); congruence.
Qed.
Lemma z_point_start : forall p, moves_ended p -> subpath_start p (z_point p).
Proof.
  intros p M. pose proof (last_move_spec p) as L. unfold z_point. destruct (last_move p) as [m|] eqn:E.
  - destruct (last_move_ended _ _ M E) as (e & Ee). rewrite Ee. left. destruct L as (a & b & P & K & F). exists a, m, b. rewrite Ee. auto.
  - right. split; auto. destruct p; auto.
Qed.
Lemma is_close_kind : forall s, is_close s = true <-> s_kind s = KClose.
Proof. intros s. unfold is_close. destruct (s_kind s); split; congruence. Qed.
Lemma fits_fits0 : forall p s, moves_ended p -> fits p s -> fits0 p s.
Proof.
  intros p s M (A & B & C). split. rewrite A. apply end_of_current. intros K. rewrite B by (apply is_close_kind; auto). apply z_point_start; auto.
Qed.
Lemma snoc_eq : forall A (p a b : list A) x s, p ++ [x] = a ++ s :: b -> (b = [] /\ a = p /\ s = x) \/ exists b', b = b' ++ [x] /\ p = a ++ s :: b'.
Proof.
  intros A p a b x s H. destruct (snoc_cases _ b) as [->|(b' & y & ->)].
  - left. apply app_inj_tail in H as [-> ->]. auto.
  - right. exists b'. change (a ++ s :: b' ++ [y]) with (a ++ (s :: b') ++ [y]) in H. rewrite app_assoc in H. apply app_inj_tail in H as [-> ->]. auto.
Qed.
Lemma grows_connected : forall p q, grows p q -> moves_ended p -> connected p -> connected q.
Proof.
  induction 1 as [p|p q s G IH F]; intros M C; auto. intros a x b E N. destruct (snoc_eq _ _ _ _ _ _ E) as [(-> & -> & ->)|(b' & -> & ->)].
  - apply fits_fits0; auto. eapply grows_moves; eauto.
  - eapply IH; eauto.
Qed.
Lemma connected_nil : connected [].
Proof. intros a s b H. destruct a; discriminate. Qed.
Lemma grows_prefix : forall p q, grows p q -> exists r, q = p ++ r.
Proof. induction 1 as [p|p q s G (r & ->) F]. exists []. rewrite app_nil_r; auto. exists (r ++ [s]). rewrite app_assoc. auto. Qed.

(** * What is drawn is what SVG says, with the lenient reading of smooth curves *)
Record tracks (p : path) (k : pen) : Prop := {
  tk_ne : p <> [];
  tk_at : current_point p = at_ k;
  tk_sub : z_point p = Some (sub k);
  tk_here : at_ k = Some (here k);
  tk_moves : moves_ended p;
  tk_mem : match mem k with
           | NoCurve => smooth_point p = Ok (Some (here k))
           | AfterQuad c | AfterCubic c => smooth_point p = Ok (Some (reflect c (here k)))
           end }.
Lemma mirror_reflect : forall c p, mirror c p = reflect c p.
Proof. intros [c1 c2] [p1 p2]. unfold mirror, reflect, padd, psub; cbn. f_equal; ring. Qed.
Lemma tracks_smooth_quad : forall p k, tracks p k -> smooth_point p = Ok (Some (smooth_quad_control false k)).
Proof. intros p k [? ? ? ? ? M]. unfold smooth_quad_control. destruct (mem k); rewrite ?mirror_reflect; auto. Qed.
Lemma tracks_smooth_cubic : forall p k, tracks p k -> smooth_point p = Ok (Some (smooth_cubic_control false k)).
Proof. intros p k [? ? ? ? ? M]. unfold smooth_cubic_control. destruct (mem k); rewrite ?mirror_reflect; auto. Qed.
Lemma tracks_base : forall p k rel q, tracks p k -> base p rel q = shift k rel q.
Proof. intros p k rel q [? A ? H ? ?]. unfold base, shift. destruct rel; auto. rewrite A, H. reflexivity. Qed.
Lemma z_snoc : forall p s, p <> [] -> is_move s = false -> z_point (p ++ [s]) = z_point p.
Proof. intros p s N M. unfold z_point. rewrite last_move_snoc, M. destruct p; [congruence|reflexivity]. Qed.
Lemma smooth_snoc : forall p s, smooth_point (p ++ [s]) = match s_kind s with KQuad c => reflected c (s_end s) | KCubic _ c2 => reflected c2 (s_end s) | _ => Ok (s_end s) end.
Proof. intros p s. unfold smooth_point. rewrite last_seg_snoc. reflexivity. Qed.
Lemma ended_snoc : forall p s, moves_ended p -> (is_move s = true -> s_end s <> None) -> moves_ended (p ++ [s]).
Proof. intros p s M E. apply Forall_app. split; auto. Qed.
Lemma draw_stroke : forall p k rel a, tracks p k -> exists s, draw_atom p rel a = Ok (p ++ [s]) /\ view s = Some (fst (stroke false k rel a)) /\ tracks (p ++ [s]) (snd (stroke false k rel a)).
Proof.
  intros p k rel a TK. pose proof (tracks_base p k rel) as B. destruct TK as [N A SB H M ME] eqn:E; clear E. pose proof TK as TK'.
  assert (B' : forall q, base p rel q = shift k rel q) by auto. clear B.
  assert (A' : current_point p = Some (here k)) by congruence.
  assert (G : forall s d k', s_start s = current_point p -> is_move s = false -> (is_close s = true -> s_end s = z_point p) -> view s = Some d ->
     s_end s = Some (here k') -> at_ k' = Some (here k') -> sub k' = sub k ->
     match mem k' with NoCurve => match s_kind s with KQuad _ | KCubic _ _ => False | _ => True end
                     | AfterQuad c => s_kind s = KQuad (Some c) | AfterCubic c => exists b, s_kind s = KCubic b (Some c) end ->
     append p s = p ++ [s] /\ view s = Some d /\ tracks (p ++ [s]) k').
  { intros s d k' S1 S2 S3 V E1 E2 E3 E4. split; [|split; auto].
    - apply append_same; auto.
    - constructor; auto.
      + destruct p; discriminate.
      + rewrite current_snoc. congruence.
      + rewrite z_snoc by auto. congruence.
      + apply ended_snoc; auto. congruence.
      + rewrite smooth_snoc. destruct (mem k').
        * destruct (s_kind s); try contradiction; congruence.
        * rewrite E4, E1. reflexivity.
        * destruct E4 as (b & E4). rewrite E4, E1. reflexivity. }
  assert (G' : forall s d k', s_start s = current_point p -> is_move s = false -> (is_close s = true -> s_end s = z_point p) -> view s = Some d ->
     s_end s = Some (here k') -> at_ k' = Some (here k') -> sub k' = sub k ->
     match mem k' with NoCurve => match s_kind s with KQuad _ | KCubic _ _ => False | _ => True end
                     | AfterQuad c => s_kind s = KQuad (Some c) | AfterCubic c => exists b, s_kind s = KCubic b (Some c) end ->
     exists s', Ok (append p s) = Ok (p ++ [s']) /\ view s' = Some d /\ tracks (p ++ [s']) k').
  { intros. exists s. destruct (G s d k') as (E1 & E2 & E3); auto. rewrite E1. auto. }
  destruct a; cbn [draw_atom stroke fst snd].
  - eexists. split; [unfold move; f_equal; apply append_same; [reflexivity|discriminate]|]. unfold resolve. rewrite B'. split.
    + unfold view; cbn. congruence.
    + constructor; cbn; try congruence.
      * destruct p; discriminate.
      * rewrite current_snoc. reflexivity.
      * unfold z_point. rewrite last_move_snoc. reflexivity.
      * apply ended_snoc; auto; discriminate.
      * rewrite smooth_snoc. reflexivity.
  - unfold line. cbn [resolve]. rewrite B', A'. apply G'; cbn; auto; discriminate.
  - unfold horizontal. rewrite A'. assert (EX : fst (shift k rel (x, 0%Qc)) = (if rel then fst (here k) + x else x)%Qc) by (unfold shift; destruct rel; cbn; [ring|auto]).
    rewrite EX. apply G'; cbn; auto; discriminate.
  - unfold vertical. rewrite A'. assert (EX : snd (shift k rel (0%Qc, y)) = (if rel then snd (here k) + y else y)%Qc) by (unfold shift; destruct rel; cbn; [ring|auto]).
    rewrite EX. apply G'; cbn; auto; discriminate.
  - unfold quad. cbn [resolve]. rewrite !B', A'. apply G'; cbn; auto; discriminate.
  - unfold smooth_quad. rewrite (tracks_smooth_quad p k TK'). cbn [rbind]. set (c := smooth_quad_control false k). cbn [resolve]. rewrite !B', A'. apply G'; cbn; auto; discriminate.
  - unfold cubic. cbn [resolve cubic_kind rbind]. rewrite !B', A'. apply G'; cbn; auto; try discriminate. eexists; reflexivity.
  - unfold smooth_cubic. rewrite (tracks_smooth_cubic p k TK'). set (c := smooth_cubic_control false k). cbn [resolve cubic_kind rbind]. rewrite !B', A'. apply G'; cbn; auto; try discriminate. eexists; reflexivity.
  - unfold arc. cbn [resolve orq orb_]. rewrite !B', A'. set (e := shift k rel p0).
    match goal with |- context [if ?b then Ok ?x else Ok ?x] => replace (if b then Ok x else Ok x) with (Ok x) by (destruct b; reflexivity) end.
    apply G'; cbn; auto; discriminate.
  - unfold closed. rewrite A', SB. apply G'; cbn; auto.
Qed.
Lemma draw_svg : forall l p k, tracks p k -> exists segs, draw_all p l = (p ++ segs, None) /\ map view segs = map Some (svg false k l).
Proof.
  induction l as [|[rel a] l IH]; intros p k T.
  - exists []. rewrite app_nil_r. auto.
  - cbn [draw_all svg]. destruct (draw_stroke p k rel a T) as (s & D & V & T'). rewrite D. destruct (stroke false k rel a) as [d k']; cbn [fst snd] in *.
    destruct (IH _ _ T') as (segs & E & MV). exists (s :: segs). rewrite E, <- app_assoc. cbn [map app]. rewrite V, MV. auto.
Qed.
Lemma first_move_tracks : forall rel q, exists s, draw_atom [] rel (DMove q) = Ok [s] /\ view s = Some (fst (stroke false pen0 rel (DMove q))) /\ tracks [s] (snd (stroke false pen0 rel (DMove q))).
Proof.
  intros rel q. assert (Q : shift pen0 rel q = q).
  { unfold shift. destruct rel; auto. destruct q as [x y]. unfold here; cbn. f_equal; ring. }
  cbn [draw_atom stroke fst snd]. rewrite Q. eexists. split; [reflexivity|]. unfold base. cbn [current_point last_seg]. split.
  - destruct rel; reflexivity.
  - constructor; cbn; auto; try discriminate; destruct rel; auto; constructor; cbn; auto; discriminate.
Qed.
Lemma draw_svg0 : forall l, begins_with_move l -> exists segs, draw_all [] l = (segs, None) /\ map view segs = map Some (svg false pen0 l).
Proof.
  intros l (rel & q & l' & ->). cbn [draw_all svg]. destruct (first_move_tracks rel q) as (s & D & V & T). rewrite D.
  destruct (stroke false pen0 rel (DMove q)) as [d k]; cbn [fst snd] in *. destruct (draw_svg l' _ _ T) as (segs & E & MV). exists (s :: segs). rewrite E. cbn [map app]. rewrite V, MV. auto.
Qed.
Lemma values_begin : forall l, begins_with_move l -> begins_with_move (values l).
Proof. intros l (rel & q & l' & ->). unfold values. cbn [map fst snd map_atom]. repeat eexists. Qed.
Lemma parse_svg : forall l s t, spelled None l s t -> stop t -> begins_with_move l ->
  exists segs, parse s [] = (segs, None) /\ map view segs = map Some (svg false pen0 (values l)).
Proof. intros l s t S T B. rewrite (parse_draws l s t [] S T). apply draw_svg0, values_begin, B. Qed.

(** * Absolute instructions draw the same *)
Lemma shift_abs : forall k p, shift k false p = p. Proof. reflexivity. Qed.
Lemma stroke_absolute : forall strict k rel a, stroke strict k false (absolute k rel a) = stroke strict k rel a.
Proof. intros strict k rel a. destruct a; reflexivity. Qed.
Lemma svg_absolutes : forall strict l k, svg strict k (map (pair false) (absolutes strict k l)) = svg strict k l.
Proof.
  induction l as [|[rel a] l IH]; intros k; auto. cbn [absolutes map svg]. rewrite stroke_absolute. destruct (stroke strict k rel a) as [d k'] eqn:E. cbn [snd]. rewrite IH. auto.
Qed.
(** * Where smooth curves follow curves of their own sort both readings agree *)
Definition mem_after (k : pen) {N} (a : atom N) : Prop :=
  match mem k with NoCurve => ~ quad_like a /\ ~ cubic_like a | AfterQuad _ => quad_like a | AfterCubic _ => cubic_like a end.
Lemma stroke_mem : forall st k rel a, mem_after (snd (stroke st k rel a)) a.
Proof. intros st k rel a. destruct a; cbn; auto; split; intros []. Qed.
Definition fine {N} (k : pen) (a : atom N) : Prop :=
  match a with DSmoothQuad _ => forall c, mem k <> AfterCubic c | DSmoothCubic _ _ => forall c, mem k <> AfterQuad c | _ => True end.
Lemma stroke_strict : forall k rel a, fine k a -> stroke false k rel a = stroke true k rel a.
Proof.
  intros k rel a F. destruct a; auto; cbn in *; unfold smooth_quad_control, smooth_cubic_control; destruct (mem k) eqn:E; auto; exfalso; eapply F; eauto.
Qed.
Lemma svg_strict : forall l k, match l with (_, a) :: _ => fine k a | [] => True end -> smooth_matched l -> svg false k l = svg true k l.
Proof.
  induction l as [|[rel a] l IH]; intros k F M; auto. cbn [svg]. rewrite (stroke_strict k rel a F). pose proof (stroke_mem true k rel a) as MA. destruct (stroke true k rel a) as [d k']; cbn [snd] in MA.
  f_equal. apply IH.
  - destruct l as [|[rel' b] l]; auto. cbn [smooth_matched] in M. destruct M as (M1 & M2 & _). unfold mem_after in MA.
    destruct b; cbn [fine]; auto; intros c E; rewrite E in MA; tauto.
  - destruct l as [|[rel' b] l]; cbn; auto. apply M.
Qed.
Lemma smooth_matched_values : forall l, smooth_matched l -> smooth_matched (values l).
Proof.
  induction l as [|[rel a] l IH]; cbn; auto. destruct l as [|[rel' b] l]; cbn; auto. intros (M1 & M2 & M3). split; [|split].
  - intros [Q B]. apply M1. destruct a; destruct b; cbn in *; auto.
  - intros [Q B]. apply M2. destruct a; destruct b; cbn in *; auto.
  - apply IH; auto.
Qed.

(** * The fuel is never used up, whatever the path drawn on *)
Definition outl (bound : nat) (o : outcome) : Prop := match o with Fin s _ => (len s <= bound)%nat | Exc _ _ => True | OutOfFuel => False end.
Lemma outc_outl : forall p b o, outc p b o -> outl b o. Proof. intros p b [s q|e q|]; cbn; tauto. Qed.
Lemma outl_weaken : forall b b' o, (b <= b')%nat -> outl b o -> outl b' o. Proof. intros b b' [s q|e q|]; cbn; auto; lia. Qed.
Lemma run_len : forall n c s p, (len s < n)%nat -> outl (len s) (run n c s p).
Proof.
  intros n c s p L. destruct (aeqb (letter c) "Z") eqn:Z.
  - unfold run. rewrite Z. destruct (more s) as [b s1] eqn:E. apply more_len in E. destruct b; [constructor|]. cbn [closed]. exact E.
  - assert (R : run n c s [] = run n c s []) by reflexivity. clear R.
    unfold run. rewrite Z.
  assert (T1 : turn (step1 line (is_lower c))) by (apply turn1, line_adds).
  assert (T2 : turn (step1 smooth_quad (is_lower c))) by (apply turn1, smooth_quad_adds).
  assert (T3 : turn (stepv horizontal (is_lower c))) by (apply turnv, horizontal_adds).
  assert (T4 : turn (stepv vertical (is_lower c))) by (apply turnv, vertical_adds).
  assert (T5 : turn (step3 cubic (is_lower c))) by (apply turn3, cubic_adds).
  assert (T6 : turn (step2 quad (is_lower c))) by (apply turn2, quad_adds).
  assert (T7 : turn (step2 smooth_cubic (is_lower c))) by (apply turn2, smooth_cubic_adds).
  destruct (aeqb (letter c) "M").
  { destruct (more s) as [b s1] eqn:E. apply more_len in E. destruct b; cbn [negb]; [|constructor].
    destruct (step_move (is_lower c) s1 p) as [[s2 q]|] eqn:S; [|constructor]. destruct (turn_move _ _ _ _ _ S) as (A & B & _).
    eapply (outl_weaken (len s2)); [lia|]. eapply outc_outl, while_loop_ok; [apply turn_line|]; lia. }
  repeat match goal with |- outl _ (if ?b then _ else _) => destruct b end; eapply outc_outl; try (apply do_loop_ok; auto); try (apply while_loop_ok; auto).
  apply turna.
Qed.
Lemma commands_len : forall n s p, (len s < n)%nat -> outl (len s) (commands n s p).
Proof.
  induction n as [|n IH]; intros s p L; [lia|]. cbn [commands]. destruct (lex_command s) as [[c s1]|] eqn:C; [|cbn; lia].
  apply lex_command_len in C. pose proof (run_len n c s1 p ltac:(lia)) as R. destruct (run n c s1 p) as [s2 q|e q|]; cbn [outl] in R; auto.
  eapply outl_weaken; [|apply IH]; cbn; lia.
Qed.
Lemma parse_fuel : forall s p n, (fuel_for s <= n)%nat ->
  commands n (mkLex s false) p <> OutOfFuel /\ commands n (mkLex s false) p = commands (fuel_for s) (mkLex s false) p.
Proof.
  intros s p n L. assert (F : commands (fuel_for s) (mkLex s false) p <> OutOfFuel).
  { pose proof (commands_len (fuel_for s) (mkLex s false) p) as O. unfold len, fuel_for in O; cbn [rem] in O. specialize (O ltac:(lia)).
    intros E. unfold fuel_for in E. rewrite E in O. exact O. }
  rewrite (commands_fuel _ _ _ F n L). auto.
Qed.

(** * A foreign character ends the text *)
Section Foreign.
Variables (c : ascii) (v : text).
Hypothesis F : foreign c.
Let w := c :: v.
Lemma foreign_digit : is_digit c = false.
Proof.
  destruct (is_digit c) eqn:E; auto. exfalso. apply is_digit_dchar in E as (n & N & E). destruct F as (_ & _ & K). apply K. rewrite E.
  dig_split N; cbn; tauto.
Qed.
Lemma foreign_ne : forall x, In x (list_ascii_of_string "+-.eE") -> aeqb c x = false.
Proof.
  intros x I. unfold aeqb. destruct (Ascii.eqb_spec c x) as [->|]; auto. exfalso. destruct F as (_ & _ & K). apply K. cbn in *. tauto.
Qed.
Lemma foreign_sep : is_sep c = false.
Proof. destruct (is_sep c) eqn:E; auto. exfalso. destruct F as (K & _). apply K, sepch_is_sep; auto. Qed.
Lemma foreign_command : is_command c = false.
Proof.
  destruct (is_command c) eqn:E; auto. exfalso. destruct F as (_ & K & _). apply K. unfold is_command in E. apply existsb_exists in E as (x & I & E).
  unfold aeqb in E. apply Ascii.eqb_eq in E. subst x. exact I.
Qed.
Lemma foreign_z : is_z c = false.
Proof. pose proof foreign_command as H. unfold is_z. destruct (aeqb c "Z") eqn:E1; [|destruct (aeqb c "z") eqn:E2]; auto; unfold aeqb in *; apply Ascii.eqb_eq in E1 || apply Ascii.eqb_eq in E2; subst c; discriminate H. Qed.
Lemma span_w : forall u, span is_digit (u ++ w) = (fst (span is_digit u), snd (span is_digit u) ++ w).
Proof.
  induction u as [|x u IH]; cbn [app span].
  - unfold w. cbn [span]. rewrite foreign_digit. reflexivity.
  - destruct (is_digit x); [|reflexivity]. rewrite IH. destruct (span is_digit u). reflexivity.
Qed.
Lemma opt_sign_w : forall u, opt_sign (u ++ w) = (let '(a, b, r) := opt_sign u in (a, b, r ++ w)).
Proof.
  intros [|x u]; cbn [app opt_sign].
  - unfold w; cbn [opt_sign match_frac match_exp starts_z]. rewrite !foreign_ne by (cbn; tauto). reflexivity.
  - destruct (aeqb x "-"); auto. destruct (aeqb x "+"); auto.
Qed.
Lemma match_frac_w : forall u, match_frac (u ++ w) = (fst (match_frac u), snd (match_frac u) ++ w).
Proof.
  intros [|x u]; cbn [app match_frac].
  - unfold w; cbn [opt_sign match_frac match_exp starts_z]. rewrite !foreign_ne by (cbn; tauto). reflexivity.
  - destruct (aeqb x "."); auto. rewrite span_w. destruct (span is_digit u) as [[|d ds] r]; reflexivity.
Qed.
Lemma match_exp_w : forall u, match_exp (u ++ w) = (fst (match_exp u), snd (match_exp u) ++ w).
Proof.
  intros [|x u]; cbn [app match_exp].
  - unfold w; cbn [opt_sign match_frac match_exp starts_z]. rewrite !foreign_ne by (cbn; tauto). reflexivity.
  - destruct (aeqb x "e" || aeqb x "E"); auto. rewrite opt_sign_w. destruct (opt_sign u) as [[a b] r]. rewrite span_w. destruct (span is_digit r) as [[|d ds] r']; reflexivity.
Qed.
Lemma match_float_w : forall u, match_float (u ++ w) = match match_float u with Some (f, r) => Some (f, r ++ w) | None => None end.
Proof.
  intros u. unfold match_float. rewrite opt_sign_w. destruct (opt_sign u) as [[a b] r0]. rewrite span_w. destruct (span is_digit r0) as [ints r1]; cbn [fst snd].
  rewrite match_frac_w. destruct (match_frac r1) as [fr r2]; cbn [fst snd]. rewrite match_exp_w. destruct (match_exp r2) as [ex r3]; cbn [fst snd].
  destruct ints; [destruct fr|]; reflexivity.
Qed.
Lemma drop_sep_w : forall u, drop_sep (u ++ w) = drop_sep u ++ w.
Proof. induction u as [|x u IH]; cbn [app drop_sep]; [unfold w; cbn [drop_sep]; rewrite foreign_sep; auto|]. destruct (is_sep x); auto. Qed.
Lemma starts_z_w : forall u, starts_z (u ++ w) = starts_z u.
Proof. intros [|x u]; cbn; auto. apply foreign_z. Qed.
Definition ext (s : lex) : lex := mkLex (rem s ++ w) (ic s).
Definition exto (o : outcome) : outcome := match o with Fin s p => Fin (ext s) p | _ => o end.
Definition extr (r : Res (lex * path)) : Res (lex * path) := match r with Ok (s, p) => Ok (ext s, p) | Err e => Err e end.
Lemma more_w : forall s, more (ext s) = (fst (more s), ext (snd (more s))).
Proof. intros s. unfold more, ext; cbn [rem ic]. rewrite drop_sep_w, match_float_w, starts_z_w. destruct (match_float (drop_sep (rem s))) as [[f r]|]; reflexivity. Qed.
Lemma number_w : forall s, number (ext s) = (fst (number s), ext (snd (number s))).
Proof. intros s. unfold number, ext; cbn [rem ic]. rewrite drop_sep_w, match_float_w, starts_z_w. destruct (match_float (drop_sep (rem s))) as [[f r]|]; reflexivity. Qed.
Lemma foreign01 : aeqb c "0" = false /\ aeqb c "1" = false.
Proof. pose proof foreign_digit as D. split; unfold aeqb; match goal with |- Ascii.eqb c ?x = _ => destruct (Ascii.eqb_spec c x) as [E|]; auto; rewrite E in D; discriminate D end. Qed.
Lemma flag_w : forall s, flag (ext s) = (fst (flag s), ext (snd (flag s))).
Proof.
  intros s. unfold flag, ext; cbn [rem ic]. rewrite drop_sep_w. destruct foreign01 as [A B]. destruct (drop_sep (rem s)) as [|x r]; cbn [app].
  - unfold w; cbn [opt_sign match_frac match_exp starts_z]. rewrite A, B. reflexivity.
  - destruct (aeqb x "0"); auto. destruct (aeqb x "1"); auto.
Qed.
Lemma lex_command_w : forall s, lex_command (ext s) = match lex_command s with Some (x, s') => Some (x, ext s') | None => None end.
Proof.
  intros s. unfold lex_command, ext; cbn [rem ic]. rewrite drop_sep_w. destruct (drop_sep (rem s)) as [|x r]; cbn [app].
  - unfold w; cbn [opt_sign match_frac match_exp starts_z]. rewrite foreign_command. reflexivity.
  - destruct (is_command x); reflexivity.
Qed.
Definition extc {A} (r : Res (A * lex)) : Res (A * lex) := match r with Ok (o, s) => Ok (o, ext s) | Err e => Err e end.
Lemma coordr_w : forall rel p s, coordr rel p (ext s) = extc (coordr rel p s).
Proof.
  intros rel p s. assert (C : coord (ext s) = extc (coord s)).
  { unfold coord. rewrite number_w. destruct (number s) as [[x|] s1]; cbn [fst snd]; auto. rewrite number_w. destruct (number s1) as [[y|] s2]; reflexivity. }
  unfold coordr, rcoord. rewrite C. destruct rel; auto. destruct (coord s) as [[o s1]|]; reflexivity.
Qed.
Definition steps_w (step : lex -> path -> Res (lex * path)) : Prop := forall s p, step (ext s) p = extr (step s p).
Ltac cw := repeat (rewrite coordr_w; match goal with |- context [coordr ?r ?p ?s] => destruct (coordr r p s) as [[? ?]|]; cbn [extc rbind fst snd extr]; [|reflexivity] end).
Ltac dr := unfold or_close, ext; cbn [ic]; fold ext; repeat match goal with |- context [match ?x with _ => _ end] => destruct x; cbn [rbind extr fst snd]; try reflexivity end.
Lemma step1_w : forall d r, steps_w (step1 d r).
Proof. intros d r s p. unfold step1. cw. change (or_close (ext l) o) with (or_close l o). destruct (or_close l o); cbn [rbind]; auto. destruct (d p a r); reflexivity. Qed.
Lemma step2_w : forall d r, steps_w (step2 d r).
Proof.
  intros d r s p. unfold step2. cw. change (or_close (ext l0)) with (or_close l0). destruct (or_close l0 o); cbn [rbind]; auto. destruct (or_close l0 o0); cbn [rbind]; auto. destruct (d p a a0 r); reflexivity.
Qed.
Lemma step3_w : forall d r, steps_w (step3 d r).
Proof.
  intros d r s p. unfold step3. cw. change (or_close (ext l1)) with (or_close l1). destruct (or_close l1 o); cbn [rbind]; auto. destruct (or_close l1 o0); cbn [rbind]; auto. destruct (or_close l1 o1); cbn [rbind]; auto. destruct (d p a a0 a1 r); reflexivity.
Qed.
Lemma stepv_w : forall d r, steps_w (stepv d r).
Proof. intros d r s p. unfold stepv. rewrite number_w. destruct (number s) as [x s1]; cbn [fst snd]. destruct (d p x r); reflexivity. Qed.
Lemma step_line_w : forall r, steps_w (step_line r).
Proof. intros r s p. unfold step_line. cw. destruct o; reflexivity. Qed.
Lemma step_move_w : forall r, steps_w (step_move r).
Proof. intros r s p. unfold step_move. cw. destruct o; reflexivity. Qed.
Lemma stepa_w : forall r, steps_w (stepa r).
Proof.
  intros r s p. unfold stepa. rewrite number_w. destruct (number s) as [rx s1]; cbn [fst snd]. rewrite number_w. destruct (number s1) as [ry s2]; cbn [fst snd]. rewrite number_w. destruct (number s2) as [ro s3]; cbn [fst snd].
  rewrite flag_w. destruct (flag s3) as [la s4]; cbn [fst snd]. rewrite flag_w. destruct (flag s4) as [sw s5]; cbn [fst snd]. cw.
  destruct (r && match sw with Some _ => false | None => true end); auto. change (or_close (ext l)) with (or_close l). destruct (or_close l o); cbn [rbind]; auto. destruct (arc p rx ry ro la sw a r); reflexivity.
Qed.
Lemma do_loop_w : forall step, steps_w step -> forall n s p, do_loop n step (ext s) p = exto (do_loop n step s p).
Proof.
  intros step W. induction n as [|n IH]; intros s p; auto. cbn [do_loop]. rewrite W. destruct (step s p) as [[s1 q]|]; cbn [extr]; auto.
  rewrite more_w. destruct (more s1) as [[] s2]; cbn [fst snd]; auto.
Qed.
Lemma while_loop_w : forall step, steps_w step -> forall n s p, while_loop n step (ext s) p = exto (while_loop n step s p).
Proof. intros step W n s p. unfold while_loop. rewrite more_w. destruct (more s) as [[] s1]; cbn [fst snd]; auto. apply do_loop_w; auto. Qed.
Lemma run_w : forall n x s p, run n x (ext s) p = exto (run n x s p).
Proof.
  intros n x s p. unfold run. destruct (aeqb (letter x) "Z").
  { rewrite more_w. destruct (more s) as [[] s1]; cbn [fst snd]; auto. }
  destruct (aeqb (letter x) "M").
  { rewrite more_w. destruct (more s) as [[] s1]; cbn [fst snd negb]; auto. rewrite step_move_w. destruct (step_move (is_lower x) s1 p) as [[s2 q]|]; cbn [extr]; auto. apply while_loop_w, step_line_w. }
  repeat match goal with |- (if ?b then _ else _) = _ => destruct b end; try apply do_loop_w; try apply while_loop_w; auto using step1_w, step2_w, step3_w, stepv_w, stepa_w.
Qed.
Lemma commands_w : forall n s p, commands n (ext s) p = exto (commands n s p).
Proof.
  induction n as [|n IH]; intros s p; auto. cbn [commands]. rewrite lex_command_w. destruct (lex_command s) as [[x s1]|]; auto. rewrite run_w. destruct (run n x s1 p); cbn [exto]; auto.
Qed.
Lemma parse_w : forall s p, parse (s ++ w) p = parse s p.
Proof.
  intros s p. unfold parse. change (mkLex (s ++ w) false) with (ext (mkLex s false)). rewrite commands_w.
  destruct (parse_fuel s p (fuel_for (s ++ w))) as (A & ->). unfold fuel_for. rewrite app_length. lia.
  destruct (commands (fuel_for s) (mkLex s false) p); reflexivity.
Qed.
End Foreign.

(** * What is drawn is kept, whatever follows *)
Lemma real_turn : forall rel c step, real_step rel c step -> turn step.
Proof.
  intros rel c step []; auto using turn_line, turna.
  - apply turn1, line_adds.
  - apply turn1, smooth_quad_adds.
  - apply turnv, horizontal_adds.
  - apply turnv, vertical_adds.
  - apply turn3, cubic_adds.
  - apply turn2, quad_adds.
  - apply turn2, smooth_cubic_adds.
Qed.
Definition kept (p : path) (o : outcome) : Prop := moves_ended p -> exists b, outc p b o.
Lemma kept_lex : forall p q s s', kept p (Fin s q) -> kept p (Fin s' q).
Proof. intros p q s s' K M. destruct (K M) as (b & G & _). exists (len s'). split; auto. Qed.
Lemma commands_kept : forall m s p, (len s < m)%nat -> kept p (commands m s p).
Proof. intros m s p L M. exists (len s). apply commands_ok; auto. Qed.
Lemma kept_final : forall prev t, (prev = None -> match_float (drop_sep t) = None) -> final kept prev t.
Proof.
  intros prev t D n m p N M. destruct prev as [[rel c]|]; cbn [follows is_result fst snd].
  - intros step (_ & _ & R & _). unfold is_result; cbn [fst snd]. unfold cont. destruct (more (mkLex t false)) as [b s2] eqn:E. pose proof (more_len _ _ _ E) as L. unfold len in L; cbn [rem] in L.
    assert (O : outc p (len s2) (if b then do_loop n step s2 p else Fin s2 p)).
    { destruct b. apply do_loop_ok. eapply real_turn; eauto. unfold len; lia. split; [constructor|lia]. }
    intros MV. destruct (if b then do_loop n step s2 p else Fin s2 p) as [s3 q|e q|]; cbn [outc] in O.
    + exists (len s3). destruct O as [G O]. eapply (outc_weaken p q); [auto|apply le_n|]. apply commands_ok. eapply grows_moves; eauto. unfold len in *; lia.
    + exists 0%nat. auto.
    + contradiction.
  - specialize (D eq_refl). split.
    + apply commands_kept. unfold len; cbn [rem]. pose proof (drop_sep_len t). lia.
    + intros k'. unfold more; cbn [rem ic]. rewrite D. eauto.
Qed.
Lemma implied_none : forall rel (a : atom lit), implied rel a = None <-> a = DClose.
Proof. intros rel a. destruct a; unfold implied, repeats; split; intros; discriminate || reflexivity. Qed.
Lemma ending_none : forall l prev, ending prev l = None -> (l = [] /\ prev = None) \/ exists l' rel, l = l' ++ [(rel, DClose)].
Proof.
  induction l as [|[rel a] l IH]; intros prev E; cbn [ending] in E; auto. right. destruct (IH _ E) as [(-> & I)|(l' & r & ->)].
  - apply implied_none in I as ->. exists [], rel. reflexivity.
  - exists ((rel, a) :: l'), r. reflexivity.
Qed.
Lemma parse_keeps : forall l s t p q e, spelled None l s t -> (forall l' rel, l = l' ++ [(rel, DClose)] -> ~ exists w n u, Forall sepch w /\ lit_ok n /\ t = w ++ lit_text n ++ u) ->
  moves_ended p -> draw_all p (values l) = (q, e) -> match e with Some e => parse s p = (q, Some e) | None => exists r e, parse s p = (q ++ r, e) end.
Proof.
  intros l s t p q e SP C M D. destruct l as [|x l].
  - cbn in D. injection D as <- <-. destruct (parse s p) as [r e] eqn:E. apply parse_grows in E; auto. apply grows_prefix in E as (r' & ->). eauto.
  - assert (FN : final kept (ending None (x :: l)) t).
    { apply kept_final. intros E. destruct (ending_none _ _ E) as [[? ?]|(l' & rel & E')]; [discriminate|].
      destruct (match_float (drop_sep t)) as [[f r]|] eqn:MF; auto. exfalso. apply (C l' rel E'). destruct (match_float_sound _ _ _ MF) as (n & L & D').
      destruct (drop_sep_split t) as (w & W & E2). exists w, n, r. rewrite <- D'. auto. }
    pose proof (parse_spelled kept kept_lex (x :: l) s t p SP FN) as R. rewrite D in R. unfold is_result in R; cbn [fst snd] in R. unfold parse. destruct e as [e|].
    + rewrite R. reflexivity.
    + assert (MQ : moves_ended q).
      { assert (G : forall l p, moves_ended p -> moves_ended (fst (draw_all p l))).
        { clear. induction l as [|[rel a] l IH]; intros p M; auto. cbn [draw_all]. destruct (draw_atom p rel a) eqn:E; auto. apply IH.
          assert (A : adds p a0).
          { destruct a; cbn [draw_atom] in E; eauto using line_adds, vertical_adds, horizontal_adds, smooth_quad_adds, quad_adds, cubic_adds, smooth_cubic_adds, arc_adds, closed_adds.
            eapply move_adds; eauto. discriminate. }
          eapply grows_moves; [apply adds_grows; eauto|auto]. }
        specialize (G (values (x :: l)) p M). rewrite D in G. exact G. }
      destruct (R MQ) as (b & O). destruct (commands (fuel_for s) (mkLex s false) p); cbn [outc] in O; try contradiction.
      * destruct O as [O _]. apply grows_prefix in O as (r & ->). eauto.
      * apply grows_prefix in O as (r & ->). eauto.
Qed.

(** * Writing every letter *)
Definition toks_ok (ts : list tok) : Prop := Forall (fun t => match t with TNum l => lit_ok l | TFlag _ => True end) ts.
Lemma toks_text_ok : forall ts s t, toks_text ts s t -> toks_ok ts.
Proof. induction 1; constructor; auto. Qed.
Lemma spelled_ok : forall prev l s t, spelled prev l s t -> Forall (fun x => toks_ok (args (snd x))) l.
Proof. induction 1; constructor; auto; eapply toks_text_ok; eauto. Qed.
Lemma no_cont_nil : forall l, no_cont l []. Proof. intros. apply Transform_Proofs.nc_no_cont. exact I. Qed.
Lemma no_cont_space : forall l r, no_cont l (" "%char :: r).
Proof. intros. apply Transform_Proofs.nc_no_cont. cbn. repeat split; discriminate || reflexivity. Qed.
Lemma no_cont_letter : forall l rel (a : atom lit) r, no_cont l (letter_of rel a :: r).
Proof. intros l rel a r. apply Transform_Proofs.nc_no_cont. destruct a, rel; cbn; repeat split; discriminate || reflexivity. Qed.
Lemma concat_toks : forall ts u, toks_ok ts -> (forall l, no_cont l u) -> toks_text ts (concat (map tok_text ts) ++ u) u.
Proof.
  induction ts as [|[l|b] ts IH]; intros u H N; cbn [map concat app].
  - constructor.
  - inversion H; subst. unfold tok_text at 1. rewrite <- !app_assoc. change ((" "%char :: lit_text l) ++ concat (map tok_text ts) ++ u) with ([" "%char] ++ lit_text l ++ (concat (map tok_text ts) ++ u)).
    constructor; auto. constructor; [cbn; tauto|constructor]. destruct ts as [|t ts]; [apply N|]. cbn [map concat app]. unfold tok_text at 1. cbn [app]. apply no_cont_space.
  - inversion H; subst. unfold tok_text at 1. change ((" "%char :: [if b then "1"%char else "0"%char]) ++ concat (map tok_text ts)) with ([" "%char] ++ (if b then "1"%char else "0"%char) :: concat (map tok_text ts)).
    rewrite <- app_assoc. cbn [app]. apply (tt_flag b [" "%char]); auto. constructor; [cbn; tauto|constructor].
Qed.
Lemma explicit_spelled : forall l prev, Forall (fun x => toks_ok (args (snd x))) l -> spelled prev l (explicit l) [].
Proof.
  induction l as [|[rel a] l IH]; intros prev H; [constructor|]. inversion H; subst. unfold explicit. cbn [map concat]. unfold explicit1 at 1. cbn [fst snd app].
  apply (sp_letter prev rel a [] (concat (map tok_text (args a)) ++ explicit l) (explicit l)); auto. apply concat_toks; auto.
  intros n. destruct l as [|[rel' b] l]; [apply no_cont_nil|]. unfold explicit; cbn [map concat]. unfold explicit1 at 1; cbn [fst snd app]. apply no_cont_letter.
Qed.
(** * The last move is unique *)
Lemma last_move_app : forall a m b, s_kind m = KMove -> Forall (fun s => s_kind s <> KMove) b -> last_move (a ++ m :: b) = Some m.
Proof.
  intros a m b K F. assert (B : last_move b = None).
  { induction F as [|s b N F IH]; auto. cbn [last_move]. rewrite IH. unfold is_move. destruct (s_kind s); congruence. }
  induction a as [|x a IH]; cbn [app last_move]. rewrite B. unfold is_move. rewrite K. auto. rewrite IH. auto.
Qed.
Lemma close_returns : forall s q e a z b a1 m a2, parse s [] = (q, e) -> q = a ++ z :: b -> s_kind z = KClose -> a = a1 ++ m :: a2 -> s_kind m = KMove ->
  Forall (fun x => s_kind x <> KMove) a2 -> s_end z = s_end m /\ s_end m <> None /\ match b with [] => True | n :: _ => s_start n = s_end m end.
Proof.
  intros s q e a z b a1 m a2 P Q K A KM F. assert (G := parse_grows _ _ _ _ (Forall_nil _) P). assert (C := grows_connected _ _ G (Forall_nil _) connected_nil).
  assert (M := grows_moves _ _ G (Forall_nil _)).
  assert (NE : a <> []) by (subst a; destruct a1; discriminate).
  assert (E1 : s_end z = s_end m).
  { destruct (C a z b Q NE) as [_ CZ]. destruct (CZ K) as [(x & m' & y & E & K' & F' & ->)|(F' & _)].
    - assert (L := last_move_app a1 m a2 KM F). rewrite <- A, E, last_move_app in L by auto. congruence.
    - exfalso. rewrite A in F'. apply Forall_app in F' as [_ F']. inversion F'; auto. }
  split; auto. split.
  - rewrite Q, A in M. apply Forall_app in M as [M _]. apply Forall_app in M as [_ M]. inversion M; subst. apply H1. unfold is_move. rewrite KM. auto.
  - destruct b as [|n b]; auto. destruct (C (a ++ [z]) n b) as [[[D _]|(x & y & D & D')] _].
    + rewrite <- app_assoc. exact Q.
    + destruct a; discriminate.
    + destruct a; discriminate.
    + apply app_inj_tail in D as [_ <-]. congruence.
Qed.
Lemma connected_snoc : forall p s, connected p -> (p <> [] -> fits0 p s) -> connected (p ++ [s]).
Proof.
  intros p s C F a x b E N. destruct (snoc_eq _ _ _ _ _ _ E) as [(-> & -> & ->)|(b' & -> & ->)]; auto. eapply C; eauto.
Qed.
