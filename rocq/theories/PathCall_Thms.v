(** The drawing methods of Path append what they are called with (C115). *)
Require Import ZArith QArith Qcanon Qabs Ascii String List Bool Lia.
Require Import Verif.Base Verif.Path_Model Verif.PathText_Spec Verif.PathDraw_Spec Verif.PathDraw_Proofs Verif.PathEdit_Thms.
Require Import Verif.PathCall_Model Verif.PathCall_Spec Verif.PathCall_Proofs.
Import ListNotations.
Open Scope Z_scope.

(** * C115 *)
(** What a call ends with: nothing, or IndexError when points are missing. *)
Notation ends_with q missing := (q, if missing : bool then Some IndexError else None).
Local Notation first_flag rel sm n := (match n with O => [] | S m => (rel, sm) :: repeat (false, sm) m end).

(** Lines: from the current point to each point in turn. "z" is the start of the subpath. *)
Theorem path_line_call : forall p a args vals rel, current_point p = Some a -> Forall2 (aims p) args vals -> exists q,
  line_call p args rel = ends_with q (Nat.eqb (List.length args) 0) /\ adds_drawing p q (lines_to a vals) /\ added_flags p q (first_flag rel true (List.length vals)).
Proof.
  intros p a args vals rel C F. destruct (again_draws line (fun _ => false) here_ aims (fun _ a b => SLine a b) (fun _ _ b => b) true line_one here_full aims_snoc args vals p a rel C F) as (q & E & D & M & _).
  exists q. unfold line_call. rewrite E, lines_trace, marks_first in *. split; [|split; auto]. { destruct args; reflexivity. } destruct vals; auto.
Qed.
Example path_line_call_ex : Forall2 (aims demo) [APt (at_ 7 7); AZ; APt (at_ 8 8)] [at_ 7 7; at_ 5 5; at_ 8 8] /\ current_point demo = Some (at_ 6 5) /\
  lines_to (at_ 6 5) [at_ 7 7; at_ 5 5; at_ 8 8] = [SLine (at_ 6 5) (at_ 7 7); SLine (at_ 7 7) (at_ 5 5); SLine (at_ 5 5) (at_ 8 8)].
Proof.
  split; [|split; reflexivity]. apply Forall2_cons; [constructor|]. apply Forall2_cons; [|apply Forall2_cons; [constructor|constructor]]. apply aim_z. left. exists [mv 0 0; ln 0 0 1 0; ln 1 0 1 1; zz 1 1 0 0], (mv2 0 0 5 5), [ln 5 5 6 5]. repeat split; auto. repeat constructor. discriminate.
Qed.
Print Assumptions path_line_call.

(** A move, then lines; here "z" is where the move went. *)
Theorem path_move_call : forall p x b args vals rel, aims p x b -> Forall2 (fun y q => y = APt q \/ y = AZ /\ q = b) args vals -> exists q s,
  move_call p (x :: args) rel = (q, None) /\ view s = Some (SMove (current_point p) b) /\ s_rel s = rel /\ adds_drawing (p ++ [s]) q (lines_to b vals) /\ added_flags (p ++ [s]) q (first_flag rel true (List.length vals)).
Proof.
  intros p x b args vals rel H F. apply aims_resolve in H. unfold move_call, move. rewrite H.
  set (s := mkSeg KMove (current_point p) (Some b) rel true). rewrite (append_same p s) by (reflexivity || discriminate).
  assert (G : Forall2 (aims (p ++ [s])) args vals).
  { clear - F. induction F as [|y q l l' K F IH]; constructor; auto. destruct K as [-> | [-> ->]]; constructor. left. exists p, s, []. repeat split; auto. }
  destruct (path_line_call (p ++ [s]) b args vals rel) as (q & E & D & M); auto. { rewrite current_snoc. reflexivity. }
  destruct args as [|y args]; cbn [none].
  - inversion F; subst. exists (p ++ [s]), s. repeat split; auto; exists []; rewrite app_nil_r; auto.
  - exists q, s. rewrite E. cbn. repeat split; auto.
Qed.
Example path_move_call_ex : move_call [] [APt (at_ 1 1); APt (at_ 2 1); AZ] false = ([mv 1 1; ln 1 1 2 1; ln 2 1 1 1], None) /\ move_call [] [] false = ([], Some IndexError).
Proof. split; reflexivity. Qed.
Print Assumptions path_move_call.

(** Vertical and horizontal lines: to the positions, or by the distances, and all of them are marked as relative or none is. *)
Theorem path_vertical_call : forall p a vals rel, current_point p = Some a -> exists q,
  vertical_call p vals rel = ends_with q (Nat.eqb (List.length vals) 0) /\ adds_drawing p q (up_to rel a vals) /\ added_flags p q (repeat (rel, true) (List.length vals)).
Proof.
  intros p a vals rel C. destruct (again_draws _ (fun r => r) here_ (fun _ y z => y = z) (fun rel a z => SLine a (fst a, if rel then snd a + z else z)%Qc) _ true vertical_one here_full (fun _ _ _ _ _ _ H => H) vals vals p a rel C (forall2_refl vals)) as (q & E & D & M & T & _).
  exists q. unfold vertical_call. rewrite marks_all in M. rewrite <- up_trace. cbv beta in E. change (fun (p : path) (y : Qc) (rel : bool) => vertical p (Some y) rel) with (fun (p : path) (y : Qc) => vertical p (Some y)) in E. rewrite E. split; [|split; auto]. destruct vals; auto. cbn in E |- *. injection E as <-. rewrite C. reflexivity.
Qed.
Theorem path_horizontal_call : forall p a vals rel, current_point p = Some a -> exists q,
  horizontal_call p vals rel = ends_with q (Nat.eqb (List.length vals) 0) /\ adds_drawing p q (along_to rel a vals) /\ added_flags p q (repeat (rel, true) (List.length vals)).
Proof.
  intros p a vals rel C. destruct (again_draws _ (fun r => r) here_ (fun _ y z => y = z) (fun rel a z => SLine a (if rel then fst a + z else z, snd a)%Qc) _ true horizontal_one here_full (fun _ _ _ _ _ _ H => H) vals vals p a rel C (forall2_refl vals)) as (q & E & D & M & T & _).
  exists q. unfold horizontal_call. rewrite marks_all in M. rewrite <- along_trace. cbv beta in E. change (fun (p : path) (y : Qc) (rel : bool) => horizontal p (Some y) rel) with (fun (p : path) (y : Qc) => horizontal p (Some y)) in E. rewrite E. split; [|split; auto]. destruct vals; auto. cbn in E |- *. injection E as <-. rewrite C. reflexivity.
Qed.
Definition n (z : Z) : Qc := Q2Qc (inject_Z z).
Example path_vertical_call_ex : current_point [mv 1 1] = Some (at_ 1 1) /\ vertical_call [mv 1 1] [n 2; n 3] false = ([mv 1 1; ln 1 1 1 2; ln 1 2 1 3], None) /\
  map s_end (fst (horizontal_call [mv 1 1] [n 2; n 3] true)) = [Some (at_ 1 1); Some (at_ 3 1); Some (at_ 6 1)] /\ vertical_call [] [n 2] false = ([], Some AttributeError).
Proof. vm_compute. auto. Qed.
Print Assumptions path_vertical_call.
Print Assumptions path_horizontal_call.

(** Curves take their points by twos and threes. If the last group is incomplete, what came before is drawn and IndexError raised. *)
Theorem path_quad_call : forall p a args vals rest rel, current_point p = Some a -> Forall2 (aims2 p) args vals -> (List.length rest < 2)%nat -> exists q,
  quad_call p (flat_map (fun x => [fst x; snd x]) args ++ rest) rel = ends_with q (Nat.eqb (List.length args) 0 || negb (Nat.eqb (List.length rest) 0)) /\
  adds_drawing p q (quads_to a vals) /\ added_flags p q (first_flag rel false (List.length vals)).
Proof.
  intros p a args vals rest rel C F R. destruct (again_draws (fun p x => quad p (fst x) (snd x)) (fun _ => false) here_ aims2 _ _ false quad_one here_full aims2_snoc args vals p a rel C F) as (q & E & D & M & _).
  exists q. unfold quad_call. rewrite pairs_flat by auto. cbn [fst snd]. rewrite E; rewrite quads_trace in D; rewrite marks_first in M. split; [|split; auto]; [|destruct vals; auto].
  rewrite none_flat by discriminate. destruct args, rest; reflexivity.
Qed.
Theorem path_cubic_call : forall p a args vals rest rel, current_point p = Some a -> Forall2 (aims3 p) args vals -> (List.length rest < 3)%nat -> exists q,
  cubic_call p (flat_map (fun x => [fst (fst x); snd (fst x); snd x]) args ++ rest) rel = ends_with q (Nat.eqb (List.length args) 0 || negb (Nat.eqb (List.length rest) 0)) /\
  adds_drawing p q (cubics_to a vals) /\ added_flags p q (first_flag rel false (List.length vals)).
Proof.
  intros p a args vals rest rel C F R. destruct (again_draws (fun p x => cubic p (fst (fst x)) (snd (fst x)) (snd x)) (fun _ => false) here_ aims3 _ _ false cubic_one here_full aims3_snoc args vals p a rel C F) as (q & E & D & M & _).
  exists q. unfold cubic_call. rewrite triples_flat by auto. cbn [fst snd]. rewrite E; rewrite cubics_trace in D; rewrite marks_first in M. split; [|split; auto]; [|destruct vals; auto].
  rewrite none_flat by discriminate. destruct args, rest; reflexivity.
Qed.
Example path_quad_call_ex : quad_call [mv 0 0] [APt (at_ 1 1); APt (at_ 2 0); APt (at_ 3 1); APt (at_ 4 0); APt (at_ 5 1)] false =
  ([mv 0 0; mkSeg (KQuad (Some (at_ 1 1))) (Some (at_ 0 0)) (Some (at_ 2 0)) false false; mkSeg (KQuad (Some (at_ 3 1))) (Some (at_ 2 0)) (Some (at_ 4 0)) false false], Some IndexError) /\
  map view (fst (cubic_call [mv 0 0] [APt (at_ 1 1); APt (at_ 2 1); APt (at_ 3 0)] false)) = [Some (SMove None (at_ 0 0)); Some (SCubic (at_ 0 0) (at_ 1 1) (at_ 2 1) (at_ 3 0))].
Proof. split; reflexivity. Qed.
Print Assumptions path_quad_call.
Print Assumptions path_cubic_call.

(** Smooth curves leave each point in the direction the curve before arrived in. *)
Theorem path_smooth_quad_call : forall p a c args vals rel, current_point p = Some a -> smooth_from p c -> Forall2 (aims p) args vals -> exists q,
  smooth_quad_call p args rel = ends_with q (Nat.eqb (List.length args) 0) /\ adds_drawing p q (smooth_quads_to a c vals) /\ added_flags p q (first_flag rel true (List.length vals)).
Proof.
  intros p a c args vals rel C S F. assert (B : bend p (a, c)) by (split; auto; apply smooth_from_is; auto).
  destruct (again_draws smooth_quad (fun _ => false) bend aims _ _ true squad_one bend_full aims_snoc args vals p (a, c) rel B F) as (q & E & D & M & t' & B').
  exists q. unfold smooth_quad_call. rewrite E; rewrite squads_trace in D; rewrite marks_first in M. split; [|split; auto]; [|destruct vals; auto].
  cbn [then_short]. rewrite (here_smooth_ok _ _ B'). destruct args; reflexivity.
Qed.
Theorem path_smooth_cubic_call : forall p a c args vals rest rel, current_point p = Some a -> smooth_from p c -> Forall2 (aims2 p) args vals -> (List.length rest < 2)%nat -> exists q,
  smooth_cubic_call p (flat_map (fun x => [fst x; snd x]) args ++ rest) rel = ends_with q (Nat.eqb (List.length args) 0 || negb (Nat.eqb (List.length rest) 0)) /\
  adds_drawing p q (smooth_cubics_to a c vals) /\ added_flags p q (first_flag rel true (List.length vals)).
Proof.
  intros p a c args vals rest rel C S F R. assert (B : bend p (a, c)) by (split; auto; apply smooth_from_is; auto).
  destruct (again_draws (fun p x => smooth_cubic p (fst x) (snd x)) (fun _ => false) bend aims2 _ _ true scubic_one bend_full aims2_snoc args vals p (a, c) rel B F) as (q & E & D & M & t' & B').
  exists q. unfold smooth_cubic_call. rewrite pairs_flat by auto. cbn [fst snd]. rewrite E; rewrite scubics_trace in D; rewrite marks_first in M. split; [|split; auto]; [|destruct vals; auto].
  cbn [then_short]. rewrite (here_smooth_ok _ _ B'), none_flat by discriminate. destruct args, rest; reflexivity.
Qed.
Example path_smooth_call_ex : smooth_from [mv 0 0] (at_ 0 0) /\
  smooth_quads_to (at_ 0 0) (at_ 0 0) [at_ 1 1; at_ 2 0; at_ 3 3] = [SQuad (at_ 0 0) (at_ 0 0) (at_ 1 1); SQuad (at_ 1 1) (at_ 2 2) (at_ 2 0); SQuad (at_ 2 0) (at_ 2 (-2)) (at_ 3 3)] /\
  map view (fst (smooth_quad_call [mv 0 0] [APt (at_ 1 1); APt (at_ 2 0)] true)) = [Some (SMove None (at_ 0 0)); Some (SQuad (at_ 0 0) (at_ 0 0) (at_ 1 1)); Some (SQuad (at_ 1 1) (at_ 2 2) (at_ 2 0))].
Proof. split; [apply (sf_other [] (mv 0 0)); [discriminate|discriminate|reflexivity]|]. split; reflexivity. Qed.
Print Assumptions path_smooth_quad_call.
Print Assumptions path_smooth_cubic_call.
(** After a curve with no control point, or one with no end, there is nothing to continue: the call raises and draws nothing, whatever its arguments. *)
Theorem path_smooth_void : forall p s l rel,
  (s_kind s = KQuad None \/ (exists c, s_kind s = KCubic c None) -> smooth_quad_call (p ++ [s]) l rel = (p ++ [s], Some AttributeError) /\ smooth_cubic_call (p ++ [s]) l rel = (p ++ [s], Some AttributeError)) /\
  (s_end s = None -> (exists c, s_kind s = KQuad (Some c)) \/ (exists c d, s_kind s = KCubic c (Some d)) -> smooth_quad_call (p ++ [s]) l rel = (p ++ [s], Some TypeError) /\ smooth_cubic_call (p ++ [s]) l rel = (p ++ [s], Some TypeError)).
Proof.
  assert (K : forall p e l rel, smooth_point p = Err e -> smooth_quad_call p l rel = (p, Some e) /\ smooth_cubic_call p l rel = (p, Some e)).
  { intros p e l rel H. unfold smooth_quad_call, smooth_cubic_call. destruct l as [|x [|y r]]; cbn [again then_short none pairs fst snd orb]; unfold smooth_quad, smooth_cubic, smooth_index; rewrite ?H; cbn [rbind then_short]; rewrite ?H; auto. }
  intros p s l rel. split.
  - intros D. apply K. unfold smooth_point. rewrite last_seg_snoc. destruct D as [D|[c D]]; rewrite D; reflexivity.
  - intros E D. apply K. unfold smooth_point. rewrite last_seg_snoc, E. destruct D as [[c D]|(c & d & D)]; rewrite D; reflexivity.
Qed.
Example path_smooth_void_ex : smooth_quad_call ([mv 0 0] ++ [mkSeg (KQuad None) (Some (at_ 0 0)) (Some (at_ 1 1)) false false]) [APt (at_ 2 2)] false = ([mv 0 0] ++ [mkSeg (KQuad None) (Some (at_ 0 0)) (Some (at_ 1 1)) false false], Some AttributeError).
Proof. apply path_smooth_void. left. reflexivity. Qed.
Print Assumptions path_smooth_void.

(** Arcs, by sixes. *)
Theorem path_arcs_call : forall p a args vals missing rel, current_point p = Some a -> Forall2 (aims6 p) args vals -> exists q,
  arc_call p args missing rel = ends_with q (Nat.eqb (List.length args) 0 || missing) /\ adds_drawing p q (arcs_to a vals) /\ added_flags p q (first_flag rel true (List.length vals)).
Proof.
  intros p a args vals missing rel C F. destruct (again_draws (fun p x => arc p (Some (x_rx x)) (Some (x_ry x)) (Some (x_rot x)) (Some (x_large x)) (Some (x_sweep x)) (x_end x)) (fun _ => false) here_ aims6 _ _ true arc_one here_full aims6_snoc args vals p a rel C F) as (q & E & D & M & _).
  exists q. unfold arc_call. rewrite E; rewrite arcs_trace in D; rewrite marks_first in M. split; [|split; auto]; [|destruct vals; auto]. destruct args; reflexivity.
Qed.
Example path_arcs_call_ex : map view (fst (arc_call [mv 0 0] [mkSix (n 1) (n 2) (n 30) true false (APt (at_ 1 1)); mkSix (n 3) (n 3) (n 0) false true AZ] true false)) =
  [Some (SMove None (at_ 0 0)); Some (SArc (at_ 0 0) (n 1) (n 2) (n 30) true false (at_ 1 1)); Some (SArc (at_ 1 1) (n 3) (n 3) (n 0) false true (at_ 0 0))].
Proof. vm_compute. reflexivity. Qed.
Print Assumptions path_arcs_call.

(** Full statement: a call with relative=True marks every segment it adds as relative, for printing. It is false: of several lines only the first is
    marked; the inner call has lost the flag. *)
Theorem path_call_relative_refuted : exists p args q, current_point p = Some (at_ 0 0) /\ line_call p args true = (p ++ q, None) /\ ~ Forall (fun s => s_rel s = true) q.
Proof.
  exists [mv 0 0], [APt (at_ 1 1); APt (at_ 2 2)], [mkSeg KLine (Some (at_ 0 0)) (Some (at_ 1 1)) true true; ln 1 1 2 2]. split; [reflexivity|]. split; [reflexivity|].
  intros F. inversion F as [|? ? _ F2]. inversion F2. discriminate.
Qed.
Print Assumptions path_call_relative_refuted.

(** An arc is appended from the current point with the radii, rotation and flags given; missing flags are false. With ends apart and no radius that is
    zero, both radii and the rotation are needed. *)
Theorem path_arc_call : forall p rx ry rot large sweep a rel s e, current_point p = Some s -> resolve p a = Some e ->
  let drawn r1 r2 ro := Ok (append p (mkSeg (KArc (mkArc r1 r2 ro (match large with Some b => b | None => false end) (match sweep with Some b => b | None => false end))) (Some s) (Some e) rel true)) in
  (forall r1 r2 ro, rx = Some r1 -> ry = Some r2 -> rot = Some ro -> arc p rx ry rot large sweep a rel = drawn r1 r2 ro) /\
  (near s e = true \/ rx = Some 0%Qc \/ ry = Some 0%Qc -> exists r1 r2 ro, arc p rx ry rot large sweep a rel = drawn r1 r2 ro) /\
  (near s e = false -> rx <> Some 0%Qc -> ry <> Some 0%Qc -> rx = None \/ ry = None \/ rot = None -> arc p rx ry rot large sweep a rel = Err TypeError).
Proof.
  intros p rx ry rot large sweep a rel s e C R drawn.
  assert (Z : forall o, isz o = true <-> o = Some 0%Qc). { intros [v|]; cbn; [|split; discriminate]. split; [intros H; f_equal; apply Qc_eq_bool_correct; auto|intros H; injection H as ->; unfold Qc_eq_bool; destruct (Qc_eq_dec 0 0); congruence]. }
  assert (D : arc p rx ry rot large sweep a rel = if near s e || isz rx || isz ry then drawn (orq rx) (orq ry) (orq rot) else match rx, ry, rot with Some _, Some _, Some _ => drawn (orq rx) (orq ry) (orq rot) | _, _, _ => Err TypeError end).
  { unfold arc. rewrite C, R. reflexivity. }
  rewrite D. split; [|split].
  - intros r1 r2 ro -> -> ->. destruct (_ || _); reflexivity.
  - intros H. exists (orq rx), (orq ry), (orq rot). replace (near s e || isz rx || isz ry) with true; auto. symmetry. rewrite !orb_true_iff, !Z. tauto.
  - intros N X Y H. replace (near s e || isz rx || isz ry) with false. 2:{ symmetry. rewrite !orb_false_iff. repeat split; auto; apply not_true_iff_false; rewrite Z; auto. }
    destruct H as [-> | [-> | ->]]; auto; destruct rx; auto; destruct ry; auto.
Qed.
Example path_arc_call_ex : current_point demo = Some (at_ 6 5) /\ arc demo (Some 1%Qc) (Some 1%Qc) None None (Some true) (APt (at_ 7 5)) false = Err TypeError /\ near (at_ 6 5) (at_ 7 5) = false /\
  arc demo (Some 1%Qc) None None None (Some true) (APt (at_ 6 5)) false = Ok (append demo (mkSeg (KArc (mkArc 1%Qc 0%Qc 0%Qc false true)) (Some (at_ 6 5)) (Some (at_ 6 5)) false true)).
Proof. vm_compute. auto. Qed.
Print Assumptions path_arc_call.
(** The first point is where the first segment starts, or ends if it is a move from nowhere. *)
Theorem path_first_point : forall p a, first_point p = Some a <-> exists s q, p = s :: q /\ (s_start s = Some a \/ s_start s = None /\ s_end s = Some a).
Proof.
  intros [|s q] a; cbn [first_point]; [split; [discriminate|intros (s & q & H & _); discriminate]|]. destruct (s_start s) as [b|] eqn:B; split.
  - intros H. exists s, q. split; [reflexivity|]. left. congruence.
  - intros (t & r & H & K). injection H as <- <-. destruct K as [K|[K _]]; congruence.
  - intros H. exists s, q. split; [reflexivity|]. right. auto.
  - intros (t & r & H & K). injection H as <- <-. destruct K as [K|[_ K]]; congruence.
Qed.
Example path_first_point_ex : first_point demo = Some (at_ 0 0) /\ first_point [mv2 0 0 5 5] = Some (at_ 0 0). Proof. split; reflexivity. Qed.
Print Assumptions path_first_point.
