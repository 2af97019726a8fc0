(** Property theorems about paths with arcs on the reals (C46, C50, C105). *)
Require Import Reals ZArith QArith Qreals Qcanon Ascii String List Bool Lra Lia.
Require Import Verif.Base Verif.Point_Model Verif.Point_Proofs Verif.Matrix_Model Verif.Curve_Model Verif.Curve_Spec Verif.Arc_Model Verif.Arc_Spec Verif.Arc_Proofs Verif.ArcCurves_Proofs Verif.Arc_Thms.
Require Import Verif.Text_Spec Verif.PathText_Spec Verif.PathDraw_Spec Verif.PathBox_Model Verif.PathElem_Model Verif.PathElem_Spec Verif.PathElem_Proofs.
Require Import Verif.RealPath_Model Verif.RealPath_Spec Verif.RealPath_Proofs Verif.RealClose_Proofs Verif.RealDraw_Spec Verif.RealDraw_Proofs.
Require Import Verif.ArcSolve_Proofs.
Require Verif.Path_Model Verif.PathEdit_Model Verif.PathEdit_Spec Verif.PathEdit_Thms Verif.PathText_Model Verif.PathDraw_Proofs Verif.PathText_Thms Verif.PathElem_Thms.
Import ListNotations.
Open Scope R_scope.

(** * C50 *)
Definition begins_without_arc (p : list aseg) : Prop := forall A r, p <> AArc A :: r.
(** Where the path begins with an arc, no close comes before the first move. *)
Definition begins_openly (p : list aseg) : Prop := forall A a x y b, p = AArc A :: a ++ ASeg (GClose x y) :: b -> exists o e, In (ASeg (GMove o e)) a.
Lemma first_ok : forall p, begins_openly p -> may_begin p.
Proof.
  intros [|[g|A] p] H; try exact I. cbn [may_begin]. assert (K : forall a x y b, p = a ++ ASeg (GClose x y) :: b -> exists o e, In (ASeg (GMove o e)) a) by (intros a x y b ->; apply (H A a x y b); reflexivity). clear H.
  induction p as [|s p IH]; [exact I|]. cbn [closes_late]. destruct (r_is_move s) eqn:M; [auto|right]. split.
  - destruct s as [[| |x y| |]|B]; try reflexivity. destruct (K [] x y p eq_refl) as (o & e & []).
  - apply IH. intros a x y b ->. destruct (K (s :: a) x y b eq_refl) as (o & e & [E|I]); [subst s; discriminate|eauto].
Qed.
Lemma without_arc_open : forall p, begins_without_arc p -> begins_openly p.
Proof. intros p H A a x y b E. destruct (H A _ E). Qed.
Lemma cubics_good : forall A n, (0 < n)%nat -> as_cubic_curves_n A n <> [] /\ Forall is_cubic (as_cubic_curves_n A n) /\ chain (a_start A) (as_cubic_curves_n A n) (a_end A).
Proof.
  intros A n N. split; [|split].
  - intros K. apply (f_equal (@List.length gseg)) in K. unfold as_cubic_curves_n in K. rewrite cubic_slices_length in K. cbn in K. lia.
  - apply cubic_slices_sort.
  - now apply arc_curves_chain.
Qed.
Lemma quads_good : forall A n, (0 < n)%nat -> as_quad_curves_n A n <> [] /\ Forall is_quad (as_quad_curves_n A n) /\ chain (a_start A) (as_quad_curves_n A n) (a_end A).
Proof.
  intros A n N. split; [|split].
  - intros K. apply (f_equal (@List.length gseg)) in K. unfold as_quad_curves_n in K. rewrite quad_slices_length in K. cbn in K. lia.
  - apply quad_slices_sort.
  - now apply arc_curves_chain.
Qed.
(** Full statement: approximate_arcs_with_cubics and _with_quads replace every arc by curves from its start to its end, and
    leave all else. Proved of connected paths whose arcs sweep some angle, for positive errors, unless the path begins with an arc and has
    a close before the first move, see [approximate_first_arc_refuted]. *)
Theorem approximate_arcs_real_partial : forall error p, 0 < error -> connected p -> begins_openly p -> (forall A, In (AArc A) p -> a_sweep A <> 0) ->
  (exists q, approximate_arcs_with_cubics error p = Ok q /\ connected q /\ Forall no_arc q /\ (exists ls, Forall2 (replaced is_cubic) p ls /\ q = List.concat ls) /\
     forall d, last (map r_end q) d = last (map r_end p) d) /\
  (exists q, approximate_arcs_with_quads error p = Ok q /\ connected q /\ Forall no_arc q /\ (exists ls, Forall2 (replaced is_quad) p ls /\ q = List.concat ls) /\
     forall d, last (map r_end q) d = last (map r_end p) d).
Proof.
  intros error p E C B S. apply first_ok in B. split; eexists.
  - apply (approximate_spec as_cubic_curves_n is_cubic); auto; [intros g G; apply sort_curve; auto|apply cubics_good].
  - apply (approximate_spec as_quad_curves_n is_quad); auto; [intros g G; apply sort_curve; auto|apply quads_good].
Qed.

(** * C105 *)
(** Full statement: the curves draw the path but for a small distance. Proved of connected paths whose arcs are proper and
    sweep some angle; no piece takes more than the fraction [error] of a turn. *)
Theorem approximate_cubics_close_partial : forall np error r p, 0 < error < / 2 -> 0 <= r -> connected p -> begins_openly p -> fair_arcs r p ->
  exists q, approximate_arcs_with_cubics error p = Ok q /\ connected q /\ Forall no_arc q /\ within np (cubic_gap error * r) q p /\ within np (cubic_gap error * r) p q.
Proof.
  intros np error r p E R0 C B F. apply first_ok in B. set (q := flat_map (sub_arcs (fun A => as_cubic_curves_n A (r_pieces error A))) p).
  destruct (approximate_spec as_cubic_curves_n is_cubic error p) as (A1 & A2 & A3 & _); auto; try lra; [intros g G; apply sort_curve; auto|apply cubics_good|intros A I; apply (F A I)|].
  exists q. split; auto. split; auto. split; auto. apply (approximate_within np as_cubic_curves_n is_cubic).
  - intros A n. apply cubic_slices_sort.
  - intros g G. apply sort_curve. auto.
  - apply Rmult_le_pos; auto. apply cubic_gap_pos.
  - intros A I. destruct (F A I) as (PA & SW & X & Y). now apply cubics_within.
Qed.
Theorem approximate_quads_close_partial : forall np error r p, 0 < error <= / 6 -> 0 <= r -> connected p -> begins_openly p -> fair_arcs r p ->
  exists q, approximate_arcs_with_quads error p = Ok q /\ connected q /\ Forall no_arc q /\ within np (quad_gap error * r) q p /\ within np (quad_gap error * r) p q.
Proof.
  intros np error r p E R0 C B F. apply first_ok in B. set (q := flat_map (sub_arcs (fun A => as_quad_curves_n A (r_pieces error A))) p).
  destruct (approximate_spec as_quad_curves_n is_quad error p) as (A1 & A2 & A3 & _); auto; try lra; [intros g G; apply sort_curve; auto|apply quads_good|intros A I; apply (F A I)|].
  exists q. split; auto. split; auto. split; auto. apply (approximate_within np as_quad_curves_n is_quad).
  - intros A n. apply quad_slices_sort.
  - intros g G. apply sort_curve. auto.
  - apply Rmult_le_pos; auto. now apply quad_gap_pos.
  - intros A I. destruct (F A I) as (PA & SW & X & Y). now apply quads_within.
Qed.
Lemma within_more : forall np e e' p q, e <= e' -> within np e p q -> within np e' p q.
Proof. intros np e e' p q L W x V. destruct (W x V) as (y & Y & D). exists y. split; auto. lra. Qed.
(** With the default error of a tenth: 1/63000 of the largest radius, and 1/135. *)
Theorem approximate_default_close_partial : forall np r p, 0 <= r -> connected p -> begins_openly p -> fair_arcs r p ->
  (exists q, approximate_arcs_with_cubics (/ 10) p = Ok q /\ Forall no_arc q /\ within np (r / 63000) q p /\ within np (r / 63000) p q) /\
  (exists q, approximate_arcs_with_quads (/ 10) p = Ok q /\ Forall no_arc q /\ within np (r / 135) q p /\ within np (r / 135) p q).
Proof.
  intros np r p R0 C B F. split.
  - destruct (approximate_cubics_close_partial np (/ 10) r p) as (q & Q & _ & N & W1 & W2); auto; [lra|]. exists q. assert (L : cubic_gap (/ 10) * r <= r / 63000) by (pose proof cubic_gap_tenth; unfold Rdiv; nra). split; auto. split; auto. split; eapply within_more; eauto.
  - destruct (approximate_quads_close_partial np (/ 10) r p) as (q & Q & _ & N & W1 & W2); auto; [lra|]. exists q. assert (L : quad_gap (/ 10) * r <= r / 135) by (pose proof quad_gap_tenth; unfold Rdiv; nra). split; auto. split; auto. split; eapply within_more; eauto.
Qed.

(** From path data on: what the curves draw is what SVG's drawing of the text is, but for 1/63000 or 1/135 of the largest
    radius. Full statement: of any path data; as in C38 and C57 smooth commands follow curves of their own kind, and arcs have
    positive radii and different ends. *)
Theorem path_data_curves_partial : forall np cmds s t r, spelled None cmds s t -> stop t -> begins_with_move cmds -> smooth_matched cmds ->
  let ds := svg true pen0 (values cmds) in Forall fair_arc ds -> Forall (sized r) ds -> 0 <= r ->
  exists p rp, PathText_Model.parse s [] = (p, None) /\ real_path p = Some rp /\ (forall x, drawn_at ds x <-> visits np rp x) /\
  (exists q, approximate_arcs_with_cubics (/ 10) rp = Ok q /\ Forall no_arc q /\
     (forall x, drawn_at ds x -> exists y, visits np q y /\ dist x y <= r / 63000) /\ (forall y, visits np q y -> exists x, drawn_at ds x /\ dist y x <= r / 63000)) /\
  (exists q, approximate_arcs_with_quads (/ 10) rp = Ok q /\ Forall no_arc q /\
     (forall x, drawn_at ds x -> exists y, visits np q y /\ dist x y <= r / 135) /\ (forall y, visits np q y -> exists x, drawn_at ds x /\ dist y x <= r / 135)).
Proof.
  intros np cmds s t r SP ST B M ds F S R0. destruct (PathText_Thms.path_smooth_partial cmds s t SP ST B M) as (p & P & V). fold ds in V. exists p, (map real ds). split; auto. split; [now apply real_path_view|].
  assert (V' : forall x, drawn_at ds x <-> visits np (map real ds) x) by (intros x; now apply real_visits). split; auto.
  assert (BV : begins_with_move (values cmds)) by (destruct B as (rel & q & k & ->); repeat eexists).
  destruct (svg_connected true (values cmds) BV) as [C N]. fold ds in C, N. assert (N' : begins_openly (map real ds)) by (intros A a x y b K; rewrite K in N; destruct N).
  destruct (approximate_default_close_partial np r (map real ds) R0 C N' (real_fair r ds F S)) as [(q & Q & NA & W1 & W2) (q' & Q' & NA' & W1' & W2')]. split.
  - exists q. split; auto. split; auto. split; [intros x X; apply W2, V'; auto|]. intros y Y. destruct (W1 y Y) as (x & X & D). exists x. split; auto. now apply V'.
  - exists q'. split; auto. split; auto. split; [intros x X; apply W2', V'; auto|]. intros y Y. destruct (W1' y Y) as (x & X & D). exists x. split; auto. now apply V'.
Qed.

(** M1,0A1,1 0 0 1 0,1 *)
Definition ex_arc : list drawn := let z n := Q2Qc (inject_Z n) in [SMove None (z 1, z 0); SArc (z 1, z 0) (z 1) (z 1) (z 0) false true (z 0, z 1)]%Z.
Lemma ex_arc_fair : Forall fair_arc ex_arc.
Proof. apply Forall_cons; [exact I|]. apply Forall_cons; [|apply Forall_nil]. exact (proj2 PathElem_Thms.fair_ex). Qed.
Lemma ex_arc_sized : Forall (sized 1) ex_arc.
Proof.
  apply Forall_cons; [exact I|]. apply Forall_cons; [|apply Forall_nil]. cbn [sized]. rewrite !PathElem_Thms.q2r_z. intros k K F M. destruct (Req_dec k 1) as [->|NE]; [lra|]. exfalso. apply (M 1); [lra|].
  unfold rpt. cbn [fst snd]. rewrite !PathElem_Thms.q2r_z. assert (Z : in_radians 0 = 0) by (unfold in_radians; field). rewrite Z. exists (P 0 0). split; [exists 1, 0|exists 0, 1]; (split; [unfold frame; cbn [px py]; rewrite cos_0, sin_0; f_equal; ring|field]).
Qed.
Lemma ex_arc_connected : connected (map real ex_arc) /\ begins_without_arc (map real ex_arc) /\ fair_arcs 1 (map real ex_arc).
Proof.
  split; [|split; [intros A l K; discriminate K|apply real_fair; [apply ex_arc_fair|apply ex_arc_sized]]].
  pose proof (svg_connected true [(false, DMove (Q2Qc (inject_Z 1), Q2Qc (inject_Z 0))); (false, DArc (Q2Qc (inject_Z 1)) (Q2Qc (inject_Z 1)) (Q2Qc (inject_Z 0)) false true (Q2Qc (inject_Z 0), Q2Qc (inject_Z 1)))]%Z) as H.
  destruct H as [H _]; [repeat eexists|]. exact H.
Qed.
Example approximate_ex : connected (map real ex_arc) /\ begins_without_arc (map real ex_arc) /\ fair_arcs 1 (map real ex_arc) /\ forall A, In (AArc A) (map real ex_arc) -> a_sweep A <> 0.
Proof. destruct ex_arc_connected as (C & B & F). split; auto. split; auto. split; auto. intros A I. apply (F A I). Qed.
(** Half a circle alone. *)
Definition half : arc := mkArc (P 1 0) (P (-1) 0) (P 0 0) (P (0 + 1) 0) (P 0 (0 + 1)) PI.
Lemma half_frame : arx half = 1 /\ ary half = 1 /\ cos (rotation half) = 1 /\ sin (rotation half) = 0.
Proof. apply (circle_frame (P 1 0) (P (-1) 0) (P 0 0) 1 PI). lra. Qed.
Lemma half_proper : proper_at half 0.
Proof.
  destruct half_frame as (X & Y & C & S). unfold proper_at. rewrite X, Y. unfold ellipse_at, frame. rewrite C, S. cbn [a_start a_end a_center a_sweep half px py].
  replace (0 + PI) with PI by ring. rewrite cos_0, sin_0, cos_PI, sin_PI. split; [lra|]. split; [lra|]. split; f_equal; ring.
Qed.
Lemma half_fair : fair_arcs 1 [AArc half].
Proof. intros A [E|[]]. injection E as <-. destruct half_frame as (X & Y & _). split; [exists 0; apply half_proper|]. split; [pose proof PI_RGT_0; cbn; lra|lra]. Qed.
Example approximate_open_ex : connected [AArc half] /\ begins_openly [AArc half] /\ fair_arcs 1 [AArc half].
Proof.
  split; [|split; [|apply half_fair]].
  - apply J_connected. exact I.
  - intros A a x y b E. injection E as _ E. symmetry in E. destruct (app_cons_not_nil _ _ _ (eq_sym E)).
Qed.
Print Assumptions approximate_arcs_real_partial.
Print Assumptions approximate_cubics_close_partial.
Print Assumptions approximate_quads_close_partial.
Print Assumptions approximate_default_close_partial.
Definition ex_cmds : list (bool * atom lit) :=
  [(false, DMove (PathText_Thms.ex_n 1, PathText_Thms.ex_n 0)); (false, DArc (PathText_Thms.ex_n 1) (PathText_Thms.ex_n 1) (PathText_Thms.ex_n 0) false true (PathText_Thms.ex_n 0, PathText_Thms.ex_n 1))].
Example path_data_curves_ex : spelled None ex_cmds (explicit ex_cmds) [] /\ stop [] /\ begins_with_move ex_cmds /\ smooth_matched ex_cmds /\
  Forall fair_arc (svg true pen0 (values ex_cmds)) /\ Forall (sized 1) (svg true pen0 (values ex_cmds)).
Proof.
  split; [apply PathDraw_Proofs.explicit_spelled; repeat (constructor; [repeat (constructor; [PathText_Thms.lok|]); constructor|]); constructor|]. split; [apply PathText_Thms.stop_nil|]. split; [repeat eexists|]. split; [cbn; intuition|].
  assert (E : svg true pen0 (values ex_cmds) = ex_arc).
  { unfold ex_arc, ex_cmds, values, PathText_Thms.ex_n. cbn [map fst snd map_atom svg stroke shift pen0 at_ here sub]. unfold qlit. repeat f_equal; apply Qc_is_canon; vm_compute; reflexivity. }
  rewrite E. split; [apply ex_arc_fair|apply ex_arc_sized].
Qed.
Print Assumptions path_data_curves_partial.

(** A path without arcs stays as it is, whatever the error; one with an arc cannot be asked for an error of 0. *)
Theorem approximate_no_arcs : forall p error,
  ((forall A, ~ In (AArc A) p) -> approximate_arcs_with_cubics error p = Ok p /\ approximate_arcs_with_quads error p = Ok p) /\
  (forall A, In (AArc A) p -> approximate_arcs_with_cubics 0 p = Err ZeroDivisionError /\ approximate_arcs_with_quads 0 p = Err ZeroDivisionError).
Proof.
  intros p error. unfold approximate_arcs_with_cubics, approximate_arcs_with_quads, r_approximate. split.
  - intros N. destruct (existsb r_is_arc p) eqn:E; [|auto]. exfalso. apply existsb_exists in E. destruct E as ([g|A] & I & H); [discriminate|exact (N A I)].
  - intros A I. replace (existsb r_is_arc p) with true by (symmetry; apply existsb_exists; exists (AArc A); auto). destruct (Req_EM_T 0 0); [auto|lra].
Qed.
Example approximate_no_arcs_ex : forall A, ~ In (AArc A) [ASeg (GMove None (P 0 0)); ASeg (GLine (P 0 0) (P 1 0))].
Proof. intros A [H|[H|[]]]; discriminate. Qed.
Print Assumptions approximate_no_arcs.
(** SVG draws an arc with a radius of nought as a line. M0,0A0,1 0 0 0 5,0: both conversions drop it, so that the path no
    longer goes to 5,0. *)
Theorem approximate_flat_arc_refuted : exists s p rp, PathText_Model.parse s [] = (p, None) /\ real_path p = Some rp /\ connected rp /\ last (map r_end rp) (P 0 0) = P 5 0 /\
  forall error, 0 < error -> approximate_arcs_with_cubics error rp = Ok [ASeg (GMove None (P 0 0))] /\ approximate_arcs_with_quads error rp = Ok [ASeg (GMove None (P 0 0))].
Proof.
  assert (E : exists p, PathText_Model.parse (T "M0,0A0,1 0 0 0 5,0"%string) [] = (p, None) /\ map view p = map Some (let z n := Q2Qc (inject_Z n) in [SMove None (z 0, z 0); SArc (z 0, z 0) (z 0) (z 1) (z 0) false false (z 5, z 0)]%Z)).
  { eexists. split; [vm_compute; reflexivity|]. cbn. repeat f_equal; apply Qc_is_canon; vm_compute; reflexivity. }
  destruct E as (p & E & V). apply real_path_view in V. cbn [map real option_map] in V. unfold rpt in V. cbn [fst snd] in V. rewrite !PathElem_Thms.q2r_z in V.
  assert (PE : pt_eqb (P 0 0) (P 5 0) = false). { destruct (pt_eqb (P 0 0) (P 5 0)) eqn:Q; auto. apply pt_eqb_true in Q. destruct Q as [Q _]. cbn [px] in Q. rewrite Rminus_0_l, Rabs_Ropp, Rabs_right in Q by lra. lra. }
  assert (AE : svg_parameterize (P 0 0) 0 1 0 false false (P 5 0) = mkArc (P 0 0) (P 5 0) (P 0 0) (P 0 0) (P 0 0) 0). { unfold svg_parameterize. rewrite PE. destruct (Req_EM_T 0 0); [auto|lra]. }
  rewrite AE in V. set (A := mkArc _ _ _ _ _ _) in V. exists (T "M0,0A0,1 0 0 0 5,0"%string), p, [ASeg (GMove None (P 0 0)); AArc A]. split; auto. split; auto. split.
  - apply J_connected. cbn [J r_start r_end r_is_close]. split; [eexists; split; [reflexivity|apply together_refl]|]. split; [discriminate|exact I].
  - split; [reflexivity|]. intros error E0. assert (PZ : r_pieces error A = 0%nat) by (apply (pieces_spec error A E0); reflexivity).
    unfold approximate_arcs_with_cubics, approximate_arcs_with_quads, r_approximate. cbn [existsb r_is_arc orb]. destruct (Req_EM_T error 0); [lra|].
    cbn [r_approx_from length nth_error firstn skipn app]. rewrite PZ. split; reflexivity.
Qed.
Print Assumptions approximate_flat_arc_refuted.
(** Nor does a negative error do anything but remove all arcs. *)
Theorem approximate_negative_refuted : exists p, connected p /\ begins_without_arc p /\ fair_arcs 1 p /\ last (map r_end p) (P 0 0) = P 0 1 /\
  forall error, error < 0 -> exists q, approximate_arcs_with_cubics error p = Ok q /\ approximate_arcs_with_quads error p = Ok q /\ last (map r_end q) (P 0 0) = P 1 0.
Proof.
  exists (map real ex_arc). destruct ex_arc_connected as (C & B & F). split; auto. split; auto. split; auto.
  assert (E : exists A, map real ex_arc = [ASeg (GMove None (P 1 0)); AArc A] /\ a_end A = P 0 1).
  { eexists. split; [unfold ex_arc; cbn [map real option_map]; unfold rpt; cbn [fst snd]; rewrite !PathElem_Thms.q2r_z; reflexivity|]. apply (proj2 (svg_ends _ _ _ _ _ _ _)). }
  destruct E as (A & -> & AE). split; [exact AE|]. intros error N. exists [ASeg (GMove None (P 1 0))].
  assert (PZ : r_pieces error A = 0%nat).
  { unfold r_pieces. pose proof PI_RGT_0. pose proof (ceil_spec (Rabs (a_sweep A) / (Angle_Model.tau * error))) as CS. assert (L : Rabs (a_sweep A) / (Angle_Model.tau * error) <= 0).
    { unfold Angle_Model.tau. pose proof (Rabs_pos (a_sweep A)). assert (/ (2 * PI * error) < 0) by (apply Rinv_lt_0_compat; nra). unfold Rdiv. nra. }
    assert (K : IZR (ceil (Rabs (a_sweep A) / (Angle_Model.tau * error))) < 1) by lra. apply lt_IZR in K. lia. }
  unfold approximate_arcs_with_cubics, approximate_arcs_with_quads, r_approximate. cbn [existsb r_is_arc orb]. destruct (Req_EM_T error 0); [lra|].
  cbn [r_approx_from length nth_error firstn skipn app]. rewrite PZ. repeat split.
Qed.
Print Assumptions approximate_negative_refuted.

(** A path that begins with half a circle, without a move, and is closed: the close goes to the end of the arc, and once
    the arc is replaced, to the end of the first of its curves. *)
Theorem approximate_first_arc_refuted : exists p q, connected p /\ fair_arcs 1 p /\ last (map r_end p) (P 0 0) = P (-1) 0 /\
  approximate_arcs_with_cubics (/ 4) p = Ok q /\ last (map r_end q) (P 0 0) = P 0 1.
Proof.
  destruct half_frame as (X & Y & RC & RS). destruct (start_t_proper half 0 half_proper) as [C0 S0]. rewrite cos_0 in C0. rewrite sin_0 in S0. pose proof PI_RGT_0 as PP.
  set (p := [AArc half; ASeg (GClose (P (-1) 0) (P (-1) 0))]).
  assert (PC : r_pieces (/ 4) half = 2%nat).
  { unfold r_pieces, Angle_Model.tau. cbn [half a_sweep]. rewrite Rabs_right by lra. replace (PI / (2 * PI * / 4)) with 2 by (field; lra). pose proof (ceil_spec 2) as [A B].
    assert (E : ceil 2 = 2%Z); [|rewrite E; reflexivity]. apply le_IZR in A. rewrite <- (plus_IZR 2 1) in B. apply lt_IZR in B. lia. }
  assert (CV : exists a b c d, as_cubic_curves_n half 2 = [GCubic (P 1 0) a b (P 0 1); GCubic (P 0 1) c d (P (-1) 0)]).
  { unfold as_cubic_curves_n. cbn [cubic_slices]. cbv zeta. rewrite X, Y, RC, RS.
    assert (E : P (px (a_center half) + 1 * cos (start_t half + a_sweep half / INR 2) * 1 - 1 * sin (start_t half + a_sweep half / INR 2) * 0) (py (a_center half) + 1 * cos (start_t half + a_sweep half / INR 2) * 0 + 1 * sin (start_t half + a_sweep half / INR 2) * 1) = P 0 1).
    { change (INR 2) with 2. change (a_sweep half) with PI. rewrite cos_plus, sin_plus, C0, S0, cos_PI2, sin_PI2. cbn [half a_center px py]. f_equal; ring. }
    rewrite E. repeat eexists. }
  destruct CV as (a & b & c & d & CV). eexists p, _. split; [|split; [|split; [reflexivity|split]]].
  - apply J_connected. cbn [J r_start r_end r_is_close g_start g_end znext r_is_move]. split; [eexists; split; [reflexivity|apply together_refl]|]. split; [intros _; apply together_refl|exact I].
  - intros A [E|[E|[]]]; [|discriminate E]. apply half_fair. left. exact E.
  - unfold approximate_arcs_with_cubics, r_approximate. unfold p. cbn [existsb r_is_arc orb]. destruct (Req_EM_T (/ 4) 0); [lra|]. cbn [List.length r_approx_from nth_error firstn skipn app]. rewrite PC, CV. cbn [map app]. reflexivity.
  - cbn [r_validate r_connect r_end r_start g_start g_end r_is_move r_is_close]. 
    assert (R1 : pt_eqb (P 0 1) (P 0 1) = true) by (apply eqb_together, together_refl). assert (R2 : pt_eqb (P (-1) 0) (P (-1) 0) = true) by (apply eqb_together, together_refl).
    assert (R3 : pt_eqb (P (-1) 0) (P 0 1) = false).
    { unfold pt_eqb. cbn [px py]. destruct (Rle_dec (Rabs (-1 - 0)) _) as [L|L]; auto. exfalso. rewrite Rabs_left in L by lra. assert (/ 10 ^ 12 < / 1) by (apply Rinv_lt_contravar; lra). lra. }
    rewrite R1. cbn [r_is_close r_end g_end]. rewrite R2. cbn [r_is_close r_end g_end]. rewrite R3. reflexivity.
Qed.
Print Assumptions approximate_first_arc_refuted.

(** * C46 *)
(** As path_reverse_partial, of the points themselves: a reversed path draws just the points that the path draws, arcs
    included. *)
Theorem path_reverse_points_partial : forall p, PathEdit_Spec.wholes p -> PathEdit_Spec.joined p -> p <> [] ->
  exists q, PathEdit_Model.path_reverse p = Ok q /\ forall x,
    (sketched_at (PathEdit_Spec.strokes q) x <-> sketched_at (PathEdit_Spec.strokes p) x) /\ (sketched_at (PathEdit_Spec.closings q) x <-> sketched_at (PathEdit_Spec.closings p) x).
Proof.
  intros p W J N. destruct (PathEdit_Thms.path_reverse_partial p W J N) as (q & Q & _ & _ & S & C). exists q. split; auto. intros x. rewrite S, C. split; apply flip_sketched.
Qed.
Example path_reverse_points_ex : exists x, sketched_at (PathEdit_Spec.strokes PathEdit_Thms.demo) x.
Proof. eexists. eexists. exists 0. split; [left; reflexivity|]. split; [lra|]. cbn [traces]. reflexivity. Qed.
Print Assumptions path_reverse_points_partial.
(** The other direction of one segment: at [t] where it was at 1 - t. *)
Theorem segment_flip_points : forall d t x, traces (PathEdit_Spec.flip d) t x <-> traces d (1 - t) x.
Proof. exact flip_traces. Qed.
Print Assumptions segment_flip_points.
(** Arc.reverse swaps the ends and negates the sweep: it is the arc that the other direction's path data give. *)
Theorem arc_reverse_data : forall a b rx ry rot large sweep t, 0 < rx -> 0 < ry -> ~ p_eq a b ->
  arc_point (arc_reverse (svg_parameterize a rx ry rot large sweep b)) t = arc_point (svg_parameterize b rx ry rot large (negb sweep) a) t.
Proof.
  intros a b rx ry rot large sweep t X Y NE. assert (NE' : ~ p_eq b a). { intros [H1 H2]. apply NE. split; rewrite Rabs_minus_sym; auto. }
  destruct (svg_main a b rx ry rot large sweep X Y NE) as (_ & _ & _ & _ & _ & _ & (t0 & PA) & _). rewrite (arc_reverse_point _ _ PA).
  pose proof (svg_arc_flip _ _ _ _ _ _ _ _ (real_svg_arc a b rx ry rot large sweep X Y NE)) as S1. pose proof (real_svg_arc b a rx ry rot large (negb sweep) X Y NE') as S2. exact (svg_arc_one _ _ _ _ _ _ _ _ _ t X Y S1 S2).
Qed.
Example arc_reverse_data_ex : ~ p_eq (P 1 0) (P 0 1).
Proof. exact not_p_eq. Qed.
Print Assumptions arc_reverse_data.

(** * validate_connections connects any path, arcs included, and moves no end but those of closes *)
Definition same_end (s t : aseg) : Prop := r_is_move t = r_is_move s /\ r_is_close t = r_is_close s /\ r_is_arc t = r_is_arc s /\ (r_is_close s = false -> r_end t = r_end s).
Lemma set_start_facts s p : r_start (r_set_start s p) = Some p /\ r_end (r_set_start s p) = r_end s /\ same_end s (r_set_start s p).
Proof. destruct s as [[]|]; repeat split. Qed.
Lemma connect_J : forall p z prev, J z (r_end prev) (r_connect z prev p) /\ Forall2 same_end p (r_connect z prev p).
Proof.
  induction p as [|s p IH]; intros z prev; [split; [exact I|constructor]|]. cbn [r_connect].
  set (z1 := if r_is_move s then r_end s else z).
  set (s1 := match r_start s with None => r_set_start s (r_end prev) | Some a => if pt_eqb (r_end prev) a then s else r_set_start s (r_end prev) end).
  assert (S1 : (exists q, r_start s1 = Some q /\ together (r_end prev) q) /\ r_end s1 = r_end s /\ same_end s s1).
  { destruct (set_start_facts s (r_end prev)) as (A & B & C). unfold s1. destruct (r_start s) as [a|] eqn:Q.
    - destruct (pt_eqb (r_end prev) a) eqn:E; [split; [exists a; split; [exact Q|now apply eqb_together]|]; split; [reflexivity|repeat split]|].
      split; [eexists; split; [exact A|apply together_refl]|]. auto.
    - split; [eexists; split; [exact A|apply together_refl]|]. auto. }
  destruct S1 as (ST & EN & (M & CL & AR & _)).
  set (s2 := if r_is_close s1 then if pt_eqb (r_end s1) z1 then s1 else r_set_close_end s1 z1 else s1).
  assert (S2 : (exists q, r_start s2 = Some q /\ together (r_end prev) q) /\ same_end s s2 /\ (r_is_close s2 = true -> together (r_end s2) z1)).
  { unfold s2. rewrite CL. destruct (r_is_close s) eqn:K.
    - destruct (pt_eqb (r_end s1) z1) eqn:E; [split; [exact ST|]; split; [split; [auto|]; split; [congruence|]; split; [auto|congruence]|]; intros _; now apply eqb_together|].
      destruct s1 as [[]|]; try discriminate CL. cbn [r_set_close_end]. cbn [r_start] in *. split; [exact ST|]. split; [|intros _; apply together_refl].
      split; [exact M|]. split; [symmetry; exact K|]. split; [exact AR|]. intros; congruence.
    - split; [exact ST|]. split; [repeat split; auto; congruence|]. rewrite CL. discriminate. }
  destruct S2 as (ST2 & SE & CE). destruct (IH z1 s2) as [J2 F2]. split; [|constructor; [exact SE|exact F2]].
  assert (ZN : znext z s2 = z1).
  { unfold znext, z1. destruct SE as (M2 & C2 & _ & E2). rewrite M2. destruct (r_is_move s) eqn:MV; [|reflexivity]. apply E2. destruct s as [[]|]; try discriminate MV; reflexivity. }
  cbn [J]. rewrite ZN. auto.
Qed.
Theorem validate_connects : forall p, connected (r_validate p) /\ Forall2 same_end p (r_validate p).
Proof.
  intros [|s p]; [split; [split; intros a f; intros; destruct a; discriminate|constructor]|]. cbn [r_validate]. destruct (connect_J p (r_end s) s) as [A B].
  split; [apply J_connected; exact A|]. constructor; [repeat split|exact B].
Qed.
Example validate_connects_ex : exists p, r_validate p <> p /\ r_validate p = [ASeg (GMove None (P 1 0)); ASeg (GLine (P 1 0) (P 2 0))].
Proof.
  exists [ASeg (GMove None (P 1 0)); ASeg (GLine (P 5 0) (P 2 0))].
  assert (E : pt_eqb (P 1 0) (P 5 0) = false).
  { destruct (pt_eqb (P 1 0) (P 5 0)) eqn:Q; auto. apply eqb_together in Q. destruct Q as [Q _]. cbn [px] in Q. pose proof (Rle_abs (- (1 - 5))) as L. rewrite Rabs_Ropp in L.
    assert (/ 10 ^ 12 <= 1) by (rewrite <- Rinv_1; apply Rinv_le_contravar; lra). lra. }
  assert (V : r_validate [ASeg (GMove None (P 1 0)); ASeg (GLine (P 5 0) (P 2 0))] = [ASeg (GMove None (P 1 0)); ASeg (GLine (P 1 0) (P 2 0))]) by (cbn [r_validate r_connect r_start r_end g_start g_end r_is_move r_is_close]; rewrite E; reflexivity).
  split; [|exact V]. rewrite V. intros K. injection K as K. lra.
Qed.
Print Assumptions validate_connects.
