(** Property theorems about comparing segments and paths, segments as sequences, the list methods of a path and the
    text of a subpath (C81-C84). *)
Require Import ZArith QArith Qcanon Qabs Ascii String List Bool Lia.
Require Import Verif.Base Verif.Text_Spec Verif.Path_Model Verif.PathText_Model Verif.PathText_Spec Verif.PathDraw_Spec Verif.PathEdit_Model Verif.PathEdit_Spec Verif.PathD_Model Verif.PathD_Spec Verif.PathD_Proofs
  Verif.PathEdit_Proofs Verif.PathSub_Proofs Verif.PathEdit_Thms Verif.PathD_Thms Verif.PathSeq_Model Verif.PathSeq_Spec Verif.PathSeq_Proofs.
Import ListNotations.
Open Scope Z_scope.

(** Some arc numbers, for the examples. *)
Definition no_arcs : seg -> arcnum := fun _ => mkArcNum None None None None.
Definition shifted (x : Q) : pt := (Q2Qc x, 0%Qc).
Definition line_to (x : Q) : seg := mkSeg KLine (Some (at_ 5 5)) (Some (shifted x)) false true.

(** * C81 *)
Theorem segment_eq_points : forall solve s t, seg_eq solve s t = true <-> same_segment solve s t.
Proof. exact seg_eq_iff. Qed.
Print Assumptions segment_eq_points.
Theorem path_eq_points : forall solve p q, path_eq solve p q = true <-> same_path solve p q.
Proof. exact path_eq_iff. Qed.
Print Assumptions path_eq_points.
Theorem path_eq_reflexive_symmetric : forall solve p q, path_eq solve p p = true /\ path_eq solve p q = path_eq solve q p.
Proof.
  intros solve p q. split; [apply path_eq_iff, same_path_refl|].
  destruct (path_eq solve p q) eqn:E, (path_eq solve q p) eqn:F; auto; exfalso.
  - apply path_eq_iff, same_path_sym, path_eq_iff in E. congruence.
  - apply path_eq_iff, same_path_sym, path_eq_iff in F. congruence.
Qed.
Print Assumptions path_eq_reflexive_symmetric.
(** How the instruction was written does not count. *)
Theorem segment_eq_flags : forall solve k a b r m r' m', (forall g, k <> KArc g) -> seg_eq solve (mkSeg k a b r m) (mkSeg k a b r' m') = true.
Proof.
  intros solve k a b r m r' m' N. apply seg_eq_iff. split; [reflexivity|]. split.
  - assert (E : points solve (mkSeg k a b r m) = points solve (mkSeg k a b r' m')) by (destruct k; try reflexivity; exfalso; eapply N; eauto).
    rewrite E. clear. induction (points solve (mkSeg k a b r' m')); constructor; auto. apply alike_refl.
  - destruct k; cbn; try discriminate. exfalso. eapply N; eauto.
Qed.
Print Assumptions segment_eq_flags.
(** Full statement: a path equals the text printed for it. Proved where path_text_roundtrip_partial is. *)
Theorem path_eq_printed_partial : forall solve g relative smooth p ds, 0 <= g <= 9 -> map view p = map Some ds -> all_on_grid g ds -> chained None (0, 0)%Qc ds -> starts_drawing ds ->
  (smooth <> Some false -> unmixed ds) ->
  exists s, svg_d p relative smooth = Ok s /\ path_eq_text solve p s = Ok true.
Proof.
  intros solve g relative smooth p ds G V A C S U. destruct (path_text_roundtrip g relative smooth p ds G V A C S U) as (s & q & D & P & W).
  exists s. split; auto. unfold path_eq_text. cbn [path_init]. rewrite P. cbn [rbind]. f_equal. apply path_eq_iff.
  eapply views_same; [exact V|rewrite W; exact V|eapply chained_no_arc; eauto].
Qed.
Example path_eq_printed_ex : path_eq_text no_arcs ex_path (T "M 0,0 q 1,1 2,0 T 4,0 l 0,9 S 7,7 8,8 z m 5,5") = Ok true /\
  path_eq_text no_arcs ex_path (T "M 0,0 q 1,1 2,0 T 4,0 l 0,9 S 7,7 8,8 z m 5,6") = Ok false.
Proof. split; vm_compute; reflexivity. Qed.
Print Assumptions path_eq_printed_partial.
(** A subpath equals a path, a text or another subpath with the same segments. *)
Theorem subpath_eq_points : forall solve p u q v, inside p u -> inside q v ->
  (sub_eq_path solve p u q = true <-> same_path solve (sub_segments p u) q) /\
  (sub_eq_sub solve p u q v = true <-> same_path solve (sub_segments p u) (sub_segments q v)).
Proof.
  intros solve p u q v I J.
  assert (L : forall p u, inside p u -> sub_len u = Z.of_nat (List.length (sub_segments p u))).
  { clear. intros p u I. destruct (fits_split p u I) as (a & w & b & -> & -> & E). rewrite E. unfold sub_len. cbn. lia. }
  assert (K : forall n r, n = Z.of_nat (List.length r) -> (sub_eq solve p u n r = true <-> same_path solve (sub_segments p u) r)).
  { intros n r ->. unfold sub_eq. rewrite (L p u I), sub_list_segments by auto. destruct (Z.eqb_spec (Z.of_nat (List.length (sub_segments p u))) (Z.of_nat (List.length r))) as [E|E].
    - apply zip_eq_iff. lia.
    - split; [discriminate|]. intros H. apply Forall2_len in H. lia. }
  split.
  - apply K. reflexivity.
  - unfold sub_eq_sub. rewrite sub_list_segments by auto. apply K. auto.
Qed.
Example subpath_eq_ex : inside demo (mkSub 4 5) /\ sub_eq_path no_arcs demo (mkSub 4 5) [mv2 0 0 5 5; ln 5 5 6 5] = true /\ sub_eq_text no_arcs demo (mkSub 0 3) (T "M0,0 1,0 1,1 z") = Ok true /\
  sub_eq_text no_arcs demo (mkSub 4 5) (T "M5,5 6,5") = Ok false.
Proof. split; [unfold inside; cbn; lia|]. split; [|split]; vm_compute; reflexivity. Qed.
Print Assumptions subpath_eq_points.
(** Being equal is not transitive: 0, 1e-12 and 2e-12. *)
Theorem segment_eq_transitive_refuted : exists s t u, forall solve, seg_eq solve s t = true /\ seg_eq solve t u = true /\ seg_eq solve s u = false.
Proof. exists (line_to 0), (line_to (1 # 1000000000000)), (line_to (2 # 1000000000000)). intros solve. repeat split; vm_compute; reflexivity. Qed.
Print Assumptions segment_eq_transitive_refuted.
(** A second subpath is not equal to the text that draws it: its move knows where it came from. *)
Theorem subpath_eq_printed_refuted : exists p u s, In u (as_subpaths p) /\ sub_d p u None None = Ok s /\ forall solve, sub_eq_text solve p u s = Ok false.
Proof. exists demo, (mkSub 4 5), (T "M 5,5 L 6,5"). split; [right; left; reflexivity|]. split; [vm_compute; reflexivity|]. intros solve. vm_compute. reflexivity. Qed.
Print Assumptions subpath_eq_printed_refuted.

(** * C82 *)
Theorem segment_getitem : forall solve s i, seg_len s = Z.of_nat (List.length (points solve s)) /\
  ((0 <= i < seg_len s /\ exists o, nth_error (points solve s) (Z.to_nat i) = Some o /\ seg_getitem solve s i = Ok o) \/
   (~ 0 <= i < seg_len s /\ seg_getitem solve s i = Err IndexError)).
Proof.
  intros solve s i. pose proof (len_points solve s) as L. split; auto. rewrite getitem_points.
  destruct (Z.ltb_spec i 0), (Z.leb_spec (seg_len s) i); cbn [orb]; try (right; split; [lia|reflexivity]).
  left. split; [lia|]. destruct (nth_error (points solve s) (Z.to_nat i)) as [o|] eqn:E; [eauto|]. apply nth_error_None in E. lia.
Qed.
Print Assumptions segment_getitem.
(** Full statement: a loop over a segment visits its points in order, passing over missing ones. Proved where no two
    neighbours are missing. *)
Theorem segment_iter_partial : forall solve s, no_gap (points solve s) -> seg_list solve s = map Some (present (points solve s)).
Proof. exact seg_list_present. Qed.
Example segment_iter_ex : no_gap (points no_arcs (lnto 3 4)) /\ seg_list no_arcs (lnto 3 4) = [Some (at_ 3 4)].
Proof. split; [|reflexivity]. intros [|x [|y [|z a]]] b K; discriminate K. Qed.
Print Assumptions segment_iter_partial.
(** Close() has neither start nor end and yields None. *)
Theorem segment_iter_refuted : exists s, forall solve, seg_list solve s = [None] /\ present (points solve s) = [].
Proof. exists closing. intros solve. split; reflexivity. Qed.
Print Assumptions segment_iter_refuted.
(** Two loops over one segment disturb each other: the outer one ends after its first point. *)
Theorem segment_nested : forall solve s, ~ In None (points solve s) ->
  seg_nested solve s = match present (points solve s) with [] => [] | p :: _ => map (fun q => (Some p, Some q)) (present (points solve s)) end.
Proof. exact nested_full. Qed.
Print Assumptions segment_nested.
Theorem segment_nested_refuted : exists s, forall solve, seg_nested solve s <> list_prod (seg_list solve s) (seg_list solve s).
Proof. exists (ln 0 0 1 0). intros solve K. apply (f_equal (@List.length _)) in K. vm_compute in K. discriminate K. Qed.
Print Assumptions segment_nested_refuted.
(** The box of a move, line or close is the smallest around the points it has; without any there is an exception. *)
Theorem segment_bbox_points : forall solve s,
  match present (points solve s) with
  | [] => seg_bbox solve s = Err ValueError
  | _ => exists x0 y0 x1 y1, seg_bbox solve s = Ok (x0, y0, x1, y1) /\ tight_box (present (points solve s)) x0 y0 x1 y1
  end.
Proof. exact bbox_tight. Qed.
Example segment_bbox_ex : seg_bbox no_arcs (ln 3 (-1) 2 5) = Ok (fst (at_ 2 0), snd (at_ 0 (-1)), fst (at_ 3 0), snd (at_ 0 5)). Proof. vm_compute. reflexivity. Qed.
Print Assumptions segment_bbox_points.
(** as_points goes through the points of all segments in order. *)
Theorem path_as_points_partial : forall solve p, Forall (fun s => no_gap (points solve s)) p ->
  as_points solve p = map Some (flat_map (fun s => present (points solve s)) p).
Proof.
  intros solve p F. unfold as_points. induction F as [|s p S F IH]; [reflexivity|].
  cbn [map List.concat flat_map]. rewrite IH, seg_list_present, map_app by auto. reflexivity.
Qed.
Example path_as_points_ex : as_points no_arcs [mv 0 0; ln 0 0 1 0] = map Some [at_ 0 0; at_ 0 0; at_ 1 0]. Proof. reflexivity. Qed.
Print Assumptions path_as_points_partial.

(** * C83 *)
Theorem path_index_first : forall solve p v,
  (forall k, index solve p v = Ok k <-> exists j, k = Z.of_nat j /\ first_at (fun s => same_segment solve s v) p j) /\
  ((forall s, In s p -> ~ same_segment solve s v) <-> index solve p v = Err ValueError).
Proof.
  intros solve p v. unfold index. split.
  - intros k. split.
    + intros H. apply index_from_first in H. destruct H as (j & -> & F). exists j. split; [reflexivity|exact F].
    + intros (j & -> & F). apply (first_index solve p 0 v j F).
  - destruct (index_from_none solve p 0 v) as [[k K]|[K C]].
    + split; [|congruence]. intros H. apply index_from_first in K. destruct K as (j & _ & a & x & b & -> & _ & S & _). exfalso. apply (H x); auto. apply in_or_app. right. left. auto.
    + split; auto. intros _ s I S. assert (X : contains solve p v = true) by (apply contains_iff; eauto). congruence.
Qed.
Example path_index_ex : index no_arcs demo (ln 1 0 1 1) = Ok 2 /\ contains no_arcs demo (ln 1 0 1 2) = false. Proof. split; vm_compute; reflexivity. Qed.
Print Assumptions path_index_first.
Theorem path_contains_count : forall solve p v,
  (contains solve p v = true <-> exists s, In s p /\ same_segment solve s v) /\ ((0 < count solve p v)%nat <-> exists s, In s p /\ same_segment solve s v).
Proof. intros solve p v. split; [apply contains_iff|]. rewrite count_pos. apply contains_iff. Qed.
Print Assumptions path_contains_count.
(** pop() takes away the last segment and changes no other. *)
Theorem path_pop_last : forall p s, pop (p ++ [s]) (-1) = Ok (s, p).
Proof. exact pop_last. Qed.
Print Assumptions path_pop_last.
(** pop(k) returns segment k and joins the rest, where deleting does. *)
Theorem path_pop_joined_partial : forall a o b, a <> [] -> joined (a ++ o :: b) -> ended (a ++ o :: b) -> removable o b ->
  exists q, pop (a ++ o :: b) (Z.of_nat (List.length a)) = Ok (o, q) /\ joined q /\ map s_kind q = map s_kind (a ++ b).
Proof.
  intros a o b NE H E R. destruct (path_delitem_joined_partial a o b NE H E R) as (q & D & J & K & _). exists q. rewrite pop_at, D. auto.
Qed.
Example path_pop_ex : pop demo 1 = Ok (ln 0 0 1 0, [mv 0 0; ln 0 0 1 1; zz 1 1 0 0; mv2 0 0 5 5; ln 5 5 6 5]). Proof. vm_compute. reflexivity. Qed.
Print Assumptions path_pop_joined_partial.
(** remove takes away the first segment equal to the value; without one it raises ValueError. *)
Theorem path_remove_first : forall solve a o b v, Forall (fun s => ~ same_segment solve s v) a -> same_segment solve o v ->
  remove solve (a ++ o :: b) v = delitem (a ++ o :: b) (Z.of_nat (List.length a)).
Proof.
  intros solve a o b v F S. unfold remove, index. rewrite (first_index solve (a ++ o :: b) 0 v (List.length a)); [reflexivity|].
  exists a, o, b. auto.
Qed.
Print Assumptions path_remove_first.
Theorem path_remove_missing : forall solve p v, (forall s, In s p -> ~ same_segment solve s v) -> remove solve p v = Err ValueError.
Proof. intros solve p v H. apply path_index_first in H. unfold remove. rewrite H. reflexivity. Qed.
Print Assumptions path_remove_missing.
Theorem path_clear_empty : forall p, clear p = Ok [].
Proof. exact clear_empties. Qed.
Print Assumptions path_clear_empty.

(** * C84 *)
(** Full statement: the text of any subpath reads back as the subpath. Proved as path_text_roundtrip_partial is. *)
Theorem subpath_d_reads_partial : forall g relative smooth p u o e ds, 0 <= g <= 9 -> map view (sub_segments p u) = map Some (SMove o e :: ds) -> pt_on_grid g e -> all_on_grid g ds ->
  chained (Some e) e ds -> unmixed ds ->
  exists s q, sub_d p u relative smooth = Ok s /\ parse s [] = (q, None) /\ map view q = map Some (SMove None e :: ds).
Proof.
  intros g relative smooth p u o e ds G V GE GD C U. unfold sub_d. destruct (sub_segments p u) as [|m w]; [discriminate|]. eapply svg_d_reads_alone; eauto.
Qed.
Example subpath_d_ex : map view (sub_segments demo (mkSub 4 5)) = map Some [SMove (Some (at_ 0 0)) (at_ 5 5); SLine (at_ 5 5) (at_ 6 5)] /\
  sub_d demo (mkSub 4 5) (Some true) None = Ok (T "m 5,5 l 1,0").
Proof. split; [reflexivity|vm_compute; reflexivity]. Qed.
Print Assumptions subpath_d_reads_partial.
Lemma chained_front : forall l m a z, chained a z (l ++ m) -> chained a z l.
Proof. induction l as [|d l IH]; intros m a z H; cbn; auto. destruct d; cbn in H; repeat match goal with H : _ /\ _ |- _ => destruct H end; eauto. Qed.
Lemma chained_behind : forall l m a z o e, chained a z (l ++ SMove o e :: m) -> chained (Some e) e m.
Proof. induction l as [|d l IH]; intros m a z o e H; [destruct H; auto|]. destruct d; cbn in H; repeat match goal with H : _ /\ _ |- _ => destruct H end; eauto; contradiction. Qed.
Lemma unmixed_front : forall l m, unmixed (l ++ m) -> unmixed l.
Proof. induction l as [|d [|e l] IH]; intros m H; cbn; auto. destruct H as [A B]. split; auto. apply (IH m). exact B. Qed.
Lemma unmixed_behind : forall l m, unmixed (l ++ m) -> unmixed m.
Proof. induction l as [|d l IH]; intros m H; auto. apply IH. cbn in H. destruct (l ++ m); [exact I|]. destruct H; auto. Qed.
Lemma view_move : forall m d, view m = Some d -> s_kind m = KMove -> exists o e, d = SMove o e.
Proof. intros m d V K. unfold view in V. rewrite K in V. destruct (s_end m); [|discriminate]. injection V as <-. eauto. Qed.
Lemma map_split : forall A B (f : A -> option B) l m ds, map f (l ++ m) = map Some ds -> exists d1 d2, ds = d1 ++ d2 /\ map f l = map Some d1 /\ map f m = map Some d2.
Proof.
  induction l as [|x l IH]; intros m ds H; [exists [], ds; auto|]. destruct ds as [|d ds]; [discriminate|]. cbn in H. injection H as H1 H2.
  destruct (IH m ds H2) as (d1 & d2 & -> & A1 & A2). exists (d :: d1), d2. cbn. rewrite H1, A1. auto.
Qed.
(** Each subpath of a drawing prints a text of its own that draws just this subpath. *)
Theorem subpaths_d_read_partial : forall g relative smooth p ds u, 0 <= g <= 9 -> p <> [] -> map view p = map Some ds -> all_on_grid g ds -> chained None (0, 0)%Qc ds -> starts_drawing ds -> unmixed ds ->
  In u (as_subpaths p) ->
  exists s q o e rest, map view (sub_segments p u) = map Some (SMove o e :: rest) /\ sub_d p u relative smooth = Ok s /\ parse s [] = (q, None) /\ map view q = map Some (SMove None e :: rest).
Proof.
  intros g relative smooth p ds u G NE V A C S U IU.
  destruct (subpaths_partition p) as (cs & F & P & H1 & H2 & H3). specialize (H3 NE).
  assert (X : In (sub_segments p u) cs).
  { clear - F IU. induction F as [|v c vs cs [_ K] F IH]; [contradiction|]. destruct IU as [->|IU]; [left; auto|right; auto]. }
  assert (Y : exists m r, sub_segments p u = m :: r /\ s_kind m = KMove).
  { destruct cs as [|c cs]; [contradiction|]. destruct X as [E|X]; [|destruct (H1 _ X) as (m & r & -> & K); eauto].
    rewrite <- E. assert (N := H3 c (or_introl eq_refl)). destruct c as [|m r]; [congruence|]. exists m, r. split; auto.
    cbn in P. subst p. cbn in V. destruct ds as [|d ds]; [discriminate|]. injection V as V1 _. destruct d; try contradiction. clear - V1.
    unfold view in V1. destruct (s_kind m) as [| | |[c|]|[c|] [c'|]|a]; try reflexivity; destruct (s_start m), (s_end m); discriminate. }
  destruct Y as (m & r & E & K). apply in_split in X. destruct X as (c1 & c2 & ->). rewrite concat_app in P. cbn [List.concat] in P. rewrite E in P.
  rewrite P in V. apply map_split in V. destruct V as (d1 & d2 & -> & V1 & V2). cbn [app] in V2. destruct d2 as [|d d2]; [discriminate|]. injection V2 as Vm V2.
  apply map_split in V2. destruct V2 as (d3 & d4 & -> & V3 & V4). destruct (view_move _ _ Vm K) as (o & e & ->).
  apply Forall_app in A. destruct A as [_ A]. pose proof (Forall_inv A) as A1. apply Forall_inv_tail in A as A2. apply Forall_app in A2. destruct A2 as [A2 _].
  destruct (subpath_d_reads_partial g relative smooth p u o e d3 G) as (s & q & D & Q & W).
  - rewrite E. cbn [map]. rewrite Vm, V3. reflexivity.
  - destruct o; cbn in A1; inversion A1 as [|x l A3 A4]; auto. inversion A4; auto.
  - exact A2.
  - eapply chained_front, chained_behind; eauto.
  - apply unmixed_behind in U. apply (unmixed_behind [_]) in U. eapply unmixed_front; eauto.
  - exists s, q, o, e, d3. split; [|auto]. rewrite E. cbn [map]. rewrite Vm, V3. reflexivity.
Qed.
Print Assumptions subpaths_d_read_partial.
(** smooth=False is not obeyed: M0,0 Q1,1 2,0 T4,0. *)
Theorem subpath_d_smooth_refuted : exists p u, In u (as_subpaths p) /\ sub_d p u None (Some false) <> svg_d (sub_segments p u) None (Some false).
Proof.
  exists (firstn 3 ex_path), (mkSub 0 2). split; [left; reflexivity|]. vm_compute. intros K. discriminate K.
Qed.
Print Assumptions subpath_d_smooth_refuted.
