(** Boxes of path elements. *)
Require Import Reals QArith Qreals Qcanon Ascii String List Bool Lra Lia.
Require Import Verif.Base Verif.Point_Model Verif.Curve_Model Verif.Curve_Spec Verif.Curve_Proofs Verif.Curve_Thms Verif.Arc_Model Verif.Arc_Spec Verif.Arc_Proofs Verif.Arc_Thms
  Verif.PathText_Spec Verif.PathDraw_Spec Verif.PathBox_Model Verif.PathBox_Spec Verif.PathBox_Thms Verif.PathElem_Model Verif.PathElem_Spec.
Require Verif.Path_Model.
Import ListNotations.
Open Scope R_scope.

(** * SVG's arc is unique *)
Lemma ellipse_at_on : forall c a b r t, 0 < a -> 0 < b -> on_ellipse c a b r (ellipse_at c a b r t).
Proof.
  intros c a b r t A B. exists (a * cos t), (b * sin t). split; auto. replace (a * cos t / a) with (cos t) by (field; lra). replace (b * sin t / b) with (sin t) by (field; lra).
  pose proof (sin2_cos2 t) as H. unfold Rsqr in H. lra.
Qed.
Lemma svg_arc_one : forall s e rx ry rot large sweep f g t, 0 < rx -> 0 < ry -> svg_arc s e rx ry rot large sweep f -> svg_arc s e rx ry rot large sweep g -> f t = g t.
Proof.
  intros s e rx ry rot large sweep f g t X Y (c & k & t0 & sw & K & KM & RF & F0 & F1 & SF & LF) (c' & k' & t0' & sw' & K' & KM' & RG & G0 & G1 & SG & LG).
  assert (E : k = k').
  { assert (FK : forall f c k t0 sw, 1 <= k -> runs f c (k * rx) (k * ry) (in_radians rot) t0 sw -> f 0 = s -> f 1 = e -> fits s e (k * rx) (k * ry) (in_radians rot)).
    { clear - X Y. intros f c k t0 sw K R F0 F1. exists c. rewrite <- F0, <- F1, !R. split; apply ellipse_at_on; nra. }
    destruct (Rtotal_order k k') as [L|[L|L]]; auto; exfalso.
    - apply (KM' k); [lra|]. eapply FK; eauto.
    - apply (KM k'); [lra|]. eapply FK; eauto. }
  subst k'. destruct (svg_arc_unique s e (k * rx) (k * ry) (in_radians rot) c c' t0 t0' sw sw' f g) as (_ & _ & H); auto; try nra.
  - destruct sweep; auto.
  - destruct large; auto.
Qed.

(** * One segment *)
Definition real (d : drawn) : aseg :=
  match d with
  | SMove f t => ASeg (GMove (option_map rpt f) (rpt t))
  | SLine a b => ASeg (GLine (rpt a) (rpt b))
  | SClose a b => ASeg (GClose (rpt a) (rpt b))
  | SQuad a c b => ASeg (GQuad (rpt a) (rpt c) (rpt b))
  | SCubic a c d b => ASeg (GCubic (rpt a) (rpt c) (rpt d) (rpt b))
  | SArc a rx ry rot large sweep b => AArc (svg_parameterize (rpt a) (Q2R (this rx)) (Q2R (this ry)) (Q2R (this rot)) large sweep (rpt b))
  end.
Lemma seg_bbox_real : forall s d, view s = Some d -> seg_bbox s = Ok (aseg_bbox (real d)).
Proof.
  intros [k a b r sm] d V. unfold view in V. unfold seg_bbox. cbn [Path_Model.s_kind Path_Model.s_start Path_Model.s_end] in *.
  destruct k as [| | |[c|]|[c|] [c'|]|g]; destruct a as [a|], b as [b|]; try discriminate V; injection V as <-; reflexivity.
Qed.
Lemma segs_bbox_real : forall p ds, map view p = map Some ds -> all_ok seg_bbox p = Ok (map (fun d => aseg_bbox (real d)) ds).
Proof.
  induction p as [|s p IH]; intros [|d ds] V; try discriminate; [reflexivity|]. injection V as V VS. cbn [all_ok map]. rewrite (seg_bbox_real _ _ V), (IH _ VS). reflexivity.
Qed.
(** Both ranges of what is drawn. *)
Lemma real_range : forall d, fair d -> (forall f t, d <> SMove f t) ->
  exists g, (forall t p, 0 <= t <= 1 -> (traces d t p <-> p = g t)) /\
    range (fun t => px (g t)) (xmin (aseg_bbox (real d))) (xmax (aseg_bbox (real d))) /\ range (fun t => py (g t)) (ymin (aseg_bbox (real d))) (ymax (aseg_bbox (real d))).
Proof.
  intros d F NM. destruct d; cbn [real aseg_bbox].
  - exfalso. eapply NM; eauto.
  - exists (Curve_Model.point true (GLine (rpt from) (rpt to))). split; [|apply bbox_range; exact I]. intros t p T. cbn [traces Curve_Model.point]. rewrite lin_point_inside by auto. tauto.
  - exists (Curve_Model.point true (GClose (rpt from) (rpt to))). split; [|apply bbox_range; exact I]. intros t p T. cbn [traces Curve_Model.point]. rewrite lin_point_inside by auto. tauto.
  - exists (Curve_Model.point true (GQuad (rpt from) (rpt c) (rpt to))). split; [|apply bbox_range; exact I]. intros t p T. cbn [traces Curve_Model.point]. rewrite quad_point_casteljau. tauto.
  - exists (Curve_Model.point true (GCubic (rpt from) (rpt c) (rpt d) (rpt to))). split.
    + intros t p T. cbn [traces Curve_Model.point]. rewrite cubic_point_casteljau. tauto.
    + destruct F as [FX FY]. destruct (bbox_cubic_partial true (rpt from) (rpt c) (rpt d) (rpt to)) as [X Y]. split; auto.
  - destruct F as (X & Y & NE). set (A := svg_parameterize (rpt from) (Q2R (this rx)) (Q2R (this ry)) (Q2R (this rot)) large sweep (rpt to)).
    destruct (svg_main (rpt from) (rpt to) _ _ (Q2R (this rot)) large sweep X Y NE) as (S & E & (k & K & KX & KY & KF) & RC & RS & _ & (t0 & PA) & SR & L1 & L2). fold A in S, E, KX, KY, RC, RS, PA, SR, L1, L2.
    assert (SW : a_sweep A <> 0) by (destruct sweep; lra).
    assert (SA : svg_arc (rpt from) (rpt to) (Q2R (this rx)) (Q2R (this ry)) (Q2R (this rot)) large sweep (arc_point A)).
    { destruct (svg_arc_partial (rpt from) (rpt to) _ _ (Q2R (this rot)) large sweep X Y NE) as (S0 & S1 & (k' & t' & K' & KM & RU) & SS & SL1 & SL2). fold A in S0, S1, RU, SS, SL1, SL2.
      exists (a_center A), k', t', (a_sweep A). split; auto. split; auto. split; auto. split; auto. split; auto. split; auto. destruct large; auto. }
    exists (arc_point A). split.
    + intros t p T. cbn [traces]. split; [intros (f & F & ->); exact (svg_arc_one _ _ _ _ _ _ _ _ _ _ X Y F SA)|intros ->; eauto].
    + pose proof (arc_bbox_tight A t0 PA SW) as H. destruct (arc_bbox A) as [[[x0 y0] x1] y1]. exact H.
Qed.

(** * All segments *)
Lemma boxes_attained : forall l b, boxes_bbox l = Some b ->
  (exists a, In a l /\ xmin a = xmin b) /\ (exists a, In a l /\ ymin a = ymin b) /\ (exists a, In a l /\ xmax a = xmax b) /\ (exists a, In a l /\ ymax a = ymax b).
Proof.
  intros [|a l] b E; [discriminate|]. injection E as <-. cbn [xmin ymin xmax ymax].
  destruct (rmin_least (map xmin l) (xmin a)) as [_ A]. destruct (rmin_least (map ymin l) (ymin a)) as [_ B].
  destruct (rmax_most (map xmax l) (xmax a)) as [_ C]. destruct (rmax_most (map ymax l) (ymax a)) as [_ D].
  change (xmin a :: map xmin l) with (map xmin (a :: l)) in A. change (ymin a :: map ymin l) with (map ymin (a :: l)) in B.
  change (xmax a :: map xmax l) with (map xmax (a :: l)) in C. change (ymax a :: map ymax l) with (map ymax (a :: l)) in D.
  apply in_map_iff in A, B, C, D. destruct A as (p & P1 & P2), B as (q & Q1 & Q2), C as (r & R1 & R2), D as (s & S1 & S2). split; [exists p; auto|]. split; [exists q; auto|]. split; [exists r; auto|exists s; auto].
Qed.
Lemma move_sides : forall f t, let b := aseg_bbox (real (SMove f t)) in
  (forall p, move_end (SMove f t) p -> in_box b p) /\
  (exists p, move_end (SMove f t) p /\ px p = xmin b) /\ (exists p, move_end (SMove f t) p /\ py p = ymin b) /\
  (exists p, move_end (SMove f t) p /\ px p = xmax b) /\ (exists p, move_end (SMove f t) p /\ py p = ymax b).
Proof.
  intros f t b. subst b. cbn [real aseg_bbox]. destruct f as [a|]; cbn -[Rmin Rmax].
  - pose proof (Rmin_l (Q2R (fst a)) (Q2R (fst t))). pose proof (Rmin_r (Q2R (fst a)) (Q2R (fst t))). pose proof (Rmax_l (Q2R (fst a)) (Q2R (fst t))). pose proof (Rmax_r (Q2R (fst a)) (Q2R (fst t))).
    pose proof (Rmin_l (Q2R (snd a)) (Q2R (snd t))). pose proof (Rmin_r (Q2R (snd a)) (Q2R (snd t))). pose proof (Rmax_l (Q2R (snd a)) (Q2R (snd t))). pose proof (Rmax_r (Q2R (snd a)) (Q2R (snd t))).
    split.
    + intros p [->|(q & Q & ->)]; [|injection Q as <-]; unfold in_box; cbn -[Rmin Rmax]; auto.
    + assert (A : forall P : pt -> Prop, P (rpt a) \/ P (rpt t) -> exists p, (p = rpt t \/ (exists q, Some a = Some q /\ p = rpt q)) /\ P p).
      { intros P [H'|H']; [exists (rpt a)|exists (rpt t)]; eauto. }
      split; [|split; [|split]]; apply A; cbn -[Rmin Rmax]; unfold Rmin, Rmax; destruct (Rle_dec _ _); auto.
  - split.
    + intros p [->|(q & Q & _)]; [|discriminate]. unfold in_box. cbn. lra.
    + split; [|split; [|split]]; exists (rpt t); auto.
Qed.
Lemma elem_box : forall p ds, map view p = map Some ds -> Forall fair ds ->
  exists o, (do bbs <- all_ok seg_bbox p; Ok (boxes_bbox bbs)) = Ok o /\
    match o with
    | None => ds = []
    | Some b => (forall q, marks ds q -> in_box b q) /\
        (exists q, marks ds q /\ px q = xmin b) /\ (exists q, marks ds q /\ py q = ymin b) /\ (exists q, marks ds q /\ px q = xmax b) /\ (exists q, marks ds q /\ py q = ymax b)
    end.
Proof.
  intros p ds V F. rewrite (segs_bbox_real _ _ V). cbn [rbind]. eexists. split; [reflexivity|]. set (l := map (fun d => aseg_bbox (real d)) ds).
  pose proof (boxes_union l) as U. pose proof (boxes_attained l) as T. destruct (boxes_bbox l) as [b|]; [|apply map_eq_nil in U; auto].
  destruct U as [U _]. specialize (T b eq_refl).
  assert (A : forall d, In d ds ->
    (forall q, (exists t, 0 <= t <= 1 /\ traces d t q) \/ move_end d q -> in_box (aseg_bbox (real d)) q) /\
    (exists q, marks ds q /\ px q = xmin (aseg_bbox (real d))) /\ (exists q, marks ds q /\ py q = ymin (aseg_bbox (real d))) /\
    (exists q, marks ds q /\ px q = xmax (aseg_bbox (real d))) /\ (exists q, marks ds q /\ py q = ymax (aseg_bbox (real d)))).
  { intros d D. assert (FD : fair d) by (rewrite Forall_forall in F; auto).
    assert (M : (exists f t, d = SMove f t) \/ (forall f t, d <> SMove f t)) by (destruct d; eauto; right; discriminate).
    destruct M as [(f & t & ->)|M].
    - destruct (move_sides f t) as (I & (a & A1 & A2) & (c & C1 & C2) & (e & E1 & E2) & (g & G1 & G2)). split; [intros q [(u & _ & [])|Q]; auto|].
      assert (K : forall u, move_end (SMove f t) u -> marks ds u) by (intros u H; exists (SMove f t); auto). split; [exists a; auto|]. split; [exists c; auto|]. split; [exists e; auto|exists g; auto].
    - destruct (real_range d FD M) as (g & G & [X (X1 & X2)] & [Y (Y1 & Y2)]).
      assert (K : forall u, 0 <= u <= 1 -> marks ds (g u)) by (intros u H; exists d; split; auto; left; exists u; split; auto; apply G; auto).
      split.
      + intros q [(u & H & Q)|Q]; [|destruct d; try contradiction; exfalso; eapply M; eauto]. apply G in Q; auto. subst q. split; auto.
      + destruct X1 as (x & X1 & EX), X2 as (x' & X2 & EX'), Y1 as (y & Y1 & EY), Y2 as (y' & Y2 & EY'). split; [exists (g x); auto|]. split; [exists (g y); auto|]. split; [exists (g x'); auto|exists (g y'); auto]. }
  split.
  - intros q (d & D & Q). destruct (A d D) as (I & _). specialize (I q Q). destruct (U (aseg_bbox (real d))) as (B1 & B2 & B3 & B4); [apply (in_map (fun d => aseg_bbox (real d))); auto|]. destruct I. unfold in_box. lra.
  - assert (C : forall P : box -> Prop, (exists a, In a l /\ P a) -> exists d, In d ds /\ P (aseg_bbox (real d))) by (intros P (a & I & H); apply in_map_iff in I; destruct I as (d & <- & D); eauto).
    destruct T as (T1 & T2 & T3 & T4). apply C in T1, T2, T3, T4. destruct T1 as (a & A1 & <-), T2 as (c & C1 & <-), T3 as (e & E1 & <-), T4 as (g & G1 & <-).
    split; [|split; [|split]]; apply A; auto.
Qed.
