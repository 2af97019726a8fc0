(** Property theorems about the geometry of path and line elements (C99). *)
Require Import Reals QArith Qreals Qcanon Ascii String List Bool Lra Lia.
Require Import Verif.Base Verif.Point_Model Verif.Curve_Model Verif.Curve_Spec Verif.Curve_Proofs Verif.Curve_Thms Verif.Arc_Model Verif.Arc_Spec
  Verif.PathText_Spec Verif.PathDraw_Spec Verif.PathBox_Model Verif.PathBox_Spec.
Require Import Verif.Dom_Model Verif.Shape_Model Verif.PathElem_Model Verif.PathElem_Spec Verif.PathElem_Proofs.
Require Verif.Arc_Thms Verif.Dom_Spec Verif.Dom_Proofs Verif.Dom_Thms Verif.Path_Model Verif.PathText_Model Verif.PathText_Thms Verif.PathD_Thms Verif.Matrix_Model Verif.Shape_Thms.
Import ListNotations.
Open Scope R_scope.
Local Notation history := Dom_Spec.history.

(** What an element inherits, in any history of documents. *)
Lemma prop_nearest : forall l i n k, Forall Dom_Spec.sane l -> get (history l) i = Some n -> (forall j m, Dom_Spec.up (history l) i j -> get (history l) j = Some m -> n_attrs m <> None) ->
  exists o, prop (history l) i k = Ok o /\ forall x, o = Some x <-> Dom_Spec.nearest (history l) k i x.
Proof.
  intros l i n k S G A. destruct (Dom_Thms.values_nearest l i n S G A) as (v & E & H). unfold prop. rewrite E. eexists. split; [reflexivity|]. intros x. apply H.
Qed.

(** * C99 *)
(** Full statement: the segments of a path element are SVG's drawing of its path data. Proved of the nearest data, that of
    the element or else of an ancestor, where smooth commands follow curves of their own kind (C38). *)
Theorem path_elem_segments_partial : forall l i n cmds s t tr, Forall Dom_Spec.sane l -> get (history l) i = Some n ->
  (forall j m, Dom_Spec.up (history l) i j -> get (history l) j = Some m -> n_attrs m <> None) ->
  Dom_Spec.nearest (history l) (T "d"%string) i (VText s) -> spelled None cmds s t -> stop t -> begins_with_move cmds -> smooth_matched cmds ->
  exists p, elem_segments (history l) i tr = Ok p /\ map view p = map Some (svg true pen0 (values cmds)).
Proof.
  intros l i n cmds s t tr S G A N SP ST B M. destruct (prop_nearest l i n (T "d"%string) S G A) as (o & E & H). apply H in N. subst o.
  destruct (PathText_Thms.path_smooth_partial cmds s t SP ST B M) as (p & P & V). exists p. split; auto. unfold elem_segments, elem_d. rewrite E. cbn [rbind path_of]. rewrite P. reflexivity.
Qed.
Print Assumptions path_elem_segments_partial.
(** Full statement: the box of a path element is the smallest one around what it draws. Proved of the smallest box around
    that and the ends of its moves, for curves that are fair (C51, C58). *)
Theorem path_elem_bbox_partial : forall l i n cmds s t tr, Forall Dom_Spec.sane l -> get (history l) i = Some n ->
  (forall j m, Dom_Spec.up (history l) i j -> get (history l) j = Some m -> n_attrs m <> None) ->
  Dom_Spec.nearest (history l) (T "d"%string) i (VText s) -> spelled None cmds s t -> stop t -> begins_with_move cmds -> smooth_matched cmds ->
  let ds := svg true pen0 (values cmds) in Forall fair ds ->
  exists b, elem_bbox (history l) i tr = Ok (Some b) /\
    (forall q, marks ds q -> in_box b q) /\
    (exists q, marks ds q /\ px q = xmin b) /\ (exists q, marks ds q /\ py q = ymin b) /\ (exists q, marks ds q /\ px q = xmax b) /\ (exists q, marks ds q /\ py q = ymax b).
Proof.
  intros l i n cmds s t tr S G A N SP ST B M ds F. destruct (path_elem_segments_partial l i n cmds s t tr S G A N SP ST B M) as (p & E & V). fold ds in V.
  destruct (elem_box p ds V F) as (o & EO & H). unfold elem_bbox. rewrite E. cbn [rbind]. rewrite EO. destruct o as [b|]; [eauto|].
  exfalso. subst ds. destruct B as (rel & q & k & ->). destruct rel; discriminate H.
Qed.
Print Assumptions path_elem_bbox_partial.
(** Without path data, there are no segments and no box. *)
Theorem path_elem_empty : forall l i n tr, Forall Dom_Spec.sane l -> get (history l) i = Some n ->
  (forall j m, Dom_Spec.up (history l) i j -> get (history l) j = Some m -> n_attrs m <> None) ->
  (forall v, ~ Dom_Spec.nearest (history l) (T "d"%string) i v) -> elem_segments (history l) i tr = Ok [] /\ elem_bbox (history l) i tr = Ok None.
Proof.
  intros l i n tr S G A N. destruct (prop_nearest l i n (T "d"%string) S G A) as (o & E & H). destruct o as [v|]; [exfalso; apply (N v), H; auto|].
  assert (X : elem_segments (history l) i tr = Ok []) by (unfold elem_segments, elem_d; rewrite E; reflexivity). split; auto. unfold elem_bbox. rewrite X. reflexivity.
Qed.
Print Assumptions path_elem_empty.

(** A document with a path element below a group. *)
Definition one_path (group path : list (string * string)) : list Dom_Spec.action :=
  [Dom_Spec.Read 0 (Dom_Spec.events (X (T "svg"%string) [] [] [X (T "g"%string) (map (fun x => (T (fst x), T (snd x))) group) [] [Dom_Thms.leaf "path" path]]))].
Definition ex_doc : list Dom_Spec.action := one_path [("fill", "red")]%string [("d", "m1 2,3 4-5 .6z x")]%string.
Lemma one_path_sane : forall g p, NoDup (map fst (map (fun x : string * string => (T (fst x), T (snd x))) g)) -> NoDup (map fst (map (fun x : string * string => (T (fst x), T (snd x))) p)) -> Forall Dom_Spec.sane (one_path g p).
Proof.
  intros g p G P. apply Forall_cons; [|apply Forall_nil]. intros tag a H. cbn [Dom_Spec.events Dom_Thms.leaf flat_map app map In] in H.
  repeat (destruct H as [H|H]; [try discriminate H; injection H as <- <-; unfold Dom_Spec.keyed; try apply G; try apply P; try apply NoDup_nil|]). contradiction.
Qed.
Ltac nodup := repeat first [apply NoDup_nil | apply NoDup_cons; [cbn; intuition discriminate|]].
Example path_elem_ex : Forall Dom_Spec.sane ex_doc /\ (exists n, get (history ex_doc) 3 = Some n) /\
  (forall j m, Dom_Spec.up (history ex_doc) 3 j -> get (history ex_doc) j = Some m -> n_attrs m <> None) /\
  Dom_Spec.nearest (history ex_doc) (T "d"%string) 3 (VText (T "m1 2,3 4-5 .6z x"%string)) /\
  spelled None PathText_Thms.ex_instructions (T "m1 2,3 4-5 .6z x"%string) (T " x"%string) /\ stop (T " x"%string) /\
  begins_with_move PathText_Thms.ex_instructions /\ smooth_matched PathText_Thms.ex_instructions /\
  Forall fair (svg true pen0 (values PathText_Thms.ex_instructions)).
Proof.
  split; [apply one_path_sane; nodup|]. split; [eexists; vm_compute; reflexivity|]. split.
  - intros j m _ G. assert (L : (j < 4)%nat) by (apply Dom_Proofs.get_lt in G; exact G). do 4 (destruct j as [|j]; [vm_compute in G; injection G as <-; discriminate|]). lia.
  - split; [eapply Dom_Spec.near_own; vm_compute; reflexivity|]. split; [apply PathText_Thms.ex_spelled|]. split; [apply PathText_Thms.ex_stop|]. split; [repeat eexists|]. split; [cbn; intuition|].
    repeat (apply Forall_cons; [exact I|]). apply Forall_nil.
Qed.
(** Curves that are fair: C0,0 4,4 -3,-3 1,1 and M1,0 A1,1 0 0 1 0,1. *)
Lemma q2r_z : forall z, Q2R (this (Q2Qc (inject_Z z))) = IZR z.
Proof. intros z. transitivity (Q2R (inject_Z z)); [apply Qeq_eqR, Qred_correct|]. unfold Q2R. cbn. field. Qed.
Example fair_ex : let z n := Q2Qc (inject_Z n) in
  fair (SCubic (z 0, z 0) (z 4, z 4) (z (-3), z (-3)) (z 1, z 1))%Z /\ fair (SArc (z 1, z 0) (z 1) (z 1) (z 0) false true (z 0, z 1))%Z.
Proof.
  cbn zeta. split; cbn [fair rpt px py fst snd]; rewrite ?q2r_z.
  - assert (H : steady 0 4 (-3) 1) by (destruct bbox_cubic_ex as [H _]; exact H). split; exact H.
  - split; [lra|]. split; [lra|]. unfold rpt. cbn [fst snd]. rewrite !q2r_z. exact Arc_Thms.not_p_eq.
Qed.
Example path_elem_empty_ex : forall v, ~ Dom_Spec.nearest (history (one_path [] [])) (T "d"%string) 3 v.
Proof.
  assert (G : forall i n v, get (history (one_path [] [])) i = Some n -> (forall a, n_attrs n = Some a -> dget (T "d"%string) a = None) -> (forall p, n_parent n = Some p -> ~ Dom_Spec.nearest (history (one_path [] [])) (T "d"%string) p v) ->
    ~ Dom_Spec.nearest (history (one_path [] [])) (T "d"%string) i v).
  { intros i n v G A P N. destruct N as [i n' a v G' N' D|i n' a p v G' N' D PA N]; rewrite G in G'; injection G' as <-; [rewrite (A a N') in D; discriminate|exact (P p PA N)]. }
  intros v. eapply G; [vm_compute; reflexivity|intros a H; injection H as <-; reflexivity|]. intros p H. injection H as <-.
  eapply G; [vm_compute; reflexivity|intros a H; injection H as <-; reflexivity|]. intros p H. injection H as <-.
  eapply G; [vm_compute; reflexivity|intros a H; injection H as <-; reflexivity|]. intros p H. injection H as <-.
  eapply G; [vm_compute; reflexivity|intros a H; injection H as <-; reflexivity|]. intros p H. discriminate H.
Qed.
(** The transform attribute is not used: M0,0L1,1 moved by 10 still begins at 0,0. *)
Theorem path_elem_transform_refuted : exists l i p, Forall Dom_Spec.sane l /\ prop (history l) i (T "transform"%string) = Ok (Some (VText (T "translate(10,0)"%string))) /\
  elem_segments (history l) i true = Ok p /\ map view p = map Some [SMove None (0, 0); SLine (0, 0) (1, 1)]%Qc.
Proof.
  exists (one_path [] [("d", "M0,0L1,1"); ("transform", "translate(10,0)")]%string), 3%nat. eexists. split; [apply one_path_sane; nodup|]. split; [vm_compute; reflexivity|]. split; [vm_compute; reflexivity|]. reflexivity.
Qed.
Print Assumptions path_elem_transform_refuted.
(** A path element without data of its own draws those of a group around it. *)
Theorem path_elem_own_refuted : exists l i n p, Forall Dom_Spec.sane l /\ get (history l) i = Some n /\ n_attrs n = Some [] /\
  elem_segments (history l) i true = Ok p /\ map view p = map Some [SMove None (0, 0); SLine (0, 0) (1, 1)]%Qc.
Proof.
  exists (one_path [("d", "M0,0L1,1")]%string []), 3%nat. eexists. eexists. split; [apply one_path_sane; nodup|]. split; [vm_compute; reflexivity|]. split; [reflexivity|]. split; [vm_compute; reflexivity|]. reflexivity.
Qed.
Print Assumptions path_elem_own_refuted.
(** The box also contains where moves come from and go to: M5,5M0,0L1,1 draws nothing right of 1. *)
Theorem path_elem_bbox_move_refuted : exists l i b ds p, Forall Dom_Spec.sane l /\ elem_segments (history l) i true = Ok p /\ map view p = map Some ds /\ Forall fair ds /\
  elem_bbox (history l) i true = Ok (Some b) /\ 5 <= xmax b /\ forall d t q, In d ds -> 0 <= t <= 1 -> traces d t q -> px q <= 1.
Proof.
  set (z n := Q2Qc (inject_Z n)). set (ds := ([SMove None (z 5, z 5); SMove (Some (z 5, z 5)) (z 0, z 0); SLine (z 0, z 0) (z 1, z 1)])%Z).
  set (l := one_path [] [("d", "M5,5M0,0L1,1")]%string).
  assert (E : exists p, elem_segments (history l) 3 true = Ok p /\ map view p = map Some ds) by (eexists; split; [vm_compute; reflexivity|reflexivity]).
  destruct E as (p & E & V). assert (F : Forall fair ds) by (repeat (apply Forall_cons; [exact I|]); apply Forall_nil).
  destruct (elem_box p ds V F) as (o & EO & H). destruct o as [b|]; [|discriminate H]. destruct H as [H _].
  exists l, 3%nat, b, ds, p. split; [apply one_path_sane; nodup|]. split; auto. split; auto. split; auto. split; [unfold elem_bbox; rewrite E; exact EO|]. split.
  - destruct (H (rpt (z 5, z 5)%Z)) as [[_ A] _]; [eexists; split; [left; reflexivity|right; left; reflexivity]|]. unfold rpt, z in A. cbn [px fst] in A. rewrite q2r_z in A. exact A.
  - intros d t q D T M. destruct D as [<-|[<-|[<-|[]]]]; try contradiction. cbn [traces] in M. subst q. unfold mix, rpt, z. cbn [px fst snd]. rewrite !q2r_z. lra.
Qed.
Print Assumptions path_elem_bbox_move_refuted.
(** Data that do not begin with a move can leave segments without points, which have no box: ValueError. *)
Theorem path_elem_close_refuted : exists l i p, Forall Dom_Spec.sane l /\ elem_segments (history l) i true = Ok p /\ p <> [] /\ elem_bbox (history l) i true = Err ValueError.
Proof.
  set (l := one_path [] [("d", "z")]%string). assert (E : exists p, elem_segments (history l) 3 true = Ok p /\ p <> [] /\ all_ok seg_bbox p = Err ValueError) by (eexists; split; [vm_compute; reflexivity|]; split; [discriminate|reflexivity]).
  destruct E as (p & E & N & A). exists l, 3%nat, p. split; [apply one_path_sane; nodup|]. split; [exact E|]. split; [exact N|]. unfold elem_bbox. rewrite E. cbn [rbind]. rewrite A. reflexivity.
Qed.
Print Assumptions path_elem_close_refuted.

(** A box that just holds what a curve draws. *)
Definition spans (f : R -> pt) (b : box) : Prop := range (fun t => px (f t)) (xmin b) (xmax b) /\ range (fun t => py (f t)) (ymin b) (ymax b).
Lemma line_spans : forall s e, exists b, boxes_bbox (map oseg_bbox [OMove s; OLine s e]) = Some b /\ spans (fun t => mix t s e) b.
Proof.
  intros s e. eexists. split; [reflexivity|]. destruct (bbox_range true (GLine s e) I) as [[X (X0 & X1)] [Y (Y0 & Y1)]]. destruct X0 as (u & U & EU), X1 as (v & V & EV), Y0 as (w & W & EW), Y1 as (x & XX & EX).
  assert (M : forall t, 0 <= t <= 1 -> Curve_Model.point true (GLine s e) t = mix t s e) by (intros t H; cbn [Curve_Model.point]; now rewrite lin_point_inside).
  rewrite M in EU, EV, EW, EX by auto. assert (ME : mix 0 s e = s) by (destruct s; unfold mix; cbn; f_equal; ring). assert (Z : 0 <= 0 <= 1) by lra.
  pose proof (X 0 Z) as X'. pose proof (Y 0 Z) as Y'. cbn beta in X', Y'. rewrite M, ME in X', Y' by auto.
  unfold spans. cbn [oseg_bbox map boxes_bbox xmin xmax ymin ymax rmin rmax].
  assert (BX : xmin (bbox (GMove None s)) = px s /\ xmax (bbox (GMove None s)) = px s /\ ymin (bbox (GMove None s)) = py s /\ ymax (bbox (GMove None s)) = py s) by (repeat split).
  destruct BX as (-> & -> & -> & ->). rewrite (Rmin_right (px s)), (Rmin_right (py s)), (Rmax_right (px s)), (Rmax_right (py s)) by lra.
  split; (split; [intros t H; try specialize (X t H); try specialize (Y t H); cbn beta in *; rewrite M in X, Y by auto; auto|split; eauto]).
Qed.
(** Lines: the box of the line, or of its image. [matrix] is Matrix(text). Full statement: of any line; without a transform
    there is only the box of the plain line, see below. *)
Theorem line_elem_bbox_partial : forall matrix x1 y1 x2 y2 tr,
  (exists b, line_bbox matrix (SNum x1) (SNum y1) (SNum x2) (SNum y2) tr false = Ok (Some b) /\ spans (fun t => mix t (P x1 y1) (P x2 y2)) b) /\
  (forall m, tr = SMatrix m \/ (exists t, tr = SText t /\ matrix t = Ok m) ->
     exists b, line_bbox matrix (SNum x1) (SNum y1) (SNum x2) (SNum y2) tr true = Ok (Some b) /\ spans (fun t => affine m (mix t (P x1 y1) (P x2 y2))) b).
Proof.
  intros matrix x1 y1 x2 y2 tr. destruct (Shape_Thms.line_outline_partial matrix x1 y1 x2 y2 tr) as [A B]. unfold line_bbox. split.
  - rewrite A. cbn [rbind]. destruct (line_spans (P x1 y1) (P x2 y2)) as (b & -> & S). eauto.
  - intros m M. rewrite (B m M). cbn [rbind]. destruct (line_spans (Matrix_Model.apply_mx m (P x1 y1)) (Matrix_Model.apply_mx m (P x2 y2))) as (b & -> & S). exists b. split; auto.
    assert (E : forall t, affine m (mix t (P x1 y1) (P x2 y2)) = mix t (Matrix_Model.apply_mx m (P x1 y1)) (Matrix_Model.apply_mx m (P x2 y2))) by (intros t; unfold affine, mix, Matrix_Model.apply_mx; cbn [px py]; f_equal; ring).
    destruct S as [[X (X0 & X1)] [Y (Y0 & Y1)]]. split; (split; [intros t H; rewrite E; auto|]); cbn beta; setoid_rewrite E; auto.
Qed.
Example line_elem_bbox_ex : SText (T "translate(1)"%string) = SText (T "translate(1)"%string) /\ (fun _ : text => Ok (Matrix_Model.M 1 0 0 1 1 0)) (T "translate(1)"%string) = Ok (Matrix_Model.M 1 0 0 1 1 0).
Proof. split; reflexivity. Qed.
Print Assumptions line_elem_bbox_partial.
(** bbox() of a line without a transform attribute raises, and d() of any shape. *)
Theorem line_elem_bbox_refuted : forall matrix x1 y1 x2 y2, line_bbox matrix (SNum x1) (SNum y1) (SNum x2) (SNum y2) SNone true = Err TypeError.
Proof. reflexivity. Qed.
Print Assumptions line_elem_bbox_refuted.
Theorem shape_d_refuted : forall segments to_path relative transformed, exists e, shape_d segments to_path relative transformed = Err e.
Proof.
  intros segments to_path relative transformed. unfold shape_d. destruct (segments transformed) as [l|e]; cbn [rbind]; [|eauto].
  destruct (PathD_Thms.path_str_raises (to_path l) (Some relative) None) as [_ ->]. eauto.
Qed.
Print Assumptions shape_d_refuted.
