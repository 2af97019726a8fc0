(** C59: outlines of shapes. *)
Require Import Reals Lra List Ascii String ZArith.
Require Import Verif.Base Verif.Angle_Model Verif.Point_Model Verif.Matrix_Model Verif.Arc_Model Verif.Arc_Spec Verif.Arc_Proofs Verif.Shape_Model Verif.Shape_Spec Verif.Shape_Proofs.
Import ListNotations.
Open Scope R_scope.

(** Rectangles with numbers for all attributes, were is_degenerate defined: one connected subpath that returns to its start. *)
Theorem rect_closed_partial : forall x y w h rx ry tr, exists l, rect_segments (Ok false) (SNum x) (SNum y) (SNum w) (SNum h) (SNum rx) (SNum ry) tr false = Ok l /\ connected l /\ closed_at l.
Proof.
  intros x y w h rx ry tr. unfold rect_segments. cbn [rbind]. destruct (below_zero_num rx w) as [b1 ->]. cbn [rbind]. destruct (below_zero_num ry h) as [b2 B2].
  assert (N : exists n, (if b1 then Ok true else below_zero (SNum ry) (SNum h)) = Ok n) by (destruct b1; eauto). destruct N as [n ->]. cbn [rbind].
  assert (Z : forall a b : R, exists l, (let segs := if Req_EM_T a b then if Req_EM_T b 0 then true else false else false in
    Ok (if segs then [OMove (P x y); OLine (P x y) (P (x + w) y); OLine (P (x + w) y) (P (x + w) (y + h)); OLine (P (x + w) (y + h)) (P x (y + h)); OClose (P x (y + h)) (P x y)]
      else [OMove (P (x + a) y); OLine (P (x + a) y) (P (x + w - a) y); OArc (arc_axes (P (x + w - a) y) (P (x + w) (y + b)) a b); OLine (P (x + w) (y + b)) (P (x + w) (y + h - b));
            OArc (arc_axes (P (x + w) (y + h - b)) (P (x + w - a) (y + h)) a b); OLine (P (x + w - a) (y + h)) (P (x + a) (y + h)); OArc (arc_axes (P (x + a) (y + h)) (P x (y + h - b)) a b);
            OLine (P x (y + h - b)) (P x (y + b)); OArc (arc_axes (P x (y + b)) (P (x + a) y) a b); OClose (P (x + a) y) (P (x + a) y)])) = Ok l /\ connected l /\ closed_at l).
  { intros a b. cbn zeta. destruct (if Req_EM_T a b then if Req_EM_T b 0 then true else false else false); eexists; (split; [reflexivity|]); cbn; repeat split.
    - eexists (P x y), [_; _; _], (P x (y + h)). reflexivity.
    - eexists (P (x + a) y), [_; _; _; _; _; _; _; _], (P (x + a) y). reflexivity. }
  destruct n; apply Z.
Qed.
Example rect_closed_ex : exists l, rect_segments (Ok false) (SNum 0) (SNum 0) (SNum 4) (SNum 2) (SNum 0) (SNum 0) SNone false = Ok l /\ corners l = [P 0 0; P (0 + 4) 0; P (0 + 4) (0 + 2); P 0 (0 + 2); P 0 0].
Proof.
  unfold rect_segments. cbn [rbind]. rewrite ?below_zero_pos by lra. cbn [rbind]. rewrite ?below_zero_pos by lra. cbn [rbind]. destruct (Req_EM_T 0 0); [|lra]. eexists. split; reflexivity.
Qed.
Print Assumptions rect_closed_partial.
(** The corners of a rectangle without radii, in order; a negative radius counts as none where the side is positive. *)
Theorem rect_corners_partial : forall x y w h rx ry tr, (rx = 0 /\ ry = 0) \/ (rx < 0 /\ 0 < w) \/ (ry < 0 /\ 0 < h) ->
  exists l, rect_segments (Ok false) (SNum x) (SNum y) (SNum w) (SNum h) (SNum rx) (SNum ry) tr false = Ok l /\
    l = [OMove (P x y); OLine (P x y) (P (x + w) y); OLine (P (x + w) y) (P (x + w) (y + h)); OLine (P (x + w) (y + h)) (P x (y + h)); OClose (P x (y + h)) (P x y)].
Proof.
  intros x y w h rx ry tr H. unfold rect_segments. cbn [rbind]. unfold below_zero at 1.
  assert (D : forall a b : R, a = 0 -> b = 0 -> (if Req_EM_T a b then if Req_EM_T b 0 then true else false else false) = true) by (intros a b -> ->; destruct (Req_EM_T 0 0); [reflexivity|lra]).
  destruct (Rlt_dec rx 0) as [L|L].
  - destruct (Rlt_dec 0 w) as [W|W]; cbn [rbind].
    + rewrite D by auto. eauto.
    + unfold below_zero. destruct (Rlt_dec ry 0) as [M|M]; cbn [rbind]; [|exfalso; lra]. destruct (Rlt_dec 0 h) as [HH|HH]; cbn [rbind]; [|exfalso; lra]. rewrite D by auto. eauto.
  - cbn [rbind]. unfold below_zero. destruct (Rlt_dec ry 0) as [M|M].
    + cbn [rbind]. destruct (Rlt_dec 0 h) as [HH|HH]; cbn [rbind]; [|exfalso; lra]. rewrite D by auto. eauto.
    + cbn [rbind]. rewrite D by lra. eauto.
Qed.
Example rect_corners_ex : (-1 < 0 /\ 0 < 4)%R.
Proof. lra. Qed.
Print Assumptions rect_corners_partial.
(** Rounded corners: lines along the sides, and at every corner a quarter of an ellipse with the given radii, run clockwise. *)
Theorem rect_rounded_partial : forall x y w h rx ry tr, 0 < rx -> 0 < ry ->
  exists l a1 a2 a3 a4, rect_segments (Ok false) (SNum x) (SNum y) (SNum w) (SNum h) (SNum rx) (SNum ry) tr false = Ok l /\
    l = [OMove (P (x + rx) y); OLine (P (x + rx) y) (P (x + w - rx) y); OArc a1; OLine (P (x + w) (y + ry)) (P (x + w) (y + h - ry)); OArc a2;
         OLine (P (x + w - rx) (y + h)) (P (x + rx) (y + h)); OArc a3; OLine (P x (y + h - ry)) (P x (y + ry)); OArc a4; OClose (P (x + rx) y) (P (x + rx) y)] /\
    connected l /\ closed_at l /\
    arc_on a1 (P (x + w - rx) (y + ry)) rx ry (- (PI / 2)) (PI / 2) /\ arc_on a2 (P (x + w - rx) (y + h - ry)) rx ry 0 (PI / 2) /\
    arc_on a3 (P (x + rx) (y + h - ry)) rx ry (PI / 2) (PI / 2) /\ arc_on a4 (P (x + rx) (y + ry)) rx ry PI (PI / 2).
Proof.
  intros x y w h rx ry tr RX RY. unfold rect_segments. cbn [rbind]. rewrite ?below_zero_pos by lra. cbn [rbind]. rewrite ?below_zero_pos by lra. cbn [rbind].
  assert (D : (if Req_EM_T rx ry then if Req_EM_T ry 0 then true else false else false) = false) by (destruct (Req_EM_T rx ry); [|reflexivity]; destruct (Req_EM_T ry 0); [lra|reflexivity]).
  rewrite D. do 5 eexists. split; [reflexivity|]. split; [reflexivity|]. split; [cbn; repeat split|]. split; [eexists (P (x + rx) y), [_; _; _; _; _; _; _; _], (P (x + rx) y); reflexivity|].
  split; [apply corner_ne; auto|]. split; [apply corner_se; auto|]. split; [apply corner_sw; auto|apply corner_nw; auto].
Qed.
Example rect_rounded_ex : 0 < 3 /\ 0 < 2.
Proof. lra. Qed.
Print Assumptions rect_rounded_partial.
(** As it is, no rectangle has an outline: is_degenerate is not defined. *)
Theorem rect_outline_refuted : forall x y w h rx ry tr b, rect_segments_repo x y w h rx ry tr b = Err AttributeError.
Proof. reflexivity. Qed.
Print Assumptions rect_outline_refuted.
(** With it defined, a rectangle without radii would raise as well: they are None. *)
Theorem rect_none_refuted : forall x y w h ry tr b, rect_segments (Ok false) x y w h SNone ry tr b = Err TypeError.
Proof. reflexivity. Qed.
Print Assumptions rect_none_refuted.
(** And radii of more than half a side are not reduced: the top side of a rectangle runs backwards. *)
Theorem rect_radii_refuted : exists w rx l, 0 < rx /\ 0 < w /\ rect_segments (Ok false) (SNum 0) (SNum 0) (SNum w) (SNum 2) (SNum rx) (SNum 1) SNone false = Ok l /\
  exists s e r, l = OMove s :: OLine s e :: r /\ px e < px s.
Proof.
  exists 2, 2. destruct (rect_rounded_partial 0 0 2 2 2 1 SNone ltac:(lra) ltac:(lra)) as (l & a1 & a2 & a3 & a4 & E & L & _). exists l. split; [lra|]. split; [lra|]. split; [exact E|].
  rewrite L. do 3 eexists. split; [reflexivity|]. cbn. lra.
Qed.
Print Assumptions rect_radii_refuted.

(** Ellipses, were rotation defined and zero: a move to the point on the x axis, four quarters, and a line back. *)
Theorem ellipse_closed_partial : forall cx cy rx ry tr, 0 < rx -> 0 < ry ->
  exists l a1 a2 a3 a4, ellipse_segments (Ok 0) (SNum cx) (SNum cy) (SNum rx) (SNum ry) tr false = Ok l /\
    l = [OMove (P (cx + rx) cy); OArc a1; OArc a2; OArc a3; OArc a4; OClose (P (cx + rx) cy) (P (cx + rx) cy)] /\ connected l /\ closed_at l /\
    arc_on a1 (P cx cy) rx ry 0 (PI / 2) /\ arc_on a2 (P cx cy) rx ry (PI / 2) (PI / 2) /\ arc_on a3 (P cx cy) rx ry PI (PI / 2) /\ arc_on a4 (P cx cy) rx ry (PI + PI / 2) (PI / 2).
Proof.
  intros cx cy rx ry tr RX RY. unfold ellipse_segments. cbn [rbind ellipse_arcs app]. rewrite !round_point_0, tau4. cbn [px py].
  replace (0 + PI / 2 + PI / 2 + PI / 2 + PI / 2) with (2 * PI) by field. replace (0 + PI / 2 + PI / 2 + PI / 2) with (PI + PI / 2) by field. replace (0 + PI / 2 + PI / 2) with PI by field. replace (0 + PI / 2) with (PI / 2) by ring.
  assert (Z : P (cx + rx * cos 0) (cy + ry * sin 0) = P (cx + rx) cy) by (rewrite cos_0, sin_0; f_equal; ring).
  assert (Z2 : P (cx + rx * cos (2 * PI)) (cy + ry * sin (2 * PI)) = P (cx + rx) cy) by (rewrite cos_2PI, sin_2PI; f_equal; ring).
  pose proof (about_on (P cx cy) rx ry (PI / 2) 0 RX RY) as A1. pose proof (about_on (P cx cy) rx ry (PI / 2) (PI / 2) RX RY) as A2. pose proof (about_on (P cx cy) rx ry (PI / 2) PI RX RY) as A3.
  pose proof (about_on (P cx cy) rx ry (PI / 2) (PI + PI / 2) RX RY) as A4. cbn [px py] in A1, A2, A3, A4.
  replace (0 + PI / 2) with (PI / 2) in A1 by ring. replace (PI / 2 + PI / 2) with PI in A2 by field. replace (PI + PI / 2 + PI / 2) with (2 * PI) in A4 by field.
  do 5 eexists. split; [reflexivity|]. rewrite Z, Z2 in *. split; [reflexivity|]. split; [cbn; repeat split|]. split; [eexists (P (cx + rx) cy), [_; _; _; _], (P (cx + rx) cy); reflexivity|]. auto.
Qed.
Example ellipse_closed_ex : 0 < 3 /\ 0 < 2.
Proof. lra. Qed.
Print Assumptions ellipse_closed_partial.
(** As it is, neither ellipses nor circles have outlines. *)
Theorem ellipse_outline_refuted : forall cx cy rx ry tr b, ellipse_segments_repo cx cy rx ry tr b = Err AttributeError.
Proof. intros cx cy rx ry tr b. unfold ellipse_segments_repo, ellipse_segments. destruct b; [|reflexivity]. destruct tr; reflexivity. Qed.
Print Assumptions ellipse_outline_refuted.
Theorem circle_outline_refuted : forall tr b, circle_segments tr b = Err AttributeError.
Proof. intros tr b. unfold circle_segments. destruct b; [|reflexivity]. destruct tr; reflexivity. Qed.
Print Assumptions circle_outline_refuted.
(** With rotation defined, those with the transform applied still have none. *)
Theorem ellipse_transformed_refuted : forall r cx cy rx ry tr, ellipse_segments (Ok r) (SNum cx) (SNum cy) (SNum rx) (SNum ry) tr true = Err AttributeError.
Proof. intros. unfold ellipse_segments. destruct tr; reflexivity. Qed.
Print Assumptions ellipse_transformed_refuted.

(** Lines: from one end to the other, or to their images. [matrix] is Matrix(text). *)
Theorem line_outline_partial : forall matrix x1 y1 x2 y2 tr, line_segments matrix (SNum x1) (SNum y1) (SNum x2) (SNum y2) tr false = Ok [OMove (P x1 y1); OLine (P x1 y1) (P x2 y2)] /\
  (forall m, tr = SMatrix m \/ (exists t, tr = SText t /\ matrix t = Ok m) ->
     let s := apply_mx m (P x1 y1) in let e := apply_mx m (P x2 y2) in line_segments matrix (SNum x1) (SNum y1) (SNum x2) (SNum y2) tr true = Ok [OMove s; OLine s e]).
Proof.
  intros matrix x1 y1 x2 y2 tr. split; [reflexivity|]. intros m [-> | (t & -> & E)]; [reflexivity|]. unfold line_segments. cbn [point_of rbind point_times]. rewrite E. reflexivity.
Qed.
Example line_outline_ex : line_segments (fun _ => Ok (M 2 0 0 2 1 0)) (SNum 0) (SNum 0) (SNum 1) (SNum 1) (SText (T "matrix(2,0,0,2,1,0)"%string)) true =
  Ok [OMove (apply_mx (M 2 0 0 2 1 0) (P 0 0)); OLine (apply_mx (M 2 0 0 2 1 0) (P 0 0)) (apply_mx (M 2 0 0 2 1 0) (P 1 1))].
Proof. reflexivity. Qed.
Print Assumptions line_outline_partial.
(** A line without a transform has no outline with the transform applied, which is the default. *)
Theorem line_plain_refuted : forall matrix x1 y1 x2 y2, line_segments matrix (SNum x1) (SNum y1) (SNum x2) (SNum y2) SNone true = Err TypeError.
Proof. reflexivity. Qed.
Print Assumptions line_plain_refuted.
(** A transform that is a number scales both ends in both directions. *)
Theorem line_number : forall matrix x1 y1 x2 y2 k,
  line_segments matrix (SNum x1) (SNum y1) (SNum x2) (SNum y2) (SNum k) true = Ok [OMove (P (k * x1) (k * y1)); OLine (P (k * x1) (k * y1)) (P (k * x2) (k * y2))].
Proof. reflexivity. Qed.
Example line_number_ex : line_segments (fun _ => Err ValueError) (SNum 1) (SNum 2) (SNum 3) (SNum 4) (SNum 0) true = Ok [OMove (P (0 * 1) (0 * 2)); OLine (P (0 * 1) (0 * 2)) (P (0 * 3) (0 * 4))].
Proof. reflexivity. Qed.
Print Assumptions line_number.
(** Polylines and polygons never have one. *)
Theorem poly_outline_refuted : forall points l, poly_segments points <> Ok (Some l).
Proof. intros points l. unfold poly_segments. destruct points as [x|[|a t]|[|n]|m|]; discriminate. Qed.
Print Assumptions poly_outline_refuted.
