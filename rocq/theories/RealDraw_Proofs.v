(** Drawings of path data on the reals. *)
Require Import Reals QArith Qreals Qcanon List Bool Lra Lia.
Require Import Verif.Base Verif.Point_Model Verif.Point_Proofs Verif.Matrix_Model Verif.Curve_Model Verif.Curve_Spec Verif.Curve_Proofs Verif.Arc_Model Verif.Arc_Spec Verif.Arc_Proofs Verif.Arc_Thms.
Require Import Verif.PathText_Spec Verif.PathDraw_Spec Verif.PathBox_Model Verif.PathElem_Model Verif.PathElem_Spec Verif.PathElem_Proofs.
Require Import Verif.RealPath_Model Verif.RealPath_Spec Verif.RealPath_Proofs Verif.RealClose_Proofs Verif.RealDraw_Spec.
Require Verif.Path_Model Verif.PathEdit_Model Verif.PathEdit_Spec.
Import ListNotations.
Open Scope R_scope.

(** * From segments to the reals *)
Lemma real_seg_view : forall s d, view s = Some d -> real_seg s = Some (real d).
Proof.
  intros [k a b r sm] d V. unfold view in V. unfold real_seg. cbn [Path_Model.s_kind Path_Model.s_start Path_Model.s_end] in *.
  destruct k as [| | |[c|]|[c|] [c'|]|g]; destruct a as [a|], b as [b|]; try discriminate V; injection V as <-; reflexivity.
Qed.
Lemma real_path_view : forall p ds, map view p = map Some ds -> real_path p = Some (map real ds).
Proof.
  induction p as [|s p IH]; intros [|d ds] V; try discriminate; [reflexivity|]. injection V as V VS. cbn [real_path map]. now rewrite (real_seg_view _ _ V), (IH _ VS).
Qed.
Lemma svg_ends : forall s rx ry rot large swp e, let A := svg_parameterize s rx ry rot large swp e in a_start A = s /\ a_end A = e.
Proof. intros. unfold A, svg_parameterize. destruct (pt_eqb s e); [split; reflexivity|]. destruct (Req_EM_T rx 0); [split; reflexivity|]. destruct (Req_EM_T ry 0); split; reflexivity. Qed.
Lemma svg_J : forall strict l k e, at_ k = Some e -> J (rpt (sub k)) (rpt e) (map real (svg strict k l)).
Proof.
  intros strict l. induction l as [|[rel a] l IH]; intros k e E; [exact I|].
  assert (H : here k = e) by (unfold here; now rewrite E).
  destruct a; cbn [svg stroke map real J r_start r_end r_is_close r_is_move g_start g_end option_map znext]; rewrite ?H, ?E; cbn [option_map].
  all: repeat match goal with |- context [svg_parameterize ?a ?b ?c ?d ?f ?g ?h] => destruct (svg_ends a b c d f g h) as [-> ->] end.
  all: split; [eexists; split; [reflexivity|apply together_refl]|]; (split; [intros K; try discriminate K; apply together_refl|]).
  all: match goal with |- J _ _ (map real (svg _ ?k' _)) => exact (IH k' _ eq_refl) end.
Qed.
Lemma svg_connected : forall strict l, begins_with_move l -> connected (map real (svg strict pen0 l)) /\ first_not_arc (map real (svg strict pen0 l)).
Proof.
  intros strict l (rel & q & l' & ->). cbn [svg stroke map]. split; [|exact I]. apply J_connected. cbn [real r_end g_end]. apply (svg_J strict l' (mkPen _ _ _)). reflexivity.
Qed.

(** * Arcs of drawings *)
Lemma real_svg_arc : forall a b rx ry rot large sweep, 0 < rx -> 0 < ry -> ~ p_eq a b -> svg_arc a b rx ry rot large sweep (arc_point (svg_parameterize a rx ry rot large sweep b)).
Proof.
  intros a b rx ry rot large sweep X Y NE. destruct (svg_arc_partial a b rx ry rot large sweep X Y NE) as (S0 & S1 & (k & t & K & KM & RU) & SS & SL1 & SL2).
  eexists _, k, t, _. split; [exact K|]. split; [exact KM|]. split; [exact RU|]. split; auto. split; auto. split; auto. destruct large; auto.
Qed.
Lemma real_traces : forall np d t x, fair_arc d -> 0 <= t <= 1 -> (traces d t x <-> no_move (real d) /\ x = r_point np (real d) t).
Proof.
  intros np d t x F T. destruct d; cbn [traces real r_point Curve_Model.point].
  - split; [contradiction|]. intros [N _]. exfalso. eapply N. reflexivity.
  - rewrite lin_point_inside by auto. split; [intros ->; split; auto; discriminate|tauto].
  - rewrite lin_point_inside by auto. split; [intros ->; split; auto; discriminate|tauto].
  - rewrite quad_point_casteljau. split; [intros ->; split; auto; discriminate|tauto].
  - rewrite cubic_point_casteljau. split; [intros ->; split; auto; discriminate|tauto].
  - destruct F as (X & Y & NE). pose proof (real_svg_arc _ _ _ _ (Q2R (this rot)) large sweep X Y NE) as SA. split.
    + intros (f & SF & ->). split; [discriminate|]. exact (svg_arc_one _ _ _ _ _ _ _ _ _ _ X Y SF SA).
    + intros [_ ->]. eauto.
Qed.
Lemma real_visits : forall np ds x, Forall fair_arc ds -> (drawn_at ds x <-> visits np (map real ds) x).
Proof.
  intros np ds x F. rewrite Forall_forall in F. split.
  - intros (d & t & I & T & H). apply (real_traces np) in H; auto. destruct H as [N ->]. exists (real d), t. split; [now apply in_map|]. auto.
  - intros (s & t & I & N & T & ->). apply in_map_iff in I. destruct I as (d & <- & I). exists d, t. split; auto. split; auto. apply (real_traces np); auto.
Qed.
Lemma on_ellipse_turn : forall c a b r r' p, cos r = cos r' -> sin r = sin r' -> on_ellipse c a b r p -> on_ellipse c a b r' p.
Proof. intros c a b r r' p C S (x & y & -> & E). exists x, y. split; auto. unfold frame. now rewrite C, S. Qed.
Lemma real_fair : forall r ds, Forall fair_arc ds -> Forall (sized r) ds -> fair_arcs r (map real ds).
Proof.
  intros r ds F S A I. apply in_map_iff in I. destruct I as (d & E & I). rewrite Forall_forall in F, S. specialize (F d I). specialize (S d I).
  destruct d; try discriminate E. cbn [real] in E. injection E as <-. destruct F as (X & Y & NE). cbn [sized] in S.
  destruct (svg_main (rpt from) (rpt to) _ _ (Q2R (this rot)) large sweep X Y NE) as (AS & AE & (k & K & KX & KY & KF) & RC & RS & _ & (t0 & PA) & SR & _ & _).
  cbv zeta in PA, SR. set (A := svg_parameterize _ _ _ _ _ _ _) in *. split; [eauto|]. split; [destruct sweep; lra|]. rewrite KX, KY. apply S; auto.
  destruct PA as (P1 & P2 & P3 & P4). rewrite AS in P3. rewrite AE in P4. exists (a_center A). rewrite <- KX, <- KY. split; eapply on_ellipse_turn; [exact RC|exact RS| |exact RC|exact RS|]; [rewrite P3|rewrite P4]; now apply ellipse_at_on.
Qed.

(** * The other direction *)
Lemma fits_sym : forall p q a b r, fits p q a b r -> fits q p a b r.
Proof. intros p q a b r (c & H1 & H2). exists c. auto. Qed.
Lemma svg_arc_flip : forall a b rx ry rot large sweep f, svg_arc a b rx ry rot large sweep f -> svg_arc b a rx ry rot large (negb sweep) (fun t => f (1 - t)).
Proof.
  intros a b rx ry rot large sweep f (c & k & t0 & sw & K & KM & RU & F0 & F1 & SG & LG). exists c, k, (t0 + sw), (- sw). split; auto. split; [intros j J H; apply (KM j J); now apply fits_sym|]. split.
  - intros t. rewrite RU. f_equal. ring.
  - rewrite Rminus_0_r, Rminus_eq_0. split; auto. split; auto. rewrite Rabs_Ropp. split; auto. destruct sweep; cbn [negb]; lra.
Qed.
Lemma flip_traces : forall d t x, (traces (PathEdit_Spec.flip d) t x <-> traces d (1 - t) x).
Proof.
  intros d t x. destruct d; cbn [PathEdit_Spec.flip traces].
  - tauto.
  - replace (mix t (rpt to) (rpt from)) with (mix (1 - t) (rpt from) (rpt to)); [tauto|]. unfold mix. f_equal; ring.
  - replace (mix t (rpt to) (rpt from)) with (mix (1 - t) (rpt from) (rpt to)); [tauto|]. unfold mix. f_equal; ring.
  - replace (casteljau2 (rpt to) (rpt c) (rpt from) t) with (casteljau2 (rpt from) (rpt c) (rpt to) (1 - t)); [tauto|]. unfold casteljau2, mix. cbn [px py]. f_equal; ring.
  - replace (casteljau3 (rpt to) (rpt d) (rpt c) (rpt from) t) with (casteljau3 (rpt from) (rpt c) (rpt d) (rpt to) (1 - t)); [tauto|]. unfold casteljau3, casteljau2, mix. cbn [px py]. f_equal; ring.
  - split; intros (f & SA & ->); exists (fun t => f (1 - t)).
    + split; [|f_equal; ring]. apply svg_arc_flip in SA. rewrite negb_involutive in SA. exact SA.
    + split; [|f_equal; ring]. now apply svg_arc_flip.
Qed.
Lemma flip_sketched : forall l x, sketched_at (map (option_map PathEdit_Spec.flip) (rev l)) x <-> sketched_at l x.
Proof.
  intros l x. split.
  - intros (d & t & I & T & H). apply in_map_iff in I. destruct I as ([d'|] & E & I); [|discriminate E]. injection E as <-. apply in_rev in I. exists d', (1 - t). split; auto. split; [lra|]. now apply flip_traces.
  - intros (d & t & I & T & H). exists (PathEdit_Spec.flip d), (1 - t). split; [apply in_map_iff; exists (Some d); split; auto; now apply -> in_rev|]. split; [lra|]. apply flip_traces. replace (1 - (1 - t)) with t by ring. auto.
Qed.
