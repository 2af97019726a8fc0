(** Transform text in floating point: the matrix read from it moves every point where it should, but for a number of roundings. *)
Require Import ZArith QArith Qreals Reals Ascii String List Lia Lra.
From Flocq Require Import Core BinarySingleNaN.
Require Import Verif.Base Verif.Text_Spec Verif.Text_Proofs Verif.Angle_Spec Verif.Angle_Proofs Verif.Matrix_Spec Verif.Matrix_Proofs Verif.Transform_Model Verif.Transform_Spec Verif.Transform_Proofs
  Verif.Float_Model Verif.Float_Spec Verif.Float_Proofs Verif.FloatLength_Spec Verif.FloatLength_Proofs Verif.FloatTransform_Model Verif.FloatTransform_Spec Verif.FloatTransform_Proofs.
Import ListNotations.
Open Scope R_scope.

(** The maps of the steps are those that transform text denotes over the real numbers. *)
Lemma weighed_tlist : forall asked t g l, weighed asked t g l -> tlist t g.
Proof. induction 1; [apply tl_nil; auto|]. eapply tl_cons; eauto. eapply weighs_denotes; eauto. Qed.
(** Some functions are as good as asked: those that round the exact value. *)
Definition nearest (r : R) : fl := binary_normalize 53 1024 p53 p1024 mode_NE (Ztrunc (scaled_mantissa radix2 (SpecFloat.fexp 53 1024) (rnd r))) (cexp radix2 (SpecFloat.fexp 53 1024) (rnd r)) false.
Lemma nearest_is : forall r, Rabs r <= big -> is (nearest r) (rnd r).
Proof.
  intros r B. pose proof (binary_normalize_correct 53 1024 p53 p1024 mode_NE (Ztrunc (scaled_mantissa radix2 (SpecFloat.fexp 53 1024) (rnd r))) (cexp radix2 (SpecFloat.fexp 53 1024) (rnd r)) false) as C. cbn zeta in C.
  assert (G : generic_format radix2 (SpecFloat.fexp 53 1024) (rnd r)) by (unfold rnd; apply generic_format_round; typeclasses eauto). unfold generic_format in G. rewrite <- G in C.
  change (round radix2 (SpecFloat.fexp 53 1024) (round_mode mode_NE) (rnd r)) with (rnd (rnd r)) in C. assert (RR : rnd (rnd r) = rnd r) by (unfold rnd at 1; apply round_generic; [typeclasses eauto|exact G]). rewrite RR in C.
  rewrite Rlt_bool_true in C by (apply rnd_big; auto). destruct C as (A & F & _). split; auto.
Qed.
Lemma good_trig_reachable : exists fcos fsin ftan, good_trig fcos fsin ftan.
Proof.
  exists (fun x => nearest (cos (value x))), (fun x => nearest (sin (value x))), (fun x => nearest (tan (value x))). intros x F.
  assert (ONE : forall r, -1 <= r <= 1 -> about (nearest r) r (4 * roundoff)).
  { intros r B. apply abs_le in B. destruct (nearest_is r) as [F1 V]; [eapply Rle_trans; [exact B|]; change 1 with (bpow radix2 0); apply bpow_le; lia|]. split; auto. rewrite V. pose proof (rnd_err r) as E. pose proof eta_u. change roundoff with u in *. pose proof u_pos. nra. }
  split; [apply ONE, COS_bound|]. split; [apply ONE, SIN_bound|]. split.
  - intros C B. destruct (nearest_is (tan (value x))) as [F1 V]; [eapply Rle_trans; [exact B|]; apply bpow_le; lia|]. split; auto. rewrite V. pose proof (rnd_err (tan (value x))) as E. pose proof eta_u. change roundoff with u in *. pose proof u_pos. pose proof (Rabs_pos (tan (value x))). nra.
  - intros E. rewrite E, tan_0. destruct (nearest_is 0) as [_ V]; [rewrite Rabs_R0; apply bpow_ge_0|]. rewrite V. apply rnd_0.
Qed.

(** The matrix read from a transform list is within thirty roundings for each rounding counted, measured by how far the steps can lead. *)
Theorem float_transform_close : forall fcos fsin ftan t g l, good_trig fcos fsin ftan -> weighed modest t g l -> roundings l <= 2 ^ 48 -> spans l <= bpow radix2 900 ->
  exists m, fmx_of_text fcos fsin ftan t = Ok m /\ finite_mx m /\ forall p,
    Rabs (fst (image_of m p) - fst (g p)) <= 30 * roundings l * roundoff * fst (together l (Rabs (fst p), Rabs (snd p))) + bpow radix2 (-120) * (1 + Rabs (fst p) + Rabs (snd p)) /\
    Rabs (snd (image_of m p) - snd (g p)) <= 30 * roundings l * roundoff * snd (together l (Rabs (fst p), Rabs (snd p))) + bpow radix2 (-120) * (1 + Rabs (fst p) + Rabs (snd p)).
Proof. intros fcos fsin ftan t g l GT W R S. apply text_reached; auto. change (bpow radix2 48) with 281474976710656. lra. Qed.
Lemma ex_dist : forall s d, Forall is_dig d -> d <> [] -> is_dist (mkParam (mkLit s d [] None) []) (Q2R (lit_val (mkLit s d [] None))).
Proof. intros. apply (dist_of (mkParam _ _)); simpl; auto. unfold lit_ok. simpl. auto. Qed.
Lemma ex_modest : forall q v, Q2R q = v -> 1 <= Rabs v <= 256 -> moderate_r (Q2R q).
Proof. intros q v -> B. right. split; [apply Rle_trans with (bpow radix2 0); [apply bpow_le; lia|apply B]|apply Rle_trans with (bpow radix2 8); [apply B|apply bpow_le; lia]]. Qed.
Example float_transform_ex : exists g l, weighed modest (T "translate(10, -2)skewX (45)") g l /\ roundings l <= 2 ^ 48 /\ spans l <= bpow radix2 900 /\ g (1, 1) = (12, -1).
Proof.
  assert (T1 : tan (PI / 4) = 1) by apply tan_PI4.
  do 2 eexists. split; [|split; [|split]].
  - eapply (ts_cons _ [] "translate" [mkParam (mkLit SNone [1; 0]%Z [] None) []; mkParam (mkLit SMinus [2]%Z [] None) []] (T "translate(10, -2)") _ _ (T "skewX (45)")).
    + constructor.
    + apply (ft "translate" _ (T "translate") [] [] (T "10, -2")); auto.
      apply (pt_cons (mkParam (mkLit SNone [1; 0]%Z [] None) []) (mkParam (mkLit SMinus [2]%Z [] None) []) [] (T ", ") (T "-2")); [apply Forall_cons; [right; reflexivity | apply Forall_cons; [left; unfold wsp; simpl; auto | constructor]] | right; discriminate | ].
      apply (pt_one (mkParam (mkLit SMinus [2]%Z [] None) []) []). constructor.
    + apply (w_translate _ _ 10 (-2)); [replace 10 with (Q2R (lit_val (mkLit SNone [1; 0]%Z [] None))) by (unfold Q2R; simpl; lra)|replace (-2) with (Q2R (lit_val (mkLit SMinus [2]%Z [] None))) by (unfold Q2R; simpl; lra)];
        apply ex_dist; try discriminate; repeat constructor; discriminate.
    + unfold modest. repeat apply Forall_cons; [apply (ex_modest _ 10)|apply (ex_modest _ (-2))|apply Forall_nil]; try (unfold Q2R; simpl; lra); [rewrite Rabs_pos_eq by lra|rewrite Rabs_left by lra]; lra.
    + eapply (ts_cons _ [] "skewx" [mkParam (mkLit SNone [4; 5]%Z [] None) []] (T "skewX (45)") _ _ []).
      * constructor.
      * apply (ft "skewx" _ (T "skewX") (T " ") [] (T "45")); auto. { apply Forall_cons; [unfold wsp; simpl; auto | constructor]. }
        apply (pt_one (mkParam (mkLit SNone [4; 5]%Z [] None) []) []). constructor.
      * apply (w_skewx _ (PI / 4)); [|rewrite cos_PI4; apply Rgt_not_eq; apply Rdiv_lt_0_compat; [lra|apply sqrt_lt_R0; lra]].
        replace (PI / 4) with (2 * PI * (Q2R (lit_val (p_lit (mkParam (mkLit SNone [4; 5]%Z [] None) []))) / 360)) by (unfold Q2R; simpl; lra).
        apply (angle_of _ "" 360); simpl; auto; [unfold lit_ok, is_dig; simpl; repeat split; auto; try (left; discriminate); repeat constructor; discriminate|constructor].
      * unfold modest. apply Forall_cons; [apply (ex_modest _ 45)|apply Forall_nil]; [unfold Q2R; simpl; lra|rewrite Rabs_pos_eq by lra; lra].
      * apply ts_nil. constructor.
  - unfold roundings, slanting, entries, steep. cbn [app fold_right rounds]. rewrite T1, Rabs_R0, Rabs_R1. pose proof PI_4. pose proof PI_RGT_0. rewrite (Rabs_pos_eq (PI / 4)) by lra. lra.
  - apply Rle_trans with (bpow radix2 10); [|apply bpow_le; lia]. unfold spans, span_of, slanting, entries, steep. cbn [app fold_right reach fst snd]. rewrite T1, Rabs_R0, Rabs_R1, (Rabs_pos_eq 10), (Rabs_left (-2)) by lra. cbn. lra.
  - unfold sp_translate, sp_skew. cbn [fst snd]. rewrite T1, ?tan_0. apply pair_eq; lra.
Qed.
Print Assumptions float_transform_close.

(** A list of matrices, translations and scales by whole numbers is read without any error as long as the numbers stay below 2^53. *)
Theorem float_transform_whole : forall fcos fsin ftan t g l, weighed by_whole t g l -> spans l <= 2 ^ 53 ->
  exists m, fmx_of_text fcos fsin ftan t = Ok m /\ finite_mx m /\ forall p, image_of m p = g p.
Proof. intros fcos fsin ftan t g l W S. apply (text_whole fcos fsin ftan t g l W). unfold p53r. change (bpow radix2 53) with 9007199254740992. lra. Qed.
Example float_transform_whole_ex : exists g l, weighed by_whole (T "translate(10, -2)SCALE (3)") g l /\ spans l <= 2 ^ 53 /\ g (1, 1) = (13, 1).
Proof.
  do 2 eexists. split; [|split].
  - eapply (ts_cons _ [] "translate" [mkParam (mkLit SNone [1; 0]%Z [] None) []; mkParam (mkLit SMinus [2]%Z [] None) []] (T "translate(10, -2)") _ _ (T "SCALE (3)")).
    + constructor.
    + apply (ft "translate" _ (T "translate") [] [] (T "10, -2")); auto.
      apply (pt_cons (mkParam (mkLit SNone [1; 0]%Z [] None) []) (mkParam (mkLit SMinus [2]%Z [] None) []) [] (T ", ") (T "-2")); [apply Forall_cons; [right; reflexivity | apply Forall_cons; [left; unfold wsp; simpl; auto | constructor]] | right; discriminate | ].
      apply (pt_one (mkParam (mkLit SMinus [2]%Z [] None) []) []). constructor.
    + apply (w_translate _ _ 10 (-2)); [replace 10 with (Q2R (lit_val (mkLit SNone [1; 0]%Z [] None))) by (unfold Q2R; simpl; lra)|replace (-2) with (Q2R (lit_val (mkLit SMinus [2]%Z [] None))) by (unfold Q2R; simpl; lra)];
        apply ex_dist; try discriminate; repeat constructor; discriminate.
    + split; [simpl; auto|]. repeat apply Forall_cons; [exists 10%Z|exists (-2)%Z|apply Forall_nil]; unfold Q2R; simpl; lra.
    + eapply (ts_cons _ [] "scale" [mkParam (mkLit SNone [3]%Z [] None) []] (T "SCALE (3)") _ _ []).
      * constructor.
      * apply (ft "scale" _ (T "SCALE") (T " ") [] (T "3")); auto. { apply Forall_cons; [unfold wsp; simpl; auto | constructor]. }
        apply (pt_one (mkParam (mkLit SNone [3]%Z [] None) []) []). constructor.
      * apply (w_scale1 _ 3). replace 3 with (Q2R (lit_val (p_lit (mkParam (mkLit SNone [3]%Z [] None) [])))) by (unfold Q2R; simpl; lra). apply num_of; simpl; auto.
        unfold lit_ok, is_dig; simpl; repeat split; auto; try (left; discriminate); repeat constructor; discriminate.
      * split; [simpl; auto 9|]. apply Forall_cons; [exists 3%Z|apply Forall_nil]. unfold Q2R. simpl. lra.
      * apply ts_nil. constructor.
  - unfold spans, span_of, entries. cbn [app fold_right reach fst snd]. rewrite Rabs_R0, Rabs_R1, (Rabs_pos_eq 10), (Rabs_left (-2)), (Rabs_pos_eq 3) by lra. lra.
  - unfold sp_translate, sp_scale. cbn [fst snd]. apply pair_eq; lra.
Qed.
Print Assumptions float_transform_whole.

(** Rounding never decides whether a text is accepted: any text at all, well formed or not, succeeds or raises the same exception as over the
    real numbers. *)
Theorem float_transform_outcome : forall fcos fsin ftan t, failure (fmx_of_text fcos fsin ftan t) = failure (mx_of_text t).
Proof. exact same_text. Qed.
Example float_transform_outcome_ex : failure (mx_of_text (T "rotate(30) scale(1,2,3,4,5)")) = Some TypeError /\ failure (mx_of_text (T "skewX( ) rotate(1)")) = Some IndexError /\ failure (mx_of_text (T "junk rotate (30, 1)")) = None.
Proof. split; [|split]; reflexivity. Qed.
Print Assumptions float_transform_outcome.
