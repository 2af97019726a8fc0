Require Import ZArith QArith Qcanon Qabs Qreals Reals Ascii String List Bool Lqa Lia Lra.
From Flocq Require Import Core BinarySingleNaN.
Require Import Verif.Base Verif.Text_Spec Verif.Text_Proofs Verif.PathText_Model Verif.PathText_Spec Verif.PathText_Proofs Verif.PathDraw_Spec Verif.PathDraw_Proofs
  Verif.Float_Model Verif.Float_Spec Verif.Float_Proofs Verif.FloatView_Model Verif.FloatView_Proofs Verif.FloatText_Model Verif.FloatText_Spec Verif.FloatText_Proofs Verif.FloatPath_Model Verif.FloatPath_Spec Verif.FloatPath_Proofs.
Import ListNotations.
Open Scope R_scope.

Ltac lok := unfold lit_ok; cbn; repeat match goal with
  | |- is_dig _ => unfold is_dig; lia | |- _ /\ _ => split | |- Forall _ _ => constructor | |- True => exact I
  | |- _ <> _ => discriminate | |- _ \/ _ => first [left; discriminate | right; discriminate] end.
(** * C112: path data in floating point *)
(** Printing a path, reading the text and printing that gives the same text; every point keeps eleven digits. *)
Theorem float_path_settles : forall s p, s_kind_f s = KMove_f -> Forall printable (s :: p) ->
  exists t q, svg_d_f (s :: p) false = Ok t /\ parse_f t [] = (q, None) /\ svg_d_f q false = Ok t /\ Forall2 alike (s :: p) q.
Proof. exact path_settles_lemma. Qed.
(** What is read from path data is drawn where SVG says, up to a few roundings per instruction. *)
Theorem float_path_drift : forall B l s t, bpow radix2 (-900) <= B <= bpow radix2 900 -> spelled None l s t -> stop t -> begins_with_move l -> Forall arcless l ->
  (Z.of_nat (List.length l) <= 1000000)%Z -> Forall (inside B) (svg false pen0 (values l)) -> exists q, parse_f s [] = (q, None) /\ drifts B 0 q (svg false pen0 (values l)).
Proof. exact path_drift_lemma. Qed.
(** Printed with relative instructions and read back, every point is within one unit of the eleventh digit of the size of the drawing per segment. *)
Theorem float_path_relative : forall B s p, 0 < B <= bpow radix2 900 -> s_kind_f s = KMove_f -> (Z.of_nat (List.length p) < 1000000)%Z -> steps_ok B (fz 0, fz 0) (fz 0, fz 0) (s :: p) ->
  exists t q, svg_d_f (s :: p) true = Ok t /\ parse_f t [] = (q, None) /\ strays B 0 (s :: p) q.
Proof. intros B s p [B1 B2]. exact (path_relative_lemma B B1 B2 s p). Qed.

Definition n_ (i : Z) : lit := mkLit SNone [i] [] None.
Definition d_ (sg : sgn) (f : Z) : lit := mkLit sg [] [f] None.
(** A round trip by relative steps: 0, 0.1, 0.2, 0.3 and back. *)
Definition trip : list (bool * atom lit) :=
  [(true, DMove (n_ 0, n_ 0)); (true, DHor (d_ SNone 1)); (true, DHor (d_ SNone 1)); (true, DHor (d_ SNone 1)); (true, DHor (d_ SMinus 3))].
Definition trip_text : list ascii := explicit trip.
Lemma trip_ok : Forall (fun x => toks_ok (args (snd x))) trip.
Proof. repeat (constructor; [repeat (constructor; [lok|]); constructor|]). constructor. Qed.
Example trip_reads : trip_text = T "m 0 0h .1h .1h .1h -.3".
Proof. reflexivity. Qed.
Lemma trip_spelled : spelled None trip trip_text [].
Proof. apply (explicit_spelled trip None trip_ok). Qed.
Lemma stop_nil : stop [].
Proof. exists [], []. split; [constructor|]. split; auto. Qed.
(** What the trip draws, exactly. *)
Lemma trip_drawn : Forall (inside 1) (svg false pen0 (values trip)).
Proof.
  assert (G : forall c, (-(1) <= this c)%Q -> (this c <= 1)%Q -> Rabs (rv c) <= 1).
  { intros c A C. apply Qle_Rle in A, C. unfold rv. apply Rabs_le. replace (-(1)) with (Q2R (-(1))) by (unfold Q2R; cbn; lra). replace 1 with (Q2R 1) by (unfold Q2R; cbn; lra). auto. }
  unfold trip. cbn [values map fst snd map_atom svg stroke]. repeat (apply Forall_cons; [cbn [inside]; repeat split; apply G; vm_compute; discriminate|]). constructor.
Qed.
Example float_path_drift_ex : exists q, parse_f trip_text [] = (q, None) /\ drifts 1 0 q (svg false pen0 (values trip)).
Proof.
  apply (float_path_drift 1 trip trip_text []).
  - split; change 1 with (bpow radix2 0); apply bpow_le; lia.
  - apply trip_spelled.
  - apply stop_nil.
  - repeat eexists.
  - repeat constructor.
  - vm_compute. discriminate.
  - apply trip_drawn.
Qed.
Lemma trip_end : forall z a c q, map view_f q = map Some (svg_f false pen0_f [(true, DMove (z, z)); (true, DHor a); (true, DHor a); (true, DHor a); (true, DHor c)]) ->
  current_point_f q = Some (fadd (fadd (fadd (fadd z a) a) a) c, z).
Proof.
  intros z a c q V. cbn [map svg_f stroke_f here_f shift_f fst snd at__f sub_f mem_f pen0_f] in V. destruct q as [|s1 [|s2 [|s3 [|s4 [|s5 [|? ?]]]]]]; try discriminate V. injection V as _ _ _ _ V.
  destruct (view_line _ _ _ V) as [_ E]. unfold current_point_f. cbn [last_seg_f]. rewrite E. reflexivity.
Qed.
(** But relative steps do not lead back exactly: the exact drawing ends where it begins, at 0, and the floats do not. *)
Theorem float_path_returns_refuted : exists l s q e, spelled None l s [] /\ begins_with_move l /\ parse_f s [] = (q, None) /\
  (exists d, last (svg false pen0 (values l)) d = SLine (Q2Qc (3 # 10), 0%Qc) (0%Qc, 0%Qc)) /\ current_point_f q = Some e /\ value (fst e) <> 0.
Proof.
  destruct (parse_svg_f trip trip_text [] trip_spelled stop_nil ltac:(repeat eexists)) as (q & PQ & V).
  set (e := (fadd (fadd (fadd (fadd (qlit_f (n_ 0)) (qlit_f (d_ SNone 1))) (qlit_f (d_ SNone 1))) (qlit_f (d_ SNone 1))) (qlit_f (d_ SMinus 3)), qlit_f (n_ 0))).
  exists trip, trip_text, q, e. split; [apply trip_spelled|]. split; [repeat eexists|]. split; [exact PQ|]. split; [|split].
  - exists (SMove None (0%Qc, 0%Qc)). unfold trip. cbn [values map fst snd map_atom svg stroke last]. unfold shift, here; cbn [fst snd at_]. apply f_equal2; apply f_equal2; apply Qc_is_canon; vm_compute; reflexivity.
  - exact (trip_end _ _ _ q V).
  - subst e. cbn [fst]. apply Rgt_not_eq. rewrite <- f2q_value. apply Rle_lt_trans with (Q2R 0); [unfold Q2R; cbn; lra|apply Qlt_Rlt; vm_compute; reflexivity].
Qed.

(** A path that meets the conditions, with what is printed. *)
Definition third_ : fl := fratio false 1 3.
Definition tri : path_f :=
  [mkSeg_f KMove_f None (Some (third_, fz 2)) false true; mkSeg_f (KQuad_f (Some (fz 5, third_))) (Some (third_, fz 2)) (Some (fz 10, fz 2)) false true; mkSeg_f KClose_f (Some (fz 10, fz 2)) (Some (third_, fz 2)) false true].
Lemma plain_coord : forall x, is_finite x = true -> Qle_bool (1 # 1000) (Qabs (f2q x)) = true -> Qle_bool (Qabs (f2q x)) 1000 = true -> good_coord x.
Proof.
  intros x F A B. apply Qle_bool_imp_le in A, B. split; [exact F|]. split.
  - right. pose proof (Qle_Rle _ _ A) as A'. pose proof (Qle_Rle _ _ B) as B'. rewrite Q2R_abs, f2q_value in A', B'. split.
    + eapply Rle_trans; [|exact A']. apply Rle_trans with (bpow radix2 (-10)); [apply bpow_le; lia|]. change (bpow radix2 (-10)) with (/ 1024). unfold Q2R. cbn. lra.
    + eapply Rle_trans; [exact B'|]. apply Rle_trans with (bpow radix2 10); [|apply bpow_le; lia]. change (bpow radix2 10) with 1024. unfold Q2R. cbn. lra.
  - left. right. split; [eapply Qle_trans; [|exact A]|eapply Qle_trans; [exact B|]]; vm_compute; discriminate.
Qed.
Example float_path_settles_ex : Forall printable tri /\ svg_d_f tri false = Ok (T "M 0.333333333333,2 Q 5,0.333333333333 10,2 Z").
Proof.
  split; [|vm_compute; reflexivity].
  assert (good_coord third_) by (apply plain_coord; vm_compute; reflexivity). assert (good_coord (fz 2)) by (apply plain_coord; vm_compute; reflexivity).
  assert (good_coord (fz 5)) by (apply plain_coord; vm_compute; reflexivity). assert (good_coord (fz 10)) by (apply plain_coord; vm_compute; reflexivity).
  unfold tri. repeat apply Forall_cons; try apply Forall_nil; unfold printable, good_pt; cbn [s_kind_f s_end_f fst snd]; auto.
Qed.
Lemma zero_coord : forall x, is_finite x = true -> f2q x = 0%Q -> good_coord x.
Proof. intros x F Z. split; [exact F|]. split; [left; rewrite <- f2q_value, Z; unfold Q2R; cbn; lra|]. left. left. rewrite Z. reflexivity. Qed.
Example float_path_relative_ex : steps_ok 16 (fz 0, fz 0) (fz 0, fz 0) tri /\ svg_d_f tri true = Ok (T "m 0.333333333333,2 q 4.66666666667,-1.66666666667 9.66666666667,0 z").
Proof.
  split; [|vm_compute; reflexivity].
  assert (S : forall x, Qle_bool (Qabs (f2q x)) 16 = true -> Rabs (value x) <= 16).
  { intros x A. apply Qle_bool_imp_le, Qle_Rle in A. rewrite Q2R_abs, f2q_value in A. replace 16 with (Q2R 16) by (unfold Q2R; cbn; lra). exact A. }
  assert (P : forall a b c d, is_finite a = true -> is_finite b = true -> Qle_bool (Qabs (f2q a)) 16 = true -> Qle_bool (Qabs (f2q b)) 16 = true -> good_coord (fsub a c) -> good_coord (fsub b d) -> reachable 16 (c, d) (a, b)).
  { intros. unfold reachable, good_pt, psub_f. cbn [fst snd]. repeat (split; auto). }
  unfold tri. cbn [steps_ok s_kind_f s_end_f]. split; [|split; [|split; [|split; [reflexivity|exact Logic.I]]]]; apply P; try (apply plain_coord; vm_compute; reflexivity); try (apply zero_coord; vm_compute; reflexivity); vm_compute; reflexivity.
Qed.
Print Assumptions float_path_relative.
Print Assumptions float_path_settles.
Print Assumptions float_path_drift.
Print Assumptions float_path_returns_refuted.
