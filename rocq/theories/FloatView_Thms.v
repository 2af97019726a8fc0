Require Import ZArith QArith Qreals Reals String List Bool Lra Lia.
From Flocq Require Import Core BinarySingleNaN.
Require Import Verif.Base Verif.Float_Model Verif.Float_Spec Verif.Float_Proofs Verif.Matrix_Model Verif.Transform_Model Verif.Viewbox_Model Verif.Viewbox_Spec
  Verif.FloatView_Model Verif.FloatView_Spec Verif.FloatView_Proofs.
Import ListNotations.
Open Scope R_scope.

(** * C110: viewbox_transform in floating point *)
(** With meet and slice: the matrix of the returned text puts every point where SVG says, but for 20 roundings of the sizes
    involved and half a unit in the 12th decimal of the printed numbers. *)
Theorem float_viewbox_fits : forall ex ey ew eh vx vy vw vh a b f par S TX TY,
  usual ex -> usual ey -> usual_size ew -> usual_size eh -> usual vx -> usual vy -> usual_size vw -> usual_size vh -> par_text a b f par ->
  rfits f (value ew) (value eh) (value vw) (value vh) S ->
  rplaced a (value ex) (value ew) (value vx) (value vw) S TX -> rplaced b (value ey) (value eh) (value vy) (value vh) S TY ->
  exists s A D E F, fviewbox_transform ex ey ew eh vx vy vw vh par = Ok s /\ mx_of_text s = Ok (M A 0 0 D E F) /\
    puts ex ew vx vw S TX A E /\ puts ey eh vy vh S TY D F.
Proof. exact uniform_lemma. Qed.
(** With none: every axis is stretched by itself. *)
Theorem float_viewbox_stretches : forall ex ey ew eh vx vy vw vh par SX SY TX TY,
  usual ex -> usual ey -> usual_size ew -> usual_size eh -> usual vx -> usual vy -> usual_size vw -> usual_size vh ->
  In par [T "none"; T "none meet"; T "none slice"] ->
  ronto (value ex) (value ew) (value vx) (value vw) SX TX -> ronto (value ey) (value eh) (value vy) (value vh) SY TY ->
  exists s A D E F, fviewbox_transform ex ey ew eh vx vy vw vh (Some par) = Ok s /\ mx_of_text s = Ok (M A 0 0 D E F) /\
    puts ex ew vx vw SX TX A E /\ puts ey eh vy vh SY TY D F.
Proof. exact stretch_lemma. Qed.
(** A viewBox that is the viewport changes nothing, exactly, for all finite numbers. *)
Theorem float_viewbox_same : forall x y w h par, finite x -> finite y -> finite w -> finite h -> value w <> 0 -> value h <> 0 ->
  fviewbox_transform x y w h x y w h par = Ok [].
Proof. exact same_lemma. Qed.
Lemma usual_int : forall z, (Z.abs z <= 2 ^ 53)%Z -> usual (fz z).
Proof.
  intros z H. destruct (fz_is z H) as [F V]. split; auto. rewrite V, <- abs_IZR. apply Rle_trans with (IZR (2 ^ 53)); [apply IZR_le; auto|].
  change (IZR (2 ^ 53)) with (bpow radix2 53). apply bpow_le. lia.
Qed.
Lemma usual_size_int : forall z, (1 <= z <= 2 ^ 53)%Z -> usual_size (fz z).
Proof.
  intros z H. destruct (fz_is z ltac:(lia)) as [F V]. split; auto. rewrite V. split.
  - apply Rle_trans with 1; [|apply IZR_le; lia]. change 1 with (bpow radix2 0). apply bpow_le. lia.
  - apply Rle_trans with (IZR (2 ^ 53)); [apply IZR_le; lia|]. change (IZR (2 ^ 53)) with (bpow radix2 53). apply bpow_le. lia.
Qed.
Example float_viewbox_ex : exists s A D E F,
  fviewbox_transform (fz 10) (fz 0) (fz 300) (fz 150) (fz 1) (fz (-2)) (fz 7) (fz 7) (Some (T "xMaxYMid slice")) = Ok s /\ mx_of_text s = Ok (M A 0 0 D E F) /\
  puts (fz 10) (fz 300) (fz 1) (fz 7) (300 / 7) (10 - 300 / 7) A E /\ puts (fz 0) (fz 150) (fz (-2)) (fz 7) (300 / 7) (600 / 7 - 75) D F.
Proof.
  destruct (fz_is 10 ltac:(lia)) as [_ V1], (fz_is 300 ltac:(lia)) as [_ V2], (fz_is 150 ltac:(lia)) as [_ V3], (fz_is 1 ltac:(lia)) as [_ V4], (fz_is (-2) ltac:(lia)) as [_ V5], (fz_is 7 ltac:(lia)) as [_ V6], (fz_is 0 ltac:(lia)) as [_ V7].
  apply (float_viewbox_fits _ _ _ _ _ _ _ _ Max Mid Slice); try (apply usual_int; lia); try (apply usual_size_int; lia); [apply (par_slice Max Mid)|..]; rewrite ?V1, ?V2, ?V3, ?V4, ?V5, ?V6, ?V7; cbn; lra.
Qed.
Example float_viewbox_text_ex :
  fviewbox_transform (fz 10) (fz 0) (fz 300) (fz 150) (fz 1) (fz (-2)) (fz 7) (fz 7) (Some (T "xMaxYMid slice")) =
    Ok (T "translate(-32.857142857143, 10.714285714286) scale(42.857142857143, 42.857142857143)") /\
  fviewbox_transform (fz 3) (fz 5) (fz 49) (fz 7) (fz 3) (fz 5) (fz 49) (fz 7) (Some (T "xMidxMaxYMid slice")) = Ok [].
Proof. split; vm_compute; reflexivity. Qed.
Print Assumptions float_viewbox_fits.
Print Assumptions float_viewbox_stretches.
Print Assumptions float_viewbox_same.

(** A scaled viewBox can stick out of the viewport it is to meet: 1 / 5 is rounded up. *)
Theorem float_viewbox_inside_refuted : exists ex ey ew eh vx vy vw vh t, usual_size ew /\ usual_size eh /\ usual_size vw /\ usual_size vh /\
  fvb_numbers ex ey ew eh vx vy vw vh (Some (T "xMinYMin meet")) = Ok t /\
  ~ value (ft_sx t) * (value vx + value vw) + value (ft_tx t) <= value ex + value ew.
Proof.
  exists (fz 0), (fz 0), (fz 1), (fz 1), (fz 0), (fz 0), (fz 5), (fz 5). eexists. repeat (split; [apply usual_size_int; lia|]). split; [reflexivity|].
  cbn [ft_sx ft_tx]. rewrite <- !f2q_value, <- !Q2R_plus, <- Q2R_mult, <- Q2R_plus. intros H. apply Rle_Qle in H. revert H. vm_compute. intros H. now apply H.
Qed.
Print Assumptions float_viewbox_inside_refuted.
(** A viewBox of the viewport's proportions and origin needs a scale only; a translation that prints as nothing may be
    returned with it. *)
Theorem float_viewbox_scale_refuted : exists w h vw vh : Z,
  viewbox_transform (Some 0%Q) (Some 0%Q) (Some (inject_Z w)) (Some (inject_Z h)) (Some 0%Q) (Some 0%Q) (Some (inject_Z vw)) (Some (inject_Z vh)) None =
    Ok (T "scale(0.020408163265, 0.020408163265)") /\
  fviewbox_transform (fz 0) (fz 0) (fz w) (fz h) (fz 0) (fz 0) (fz vw) (fz vh) None = Ok (T "translate(0, 0) scale(0.020408163265, 0.020408163265)").
Proof. exists 1%Z, 1%Z, 49%Z, 49%Z. split; vm_compute; reflexivity. Qed.
Print Assumptions float_viewbox_scale_refuted.
