(** C108: colours in binary floating point: hue, saturation and lightness, blending, percentages. *)
Require Import ZArith Reals List Bool Lra Lia.
From Flocq Require Import Core BinarySingleNaN.
Require Import Verif.Float_Model Verif.Float_Spec Verif.Float_Proofs Verif.FloatAngle_Model Verif.FloatColor_Model Verif.Color_Spec Verif.FloatColor_Spec.
Require Verif.Color_Proofs Verif.FloatColor_Proofs Verif.FloatHue_Proofs.
Import ListNotations.
Open Scope R_scope.

(** What Color.hue, saturation and lightness say is a hue, saturation and lightness that by CSS have the red, green and blue
    of the colour, but for rounding. *)
Theorem float_hsl_read : forall v, exists h s l, hsl_of (cR (unpack v)) (cG (unpack v)) (cB (unpack v)) h s l /\
  finite (fhue_turns v) /\ 0 <= value (fhue_turns v) <= 1 /\ Rabs (value (fhue_turns v) - h) <= / 100000000000 /\ Rabs (value (fhue v) - 360 * h) <= / 100000000 /\
  finite (fsaturation v) /\ Rabs (value (fsaturation v) - s) <= / 100000000000 /\ finite (flightness v) /\ Rabs (value (flightness v) - l) <= / 100000000000000.
Proof.
  intros v. destruct (FloatHue_Proofs.hsl_read v) as (h & s & l & F & R & [UN AH] & AS & AL). exists h, s, l. pose proof FloatColor_Proofs.u_tiny. split; [apply FloatHue_Proofs.fits_hsl, F|].
  pose proof (FloatHue_Proofs.hue_degrees _ _ AH R). destruct AH, AS, AL. repeat split; auto; try lra; apply UN.
Qed.
(** 0x336699ff: 210 degrees, 0.5 and 0.4 up to rounding. *)
Example float_hsl_read_ex :
  andb (andb (flt (fz 209) (fhue 0x336699ff)) (flt (fhue 0x336699ff) (fz 211))) (andb (flt (fsaturation 0x336699ff) (fdiv (fz 501) (fz 1000))) (flt (flightness 0x336699ff) (fdiv (fz 401) (fz 1000)))) = true.
Proof. vm_compute. reflexivity. Qed.
Print Assumptions float_hsl_read.

(** Setting the hue, saturation and lightness of a colour gives back its channels, or one less; the opacity is lost. *)
Theorem float_hsl_roundtrip_partial : forall v, let c := unpack (fset_hsl (fhue_turns v) (fsaturation v) (flightness v)) in
  (cR c = cR (unpack v) \/ cR c = cR (unpack v) - 1)%Z /\ (cG c = cG (unpack v) \/ cG c = cG (unpack v) - 1)%Z /\ (cB c = cB (unpack v) \/ cB c = cB (unpack v) - 1)%Z /\ cA c = 255%Z.
Proof. intros v. cbv zeta. destruct (FloatHue_Proofs.back_close v) as (c & -> & H). exact H. Qed.
Example float_hsl_roundtrip_ex : fset_hsl (fhue_turns 0x336699ff) (fsaturation 0x336699ff) (flightness 0x336699ff) = 0x326699ff%Z.
Proof. vm_compute. reflexivity. Qed.
Print Assumptions float_hsl_roundtrip_partial.
(** Not the same colour: what is rounded down just below a whole number is cut. *)
Theorem float_hsl_roundtrip_refuted : exists v, cA (unpack v) = 255%Z /\ fset_hsl (fhue_turns v) (fsaturation v) (flightness v) <> v.
Proof. exists 0x010203ff%Z. vm_compute. split; [reflexivity|discriminate]. Qed.
Example float_hsl_roundtrip_refuted_ex : fset_hsl (fhue_turns 0xff8000ff) (fsaturation 0xff8000ff) (flightness 0xff8000ff) = 0xff7f00ff%Z.
Proof. vm_compute. reflexivity. Qed.
Print Assumptions float_hsl_roundtrip_refuted.

(** Greys come back, but for the opacity. *)
Lemma grey_bytes : forallb (fun g => let c := fchan01 g in let l := fdiv (fadd c c) (fz 2) in
   andb (Z.eqb (fcrimp_float (fmul (fz 255) l)) g) (andb (feq c c) (feq (fsub c c) (fz 0)))) (map Z.of_nat (seq 0 256)) = true.
Proof. vm_compute. reflexivity. Qed.
Theorem float_grey_roundtrip : forall v g, unpack v = mkRGBA g g g (cA (unpack v)) -> unpack (fset_hsl (fhue_turns v) (fsaturation v) (flightness v)) = mkRGBA g g g 255.
Proof.
  intros v g E. assert (R : byte g) by (destruct (FloatHue_Proofs.bytes v) as (B & _); rewrite E in B; exact B).
  pose proof grey_bytes as GB. rewrite forallb_forall in GB. specialize (GB g). cbv zeta in GB. rewrite !andb_true_iff in GB. destruct GB as (G1 & G2 & G3). { rewrite <- (Z2Nat.id g) by (destruct R; lia). apply in_map, in_seq. destruct R. lia. } apply Z.eqb_eq in G1.
  assert (M : forall c, fmax c c = c /\ fmin c c = c) by (intros c; unfold fmax, fmin; destruct (flt c c); auto).
  unfold fset_hsl, fhsl_to_int, fhsl_to_rgb, fsaturation, flightness. rewrite Color_Proofs.get_red_arith, Color_Proofs.get_green_arith, Color_Proofs.get_blue_arith, E. cbn [cR cG cB]. unfold fmin3, fmax3. destruct (M (fchan01 g)) as [M1 M2]. rewrite !M1, !M2, G2. cbn beta iota zeta.
  assert (Z : feq (fz 0) (fz 0) = true) by (vm_compute; reflexivity). rewrite Z. unfold frgb_to_int. rewrite G1, FloatHue_Proofs.alpha_one, Color_Proofs.lor_pack, Color_Proofs.unpack_pack; auto; unfold byte, rgba_ok in *; cbn; unfold byte; lia.
Qed.
Example float_grey_roundtrip_ex : unpack 0x80808040 = mkRGBA 128 128 128 (cA (unpack 0x80808040)) /\ fset_hsl (fhue_turns 0x80808040) (fsaturation 0x80808040) (flightness 0x80808040) = 0x808080ff%Z.
Proof. vm_compute. auto. Qed.
Print Assumptions float_grey_roundtrip.

(** Color.over: rounding has no part in the blend. Each channel is the exact quotient with its decimals dropped, and the
    alpha is the byte nearest to the exact one. *)
Theorem float_over : forall v1 v2, let s := unpack v1 in let d := unpack v2 in let c := unpack (fover v1 v2) in
  (cA s = 255%Z -> fover v1 v2 = v1) /\ (cA s = 0%Z -> fover v1 v2 = v2) /\
  ((0 < cA s < 255)%Z -> let w := (255 * cA s + (255 - cA s) * cA d)%Z in
   cR c = ((255 * cA s * cR s + (255 - cA s) * cA d * cR d) / w)%Z /\ cG c = ((255 * cA s * cG s + (255 - cA s) * cA d * cG d) / w)%Z /\
   cB c = ((255 * cA s * cB s + (255 - cA s) * cA d * cB d) / w)%Z /\ (2 * Z.abs (255 * cA c - w) < 255)%Z).
Proof.
  intros v1 v2. cbv zeta. split; [|split].
  - intros E. unfold fover. rewrite Color_Proofs.get_alpha_arith, E. reflexivity.
  - intros E. unfold fover. rewrite Color_Proofs.get_alpha_arith, E. reflexivity.
  - intros A. destruct (FloatHue_Proofs.over_bytes v1 v2 A) as (-> & -> & -> & K). repeat split; try (f_equal; ring). rewrite (Z.mul_comm 255 (cA (unpack v1))), (Z.mul_comm (255 - cA (unpack v1))). lia.
Qed.
Example float_over_ex : cA (unpack 0x10203080) = 128%Z /\ fover 0x10203080 0xffeeddcc = 0x797b7ce6%Z.
Proof. vm_compute. auto. Qed.
Print Assumptions float_over.

(** A percentage of rgb(): the nearest byte, but for rounding; outside of 0 to 100 percent the nearest end. *)
Theorem float_percent_partial : forall p, finite p -> Rabs (value p) <= bpow radix2 900 ->
  (value p <= 0 -> fpercent p = 0%Z) /\ (100 <= value p -> fpercent p = 255%Z) /\ (0 <= value p <= 100 -> Rabs (IZR (fpercent p) - 255 / 100 * value p) <= / 2 + / 10000000000000).
Proof. intros p F B. destruct (FloatHue_Proofs.percent_out p F B). split; auto. split; auto. intros R. apply FloatHue_Proofs.percent_near; auto. Qed.
Example float_percent_ex : fpercent (fz 20) = 51%Z /\ fpercent (fz 100) = 255%Z /\ fpercent (fz 101) = 255%Z /\ fpercent (fz (-1)) = 0%Z.
Proof. vm_compute. auto. Qed.
Print Assumptions float_percent_partial.
(** Halves are not rounded one way, nor to the even byte: 10% is 25.5 and becomes 26, 50% is 127.5 and becomes 127. *)
Theorem float_percent_refuted : (exists p n, finite p /\ 255 / 100 * value p = IZR n + / 2 /\ fpercent p = (n + 1)%Z) /\ (exists p n, finite p /\ 255 / 100 * value p = IZR n + / 2 /\ fpercent p = n /\ Z.even n = false).
Proof.
  split; [exists (fz 10), 25%Z; destruct (FloatColor_Proofs.small 10 ltac:(lia)) as [F ->]|exists (fz 50), 127%Z; destruct (FloatColor_Proofs.small 50 ltac:(lia)) as [F ->]]; (split; [exact F|split; [lra|]]).
  - vm_compute. reflexivity.
  - split; vm_compute; reflexivity.
Qed.
Example float_percent_refuted_ex : fpercent (fz 30) = 76%Z /\ fpercent (fz 70) = 178%Z /\ fpercent (fz 90) = 229%Z.
Proof. vm_compute. auto. Qed.
Print Assumptions float_percent_refuted.

(** hsl(): for a hue of -240 to 600 degrees the channels are those of CSS with the decimals dropped, but for rounding; the
    saturation and the lightness are brought to 0 to 100 percent and the opacity to 0 to 1. *)
Theorem float_hsl_text : forall d s l o, finite d -> -240 <= value d <= 600 -> finite s -> Rabs (value s) <= bpow radix2 900 -> finite l -> Rabs (value l) <= bpow radix2 900 -> finite o ->
  exists S L r g b r' g' b', unit_part (value s) S /\ unit_part (value l) L /\
  css_channel 0 (value d / 360) S L r /\ css_channel 8 (value d / 360) S L g /\ css_channel 4 (value d / 360) S L b /\
  Rabs (r' - 255 * r) <= / 1000000000 /\ Rabs (g' - 255 * g) <= / 1000000000 /\ Rabs (b' - 255 * b) <= / 1000000000 /\
  let c := unpack (fparse_hsl d s l o) in cut r' (cR c) /\ cut g' (cG c) /\ cut b' (cB c) /\
  (value o <= 0 -> cA c = 0%Z) /\ (1 <= value o -> cA c = 255%Z) /\ (0 <= value o <= 1 -> Rabs (IZR (cA c) - 255 * value o) <= / 2 + / 10000000000000).
Proof.
  intros d s l o FD RD FS BS FL BL FO. destruct (FloatHue_Proofs.clamp_about s FS BS) as (S & US & RS & AS), (FloatHue_Proofs.clamp_about l FL BL) as (L & UL & RL & AL). pose proof (FloatHue_Proofs.turns_about d FD RD) as AD.
  apply (FloatColor_Proofs.about_le _ _ _ 30) in AS; [|lra]. apply (FloatColor_Proofs.about_le _ _ _ 30) in AL; [|lra].
  destruct (FloatColor_Proofs.rgb_about _ _ _ (value d / 360) S L 30 AD AS AL ltac:(lra) RS RL ltac:(lra)) as (fr & fg & fb & E & AR & AG & AB).
  exists S, L. do 3 eexists. exists (value fr), (value fg), (value fb). split; [exact US|]. split; [exact UL|].
  split; [apply (FloatColor_Proofs.css_T3 0 _ S L (value d / 360 + 1 / 3) 0); lra|]. split; [apply (FloatColor_Proofs.css_T3 8 _ S L (value d / 360) 1); lra|]. split; [apply (FloatColor_Proofs.css_T3 4 _ S L (value d / 360 - 1 / 3) 1); lra|].
  pose proof FloatColor_Proofs.u_tiny. destruct AR as [FR AR], AG as [FG AG], AB as [FB AB]. split; [lra|]. split; [lra|]. split; [lra|].
  cbv zeta. unfold fparse_hsl, fhsl_to_int. rewrite E. destruct (FloatHue_Proofs.packed fr fg fb o FR FG FB) as (C1 & C2 & C3 & ->). destruct (FloatHue_Proofs.alpha_near o FO) as (O1 & O2 & O3). auto 10.
Qed.
(** hsl(120, 100%, 25%): 127.5 becomes 127. *)
Example float_hsl_text_ex : fparse_hsl (fz 120) (fz 100) (fz 25) (fz 1) = 0x007f00ff%Z /\ fparse_hsl (fz 0) (fz 100) (fz 50) (fz 1) = 0xff0000ff%Z.
Proof. vm_compute. auto. Qed.
Print Assumptions float_hsl_text.
(** Beyond that the hue goes wrong: 1000 degrees are black, not 280 degrees. *)
Theorem float_hsl_text_refuted : exists d e, finite d /\ finite e /\ value d = value e + 360 * 2 /\ fparse_hsl d (fz 100) (fz 50) (fz 1) <> fparse_hsl e (fz 100) (fz 50) (fz 1).
Proof.
  exists (fz 1000), (fz 280). destruct (FloatColor_Proofs.small 1000 ltac:(lia)) as [F1 ->], (FloatColor_Proofs.small 280 ltac:(lia)) as [F2 ->]. split; auto. split; auto. split; [lra|]. vm_compute. discriminate.
Qed.
Example float_hsl_text_refuted_ex : fparse_hsl (fz 1000) (fz 100) (fz 50) (fz 1) = 0x000000ff%Z /\ fparse_hsl (fz 280) (fz 100) (fz 50) (fz 1) = 0xaa00ffff%Z.
Proof. vm_compute. auto. Qed.
Print Assumptions float_hsl_text_refuted.
