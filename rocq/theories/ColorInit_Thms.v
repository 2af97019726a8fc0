(** Property theorems about constructing colours (C86). *)
Require Import ZArith QArith Qround List Ascii String Bool Lia Lqa.
Require Import Verif.Base Verif.Text_Spec Verif.Color_Model Verif.Color_Spec
  Verif.Color_Proofs Verif.Color_Proofs2 Verif.Color_Proofs3 Verif.Color_Proofs4 Verif.Color_Thms Verif.ColorInit_Model.
Import ListNotations.
Open Scope Z_scope.

(** * C86 *)
(** The argument that counts for a channel: the later keyword, else the earlier, else what was there. *)
Definition settles (late early : option Q) (old new : Z) : Prop :=
  match late, early with
  | Some q, _ => saturates q new
  | None, Some q => saturates q new
  | None, None => new = old
  end.
Definition settles_alpha (opacity alpha : option Q) (old new : Z) : Prop :=
  match opacity, alpha with
  | Some q, _ => alpha_byte q new
  | None, Some q => saturates q new
  | None, None => new = old
  end.
Definition only_channels (k : ckw) : Prop :=
  kw_rgb k = None /\ kw_argb k = None /\ kw_rgba k = None /\ kw_h k = None /\ kw_s k = None /\ kw_l k = None /\
  kw_hue k = None /\ kw_saturation k = None /\ kw_lightness k = None.
Ltac chan_steps := cbn in *; repeat match goal with H : _ /\ _ |- _ => destruct H end; subst; congruence.
(** Channel keywords on top of any colour. *)
Theorem color_init_channels : forall p k v, color_pos p = Ok (Some v) -> only_channels k ->
  exists w, color_init p k = Ok (Some w) /\
    settles (kw_r k) (kw_red k) (get_red v) (get_red w) /\ settles (kw_g k) (kw_green k) (get_green v) (get_green w) /\
    settles (kw_b k) (kw_blue k) (get_blue v) (get_blue w) /\ settles_alpha (kw_opacity k) (kw_alpha k) (get_alpha v) (get_alpha w).
Proof.
  intros p [kr kg kb ka ko r g b rgb argb rgba h s l hu sa li] v P (A & B & C & D & E & F & G & H & I). cbn in *. subst.
  unfold color_init. cbn [kw_red kw_green kw_blue kw_alpha kw_opacity kw_r kw_g kw_b kw_rgb kw_argb kw_rgba kw_h kw_s kw_l kw_hue kw_saturation kw_lightness].
  rewrite P. clear P.
  assert (X : forall (set : color -> Q -> Res color) (f : Q -> Z -> Z -> Prop) v o, (forall v q, exists v', set (Some v) q = Ok (Some v') /\ f q v v') ->
     exists w, given o set (Ok (Some v)) = Ok (Some w) /\ match o with Some q => f q v w | None => w = v end).
  { intros set f v0 o S. destruct o as [q|]; cbn [given rbind]; [apply S|eauto]. }
  destruct (X set_red _ v kr color_set_red) as (v1 & -> & S1).
  destruct (X set_green _ v1 kg color_set_green) as (v2 & -> & S2).
  destruct (X set_blue _ v2 kb color_set_blue) as (v3 & -> & S3).
  destruct (X set_alpha _ v3 ka color_set_alpha) as (v4 & -> & S4).
  destruct (X set_opacity _ v4 ko color_set_opacity) as (v5 & -> & S5).
  destruct (X set_red _ v5 r color_set_red) as (v6 & -> & S6).
  destruct (X set_green _ v6 g color_set_green) as (v7 & -> & S7).
  destruct (X set_blue _ v7 b color_set_blue) as (v8 & -> & S8).
  cbn [given rbind]. exists v8. split; [reflexivity|]. clear X.
  split; [|split; [|split]].
  - destruct kr, r; unfold settles; destruct kg, kb, ka, ko, g, b; chan_steps.
  - destruct kg, g; unfold settles; destruct kr, kb, ka, ko, r, b; chan_steps.
  - destruct kb, b; unfold settles; destruct kr, kg, ka, ko, r, g; chan_steps.
  - destruct ka, ko; unfold settles_alpha; destruct kr, kg, kb, r, g, b; chan_steps.
Qed.
Example color_init_ex : color_init (Pos1 (AStr (T "#10203040"))) (mkKw (Some 1%Q) None None None (Some (1 # 2)) (Some 300%Q) None None None None None None None None None None None) = Ok (Some 0xff203080).
Proof. vm_compute. reflexivity. Qed.
Print Assumptions color_init_channels.
(** Channels given one by one without anything else make an invisible colour. *)
Theorem color_init_invisible : forall r g b, exists w, color_init Pos0 (mkKw (Some r) (Some g) (Some b) None None None None None None None None None None None None None None) = Ok (Some w) /\ get_alpha w = 0.
Proof.
  intros r g b. destruct (color_init_channels Pos0 (mkKw (Some r) (Some g) (Some b) None None None None None None None None None None None None None None) 0 eq_refl) as (w & E & _ & _ & _ & A).
  - repeat split.
  - exists w. split; auto.
Qed.
Print Assumptions color_init_invisible.
(** Color(red=255) is not Color("#ff0000"). *)
Theorem color_init_opaque_refuted : exists k v, kw_red k = Some 255%Q /\ color_init Pos0 k = Ok (Some v) /\ color_eq_arg (Some v) (AStr (T "red")) = Ok false.
Proof. exists (mkKw (Some 255%Q) (Some 0%Q) (Some 0%Q) None None None None None None None None None None None None None None), 0xff000000. split; [reflexivity|]. split; vm_compute; reflexivity. Qed.
Print Assumptions color_init_opaque_refuted.
(** Four positional channels: the fourth is the alpha byte. *)
Theorem color_init_positional : forall r g b a, exists w, color_init (Pos4 r g b a) no_kw = Ok (Some w) /\
  saturates r (get_red w) /\ saturates g (get_green w) /\ saturates b (get_blue w) /\ alpha_byte (a / 255) (get_alpha w).
Proof.
  intros r g b a. eexists. split; [reflexivity|]. destruct (rgb_to_int_spec r g b (a / 255)%Q) as (x & A & B & ->).
  rewrite get_red_arith, get_green_arith, get_blue_arith, get_alpha_arith, unpack_pack by (repeat split; try apply crimp_byte; apply B).
  cbn [cR cG cB cA]. auto using crimp_saturates.
Qed.
Theorem color_init_positional3 : forall r g b, exists w, color_init (Pos3 r g b) no_kw = Ok (Some w) /\
  saturates r (get_red w) /\ saturates g (get_green w) /\ saturates b (get_blue w) /\ get_alpha w = 255.
Proof.
  intros r g b. eexists. split; [reflexivity|]. rewrite rgb_to_int_opaque.
  rewrite get_red_arith, get_green_arith, get_blue_arith, get_alpha_arith, unpack_pack by (repeat split; try apply crimp_byte; cbn; lia).
  cbn [cR cG cB cA]. auto using crimp_saturates.
Qed.
Example color_init_positional_ex : color_init (Pos4 1 2 3 128) no_kw = Ok (Some 0x01020380) /\ color_init (Pos3 1 (2) 300) no_kw = Ok (Some 0x0102ffff).
Proof. split; vm_compute; reflexivity. Qed.
Print Assumptions color_init_positional.
Print Assumptions color_init_positional3.
(** A fifth argument makes all of them ignored. *)
Theorem color_init_five_refuted : exists p, p = PosMore /\ color_init p no_kw = color_init Pos0 no_kw.
Proof. exists PosMore. split; reflexivity. Qed.
Print Assumptions color_init_five_refuted.
(** Packed forms replace what positional arguments and channel keywords gave; rgba counts before argb before rgb. *)
Definition no_hsl (k : ckw) : Prop :=
  kw_h k = None /\ kw_s k = None /\ kw_l k = None /\ kw_hue k = None /\ kw_saturation k = None /\ kw_lightness k = None.
Theorem color_init_packed : forall p k v, color_pos p = Ok (Some v) -> no_hsl k ->
  (forall o, kw_rgba k = Some o -> color_init p k = Ok o) /\
  (forall n, kw_rgba k = None -> kw_argb k = Some n -> 0 <= n < 2 ^ 32 -> exists w, color_init p k = Ok (Some w) /\ get_argb w = n) /\
  (forall n, kw_rgba k = None -> kw_argb k = None -> kw_rgb k = Some n -> exists w, color_init p k = Ok (Some w) /\ get_rgb w = n /\ get_alpha w = 255).
Proof.
  intros p [kr kg kb ka ko r g b rgb argb rgba h s l hu sa li] v P (D & E & F & G & H & I). cbn [kw_rgb kw_argb kw_rgba kw_h kw_s kw_l kw_hue kw_saturation kw_lightness] in *. subst.
  destruct (color_init_channels p (mkKw kr kg kb ka ko r g b None None None None None None None None None) v P) as (w & W & _); [repeat split|].
  unfold color_init in *. cbn [kw_red kw_green kw_blue kw_alpha kw_opacity kw_r kw_g kw_b kw_rgb kw_argb kw_rgba kw_h kw_s kw_l kw_hue kw_saturation kw_lightness] in *.
  assert (N : forall c, given (@None Q) set_hue c = c /\ given (@None Q) set_saturation c = c /\ given (@None Q) set_lightness c = c /\
    given (@None Z) (fun _ n => Ok (Some (set_rgb n))) c = c /\ given (@None Z) (fun _ n => Ok (Some (set_argb n))) c = c /\ given (@None (option Z)) (fun _ n => Ok n) c = c).
  { intros [c|e]; repeat split; reflexivity. }
  assert (N1 := fun c => proj1 (N c)). assert (N2 := fun c => proj1 (proj2 (N c))). assert (N3 := fun c => proj1 (proj2 (proj2 (N c)))).
  assert (N4 := fun c => proj1 (proj2 (proj2 (proj2 (N c))))). assert (N5 := fun c => proj1 (proj2 (proj2 (proj2 (proj2 (N c)))))). assert (N6 := fun c => proj2 (proj2 (proj2 (proj2 (proj2 (N c)))))).
  rewrite ?N1, ?N2, ?N3, ?N4, ?N5, ?N6, ?N1, ?N2, ?N3 in W. rewrite ?N1, ?N2, ?N3, ?N1, ?N2, ?N3. rewrite W.
  split; [|split].
  - intros o ->. destruct rgb, argb; reflexivity.
  - intros n -> -> B. exists (set_argb n). split; [destruct rgb; reflexivity|]. apply color_argb_write_read; auto.
  - intros n -> -> ->. exists (set_rgb n). split; [reflexivity|]. apply color_rgb_write_read.
Qed.
Example color_init_packed_ex : color_init Pos0 (mkKw (Some 9%Q) None None None None None None None (Some 0x112233) (Some 0x80112233) None None None None None None None) = Ok (Some 0x11223380). Proof. vm_compute. reflexivity. Qed.
Print Assumptions color_init_packed.
(** Channels of the None colour cannot be set. *)
Theorem color_init_none : forall k q, kw_red k = Some q -> color_init (Pos1 (AStr (T "none"))) k = Err ValueError.
Proof. intros k q R. unfold color_init. rewrite R. reflexivity. Qed.
Print Assumptions color_init_none.

(** Hue, saturation and lightness *)
Lemma hue_2_rgb_zero : forall v1 v2 vh, (v1 == 0)%Q -> (v2 == 0)%Q -> (hue_2_rgb v1 v2 vh == 0)%Q.
Proof.
  intros v1 v2 vh A B. unfold hue_2_rgb. set (h1 := if Qltb vh 0 then (vh + 1)%Q else vh). set (h2 := if Qltb 1 h1 then (h1 - 1)%Q else h1).
  destruct (Qltb (6 * h2) 1); [rewrite A, B; ring|]. destruct (Qltb (2 * h2) 1); [auto|]. destruct (Qltb (3 * h2) 2); [rewrite A, B; ring|auto].
Qed.
Lemma hsl_black : forall h s l, (l == 0)%Q -> hsl_to_int h s l 1 = 255.
Proof.
  intros h s l L. unfold hsl_to_int, hsl_to_rgbq. destruct (Qeq_bool s 0).
  - rewrite (rgb_to_int_Qeq _ 0 _ 0 _ 0 1 1); try reflexivity; rewrite L; reflexivity.
  - set (v2 := if Qltb l (1 # 2) then (l * (1 + s))%Q else ((l + s) - (s * l))%Q).
    assert (V : (v2 == 0)%Q).
    { unfold v2. rewrite (Qltb_Qeq l 0 (1 # 2) (1 # 2)) by (auto; reflexivity). change (Qltb 0 (1 # 2)) with true. cbn iota. rewrite L. ring. }
    assert (V1 : (2 * l - v2 == 0)%Q) by (rewrite L, V; ring).
    rewrite (rgb_to_int_Qeq _ 0 _ 0 _ 0 1 1); try reflexivity; rewrite hue_2_rgb_zero by auto; reflexivity.
Qed.
Lemma hsl_kw_grey : forall h s l, given (Some l) set_lightness (given (Some s) set_saturation (given (Some h) set_hue (Ok (Some 0)))) = Ok (Some (rgb_to_int (255 * l) (255 * l) (255 * l) 1)).
Proof.
  intros h s l.
  assert (A : given (Some h) set_hue (Ok (Some 0)) = Ok (Some 255)).
  { unfold given, rbind, set_hue, set_hsl. rewrite hsl_black by (vm_compute; reflexivity). reflexivity. }
  assert (B : given (Some s) set_saturation (Ok (Some 255)) = Ok (Some 255)).
  { unfold given, rbind, set_saturation, set_hsl. rewrite hsl_black by (vm_compute; reflexivity). reflexivity. }
  rewrite A, B. unfold given, rbind, set_lightness, set_hsl, hsl_to_int, hsl_to_rgbq.
  replace (Qeq_bool (get_saturation 255) 0) with true by (vm_compute; reflexivity). reflexivity.
Qed.
(** h, s and l given without a colour always make a grey. *)
Theorem color_init_hsl_grey : forall h s l, exists w,
  color_init Pos0 (mkKw None None None None None None None None None None None (Some h) (Some s) (Some l) None None None) = Ok (Some w) /\
  color_init Pos0 (mkKw None None None None None None None None None None None None None None (Some h) (Some s) (Some l)) = Ok (Some w) /\
  get_red w = get_green w /\ get_green w = get_blue w.
Proof.
  intros h s l. exists (rgb_to_int (255 * l) (255 * l) (255 * l) 1). split; [|split].
  - change (given (Some l) set_lightness (given (Some s) set_saturation (given (Some h) set_hue (Ok (Some 0)))) = Ok (Some (rgb_to_int (255 * l) (255 * l) (255 * l) 1))). apply hsl_kw_grey.
  - change (given (Some l) set_lightness (given (Some s) set_saturation (given (Some h) set_hue (Ok (Some 0)))) = Ok (Some (rgb_to_int (255 * l) (255 * l) (255 * l) 1))). apply hsl_kw_grey.
  - rewrite rgb_to_int_opaque. rewrite get_red_arith, get_green_arith, get_blue_arith, unpack_pack by (repeat split; try apply crimp_byte; cbn; lia). split; reflexivity.
Qed.
Print Assumptions color_init_hsl_grey.
(** Color(h=1/3, s=1, l=1/2) is not the green that setting hsl makes. *)
Theorem color_init_hsl_refuted : exists h s l w, color_init Pos0 (mkKw None None None None None None None None None None None (Some h) (Some s) (Some l) None None None) = Ok (Some w) /\ set_hsl h s l = Some 0x00ff00ff /\ w = 0x7f7f7fff.
Proof. exists (1 # 3)%Q, 1%Q, (1 # 2)%Q. eexists. split; [vm_compute; reflexivity|]. split; vm_compute; reflexivity. Qed.
Print Assumptions color_init_hsl_refuted.
(** On top of a colour, setting any of them makes it opaque. *)
Theorem color_init_hue_opaque : forall p v h, color_pos p = Ok (Some v) ->
  exists w, color_init p (mkKw None None None None None None None None None None None (Some h) None None None None None) = Ok (Some w) /\ get_alpha w = 255.
Proof.
  intros p v h P. unfold color_init. cbn [kw_red kw_green kw_blue kw_alpha kw_opacity kw_r kw_g kw_b kw_rgb kw_argb kw_rgba kw_h kw_s kw_l kw_hue kw_saturation kw_lightness].
  rewrite P. cbn [given rbind set_hue]. eexists. split; [reflexivity|]. unfold hsl_to_int. destruct (hsl_to_rgbq _ _ _) as [[r g] b]. rewrite rgb_to_int_opaque.
  rewrite get_alpha_arith, unpack_pack by (repeat split; try apply crimp_byte; cbn; lia). reflexivity.
Qed.
Print Assumptions color_init_hue_opaque.
Example color_init_hue_opaque_ex : color_init (Pos1 (AStr (T "#ff000080"))) (mkKw None None None None None None None None None None None (Some (1 # 3)%Q) None None None None None) = Ok (Some 0x00ff00ff).
Proof. vm_compute. reflexivity. Qed.
