Require Import ZArith QArith Qabs Qreals Reals Ascii String List Bool Lqa Lia Lra.
From Flocq Require Import Core BinarySingleNaN.
Require Import Verif.Base Verif.Text_Spec Verif.Text_Proofs Verif.Color_Spec Verif.Fmt_Model Verif.Length_Model Verif.Length_Spec Verif.Length_Proofs Verif.FmtG_Model Verif.PointText_Spec
  Verif.Float_Model Verif.Float_Spec Verif.Float_Proofs Verif.FloatView_Model Verif.FloatView_Proofs Verif.FloatText_Model Verif.FloatText_Spec Verif.FloatText_Proofs.
Import ListNotations.
Open Scope R_scope.

Ltac lok := unfold lit_ok; cbn; repeat match goal with
  | |- is_dig _ => unfold is_dig; lia | |- _ /\ _ => split | |- Forall _ _ => constructor | |- True => exact I
  | |- _ <> _ => discriminate | |- _ \/ _ => first [left; discriminate | right; discriminate] end.
(** * C111: what is written is read back, and written the same *)
(** Reading a number gives the nearest float. *)
Theorem float_reads_nearest : forall l, lit_ok l -> Rabs (Q2R (lit_val l)) <= bpow radix2 1000 ->
  exists y, ffloat (lit_text l) = Ok y /\ reads (Q2R (lit_val l)) y.
Proof.
  intros l L B. assert (BR : Rabs (rnd (Q2R (Qabs (lit_val l)))) < bpow radix2 1024). { apply rnd_big. rewrite Q2R_abs, Rabs_Rabsolu. eapply Rle_trans; [exact B|apply bpow_le; lia]. }
  destruct (ffnum_spec l (Qabs (lit_val l)) L ltac:(reflexivity) BR) as (F & V & S).
  exists (ffnum (fnum_of l)). split; [apply ffloat_lit; auto|]. split; auto. intros z Z. rewrite V, <- rnd_signed, <- lit_signed by auto. apply rnd_nearest.
Qed.
(** Length.str, for every finite float: reading the text gives a float at most 1e-12 away, and the very same one from 8192 on;
    writing that gives the same text again. So a second save changes nothing. *)
Theorem float_str_settles : forall x, finite x -> exists y, ffloat (flength_str x) = Ok y /\ finite y /\
  Rabs (value y - value x) <= / 1000000000000 /\ flength_str y = flength_str x /\ (8192 <= Rabs (value x) -> y = x).
Proof.
  intros x F. destruct (twelve_lit x F) as (l & y & L & _ & E & Y & G & N & S & B). exists y. rewrite E at 1. rewrite ffloat_lit, Y by auto. rewrite <- Y. auto.
Qed.
(** Numbers read from at most 12 decimals, up to 4096, are read back exactly. *)
Theorem float_str_short : forall l k, lit_ok l -> (Qabs (lit_val l) * inject_Z (10 ^ 12) == inject_Z k)%Q -> (k <= 4096 * 10 ^ 12)%Z ->
  exists x, ffloat (lit_text l) = Ok x /\ finite x /\ ffloat (flength_str x) = Ok x.
Proof. exact twelve_short. Qed.
(** Smaller numbers lose digits, the tiniest all of them. *)
Theorem float_str_same_refuted : exists x y, finite x /\ value x <> 0 /\ ffloat (flength_str x) = Ok y /\ value y = 0.
Proof.
  set (x := fratio false 1 10000000000000).
  assert (F : finite x) by (vm_compute; reflexivity).
  exists x, (B754_zero false). split; auto. split; [|split; [|reflexivity]].
  - apply Rgt_not_eq. rewrite <- f2q_value. apply Rle_lt_trans with (Q2R 0); [unfold Q2R; cbn; lra|apply Qlt_Rlt; vm_compute; reflexivity].
  - replace (flength_str x) with (lit_text (mkLit SNone [0%Z] [] None)) by (vm_compute; reflexivity). rewrite ffloat_lit by lok.
    f_equal.
Qed.
(** Lengths, with their units. *)
Theorem float_length_settles : forall a u, finite a -> forallb is_unit_char (T u) = true -> exists b,
  flen_of_text (flen_str (mkFlen a (unit_of_text (T u)))) = mkFlen b (unit_of_text (T u)) /\ Rabs (value b - value a) <= / 1000000000000 /\
  flen_str (mkFlen b (unit_of_text (T u))) = flen_str (mkFlen a (unit_of_text (T u))) /\ (8192 <= Rabs (value a) -> b = a).
Proof.
  intros a u F HU. destruct (twelve_lit a F) as (l & y & L & X & E & Y & G & N & S & B). exists y. unfold flen_str. cbn [famount funits]. rewrite S. rewrite unit_text_of.
  split; [|auto]. rewrite E, flen_of_lit, <- Y by auto. reflexivity.
Qed.
(** The text of a viewbox. *)
Theorem float_viewbox_text_settles : forall x y w h, finite x -> finite y -> finite w -> finite h -> exists x' y' w' h',
  ffind_floats 0 (fvb_str x y w h) = [x'; y'; w'; h'] /\ fvb_str x' y' w' h' = fvb_str x y w h /\
  Rabs (value x' - value x) <= / 1000000000000 /\ Rabs (value y' - value y) <= / 1000000000000 /\
  Rabs (value w' - value w) <= / 1000000000000 /\ Rabs (value h' - value h) <= / 1000000000000.
Proof.
  intros x y w h F1 F2 F3 F4. destruct (twelve_lit x F1) as (l1 & a & L1 & _ & E1 & Y1 & _ & N1 & S1 & _), (twelve_lit y F2) as (l2 & b & L2 & _ & E2 & Y2 & _ & N2 & S2 & _),
    (twelve_lit w F3) as (l3 & c & L3 & _ & E3 & Y3 & _ & N3 & S3 & _), (twelve_lit h F4) as (l4 & d & L4 & _ & E4 & Y4 & _ & N4 & S4 & _).
  exists a, b, c, d. split; [|split; auto]. - unfold fvb_str. rewrite E1, E2, E3, E4, ffind_vb, <- Y1, <- Y2, <- Y3, <- Y4 by auto. reflexivity.
  - unfold fvb_str. rewrite S1, S2, S3, S4. reflexivity.
Qed.
(** Points: coordinates written plainly, or with an exponent not ending in 0, are read back with 11 digits right and written the same. *)
Theorem float_point_settles : forall p, good_coord (fx p) -> good_coord (fy p) -> exists q, fpoint_of_text (fpoint_str p) = Ok q /\ fpoint_str q = fpoint_str p /\
  Rabs (value (fx q) - value (fx p)) <= / 199000000000 * Rabs (value (fx p)) /\ Rabs (value (fy q) - value (fy p)) <= / 199000000000 * Rabs (value (fy p)).
Proof.
  intros [a b] A B. cbn [fx fy] in *. destruct (coord_settles a A) as (l1 & x & L1 & E1 & X & _ & S1 & N1), (coord_settles b B) as (l2 & y & L2 & E2 & Y & _ & S2 & N2).
  exists (FP x y). unfold fpoint_str. cbn [fx fy]. rewrite S1, S2. split; [|auto]. rewrite E1, E2, fpoint_of_lits, <- X, <- Y by auto. reflexivity.
Qed.
(** 1.5e-10 is written 1.5E-1. *)
Theorem float_point_settles_refuted : exists p q, finite (fx p) /\ finite (fy p) /\ fpoint_of_text (fpoint_str p) = Ok q /\ value (fx p) < / 1000000000 /\ / 10 < value (fx q).
Proof.
  set (x := fratio false 3 20000000000). set (l := mkLit SNone [1%Z] [5%Z] (Some (true, SMinus, [1%Z]))). set (y := ffnum (fnum_of l)).
  exists (FP x (B754_zero false)), (FP y (B754_zero false)). split; [vm_compute; reflexivity|]. split; [reflexivity|]. split; [|split].
  - replace (fpoint_str (FP x (B754_zero false))) with (lit_text l ++ ","%char :: lit_text (mkLit SNone [0%Z] [] None)) by (vm_compute; reflexivity).
    rewrite fpoint_of_lits; [reflexivity|lok|lok].
  - cbn [fx]. rewrite <- f2q_value. apply Rlt_le_trans with (Q2R (1 # 1000000000)); [apply Qlt_Rlt; vm_compute; reflexivity|unfold Q2R; cbn; lra].
  - cbn [fx]. rewrite <- f2q_value. apply Rle_lt_trans with (Q2R (1 # 10)); [unfold Q2R; cbn; lra|apply Qlt_Rlt; vm_compute; reflexivity].
Qed.

Example float_text_ex :
  flength_str (fratio true 1 3) = T "-0.333333333333" /\ flength_str (fratio false 1000000000000000000000001 100) = T "10000000000000000000000" /\
  flen_str (mkFlen (fratio false 2 3) (unit_of_text (T "mm"))) = T "0.666666666667mm" /\ flength_str (B754_zero true) = T "-0" /\
  fvb_str (fz 0) (fratio true 1 10) (fratio false 1 7) (fz 100) = T "0 -0.1 0.142857142857 100" /\
  fpoint_str (FP (fratio false 1 3) (fratio true 1 30000000)) = T "0.333333333333,-3.33333333333E-08".
Proof. repeat split; vm_compute; reflexivity. Qed.
Example float_reads_ex : exists y, ffloat (T "-.1e3") = Ok y /\ reads (Q2R (lit_val (mkLit SMinus [] [1%Z] (Some (false, SNone, [3%Z]))))) y.
Proof.
  apply (float_reads_nearest (mkLit SMinus [] [1%Z] (Some (false, SNone, [3%Z])))).
  - lok.
  - replace (Q2R _) with (-100) by (unfold Q2R; cbn; lra). rewrite Rabs_left by lra. apply Rle_trans with (bpow radix2 7); [change (bpow radix2 7) with 128; lra|apply bpow_le; lia].
Qed.
Example float_short_ex : exists x, ffloat (T "12.7") = Ok x /\ finite x /\ ffloat (flength_str x) = Ok x.
Proof.
  apply (float_str_short (mkLit SNone [1; 2]%Z [7%Z] None) 12700000000000); [|vm_compute; reflexivity|lia].
  lok.
Qed.
Example float_point_ex : exists q, fpoint_of_text (T "0.333333333333,-3.33333333333E-08") = Ok q /\ fpoint_str q = T "0.333333333333,-3.33333333333E-08".
Proof.
  set (p := FP (fratio false 1 3) (fratio true 1 30000000)). assert (PX : fpoint_str p = T "0.333333333333,-3.33333333333E-08") by (vm_compute; reflexivity).
  assert (S : forall x, Qle_bool (1 # 1000000000) (Qabs (f2q x)) = true -> Qle_bool (Qabs (f2q x)) 1 = true -> bpow radix2 (-1000) <= Rabs (value x) <= bpow radix2 1000).
  { intros x A B. apply Qle_bool_imp_le in A, B. apply Qreals.Qle_Rle in A, B. rewrite Q2R_abs, f2q_value in A, B. split.
    - eapply Rle_trans; [|exact A]. apply Rle_trans with (bpow radix2 (-30)); [apply bpow_le; lia|]. change (bpow radix2 (-30)) with (/ 1073741824). unfold Q2R. cbn. lra.
    - eapply Rle_trans; [exact B|]. replace (Q2R 1) with (bpow radix2 0) by (unfold Q2R; cbn; lra). apply bpow_le. lia. }
  destruct (float_point_settles p) as (q & R & W & _).
  - split; [vm_compute; reflexivity|]. split; [right; apply S; vm_compute; reflexivity|]. left. right. split; apply Qle_bool_imp_le; vm_compute; reflexivity.
  - split; [vm_compute; reflexivity|]. split; [right; apply S; vm_compute; reflexivity|]. right. exists (-8)%Z. unfold scientific.
    split; [split; [apply Qle_bool_imp_le; vm_compute; reflexivity|apply Qle_bool_imp_le; vm_compute; reflexivity]|]. split; [left; lia|vm_compute; discriminate].
  - exists q. rewrite <- PX. auto.
Qed.
Print Assumptions float_reads_nearest.
Print Assumptions float_str_settles.
Print Assumptions float_str_short.
Print Assumptions float_str_same_refuted.
Print Assumptions float_length_settles.
Print Assumptions float_viewbox_text_settles.
Print Assumptions float_point_settles.
Print Assumptions float_point_settles_refuted.
