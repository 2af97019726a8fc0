(** Property theorems about the distance of colours (C126). *)
Require Import ZArith QArith Qround Reals Lra Lia.
Require Import Verif.Base Verif.Color_Model Verif.Color_Proofs Verif.Color_Thms Verif.ColorDist_Model.
Open Scope Z_scope.

(** The redmean distance that the documentation names (compuphase.com/cmetric.htm), squared and times 512, so that it is whole:
    (2 + m / 256) r^2 + 4 g^2 + (2 + (255 - m) / 256) b^2 where m is the mean of the reds. *)
Definition redmean512 (v1 v2 : Z) : Z :=
  let m := get_red v1 + get_red v2 in
  let r := get_red v1 - get_red v2 in
  let g := get_green v1 - get_green v2 in
  let b := get_blue v1 - get_blue v2 in
  (1024 + m) * r ^ 2 + 2048 * g ^ 2 + (1534 - m) * b ^ 2.

(** The distance is that whose square distance_sq is: never negative, the same both ways, and ordered as the squares are. *)
Theorem color_distance_order : forall a b c d,
  (0 <= color_distance a b)%R /\ (color_distance a b * color_distance a b = IZR (distance_sq a b))%R /\ color_distance a b = color_distance b a /\ color_distance a a = 0%R /\
  color_distance_to a b = color_distance a b /\ ((color_distance a b < color_distance c d)%R <-> distance_sq a b < distance_sq c d).
Proof.
  intros a b c d. unfold color_distance_to, color_distance. destruct (color_distance_partial a b) as (P & S & _). destruct (color_distance_partial c d) as (P' & _ & _). destruct (color_distance_partial a a) as (_ & _ & Z0).
  apply IZR_le in P, P'. split; [apply sqrt_pos|]. split; [now apply sqrt_sqrt|]. split; [now rewrite S|]. split; [rewrite Z0; apply sqrt_0|]. split; [reflexivity|]. split; intros H.
  - apply lt_IZR. now apply sqrt_lt_0_alt.
  - apply sqrt_lt_1_alt. split; [exact P|now apply IZR_lt].
Qed.
Print Assumptions color_distance_order.
Example color_distance_order_ex : distance_sq 0x000000ff 0x00ff00ff < distance_sq 0x000000ff 0x000018ff. Proof. vm_compute. reflexivity. Qed.

Lemma half_twice r : Qtrunc (inject_Z (r + r) / 2) = r.
Proof.
  unfold Qtrunc. assert (E : (inject_Z (r + r) / 2 == inject_Z r)%Q) by (unfold Qeq; cbn; lia).
  destruct (Qle_bool 0 (inject_Z (r + r) / 2)); [rewrite E; apply Qfloor_Z|].
  try rewrite E. apply Qceiling_Z.
Qed.
(** Full statement: distance_sq is the redmean distance squared. It is, up to rounding down, for colours that differ in blue only ... *)
Theorem color_distance_redmean_partial : forall a b, get_red a = get_red b -> get_green a = get_green b -> 512 * distance_sq a b <= redmean512 a b < 512 * (distance_sq a b + 1).
Proof.
  intros a b R G. unfold distance_sq, redmean512. rewrite R, G, half_twice, !Z.sub_diag.
  set (r := get_red b). set (x := get_blue a - get_blue b). replace ((512 + r) * 0 * 0) with 0 by ring. change (Z.shiftr 0 8) with 0. rewrite Z.shiftr_div_pow2 by lia. change (2 ^ 8) with 256.
  replace (0 + 4 * 0 * 0 + (767 - r) * x * x) with ((767 - r) * x * x) by ring. replace ((1024 + (r + r)) * 0 ^ 2 + 2048 * 0 ^ 2 + (1534 - (r + r)) * x ^ 2) with (2 * ((767 - r) * x * x)) by ring.
  pose proof (Z.div_mod ((767 - r) * x * x) 256 ltac:(lia)). pose proof (Z.mod_pos_bound ((767 - r) * x * x) 256 ltac:(lia)). lia.
Qed.
Print Assumptions color_distance_redmean_partial.
Example color_distance_redmean_ex : get_red 0x1122ffff = get_red 0x112200ff /\ get_green 0x1122ffff = get_green 0x112200ff /\ distance_sq 0x1122ffff 0x112200ff = 190502.
Proof. repeat split. Qed.
(** ... but 256 times too small for colours that differ in green only, as the last shift is of the whole sum. *)
Theorem color_distance_green : forall a b, get_red a = get_red b -> get_blue a = get_blue b ->
  512 * 256 * distance_sq a b <= redmean512 a b < 512 * 256 * (distance_sq a b + 1).
Proof.
  intros a b R B. unfold distance_sq, redmean512. rewrite R, B, half_twice, !Z.sub_diag.
  set (r := get_red b). set (x := get_green a - get_green b). replace ((512 + r) * 0 * 0) with 0 by ring. change (Z.shiftr 0 8) with 0. rewrite Z.shiftr_div_pow2 by lia. change (2 ^ 8) with 256.
  replace (0 + 4 * x * x + (767 - r) * 0 * 0) with (4 * (x * x)) by ring. replace ((1024 + (r + r)) * 0 ^ 2 + 2048 * x ^ 2 + (1534 - (r + r)) * 0 ^ 2) with (512 * (4 * (x * x))) by ring.
  pose proof (Z.div_mod (4 * (x * x)) 256 ltac:(lia)). pose proof (Z.mod_pos_bound (4 * (x * x)) 256 ltac:(lia)). lia.
Qed.
Print Assumptions color_distance_green.
Example color_distance_green_ex : get_red 0x00ff00ff = get_red 0x000000ff /\ get_blue 0x00ff00ff = get_blue 0x000000ff /\ distance_sq 0x00ff00ff 0x000000ff = 1016 /\ redmean512 0x00ff00ff 0x000000ff = 512 * 260100.
Proof. repeat split. Qed.
(** So colours are ranked otherwise: to black, full green is nearer than a blue that can hardly be told from black, while the redmean
    distance is 150 times as large. *)
Theorem color_distance_rank_refuted : exists a b c, 150 * redmean512 a b < redmean512 a c /\ distance_sq a c < distance_sq a b.
Proof. exists 0x000000ff, 0x000018ff, 0x00ff00ff. split; vm_compute; reflexivity. Qed.
Print Assumptions color_distance_rank_refuted.
(** And it is no metric: a way over a third colour may be shorter, even of length 0. *)
Theorem color_distance_triangle_refuted : exists a b c, (color_distance a b + color_distance b c < color_distance a c)%R.
Proof.
  exists 0x000000ff, 0x000700ff, 0x000e00ff. unfold color_distance.
  change (distance_sq 0x000000ff 0x000700ff) with 0. change (distance_sq 0x000700ff 0x000e00ff) with 0. change (distance_sq 0x000000ff 0x000e00ff) with 3.
  rewrite sqrt_0, Rplus_0_r. apply sqrt_lt_R0. lra.
Qed.
Print Assumptions color_distance_triangle_refuted.
