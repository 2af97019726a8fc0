(** Orientation and convex hull in floating point. *)
Require Import ZArith Reals List Permutation Bool Lra Lia.
From Flocq Require Import Core BinarySingleNaN.
Require Import Verif.Point_Model Verif.Base Verif.Float_Model Verif.Float_Spec Verif.Float_Proofs Verif.FloatBox_Proofs Verif.FloatWalk_Proofs Verif.Float_Thms Verif.FloatDist_Spec Verif.FloatDist_Proofs Verif.FloatDist_Thms Verif.FloatHull_Model Verif.FloatHull_Spec Verif.FloatHull_Proofs.
Import ListNotations.
Open Scope R_scope.

Lemma orient_sign : forall p q r, forientation p q r = Hull_Model.orientation (q2 p) (q2 q) (q2 r) ->
  (forientation p q r = 0%Z <-> farea p q r = 0) /\ (forientation p q r = 1%Z <-> farea p q r < 0) /\ (forientation p q r = 2%Z <-> 0 < farea p q r).
Proof.
  intros p q r ->. rewrite orientation_q, val_area. destruct (Req_EM_T (- farea p q r) 0); [|destruct (Rlt_dec 0 (- farea p q r))]; repeat split; intros; try discriminate; try reflexivity; lra.
Qed.
Lemma fpz_whole25 : forall x y, (Z.abs x <= 2 ^ 25)%Z -> (Z.abs y <= 2 ^ 25)%Z -> whole_pt (2 ^ 25) (fpz x y).
Proof. intros x y X Y. split; [exists x|exists y]; (split; [apply fz_is; lia|auto]). Qed.
Lemma fpz_area : forall a b c d e f, (Z.abs a <= 2 ^ 25)%Z -> (Z.abs b <= 2 ^ 25)%Z -> (Z.abs c <= 2 ^ 25)%Z -> (Z.abs d <= 2 ^ 25)%Z -> (Z.abs e <= 2 ^ 25)%Z -> (Z.abs f <= 2 ^ 25)%Z ->
  farea (fpz a b) (fpz c d) (fpz e f) = IZR ((c - a) * (f - b) - (d - b) * (e - a)).
Proof.
  intros a b c d e f A B C D E F. unfold farea, fpz, place. cbn [px py fx fy]. rewrite (proj2 (fz_is a ltac:(lia))), (proj2 (fz_is b ltac:(lia))), (proj2 (fz_is c ltac:(lia))), (proj2 (fz_is d ltac:(lia))), (proj2 (fz_is e ltac:(lia))), (proj2 (fz_is f ltac:(lia))).
  rewrite minus_IZR, !mult_IZR, !minus_IZR. reflexivity.
Qed.

(** On a grid - whole coordinates up to 2^25 - Point.orientation decides exactly: 0 on a line, 1 to the right, 2 to the left. *)
Theorem float_orientation_whole : forall p q r, whole_pt (2 ^ 25) p -> whole_pt (2 ^ 25) q -> whole_pt (2 ^ 25) r ->
  (forientation p q r = 0%Z <-> farea p q r = 0) /\ (forientation p q r = 1%Z <-> farea p q r < 0) /\ (forientation p q r = 2%Z <-> 0 < farea p q r).
Proof. intros p q r P Q R. apply orient_sign, orient_whole; auto. Qed.
Print Assumptions float_orientation_whole.
Example float_orientation_whole_case : whole_pt (2 ^ 25) (fpz 33554432 (-33554432)) /\ whole_pt (2 ^ 25) (fpz 0 0) /\ whole_pt (2 ^ 25) (fpz (-33554431) 33554432) /\
  farea (fpz 33554432 (-33554432)) (fpz 0 0) (fpz (-33554431) 33554432) = -33554432 /\ forientation (fpz 33554432 (-33554432)) (fpz 0 0) (fpz (-33554431) 33554432) = 1%Z.
Proof. split; [apply fpz_whole25; lia|]. split; [apply fpz_whole25; lia|]. split; [apply fpz_whole25; lia|]. split; [rewrite fpz_area by lia; apply f_equal; reflexivity|vm_compute; reflexivity]. Qed.

(** Anywhere else it gets right every triangle with more than 2^-48 M^2 of area (doubled), M being the largest coordinate. *)
Theorem float_orientation_partial : forall M p q r, 0 <= M <= bpow radix2 500 -> within M p -> within M q -> within M r ->
  bpow radix2 (-48) * (M * M) + bpow radix2 (-1074) < Rabs (farea p q r) ->
  (forientation p q r = 1%Z <-> farea p q r < 0) /\ (forientation p q r = 2%Z <-> 0 < farea p q r).
Proof. intros M p q r HM P Q R A. apply (proj2 (orient_sign p q r (orient_margin M p q r HM P Q R ltac:(rewrite margin_bpow, val_area, Rabs_Ropp; exact A)))). Qed.
Print Assumptions float_orientation_partial.
Definition tri : list fpt := [FP (fd 5404319552844595 (-54)) (fz 0); FP (fz 1) (fd 1 (-1)); FP (fd 1 (-2)) (fz 2)].
Lemma tri_within : Forall (within 2) tri.
Proof.
  assert (G : forall m e r, is (fd m e) r -> - 2 <= r <= 2 -> finite (fd m e) /\ Rabs (value (fd m e)) <= 2) by (intros m e r [F V] B; split; [exact F|rewrite V; apply abs_le; lra]).
  assert (G' : forall z, (-2 <= z <= 2)%Z -> finite (fz z) /\ Rabs (value (fz z)) <= 2) by (intros z B; destruct (fz_is z ltac:(lia)) as [F V]; split; [exact F|rewrite V; apply abs_le; destruct B as [B1 B2]; apply IZR_le in B1; apply IZR_le in B2; lra]).
  assert (H1 := G _ _ _ (fd_is 5404319552844595 (-54) ltac:(lia) ltac:(lia))). assert (H2 := G _ _ _ (fd_is 1 (-1) ltac:(lia) ltac:(lia))). assert (H3 := G _ _ _ (fd_is 1 (-2) ltac:(lia) ltac:(lia))).
  change (bpow radix2 (-54)) with (/ 18014398509481984) in H1. change (bpow radix2 (-1)) with (/ 2) in H2. change (bpow radix2 (-2)) with (/ 4) in H3.
  destruct H1 as [A1 A2]; [lra|]. destruct H2 as [B1 B2]; [lra|]. destruct H3 as [C1 C2]; [lra|]. destruct (G' 0%Z ltac:(lia)). destruct (G' 1%Z ltac:(lia)). destruct (G' 2%Z ltac:(lia)).
  unfold tri. repeat apply Forall_cons; try apply Forall_nil; (split; [split; assumption|split; assumption]).
Qed.
Lemma tri_area : exists a b c, tri = [a; b; c] /\ 1 < farea a b c /\ place a = P (value (fd 5404319552844595 (-54))) 0 /\ place b = P 1 (/ 2) /\ place c = P (/ 4) 2 /\ value (fd 5404319552844595 (-54)) = 5404319552844595 / 18014398509481984.
Proof.
  eexists _, _, _. split; [reflexivity|]. unfold farea, place. cbn [px py fx fy]. rewrite (proj2 (fd_is 5404319552844595 (-54) ltac:(lia) ltac:(lia))), (proj2 (fd_is 1 (-1) ltac:(lia) ltac:(lia))), (proj2 (fd_is 1 (-2) ltac:(lia) ltac:(lia))), (proj2 (fz_is 0 ltac:(lia))), (proj2 (fz_is 1 ltac:(lia))), (proj2 (fz_is 2 ltac:(lia))).
  change (bpow radix2 (-54)) with (/ 18014398509481984). change (bpow radix2 (-1)) with (/ 2). change (bpow radix2 (-2)) with (/ 4). repeat split; try (f_equal; lra); lra.
Qed.
Lemma small_margin : bpow radix2 (-48) * (2 * 2) + bpow radix2 (-1074) < 1.
Proof.
  change (bpow radix2 (-48)) with (/ 281474976710656). assert (bpow radix2 (-1074) <= bpow radix2 (-2)) by (apply bpow_le; lia). change (bpow radix2 (-2)) with (/ 4) in H. lra.
Qed.
Lemma two_moderate : 0 <= 2 <= bpow radix2 500.
Proof. split; [lra|]. change 2 with (bpow radix2 1) at 1. apply bpow_le. lia. Qed.
Example float_orientation_case : exists a b c, tri = [a; b; c] /\ Forall (within 2) tri /\ bpow radix2 (-48) * (2 * 2) + bpow radix2 (-1074) < Rabs (farea a b c) /\ forientation a b c = 2%Z.
Proof.
  destruct tri_area as (a & b & c & E & A & _). exists a, b, c. split; [exact E|]. split; [apply tri_within|]. pose proof small_margin. split; [rewrite Rabs_pos_eq by lra; lra|].
  unfold tri in E. injection E as <- <- <-. vm_compute. reflexivity.
Qed.

(** convex_hull of points on a grid, no three of them on a line: it ends after as many rounds as there are points, and what it
    returns is a convex polygon around them, exactly. *)
Theorem float_hull_whole : forall s, s <> [] -> Forall (whole_pt (2 ^ 25)) s -> no_repeats s -> spread 0 s ->
  exists h, encloses h s /\ forall k, (List.length s <= k)%nat -> fconvex_hull k s = Some h.
Proof.
  intros s NE W NR SP. rewrite Forall_forall in W. apply hull_final; auto.
  - apply Forall_forall. intros p P. apply (whole25_moderate p (W p P)).
  - intros p q r P Q R. apply orient_whole; auto.
Qed.
Print Assumptions float_hull_whole.
Lemma three_places : forall a b c (Q : fpt -> fpt -> fpt -> Prop), (Q a b c /\ Q b c a /\ Q c a b /\ Q a c b /\ Q c b a /\ Q b a c) ->
  forall x y z, In x [a; b; c] -> In y [a; b; c] -> In z [a; b; c] -> place x <> place y -> place y <> place z -> place x <> place z -> Q x y z.
Proof. intros a b c Q (A & B & C & D & E & F) x y z [<-|[<-|[<-|[]]]] [<-|[<-|[<-|[]]]] [<-|[<-|[<-|[]]]] H1 H2 H3; try contradiction; assumption. Qed.
Lemma area_cycle : forall a b c, farea b c a = farea a b c /\ farea a c b = - farea a b c.
Proof. intros a b c. unfold farea. split; ring. Qed.
Lemma spread_three : forall a b c e, e < Rabs (farea a b c) -> spread e [a; b; c].
Proof.
  intros a b c e H x y z X Y Z. revert x y z X Y Z. apply three_places. destruct (area_cycle a b c) as [E1 E2]. destruct (area_cycle b c a) as [E3 E4]. destruct (area_cycle c a b) as [E5 E6].
  rewrite E2, E4, E6, E3, E1, Rabs_Ropp. repeat split; exact H.
Qed.
Example float_hull_whole_case : Forall (whole_pt (2 ^ 25)) [fpz 0 0; fpz 33554432 0; fpz 5 33554432] /\ no_repeats [fpz 0 0; fpz 33554432 0; fpz 5 33554432] /\ spread 0 [fpz 0 0; fpz 33554432 0; fpz 5 33554432] /\
  option_map (@List.length fpt) (fconvex_hull 3 [fpz 0 0; fpz 33554432 0; fpz 5 33554432]) = Some 3%nat.
Proof.
  split; [repeat apply Forall_cons; try apply Forall_nil; apply fpz_whole25; lia|]. split.
  - unfold no_repeats. cbn [map]. unfold place, fpz. cbn [fx fy]. rewrite (proj2 (fz_is 0 ltac:(lia))), (proj2 (fz_is 33554432 ltac:(lia))), (proj2 (fz_is 5 ltac:(lia))). repeat constructor; cbn [In]; intros C; repeat destruct C as [C|C]; try (injection C; lra); auto; injection C; lra.
  - split; [apply spread_three; rewrite fpz_area by lia; rewrite Rabs_pos_eq; [apply IZR_lt; reflexivity|apply IZR_le; lia]|vm_compute; reflexivity].
Qed.

(** On a grid it always ends, three points on a line or not. *)
Theorem float_hull_ends : forall s, Forall (whole_pt (2 ^ 25)) s -> no_repeats s ->
  exists h, incl h s /\ no_repeats h /\ (s <> [] -> h <> []) /\ forall k, (List.length s <= k)%nat -> fconvex_hull k s = Some h.
Proof.
  intros s W NR. rewrite Forall_forall in W. apply hull_final_ends; auto.
  - apply Forall_forall. intros p P. apply (whole25_moderate p (W p P)).
  - intros p q r P Q R. apply orient_whole; auto.
Qed.
Print Assumptions float_hull_ends.
Example float_hull_ends_case : Forall (whole_pt (2 ^ 25)) [fpz 0 3; fpz 2 9; fpz 3 12] /\ no_repeats [fpz 0 3; fpz 2 9; fpz 3 12] /\ option_map (@List.length fpt) (fconvex_hull 3 [fpz 0 3; fpz 2 9; fpz 3 12]) = Some 2%nat.
Proof.
  split; [repeat apply Forall_cons; try apply Forall_nil; apply fpz_whole25; lia|]. split; [|vm_compute; reflexivity].
  unfold no_repeats. cbn [map]. unfold place, fpz. cbn [fx fy]. rewrite (proj2 (fz_is 0 ltac:(lia))), (proj2 (fz_is 2 ltac:(lia))), (proj2 (fz_is 3 ltac:(lia))). repeat constructor; cbn [In]; intros C; repeat destruct C as [C|C]; try (injection C; intros; lra); auto; injection C; intros; lra.
Qed.

(** The same away from the grid when every triangle of the points has more than 2^-48 M^2 of area (doubled). *)
Theorem float_hull_partial : forall M s, 0 <= M <= bpow radix2 500 -> s <> [] -> Forall (within M) s -> no_repeats s ->
  spread (bpow radix2 (-48) * (M * M) + bpow radix2 (-1074)) s ->
  exists h, encloses h s /\ forall k, (List.length s <= k)%nat -> fconvex_hull k s = Some h.
Proof.
  intros M s HM NE W NR SP. rewrite <- margin_bpow in SP. rewrite Forall_forall in W. assert (MO : forall p, In p s -> moderate p) by (intros p P; destruct (W p P) as (F & A & B); split; [exact F|split; lra]). apply hull_final; auto.
  - apply Forall_forall. intros p P. apply (W p P).
  - intros a b c A B C AB BC AC. apply Rlt_trans with (margin M); [apply margin_pos|apply SP; auto].
  - intros p q r P Q R. destruct (place_dec p q) as [E|N1]; [apply orient_degenerate; auto|]. destruct (place_dec q r) as [E|N2]; [apply orient_degenerate; auto|]. destruct (place_dec p r) as [E|N3]; [apply orient_degenerate; auto|].
    apply (orient_margin M); auto. rewrite val_area, Rabs_Ropp. apply SP; auto.
Qed.
Print Assumptions float_hull_partial.
Example float_hull_case : Forall (within 2) tri /\ no_repeats tri /\ spread (bpow radix2 (-48) * (2 * 2) + bpow radix2 (-1074)) tri /\ 0 <= 2 <= bpow radix2 500 /\ option_map (@List.length fpt) (fconvex_hull 3 tri) = Some 3%nat.
Proof.
  split; [apply tri_within|]. destruct tri_area as (a & b & c & E & A & P1 & P2 & P3 & V). pose proof small_margin. split; [|split; [|split; [apply two_moderate|vm_compute; reflexivity]]].
  - unfold no_repeats. rewrite E. cbn [map]. rewrite P1, P2, P3, V. repeat constructor; cbn [In]; intros C; repeat destruct C as [C|C]; try (injection C; lra); auto; injection C; lra.
  - rewrite E. apply spread_three. rewrite Rabs_pos_eq by lra. lra.
Qed.

(** The margin is needed: for (0, 0.3), (0.2, 0.9) and (0.3, 1.2), typed as decimals and in any order, convex_hull never ends - the rounded
    orientations send it back and forth between the last two. *)
Definition decimals : list fpt := [FP (fz 0) (fd 5404319552844595 (-54)); FP (fd 7205759403792794 (-55)) (fd 8106479329266893 (-53)); FP (fd 5404319552844595 (-54)) (fd 5404319552844595 (-52))].
Theorem float_hull_refuted : Forall (within 2) decimals /\ no_repeats decimals /\ forall s k, Permutation s decimals -> fconvex_hull k s = None.
Proof.
  split; [|split].
  - unfold decimals. destruct (fd_is 5404319552844595 (-54) ltac:(lia) ltac:(lia)) as [F1 V1]. destruct (fd_is 7205759403792794 (-55) ltac:(lia) ltac:(lia)) as [F2 V2]. destruct (fd_is 8106479329266893 (-53) ltac:(lia) ltac:(lia)) as [F3 V3]. destruct (fd_is 5404319552844595 (-52) ltac:(lia) ltac:(lia)) as [F4 V4]. destruct (fz_is 0 ltac:(lia)) as [F0 V0].
    change (bpow radix2 (-54)) with (/ 18014398509481984) in V1. change (bpow radix2 (-55)) with (/ 36028797018963968) in V2. change (bpow radix2 (-53)) with (/ 9007199254740992) in V3. change (bpow radix2 (-52)) with (/ 4503599627370496) in V4.
    repeat apply Forall_cons; try apply Forall_nil; (split; [split; assumption|cbn [fx fy]; split; rewrite ?V0, ?V1, ?V2, ?V3, ?V4; apply abs_le; lra]).
  - unfold no_repeats, decimals. cbn [map]. unfold place. cbn [fx fy]. rewrite (proj2 (fd_is 5404319552844595 (-54) ltac:(lia) ltac:(lia))), (proj2 (fd_is 7205759403792794 (-55) ltac:(lia) ltac:(lia))), (proj2 (fz_is 0 ltac:(lia))).
    change (bpow radix2 (-54)) with (/ 18014398509481984). change (bpow radix2 (-55)) with (/ 36028797018963968). repeat constructor; cbn [In]; intros C; repeat destruct C as [C|C]; try (injection C; intros; lra); auto; injection C; intros; lra.
  - unfold decimals. apply never_ends; try (vm_compute; reflexivity); vm_compute; discriminate.
Qed.
Print Assumptions float_hull_refuted.
