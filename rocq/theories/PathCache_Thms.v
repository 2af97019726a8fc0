(** Theorems about lengths of paths and points along them: C47, C48. *)
Require Import Ascii String Reals ZArith QArith Qcanon Qreals List Bool Lra Lia Permutation.
Require Import Verif.Base Verif.Path_Model Verif.PathText_Model Verif.PathText_Spec Verif.PathDraw_Spec Verif.PathEdit_Model Verif.PathEdit_Spec Verif.PathEdit_Thms.
Require Import Verif.PathCache_Model Verif.PathCache_Spec Verif.PathCache_Proofs.
Require Verif.Point_Model Verif.Curve_Model Verif.Curve_Spec Verif.Curve_Proofs Verif.CurveLen_Proofs.
Import ListNotations.
Open Scope R_scope.

(** * C47 *)
(** Full statement: for all histories. Proved for those without Path.reverse, Subpath.reverse, validate_connections and
    Subpath *= matrix (below), whose queries all ask for the same error and default depth. *)
Theorem path_cache_partial : forall PT len (pnt : seg -> R -> Res PT) e p ops s,
  Forall (fair e) ops -> PathCache_Model.steps len pnt ops (fresh p) = Ok s ->
  snd (path_length len (e, MIN_DEPTH) s) = snd (path_length len (e, MIN_DEPTH) (fresh (c_segs s))) /\
  forall t, snd (path_point len pnt t e s) = snd (path_point len pnt t e (fresh (c_segs s))).
Proof.
  intros PT len pnt e p ops s F H. apply (steps_right len pnt e ops _ _ F (right_fresh len _ p)) in H. split.
  - now apply length_right.
  - intros t. now apply (point_right len pnt e t s).
Qed.
Example path_cache_ex : exists s, let len := seg_len (fun _ _ => 0) in
  let ops := [OLength (default_error, MIN_DEPTH); OAppend (ln 1 0 1 3); OPoint 0 default_error; ODel 1; OAdd (ATextual (T "L4,4"%string))] in
  Forall (fair default_error) ops /\ PathCache_Model.steps len (seg_point false) ops (fresh [mv 0 0; ln 0 0 1 0]) = Ok s /\ List.length (c_segs s) = 3%nat.
Proof.
  eexists. cbv zeta. split; [repeat constructor|]. split.
  - assert (E1 : append [mv 0 0; ln 0 0 1 0] (ln 1 0 1 3) = [mv 0 0; ln 0 0 1 0; ln 1 0 1 3]) by (vm_compute; reflexivity).
    assert (E2 : delitem [mv 0 0; ln 0 0 1 0; ln 1 0 1 3] 1 = Ok [mv 0 0; ln 0 0 1 3]) by (vm_compute; reflexivity).
    assert (E3 : path_iadd [mv 0 0; ln 0 0 1 3] (ATextual (T "L4,4"%string)) = Ok [mv 0 0; ln 0 0 1 3; ln 1 3 4 4]) by (vm_compute; reflexivity).
    cbn [PathCache_Model.steps step rbind path_length fst]. unfold forget at 1. rewrite calc_segs. cbn [c_segs fresh]. rewrite E1.
    unfold path_point. cbn [c_segs]. destruct (Rle_dec 0 0) as [_|]; [|lra]. cbn [fst c_segs]. rewrite E2. cbn [rbind forget c_segs]. rewrite E3. cbn [rbind grown c_segs List.length Nat.eqb forget].
    reflexivity.
  - reflexivity.
Qed.
Print Assumptions path_cache_partial.
(** Reversing a path of complete subpaths keeps its length; the length that was remembered is still right. *)
Theorem path_reverse_length_partial : forall PT len (pnt : seg -> R -> Res PT) v c p s,
  (forall x, len c x = v (view x)) -> (forall d, v (option_map flip d) = v d) -> (forall x, s_kind x = KMove -> len c x = 0) ->
  wholes p -> joined p -> PathCache_Model.steps len pnt [OLength c; OReverse] (fresh p) = Ok s ->
  snd (path_length len c s) = snd (path_length len c (fresh (c_segs s))).
Proof.
  intros PT len pnt v c p s V F M W J H. cbn [PathCache_Model.steps step rbind path_length fst] in H. rewrite calc_segs in H. cbn [c_segs fresh] in H.
  destruct (path_reverse p) as [q|] eqn:E; [|easy]. cbn [rbind] in H. inversion H; subst; clear H.
  unfold path_length, keep, calc_lengths. cbn [snd c_length c_segs fresh]. f_equal.
  rewrite <- !along_rsum. symmetry. eapply reverse_along; eauto.
Qed.
(** What [seg_len] makes of lines satisfies the hypotheses. *)
Example path_reverse_length_ex : exists v, let len := fun (c : cfg) s => if is_draw s || is_close s then match s_kind s with KLine | KClose => seg_len (fun _ _ => 0) c s | _ => 0 end else 0 in
  (forall c x, len c x = v (view x)) /\ (forall d, v (option_map flip d) = v d) /\ (forall c x, s_kind x = KMove -> len c x = 0) /\
  wholes demo /\ joined demo.
Proof.
  exists (fun d => match d with Some (SLine a b) | Some (SClose a b) => Curve_Model.linear_length (rp a) (rp b) | _ => 0 end).
  cbv zeta. split; [|split; [|split; [|split]]].
  - intros c x. unfold seg_len, geo, view, is_draw, is_close. destruct (s_kind x) as [| | |[|]|[|] [|]|], (s_start x), (s_end x); reflexivity.
  - intros [[]|]; cbn; auto; rewrite !CurveLen_Proofs.linear_length_dist; apply CurveLen_Proofs.dist_sym.
  - intros c x K. unfold is_draw, is_close. now rewrite K.
  - exact demo_wholes.
  - valid.
Qed.
Print Assumptions path_reverse_length_partial.
(** But the positions along it are those of the path before. *)
Definition no_len : cfg -> seg -> R := fun _ _ => 0.
Theorem path_cache_reverse_refuted : exists p s, 
  PathCache_Model.steps (seg_len no_len) (seg_point false) [OLength (default_error, MIN_DEPTH); OReverse] (fresh p) = Ok s /\
  snd (path_point (seg_len no_len) (seg_point false) (1/4) default_error s) = Ok (Some (Point_Model.P 1 0)) /\
  snd (path_point (seg_len no_len) (seg_point false) (1/4) default_error (fresh (c_segs s))) = Ok (Some (Point_Model.P 1 2)).
Proof.
  exists [mv 0 0; ln 0 0 1 0; ln 1 0 1 3]. eexists.
  assert (E : path_reverse [mv 0 0; ln 0 0 1 0; ln 1 0 1 3] = Ok [mv 1 3; ln 1 3 1 0; ln 1 0 0 0]) by (vm_compute; reflexivity).
  assert (LM : forall x y, seg_len no_len (default_error, MIN_DEPTH) (mv x y) = 0) by reflexivity.
  split; [|split].
  - cbn [PathCache_Model.steps step rbind path_length fst]. rewrite calc_segs. cbn [c_segs fresh]. rewrite E. cbn [rbind keep]. reflexivity.
  - unfold path_point. cbn [c_segs keep]. destruct (Rle_dec _ 0) as [|_]; [lra|]. destruct (Rle_dec 1 _) as [|_]; [lra|].
    unfold keep, calc_lengths. cbn [c_length c_segs c_lengths fresh map rsum fold_right]. rewrite LM, !len_ln.
    rewrite (sqrt_is _ 1), (sqrt_is _ 3) by lra. destruct (Req_EM_T _ 0) as [|_]; [lra|]. cbn [map snd walk].
    destruct (Rle_dec _ _) as [|_]; [lra|]. destruct (Rle_dec _ _) as [_|]; [|lra]. destruct (Req_EM_T _ 0) as [|_]; [lra|].
    unfold seg_point. rewrite geo_ln. cbn [rmap Curve_Model.point Curve_Model.lin_point Point_Model.towards Point_Model.px Point_Model.py]. do 2 f_equal. unfold Point_Model.towards. cbn [Point_Model.px Point_Model.py]. f_equal; field.
  - unfold path_point. cbn [c_segs keep fresh]. destruct (Rle_dec _ 0) as [|_]; [lra|]. destruct (Rle_dec 1 _) as [|_]; [lra|].
    unfold calc_lengths. cbn [c_length c_segs c_lengths fresh map rsum fold_right]. rewrite LM, !len_ln.
    rewrite (sqrt_is _ 3), (sqrt_is _ 1) by lra. destruct (Req_EM_T _ 0) as [|_]; [lra|]. cbn [map snd walk].
    destruct (Rle_dec _ _) as [|_]; [lra|]. destruct (Rle_dec _ _) as [_|]; [|lra]. destruct (Req_EM_T _ 0) as [|_]; [lra|].
    unfold seg_point. rewrite geo_ln. cbn [rmap Curve_Model.point Curve_Model.lin_point Point_Model.towards Point_Model.px Point_Model.py]. do 2 f_equal. unfold Point_Model.towards. cbn [Point_Model.px Point_Model.py]. f_equal; field.
Qed.
Print Assumptions path_cache_reverse_refuted.
(** Scaling a subpath leaves the old length. *)
Definition double (s : seg) : seg :=
  let d p := (fst p + fst p, snd p + snd p)%Qc in mkSeg (s_kind s) (option_map d (s_start s)) (option_map d (s_end s)) (s_rel s) (s_smooth s).
Theorem path_cache_subpath_refuted : exists p u s, In u (as_subpaths p) /\
  PathCache_Model.steps (seg_len no_len) (seg_point false) [OLength (default_error, MIN_DEPTH); OSubMul u double] (fresh p) = Ok s /\
  snd (path_length (seg_len no_len) (default_error, MIN_DEPTH) s) = Some 1 /\
  snd (path_length (seg_len no_len) (default_error, MIN_DEPTH) (fresh (c_segs s))) = Some 2.
Proof.
  exists [mv 0 0; ln 0 0 1 0], (mkSub 0 1). eexists. split; [vm_compute; auto|].
  assert (E : pysplice [mv 0 0; ln 0 0 1 0] (Some 0%Z) (Some (1 + 1)%Z) (map double (sub_segments [mv 0 0; ln 0 0 1 0] (mkSub 0 1))) = [mv 0 0; ln 0 0 2 0]).
  { vm_compute. unfold mv, ln, at_. repeat f_equal; apply Qc_is_canon; vm_compute; reflexivity. }
  assert (LM : forall x y, seg_len no_len (default_error, MIN_DEPTH) (mv x y) = 0) by reflexivity.
  split; [|split].
  - cbn [PathCache_Model.steps step rbind path_length fst]. rewrite calc_segs. cbn [c_segs fresh u_start u_end]. rewrite E. reflexivity.
  - unfold path_length, keep, calc_lengths. cbn [c_length c_segs fresh map rsum fold_right snd]. rewrite LM, len_ln, (sqrt_is _ 1) by lra. f_equal. ring.
  - unfold path_length, keep, calc_lengths. cbn [c_length c_segs fresh map rsum fold_right snd]. rewrite LM, len_ln, (sqrt_is _ 2) by lra. f_equal. ring.
Qed.
Print Assumptions path_cache_subpath_refuted.
(** The settings of the first measurement decide for all later ones. *)
Definition cubic_other (c : cfg) (s : seg) : R :=
  match geo s with
  | Some (Curve_Model.GCubic a x y b) => match Curve_Model.cubic_length 3 a x y b (fst c) (snd c) with Some l => l | None => 0 end
  | _ => 0
  end.
(** M0,0 C1,0 -1,0 0,0 *)
Definition back_and_forth : path := [mv 0 0; mkSeg (KCubic (Some (at_ 1 0)) (Some (at_ (-1) 0))) (Some (at_ 0 0)) (Some (at_ 0 0)) false true].
Theorem path_cache_settings_refuted : exists s, let len := seg_len cubic_other in
  PathCache_Model.steps len (seg_point false) [OLength (1, 0%nat)] (fresh back_and_forth) = Ok s /\
  snd (path_length len (1, 1%nat) s) = Some 0 /\ snd (path_length len (1, 1%nat) (fresh (c_segs s))) = Some (9/8).
Proof.
  eexists. cbv zeta. set (z := mkSeg (KCubic (Some (at_ 1 0)) (Some (at_ (-1) 0))) (Some (at_ 0 0)) (Some (at_ 0 0)) false true).
  assert (G : geo z = Some (Curve_Model.GCubic (Point_Model.P 0 0) (Point_Model.P 1 0) (Point_Model.P (-1) 0) (Point_Model.P 0 0))).
  { unfold z, geo. cbn [s_kind s_start s_end]. now rewrite !rp_at. }
  set (f := Curve_Model.cubic_point (Point_Model.P 0 0) (Point_Model.P 1 0) (Point_Model.P (-1) 0) (Point_Model.P 0 0)).
  assert (F : forall t x, x = 3 * (1 - t) * (1 - t) * t - 3 * (1 - t) * t * t -> f t = Point_Model.P x 0).
  { intros t x E. unfold f, Curve_Model.cubic_point, Curve_Model.cubic1. cbn. f_equal; [rewrite E|]; ring. }
  assert (D : forall x y k, 0 <= k -> k * k = (x - y) * (x - y) -> Point_Model.distance_to (Point_Model.P x 0) (Point_Model.P y 0) = k).
  { intros x y k K E. rewrite CurveLen_Proofs.distance_to_dist, CurveLen_Proofs.dist_hypot. apply sqrt_is; cbn; lra. }
  assert (L0 : seg_len cubic_other (1, 0%nat) z = 0).
  { unfold seg_len. rewrite G. cbn [s_kind z]. unfold cubic_other. rewrite G. unfold Curve_Model.cubic_length, Curve_Model.line_length. fold f.
    cbn [fst snd]. rewrite (F 0 0), (F 1 0) by lra. cbn [Curve_Model.segment_length]. rewrite (F ((0+1)/2) 0) by lra. rewrite !(D 0 0 0) by lra.
    destruct (Rlt_dec _ _) as [|_]; [lra|]. cbn. ring. }
  assert (L1 : seg_len cubic_other (1, 1%nat) z = 9/8).
  { unfold seg_len. rewrite G. cbn [s_kind z]. unfold cubic_other. rewrite G. unfold Curve_Model.cubic_length, Curve_Model.line_length. fold f.
    cbn [fst snd]. rewrite (F 0 0), (F 1 0) by lra. cbn [Curve_Model.segment_length].
    rewrite (F ((0+1)/2) 0), (F ((0 + (0+1)/2)/2) (9/32)), (F (((0+1)/2+1)/2) (-9/32)) by lra.
    rewrite !(D 0 0 0), !(D (9/32) 0 (9/32)), !(D 0 (9/32) (9/32)), !(D (-9/32) 0 (9/32)), !(D 0 (-9/32) (9/32)) by lra.
    destruct (Rlt_dec 1 (0 + 0 - 0)) as [|_]; [lra|]. destruct (Rlt_dec 1 (9 / 32 + 9 / 32 - 0)) as [|_]; [lra|]. cbn. lra. }
  assert (LM : forall c x y, seg_len cubic_other c (mv x y) = 0) by reflexivity.
  split; [|split].
  - reflexivity.
  - cbn [fst]. unfold path_length, back_and_forth, calc_lengths. fold z. cbn [c_length c_segs fresh map rsum fold_right snd fst]. rewrite LM, L0. f_equal. ring.
  - cbn [fst]. unfold path_length, back_and_forth, calc_lengths. fold z. cbn [c_length c_segs fresh map rsum fold_right snd fst]. rewrite LM, L1. f_equal. ring.
Qed.
Print Assumptions path_cache_settings_refuted.

(** * C48 *)
(** After any such history, point(t) is on the segment that is reached after the fraction t of the total length, at
    the fraction of that segment that is covered then. *)
Theorem path_point_walks : forall PT len (pnt : seg -> R -> Res PT) e p ops s t,
  Forall (fair e) ops -> PathCache_Model.steps len pnt ops (fresh p) = Ok s -> 0 < t < 1 ->
  let L := len (e, MIN_DEPTH) in let total := along L (c_segs s) in 0 < total ->
  exists g x, reached L (c_segs s) (t * total) g x /\ 0 < x <= 1 /\ snd (path_point len pnt t e s) = rmap Some (pnt g x).
Proof.
  intros PT len pnt e p ops s t F H T L total A. destruct (path_cache_partial _ _ _ _ _ _ _ F H) as [_ Q]. rewrite Q.
  destruct (point_walk len pnt (e, MIN_DEPTH) e t (c_segs s) eq_refl T A) as (g & x & R1 & R2 & R3). eauto.
Qed.
Example path_point_walks_ex : let p := [mv 0 0; ln 0 0 1 0; ln 1 0 1 3] in let L := seg_len no_len (default_error, MIN_DEPTH) in
  along L p = 4 /\ reached L p (1/2 * 4) (ln 1 0 1 3) (1/3) /\ snd (path_point (seg_len no_len) (seg_point false) (1/2) default_error (fresh p)) = Ok (Some (Point_Model.P 1 1)).
Proof.
  cbv zeta. assert (LM : forall x y, seg_len no_len (default_error, MIN_DEPTH) (mv x y) = 0) by reflexivity. split; [|split].
  - cbn [along]. rewrite LM, !len_ln, (sqrt_is _ 1), (sqrt_is _ 3) by lra. ring.
  - exists [mv 0 0; ln 0 0 1 0], []. split; [reflexivity|]. cbn [along]. rewrite LM, !len_ln, (sqrt_is _ 1), (sqrt_is _ 3) by lra. lra.
  - unfold path_point. cbn [c_segs keep fresh]. destruct (Rle_dec _ 0) as [|_]; [lra|]. destruct (Rle_dec 1 _) as [|_]; [lra|].
    unfold calc_lengths. cbn [c_length c_segs c_lengths fresh map rsum fold_right]. rewrite LM, !len_ln.
    rewrite (sqrt_is _ 1), (sqrt_is _ 3) by lra. destruct (Req_EM_T _ 0) as [|_]; [lra|]. cbn [map snd walk].
    destruct (Rle_dec _ _) as [|_]; [lra|]. destruct (Rle_dec _ _) as [|_]; [lra|]. destruct (Rle_dec _ _) as [_|]; [|lra]. destruct (Req_EM_T _ 0) as [|_]; [lra|].
    unfold seg_point. rewrite geo_ln. cbn [rmap Curve_Model.point Curve_Model.lin_point Point_Model.towards Point_Model.px Point_Model.py]. do 2 f_equal. unfold Point_Model.towards. cbn [Point_Model.px Point_Model.py]. f_equal; field.
Qed.
Print Assumptions path_point_walks.
(** The beginning and the end: where the first segment begins (a move: where it goes) and where the last one ends. *)
Theorem path_point_ends : forall len np e s g, geo g <> None ->
  (forall r, c_segs s = g :: r -> exists a, snd (path_point len (seg_point np) 0 e s) = Ok (Some (rp a)) /\
     Some a = if is_move g then s_end g else s_start g) /\
  (forall r, c_segs s = r ++ [g] -> exists b, snd (path_point len (seg_point np) 1 e s) = Ok (Some (rp b)) /\ Some b = s_end g).
Proof.
  intros len np e s g N. split; intros r E; unfold path_point; rewrite E.
  - destruct (Rle_dec 0 0) as [_|]; [|lra]. cbn [snd]. unfold seg_point, geo, is_move in *.
    destruct g as [k o d rel sm]. cbn [s_kind s_start s_end] in *.
    destruct k as [| | |[c|]|[c|] [c2|]|], o as [o|], d as [d|]; try (exfalso; now apply N); eexists; (split; [cbn [rmap Curve_Model.point]|reflexivity]);
      do 2 f_equal; auto; unfold Curve_Model.lin_point, Curve_Model.quad_point, Curve_Model.cubic_point, Point_Model.towards; destruct np; cbn; unfold rp; f_equal; cbn; unfold Curve_Model.interp, Curve_Model.quad1, Curve_Model.cubic1; try ring; try reflexivity; repeat match goal with |- context [Rle_dec ?a ?b] => destruct (Rle_dec a b) end; lra.
  - destruct (r ++ [g]) eqn:RG; [now destruct r|]. rewrite <- RG. rewrite last_last. destruct (Rle_dec 1 0) as [|_]; [lra|]. destruct (Rle_dec 1 1) as [_|]; [|lra]. cbn [snd]. unfold seg_point, geo in *.
    destruct g as [k o d rel sm]. cbn [s_kind s_start s_end] in *.
    destruct k as [| | |[c|]|[c|] [c2|]|], o as [o|], d as [d|]; try (exfalso; now apply N); eexists; (split; [cbn [rmap Curve_Model.point]|reflexivity]);
      do 2 f_equal; auto; unfold Curve_Model.lin_point, Curve_Model.quad_point, Curve_Model.cubic_point, Point_Model.towards; destruct np; cbn; unfold rp; f_equal; cbn; unfold Curve_Model.interp, Curve_Model.quad1, Curve_Model.cubic1; try ring; try reflexivity; repeat match goal with |- context [Rle_dec ?a ?b] => destruct (Rle_dec a b) end; lra.
Qed.
Example path_point_ends_ex : geo (mv 0 0) <> None /\ geo (ln 1 0 1 3) <> None. Proof. split; discriminate. Qed.
Print Assumptions path_point_ends.
(** A path of no length: the point is where one of its segments begins, the one whose index is nearest to that share of the last one,
    halves to the even one. *)
Theorem path_point_no_length : forall PT len (pnt : seg -> R -> Res PT) e t p, 0 < t < 1 -> p <> [] -> along (len (e, MIN_DEPTH)) p = 0 ->
  exists i s, nth_error p i = Some s /\ Rabs (t * INR (length p - 1) - INR i) <= 1 / 2 /\
    (Rabs (t * INR (length p - 1) - INR i) = 1 / 2 -> Nat.even i = true) /\ snd (path_point len pnt t e (fresh p)) = rmap Some (pnt s 0).
Proof. intros. eapply point_none; eauto. Qed.
Example path_point_no_length_ex : along (seg_len no_len (default_error, MIN_DEPTH)) [mv 0 0; mv 1 1] = 0.
Proof. cbn [along]. change (0 + (0 + 0) = 0). ring. Qed.
Print Assumptions path_point_no_length.
(** npoint with numpy: right when every segment of some length is asked about ... *)
Theorem path_npoint_partial : forall PT len (pnt : seg -> R -> Res PT) ept e ps g r, let p := g :: r in let L := len (e, MIN_DEPTH) in let T := along L p in
  0 < T -> (forall s, In s p -> 0 <= L s) ->
  (forall a s b, p = a ++ s :: b -> 0 < L s -> exists x, In x ps /\ along L a <= x * T < along L a + L s) ->
  exists xy, snd (path_npoint len pnt ept ps e (fresh p)) = Ok (Some xy) /\
    Forall2 (fun x o => (0 <= x < 1 -> exists s y, reached_from L p (x * T) s y /\ o = Some (pnt s y)) /\ (x = 1 -> o = Some (ept (last p g)))) ps xy.
Proof. exact npoint_spec. Qed.
Example path_npoint_ex : let p := [mv 0 0; ln 0 0 1 0] in let L := seg_len no_len (default_error, MIN_DEPTH) in
  0 < along L p /\ (forall s, In s p -> 0 <= L s) /\ (forall a s b, p = a ++ s :: b -> 0 < L s -> exists x, In x [1/2; 1] /\ along L a <= x * along L p < along L a + L s).
Proof.
  cbv zeta. assert (LM : forall x y, seg_len no_len (default_error, MIN_DEPTH) (mv x y) = 0) by reflexivity.
  assert (LL : seg_len no_len (default_error, MIN_DEPTH) (ln 0 0 1 0) = 1) by (rewrite len_ln; apply sqrt_is; lra).
  cbn [along]. rewrite LM, LL. split; [lra|]. split.
  - intros s [<-|[<-|[]]]; rewrite ?LM, ?LL; lra.
  - intros a s b E P. destruct a as [|x [|y a]]; cbn in E; injection E; intros; subst.
    + rewrite LM in P. lra.
    + exists (1/2). split; [now left|]. cbn [along]. rewrite LM, LL. lra.
    + destruct a; discriminate.
Qed.
Print Assumptions path_npoint_partial.
(** ... and wrong otherwise: a segment no position falls in is skipped along with its length. *)
Theorem path_npoint_refuted : exists p x, 0 <= x < 1 /\ snd (path_npoint (seg_len no_len) (seg_point false) (fun _ => Err Unmodelled) [x] default_error (fresh p)) = Ok (Some [None]) /\
  snd (path_point (seg_len no_len) (seg_point false) x default_error (fresh p)) = Ok (Some (Point_Model.P (3/2) 0)).
Proof.
  exists [mv 0 0; ln 0 0 1 0; ln 1 0 2 0], (3/4). split; [lra|].
  assert (LM : forall x y, seg_len no_len (default_error, MIN_DEPTH) (mv x y) = 0) by reflexivity. split.
  - unfold path_npoint, calc_lengths. cbn [c_length c_segs c_lengths fresh map rsum fold_right]. rewrite LM, !len_ln, (sqrt_is _ 1), (sqrt_is _ 1) by lra.
    destruct (Req_EM_T _ 0) as [|_]; [lra|]. cbn [map snd nwalk existsb].
    repeat match goal with |- context [if Rle_dec ?a ?b then (if Rlt_dec ?c ?d then true else false) else false] =>
      replace (if Rle_dec a b then (if Rlt_dec c d then true else false) else false) with false by (destruct (Rle_dec a b); [destruct (Rlt_dec c d); [lra|]|]; reflexivity); cbn [orb] end.
    cbn [rbind combine map fst snd]. destruct (Req_EM_T (3/4) 1) as [|_]; [lra|]. reflexivity.
  - unfold path_point. cbn [c_segs keep fresh]. destruct (Rle_dec _ 0) as [|_]; [lra|]. destruct (Rle_dec 1 _) as [|_]; [lra|].
    unfold calc_lengths. cbn [c_length c_segs c_lengths fresh map rsum fold_right]. rewrite LM, !len_ln.
    rewrite (sqrt_is _ 1), (sqrt_is _ 1) by lra. destruct (Req_EM_T _ 0) as [|_]; [lra|]. cbn [map snd walk].
    destruct (Rle_dec _ _) as [|_]; [lra|]. destruct (Rle_dec _ _) as [|_]; [lra|]. destruct (Rle_dec _ _) as [_|]; [|lra]. destruct (Req_EM_T _ 0) as [|_]; [lra|].
    unfold seg_point. rewrite geo_ln. cbn [rmap Curve_Model.point Curve_Model.lin_point Point_Model.towards Point_Model.px Point_Model.py]. do 2 f_equal. unfold Point_Model.towards. cbn [Point_Model.px Point_Model.py]. f_equal; field.
Qed.
Print Assumptions path_npoint_refuted.
