(** Property theorems about editing, splitting and reversing paths (C42-C46, C50). *)
Require Import ZArith QArith Qcanon Qabs Ascii String List Bool Lia.
Require Import Verif.Base Verif.Path_Model Verif.PathText_Model Verif.PathText_Spec Verif.PathDraw_Spec.
Require Import Verif.PathDraw_Proofs Verif.PathEdit_Model Verif.PathEdit_Spec Verif.PathEdit_Proofs Verif.PathSub_Proofs.
Import ListNotations.
Open Scope Z_scope.

Definition at_ (x y : Z) : pt := (Q2Qc (inject_Z x), Q2Qc (inject_Z y)).
Definition mv (x y : Z) : seg := mkSeg KMove None (Some (at_ x y)) false true.
Definition mv2 (a b x y : Z) : seg := mkSeg KMove (Some (at_ a b)) (Some (at_ x y)) false true.
Definition ln (a b x y : Z) : seg := mkSeg KLine (Some (at_ a b)) (Some (at_ x y)) false true.
Definition zz (a b x y : Z) : seg := mkSeg KClose (Some (at_ a b)) (Some (at_ x y)) false true.
Definition lnto (x y : Z) : seg := mkSeg KLine None (Some (at_ x y)) false true.
Definition closing : seg := mkSeg KClose None None false true.
Ltac valid := apply is_valid_iff; vm_compute; reflexivity.
Ltac invalid := let K := fresh in intros K; apply is_valid_iff in K; vm_compute in K; discriminate K.
(** M0,0 L1,0 L1,1 Z M5,5 L6,5 *)
Definition demo : path := [mv 0 0; ln 0 0 1 0; ln 1 0 1 1; zz 1 1 0 0; mv2 0 0 5 5; ln 5 5 6 5].

(** * C42 *)
(** Full statement: Path(path), copy(path) and path + other contain every segment of path. It is false: the
    constructor has no case for a Path, so each of them drops all segments of [p]. *)
Theorem path_copy_refuted : forall p, path_init (IPath p) = Ok [] /\ path_copy p = Ok [] /\ (forall a, path_add p a = path_iadd [] a).
Proof. intros p. repeat split. Qed.
Print Assumptions path_copy_refuted.
(** path += other keeps the segments of both, in order, of the same kinds. *)
Theorem path_iadd_kinds : forall p q, exists r, path_iadd p (APath q) = Ok r /\ map s_kind r = map s_kind p ++ map s_kind q.
Proof.
  intros p q. exists (extend p (map seg_copy q)). split; auto. rewrite extend_kinds, map_app. f_equal. rewrite map_map. apply map_ext. intros [k a b r m]. destruct k; reflexivity.
Qed.
Print Assumptions path_iadd_kinds.
(** For paths made of complete subpaths nothing at all is changed but where the first move of [q] came from. *)
Theorem path_iadd_whole : forall p q, wholes p -> whole q -> exists r, path_iadd p (APath q) = Ok (p ++ r) /\ Forall2 alike q r.
Proof.
  intros p q (ps & -> & F) W. cbn [path_iadd]. pose proof (whole_alike _ _ W (copy_alike q)) as W2.
  assert (B : match map seg_copy q with [] => True | m :: _ => s_kind m = KMove end) by (destruct W2 as (m & ds & cl & a & b & -> & Km & _); auto).
  destruct (extend_exact (List.concat ps) (map seg_copy q) (wholes_ended ps F)) as (r & P & R & _); auto.
  { intros l f. apply whole_close; auto. }
  exists r. rewrite P. split; auto. apply (F2_trans _ (map seg_copy q)); [apply copy_alike|apply restart_alike; auto].
Qed.
Example path_iadd_ex : path_iadd [mv 0 0; ln 0 0 1 0] (APath [mv 5 5; ln 5 5 6 5]) = Ok [mv 0 0; ln 0 0 1 0; mv2 1 0 5 5; ln 5 5 6 5].
Proof. vm_compute. reflexivity. Qed.
Print Assumptions path_iadd_whole.

(** * C43 *)
(** _is_valid says whether a path is connected. *)
Theorem path_is_valid : forall p, is_valid p = true <-> joined p.
Proof. exact is_valid_iff. Qed.
Example demo_joined : joined demo /\ ended demo. Proof. split; [valid|repeat constructor; discriminate]. Qed.
Print Assumptions path_is_valid.
(** Appending any segment. *)
Theorem path_append_joined : forall p s, joined p -> ended p ->
  joined (append p s) /\ map s_kind (append p s) = map s_kind p ++ [s_kind s] /\
  (s_kind s <> KClose -> ends (append p s) = ends p ++ [s_end s]).
Proof.
  intros p s H E. destruct (append_joined p s H E) as (A & B & C). split; auto. split; auto. intros K. rewrite C. f_equal. unfold is_close. destruct s as [k a b r m]. cbn in *. destruct k; auto; congruence.
Qed.
Example path_append_ex : append demo closing = demo ++ [mkSeg KClose (Some (at_ 6 5)) (Some (at_ 5 5)) false true]. Proof. vm_compute. reflexivity. Qed.
Print Assumptions path_append_joined.
(** Full statement: inserting any segment anywhere. Proved at positions counted from the front (not 0) for drawing
    segments; for moves when no close further on returns to the start of a subpath cut in two; for closes at the end. *)
Theorem path_insert_joined_partial : forall a v b, a <> [] -> joined (a ++ b) -> ended (a ++ b) -> insertable v b ->
  exists q, insert (a ++ b) (Z.of_nat (List.length a)) v = Ok q /\ joined q /\ map s_kind q = map s_kind a ++ s_kind v :: map s_kind b /\
    (draws v -> s_end v <> None -> ends q = ends a ++ s_end v :: ends b).
Proof.
  intros a v b NE H E [D|[(K & Hv & O)|[K ->]]].
  - destruct (insert_draws a v b NE H E D) as (q & P & J1 & Kq & Eq). exists q. split; auto. split; auto. split; auto. intros _ Hv. rewrite Eq. f_equal. f_equal. unfold new_end. destruct (s_end v); congruence.
  - destruct (insert_move a v b NE H E K Hv O) as (q & P & J1 & Kq). exists q. split; auto. split; auto. split; auto. intros [D _]. congruence.
  - rewrite app_nil_r in H, E |- *. destruct (insert_close a v NE H E K) as (q & P & J1 & Kq). exists q. split; auto. split; auto. split; auto. intros [_ D]. congruence.
Qed.
Example path_insert_ex : insert demo 2 (lnto 7 7) = Ok [mv 0 0; ln 0 0 1 0; ln 1 0 7 7; ln 7 7 1 1; zz 1 1 0 0; mv2 0 0 5 5; ln 5 5 6 5]. Proof. vm_compute. reflexivity. Qed.
Print Assumptions path_insert_joined_partial.
(** In front of a path that begins with a move. *)
Theorem path_insert_front_joined : forall b v, joined b -> begins_with_a_move b -> s_end v <> None ->
  exists q, insert b 0 v = Ok q /\ joined q /\ map s_kind q = s_kind v :: map s_kind b /\ ends q = s_end v :: ends b.
Proof. exact insert_front. Qed.
Print Assumptions path_insert_front_joined.
(** Replacing one segment. *)
Theorem path_setitem_joined_partial : forall a o v b, a <> [] -> joined (a ++ o :: b) -> ended (a ++ o :: b) -> replaceable o v b ->
  exists q, setitem (a ++ o :: b) (Z.of_nat (List.length a)) v = Ok q /\ joined q /\ map s_kind q = map s_kind a ++ s_kind v :: map s_kind b /\
    (draws v -> s_end v <> None -> ends q = ends a ++ s_end v :: ends b).
Proof.
  intros a o v b NE H E [[D Ko]|[(K & Hv & O)|[K ->]]].
  - destruct (setitem_draws a o v b NE H E D Ko) as (q & P & J1 & Kq & Eq). exists q. split; auto. split; auto. split; auto. intros _ Hv. rewrite Eq. f_equal. f_equal. unfold new_end. destruct (s_end v); congruence.
  - destruct (setitem_move a o v b NE H E K Hv O) as (q & P & J1 & Kq). exists q. split; auto. split; auto. split; auto. intros [D _]. congruence.
  - destruct (setitem_close a o v NE H E K) as (q & P & J1 & Kq). exists q. split; auto. split; auto. split; auto. intros [_ D]. congruence.
Qed.
Example path_setitem_ex : setitem demo 4 (mv 9 9) = Ok [mv 0 0; ln 0 0 1 0; ln 1 0 1 1; zz 1 1 0 0; mv2 0 0 9 9; ln 9 9 6 5]. Proof. vm_compute. reflexivity. Qed.
Print Assumptions path_setitem_joined_partial.
(** Deleting one segment. *)
Theorem path_delitem_joined_partial : forall a o b, a <> [] -> joined (a ++ o :: b) -> ended (a ++ o :: b) -> removable o b ->
  exists q, delitem (a ++ o :: b) (Z.of_nat (List.length a)) = Ok q /\ joined q /\ map s_kind q = map s_kind (a ++ b) /\ (draws o -> ends q = ends (a ++ b)).
Proof.
  intros a o b NE H E [D|[(K & O)|(K & O & Z)]].
  - destruct (delitem_draws a o b NE H E D) as (q & P & J1 & Kq & Eq). exists q. auto.
  - destruct (delitem_close a o b NE H E K O) as (q & P & J1 & Kq). exists q. split; auto. split; auto. split; auto. intros [_ D]. congruence.
  - destruct (delitem_move a o b NE H E K O Z) as (q & P & J1 & Kq). exists q. split; auto. split; auto. split; auto. intros [D _]. congruence.
Qed.
Example path_delitem_ex : delitem demo 1 = Ok [mv 0 0; ln 0 0 1 1; zz 1 1 0 0; mv2 0 0 5 5; ln 5 5 6 5]. Proof. vm_compute. reflexivity. Qed.
Print Assumptions path_delitem_joined_partial.
(** Deleting the first segment. *)
Theorem path_delitem_first_joined : forall o b, joined (o :: b) -> ended (o :: b) -> s_kind o = KMove -> open_or_last b ->
  exists q, delitem (o :: b) 0 = Ok q /\ joined q /\ map s_kind q = map s_kind b.
Proof. exact delitem_first. Qed.
Print Assumptions path_delitem_first_joined.
(** Slices may be replaced and deleted without restriction, and connectivity need not even hold before. *)
Theorem path_slices_joined : forall p a b v, ended p -> ended v ->
  joined (setslice p a b v) /\ joined (delslice p a b) /\
  map s_kind (setslice p a b v) = map s_kind (pysplice p a b v) /\ map s_kind (delslice p a b) = map s_kind (pysplice p a b []).
Proof.
  intros p a b v E F. pose proof (validate_connections_joined _ (ended_splice p a b v E F)) as (A & B & _ & _).
  pose proof (validate_connections_joined _ (ended_splice p a b [] E (Forall_nil _))) as (C & D & _ & _). auto.
Qed.
Example path_slices_ex : setslice demo (Some 1) (Some (-2)) [lnto 8 8; closing] = [mv 0 0; ln 0 0 8 8; mkSeg KClose (Some (at_ 8 8)) (Some (at_ 0 0)) false true; mv2 0 0 5 5; ln 5 5 6 5].
Proof. vm_compute. reflexivity. Qed.
Print Assumptions path_slices_joined.
(** validate_connections makes any path connected, changing only starts and where closes end; a connected path is
    left as it is. *)
Theorem path_validate_joined : forall p, ended p ->
  joined (validate_connections p) /\ map s_kind (validate_connections p) = map s_kind p /\
  Forall2 (fun a b => s_kind b <> KClose -> s_end a = s_end b) (validate_connections p) p /\
  (joined p -> validate_connections p = p) /\ validate_connections (validate_connections p) = validate_connections p.
Proof.
  intros p E. destruct (validate_connections_joined p E) as (A & B & C & D). split; auto. split; auto. split; auto. split; [intros; apply validate_connections_same; auto|]. apply validate_connections_same; auto.
Qed.
Print Assumptions path_validate_joined.
(** Full statement: extending by any connected segments. Proved for segments that begin with a move. *)
Theorem path_extend_joined_partial : forall p q, joined p -> joined q -> ended p -> ended q -> separated (p ++ q) -> begins_with_a_move q ->
  joined (extend p q) /\ map s_kind (extend p q) = map s_kind (p ++ q).
Proof. exact extend_joined. Qed.
Print Assumptions path_extend_joined_partial.
(** Any connected paths without almost coinciding points are separated. *)
Example separated_ex : separated demo.
Proof.
  assert (X : forall q, on_path demo q -> In q [at_ 0 0; at_ 1 0; at_ 1 1; at_ 5 5; at_ 6 5]).
  { intros q (s & I1 & [E|E]); repeat (destruct I1 as [<-|I1]; [cbn in E; first [discriminate E|injection E as <-; cbn; auto 10]|]); destruct I1. }
  assert (Y : forall x y, In x [at_ 0 0; at_ 1 0; at_ 1 1; at_ 5 5; at_ 6 5] -> In y [at_ 0 0; at_ 1 0; at_ 1 1; at_ 5 5; at_ 6 5] -> near x y = true -> x = y).
  { intros x y I1 I2. cbn in I1, I2. repeat (destruct I1 as [<-|I1]); try contradiction; repeat (destruct I2 as [<-|I2]); try contradiction; intros N; try reflexivity; vm_compute in N; discriminate N. }
  intros x y z Ox Oy Oz A B. apply near_iff in A. apply near_iff in B. assert (x = y) by auto. assert (y = z) by auto. subst. apply near_iff. exact B.
Qed.
(** Negative positions are not validated: replacing the last segment of M0,0 L1,0 L2,0 by L(5,5 - 6,6). *)
Theorem path_setitem_negative_refuted : exists p v q, joined p /\ ended p /\ draws v /\ setitem p (-1) v = Ok q /\ ~ joined q.
Proof.
  exists [mv 0 0; ln 0 0 1 0; ln 1 0 2 0], (ln 5 5 6 6). eexists. split; [valid|]. split; [repeat constructor; discriminate|]. split; [split; discriminate|]. split; [vm_compute; reflexivity|]. invalid.
Qed.
Theorem path_insert_negative_refuted : exists p v q, joined p /\ ended p /\ draws v /\ insert p (-1) v = Ok q /\ ~ joined q.
Proof.
  exists [mv 0 0; ln 0 0 1 0; ln 1 0 2 0], (ln 5 5 6 6). eexists. split; [valid|]. split; [repeat constructor; discriminate|]. split; [split; discriminate|]. split; [vm_compute; reflexivity|]. invalid.
Qed.
Theorem path_delitem_negative_refuted : exists p q, joined p /\ ended p /\ delitem p (-2) = Ok q /\ ~ joined q.
Proof.
  exists [mv 0 0; ln 0 0 1 0; ln 1 0 2 0]. eexists. split; [valid|]. split; [repeat constructor; discriminate|]. split; [vm_compute; reflexivity|]. invalid.
Qed.
Print Assumptions path_setitem_negative_refuted.
Print Assumptions path_insert_negative_refuted.
Print Assumptions path_delitem_negative_refuted.
(** A close inserted in the middle: its end is corrected after the connections, so the next segment stays behind. *)
Theorem path_insert_close_refuted : exists p q, joined p /\ ended p /\ insert p 2 closing = Ok q /\ ~ joined q.
Proof.
  exists [mv 0 0; ln 0 0 1 0; ln 1 0 2 0]. eexists. split; [valid|]. split; [repeat constructor; discriminate|]. split; [vm_compute; reflexivity|]. invalid.
Qed.
Print Assumptions path_insert_close_refuted.
(** Deleting the move in front of a lone close at the end. *)
Theorem path_delitem_move_refuted : exists p q, joined p /\ ended p /\ delitem p 2 = Ok q /\ ~ joined q.
Proof.
  exists [mv 0 0; ln 0 0 1 0; mv2 1 0 5 5; zz 5 5 5 5]. eexists. split; [valid|]. split; [repeat constructor; discriminate|]. split; [vm_compute; reflexivity|]. invalid.
Qed.
Print Assumptions path_delitem_move_refuted.
(** Extending by segments that do not begin with a move: M0,0 L1,0 Z extended by L(7,7 - 8,8) Z(8,8 - 7,7). *)
Theorem path_extend_refuted : exists p q, joined p /\ joined q /\ ended p /\ ended q /\ ~ joined (extend p q).
Proof.
  exists [mv 0 0; ln 0 0 1 0; zz 1 0 0 0], [ln 7 7 8 8; zz 8 8 8 8]. split; [valid|]. split; [valid|]. split; [repeat constructor; discriminate|]. split; [repeat constructor; discriminate|]. invalid.
Qed.
Print Assumptions path_extend_refuted.
(** Assigning path data to a position never succeeds. *)
Theorem path_setitem_text_raises : forall p t q, parse t [] = (q, None) -> q <> [] -> setitem_text p t = Err AttributeError.
Proof. intros p t q P NE. unfold setitem_text. rewrite P. destruct q; [congruence|reflexivity]. Qed.
Print Assumptions path_setitem_text_raises.

(** * C44 *)
(** The subpaths are consecutive pieces [cs] that make up the path; each but the first begins with a move, which is
    its only one. *)
Theorem subpaths_partition : forall p, exists cs, Forall2 (fun u c => between p (u_start u) (u_end u) c /\ sub_segments p u = c) (as_subpaths p) cs /\
  p = List.concat cs /\
  (forall c, In c (tl cs) -> exists m r, c = m :: r /\ s_kind m = KMove) /\
  (forall c m r, In c cs -> c = m :: r -> Forall (fun s => s_kind s <> KMove) r) /\
  (p <> [] -> forall c, In c cs -> c <> []).
Proof.
  intros p. destruct (as_subpaths_chunks p) as (c & cs & E & P & Q & L & N). exists (c :: cs). split; [|split; [exact P|split; [|split]]].
  - rewrite E. pose proof (map_ranges (c :: cs) [] []) as M. pose proof (ranges_between (c :: cs) [] []) as B. cbn [app List.length Z.of_nat] in M, B. rewrite app_nil_r in M, B. cbn [List.concat] in M, B. rewrite <- P in M, B.
    revert M B. generalize (ranges 0 (c :: cs)). generalize (c :: cs). clear. intros l r M B. induction B as [|u x r l B1 B IH]; constructor; cbn in M; injection M as M1 M2; auto.
  - cbn [tl]. intros d I1. rewrite Forall_forall in L. destruct (led_head d (L d I1)) as (m & r & -> & K & _). eauto.
  - intros d m r [<-|I1] ->; [exact Q|]. rewrite Forall_forall in L. destruct (L _ I1) as [_ X]. exact X.
  - intros NE d [<-|I1]; auto. rewrite Forall_forall in L. specialize (L d I1). destruct d; [contradiction|discriminate].
Qed.
Example subpaths_ex : map (sub_segments demo) (as_subpaths demo) = [[mv 0 0; ln 0 0 1 0; ln 1 0 1 1; zz 1 1 0 0]; [mv2 0 0 5 5; ln 5 5 6 5]]. Proof. vm_compute. reflexivity. Qed.
Print Assumptions subpaths_partition.
(** Each next subpath starts right behind the one before. *)
Theorem subpaths_consecutive : forall p a u v b, as_subpaths p = a ++ u :: v :: b -> u_start v = u_end u + 1.
Proof.
  intros p a u v b H. destruct (as_subpaths_chunks p) as (c & cs & E & _). rewrite E in H. clear E. revert H. generalize 0 as k. generalize (c :: cs) as l. clear. intros l. revert a. induction l as [|x l IH]; intros a k H; [destruct a; discriminate|].
  cbn [ranges] in H. destruct a as [|y a]; cbn in H; injection H as H1 H2; [|apply (IH a _ H2)]. subst u. destruct l as [|x2 l]; cbn in H2; [discriminate|]. injection H2 as <- _. cbn. lia.
Qed.
Print Assumptions subpaths_consecutive.

(** * C45 *)
(** Indexing (also from the end), slicing within bounds and iterating read the segments of the range. *)
Theorem subpath_reads : forall p u, inside p u ->
  between p (u_start u) (u_end u) (sub_segments p u) /\ sub_list p u = sub_segments p u /\
  (forall i, - sub_len u <= i < sub_len u -> sub_get p u i = pyget (sub_segments p u) i) /\
  (forall a b, in_bounds (sub_len u) a -> in_bounds (sub_len u) b -> sub_getslice p u a b = pyslice (sub_segments p u) a b).
Proof.
  intros p u I1. destruct (fits_split p u I1) as (a & w & b & -> & -> & E). rewrite E. unfold sub_len. cbn [u_start u_end]. split; [apply between_at|]. split; [apply sub_list_at|].
  split; [intros i Hi; apply sub_get_at; lia|]. intros x y X Y. apply sub_getslice_at; [destruct x|destruct y]; cbn [in_bounds] in *; auto; lia.
Qed.
Example subpath_reads_ex : inside demo (mkSub 4 5) /\ sub_get demo (mkSub 4 5) (-2) = Ok (mv2 0 0 5 5). Proof. split; [cbv; repeat split; discriminate|vm_compute; reflexivity]. Qed.
Print Assumptions subpath_reads.
(** Out of range an index is not refused but reads the neighbouring subpaths. *)
Theorem subpath_bounds_refuted : exists p u s, In u (as_subpaths p) /\ sub_get p u (sub_len u) = Ok s /\ ~ In s (sub_segments p u).
Proof.
  exists demo, (mkSub 0 3), (mv2 0 0 5 5). split; [vm_compute; auto|]. split; [vm_compute; reflexivity|].
  intros K. change (sub_segments demo (mkSub 0 3)) with [mv 0 0; ln 0 0 1 0; ln 1 0 1 1; zz 1 1 0 0] in K. cbn in K. repeat (destruct K as [K|K]; [discriminate K|]). exact K.
Qed.
Print Assumptions subpath_bounds_refuted.
(** Full statement: writes through the view change only segments of the range. Proved for drawing segments; the
    start of the following segment, which may lie behind the range, is adapted. *)
Theorem subpath_write_partial : forall p u i v, inside p u -> - sub_len u <= i < sub_len u -> ended p -> draws v -> s_end v <> None ->
  let k := Z.to_nat (if i <? 0 then u_start u + sub_len u + i else u_start u + i) in
  (0 < k)%nat -> exists q, sub_set p u i v = Ok q /\ written k v p q.
Proof. exact sub_set_written. Qed.
Example subpath_write_ex : sub_set demo (mkSub 0 3) (-2) (lnto 3 3) = Ok [mv 0 0; ln 0 0 1 0; ln 1 0 3 3; zz 3 3 0 0; mv2 0 0 5 5; ln 5 5 6 5]. Proof. vm_compute. reflexivity. Qed.
Print Assumptions subpath_write_partial.
(** Deleting through the view: a drawing segment, not the first of the path. The view shrinks with the range. *)
Theorem subpath_delete_partial : forall p u i w o w', inside p u -> joined p -> ended p -> sub_segments p u = w ++ o :: w' -> draws o ->
  (i = Z.of_nat (List.length w) \/ i = Z.of_nat (List.length w) - sub_len u) -> u_start u + Z.of_nat (List.length w) <> 0 ->
  exists q u', sub_del p u i = Ok (q, u') /\ joined q /\ inside q u' /\ u_start u' = u_start u /\
    map s_kind (sub_segments q u') = map s_kind (w ++ w') /\ ends (sub_segments q u') = ends (w ++ w') /\
    exists a b, p = a ++ (w ++ o :: w') ++ b /\ map s_kind q = map s_kind (a ++ (w ++ w') ++ b) /\ ends q = ends (a ++ (w ++ w') ++ b).
Proof.
  intros p u i w o w' I J E S D Hi NZ. destruct (fits_split p u I) as (a & x & b & EP & EU & ES). rewrite S in ES. subst x. subst p. 
  set (la := Z.of_nat (List.length a)) in *. set (lw := Z.of_nat (List.length w)) in *. set (lw' := Z.of_nat (List.length w')).
  assert (EL : Z.of_nat (List.length (w ++ o :: w')) = lw + 1 + lw') by (rewrite app_length; cbn [List.length]; unfold lw, lw'; lia). rewrite EL in EU.
  assert (N : numeric_index u i = Z.of_nat (List.length (a ++ w))).
  { rewrite app_length, Nat2Z.inj_add. fold la lw. unfold numeric_index, sub_len in *. subst u. cbn [u_start u_end] in *. destruct Hi as [-> | ->]; [rewrite (proj2 (Z.ltb_ge lw 0)) by (unfold lw; lia); lia|].
    rewrite (proj2 (Z.ltb_lt _ 0)) by (unfold lw'; lia). lia. }
  replace (a ++ (w ++ o :: w') ++ b) with ((a ++ w) ++ o :: (w' ++ b)) in J, E by (rewrite <- !app_assoc; reflexivity).
  assert (NE : a ++ w <> []). { intros K. apply app_eq_nil in K. destruct K as [-> ->]. subst u. cbn in NZ. apply NZ. reflexivity. }
  destruct (delitem_draws (a ++ w) o (w' ++ b) NE J E D) as (q & P & J1 & Kq & Eq).
  exists q, (mkSub (u_start u) (u_end u - 1)). unfold sub_del. rewrite N. replace (a ++ (w ++ o :: w') ++ b) with ((a ++ w) ++ o :: (w' ++ b)) by (rewrite <- !app_assoc; reflexivity). rewrite P. cbn [rbind].
  replace ((a ++ w) ++ w' ++ b) with (a ++ (w ++ w') ++ b) in Kq, Eq by (rewrite <- !app_assoc; reflexivity).
  set (n := List.length a) in *. set (m := List.length (w ++ w')).
  assert (LQ : List.length q = (n + (m + List.length b))%nat). { rewrite <- (map_length s_kind), Kq, map_length, !app_length. unfold n, m. rewrite app_length. lia. }
  assert (SQ : q = firstn n q ++ firstn m (skipn n q) ++ skipn m (skipn n q)) by (rewrite firstn_skipn, firstn_skipn; reflexivity).
  assert (L1 : List.length (firstn n q) = n) by (rewrite firstn_length; lia). assert (L2 : List.length (firstn m (skipn n q)) = m) by (rewrite firstn_length, skipn_length; lia).
  assert (SS : sub_segments q (mkSub (u_start u) (u_end u - 1)) = firstn m (skipn n q)).
  { rewrite SQ at 1. replace (mkSub (u_start u) (u_end u - 1)) with (mkSub (Z.of_nat (List.length (firstn n q))) (Z.of_nat (List.length (firstn n q)) + Z.of_nat (List.length (firstn m (skipn n q))) - 1)); [apply sub_segments_at|].
    rewrite L1, L2. subst u. cbn [u_start u_end]. f_equal. unfold m. rewrite app_length. unfold la, lw, lw'. lia. }
  assert (CUT : forall A (f : seg -> A), map f q = map f (a ++ (w ++ w') ++ b) -> map f (firstn m (skipn n q)) = map f (w ++ w')).
  { intros A f H. rewrite <- firstn_map, <- skipn_map, H, !map_app. unfold n. rewrite <- (map_length f a). rewrite skipn_app, skipn_all, Nat.sub_diag. cbn [skipn app].
    unfold m. rewrite <- map_app, <- (map_length f (w ++ w')), firstn_app, firstn_all, Nat.sub_diag. cbn [firstn]. apply app_nil_r. }
  split; [reflexivity|]. split; auto. split. { destruct I as (I1 & I2 & I3). unfold inside. cbn [u_start u_end]. subst u. cbn [u_start u_end] in *. rewrite LQ. unfold m. rewrite app_length. unfold la, lw, lw', n in *. lia. }
  split; [reflexivity|]. rewrite SS. split; [apply CUT; auto|]. split; [apply CUT; auto|]. exists a, b. split; [rewrite <- !app_assoc; reflexivity|]. split; auto.
Qed.
Example subpath_delete_ex : sub_del demo (mkSub 0 3) (-2) = Ok ([mv 0 0; ln 0 0 1 0; zz 1 0 0 0; mv2 0 0 5 5; ln 5 5 6 5], mkSub 0 2). Proof. vm_compute. reflexivity. Qed.
Print Assumptions subpath_delete_partial.
(** Positions outside the path are refused with IndexError, by reading, writing and deleting alike. *)
Theorem path_index_errors : forall p i v, ~ (- Z.of_nat (List.length p) <= i < Z.of_nat (List.length p)) ->
  pyget p i = Err IndexError /\ setitem p i v = Err IndexError /\ delitem p i = Err IndexError.
Proof.
  intros p i v H. assert (N : pyidx (List.length p) i = None).
  { unfold pyidx. destruct (i <? 0) eqn:E; [apply Z.ltb_lt in E|apply Z.ltb_ge in E]; cbv zeta; destruct (_ && _) eqn:B; auto; apply andb_true_iff in B; destruct B as [B C]; apply Z.leb_le in B; apply Z.ltb_lt in C; lia. }
  unfold pyget, setitem, pyset, delitem. rewrite N. auto.
Qed.
Example path_index_errors_ex : setitem demo 6 (lnto 1 1) = Err IndexError /\ pyget demo (-6) = Ok (mv 0 0) /\ pyget demo (-7) = Err IndexError. Proof. vm_compute. auto. Qed.
Print Assumptions path_index_errors.
(** Adding to a subpath inserts before its last segment: L3,3 added to M5,5 L6,5 is drawn before the line to 6,5;
    and the view does not grow, so it loses its last segment. *)
Theorem subpath_iadd_refuted : exists p u v q, In u (as_subpaths p) /\ sub_iadd p u v = Ok q /\ q = [mv 5 5; ln 5 5 3 3; ln 3 3 6 5] /\ p = [mv 5 5; ln 5 5 6 5] /\ sub_segments q u = [mv 5 5; ln 5 5 3 3].
Proof. exists [mv 5 5; ln 5 5 6 5], (mkSub 0 1), (lnto 3 3). eexists. split; [vm_compute; auto|]. split; [vm_compute; reflexivity|]. repeat split. Qed.
Print Assumptions subpath_iadd_refuted.

(** * C46 *)
(** Full statement: for every connected path. Proved for paths made of complete subpaths, each beginning with a
    move, with exactly coinciding ends. The drawing segments come in the opposite order, each in the opposite
    direction, and so do the closing lines. *)
Theorem path_reverse_partial : forall p, wholes p -> joined p -> p <> [] ->
  exists q, path_reverse p = Ok q /\ wholes q /\ joined q /\
    strokes q = map (option_map flip) (rev (strokes p)) /\ closings q = map (option_map flip) (rev (closings p)).
Proof. exact path_reverse_spec. Qed.
Example demo_wholes : wholes demo.
Proof.
  exists [[mv 0 0; ln 0 0 1 0; ln 1 0 1 1; zz 1 1 0 0]; [mv2 0 0 5 5; ln 5 5 6 5]]. split; [reflexivity|]. constructor; [|constructor; [|constructor]].
  - exists (mv 0 0), [ln 0 0 1 0; ln 1 0 1 1], [zz 1 1 0 0], (at_ 0 0), (at_ 1 1). split; [reflexivity|]. split; [reflexivity|]. split; [reflexivity|]. split.
    + cbn. split; [reflexivity|]. split; [split; discriminate|]. eexists. split; [reflexivity|]. split; [reflexivity|]. split; [split; discriminate|]. eexists. split; reflexivity.
    + right. eexists. repeat split.
  - exists (mv2 0 0 5 5), [ln 5 5 6 5], [], (at_ 5 5), (at_ 6 5). split; [reflexivity|]. split; [reflexivity|]. split; [reflexivity|]. split; [|left; reflexivity].
    cbn. split; [reflexivity|]. split; [split; discriminate|]. eexists. split; reflexivity.
Qed.
Example path_reverse_ex : path_reverse demo = Ok [mv 6 5; ln 6 5 5 5; mv2 5 5 1 1; ln 1 1 1 0; ln 1 0 0 0; zz 0 0 1 1].
Proof. vm_compute. reflexivity. Qed.
Print Assumptions path_reverse_partial.
Theorem path_reverse_twice_partial : forall p, wholes p -> joined p -> p <> [] -> exists q r, path_reverse p = Ok q /\ path_reverse q = Ok r /\ Forall2 alike p r.
Proof. exact path_reverse_twice_spec. Qed.
Print Assumptions path_reverse_twice_partial.
(** Reversing one subpath in place: everything before stays, everything after too but where its move came from. *)
Theorem subpath_reverse_partial : forall a sp b, whole sp -> joined (a ++ sp ++ b) -> wholes b ->
  exists sp' b', sub_reverse (a ++ sp ++ b) (mkSub (Z.of_nat (List.length a)) (Z.of_nat (List.length a + List.length sp) - 1)) = Ok (a ++ sp' ++ b') /\
    whole sp' /\ strokes sp' = map (option_map flip) (rev (strokes sp)) /\ closings sp' = map (option_map flip) (rev (closings sp)) /\ Forall2 but_start b b' /\ tl b' = tl b.
Proof. exact sub_reverse_spec. Qed.
Print Assumptions subpath_reverse_partial.
(** A path that does not begin with a move loses where it starts: L(0,0 - 1,0) becomes a line from 1,0 to nowhere. *)
Theorem path_reverse_no_move_refuted : exists p q, joined p /\ ended p /\ path_reverse p = Ok q /\ ~ ended q.
Proof.
  exists [ln 0 0 1 0]. eexists. split; [valid|]. split; [repeat constructor; discriminate|]. split; [vm_compute; reflexivity|]. intros K. apply Forall_inv in K. apply K. reflexivity.
Qed.
Print Assumptions path_reverse_no_move_refuted.
(** Drawing on after a close: M0,0 L1,0 Z L0,5 does not stay connected. *)
Theorem path_reverse_after_close_refuted : exists p q, joined p /\ ended p /\ begins_with_a_move p /\ path_reverse p = Ok q /\ ~ joined q.
Proof.
  exists [mv 0 0; ln 0 0 1 0; zz 1 0 0 0; ln 0 0 0 5]. eexists. split; [valid|]. split; [repeat constructor; discriminate|]. split; [reflexivity|]. split; [vm_compute; reflexivity|]. invalid.
Qed.
Print Assumptions path_reverse_after_close_refuted.

(** * C50 *)
(** Full statement: for the curves made of an arc by as_cubic_curves/as_quad_curves. Proved for any conversion [conv]
    that turns every arc of the path into at least one curve, chained from the start to the end of the arc. *)
Theorem approximate_arcs_partial : forall conv p, joined p -> ended p ->
  (forall s, In s p -> is_arc s = true -> conv s <> [] /\ exists a b, s_start s = Some a /\ s_end s = Some b /\ chain a (conv s) b) ->
  (forall s t, In t (conv s) -> is_arc t = false) ->
  match p with [] => True | s :: _ => is_arc s = false end ->
  let q := approximate_arcs conv p in
  q = flat_map (fun s => if is_arc s then conv s else [s]) p /\ joined q /\ Forall (fun s => is_arc s = false) q /\ last (ends q) None = last (ends p) None.
Proof.
  intros conv p H E O NA D q. destruct (approximate_arcs_at conv p H E O D) as [A B]. split; [exact A|]. split; [exact B|]. split.
  - unfold q. rewrite A. apply Forall_forall. intros x I1. apply in_flat_map in I1. destruct I1 as (s & Is & Ix). unfold sub_arc in Ix. destruct (is_arc s) eqn:As; [apply (NA s x Ix)|]. destruct Ix as [<-|[]]. exact As.
  - unfold q. rewrite A. destruct (snoc_cases _ p) as [->|(l & s & ->)]; [reflexivity|]. rewrite flat_map_app. cbn [flat_map]. rewrite app_nil_r. unfold ends. rewrite !map_app. cbn [map]. rewrite last_last. unfold sub_arc at 2. destruct (is_arc s) eqn:As; [|cbn [map]; rewrite last_last; auto].
    destruct (O s) as (NE & x & y & Sx & Ey & C); [apply in_or_app; cbn; auto|auto|]. rewrite Ey. destruct (snoc_cases _ (conv s)) as [N|(c & z & Ec)]; [congruence|]. rewrite Ec in C |- *. rewrite map_app, app_assoc. cbn [map]. rewrite last_last.
    pose proof (chain_J _ None _ _ C) as (_ & Y & _). rewrite eof_app in Y. exact Y.
Qed.
Example approximate_arcs_ex :
  approximate_arcs (fun s => [mkSeg (KQuad (Some (at_ 1 1))) (s_start s) (s_end s) false true])
    [mv 0 0; mkSeg (KArc (mkArc 1 1 0 false true)) (Some (at_ 0 0)) (Some (at_ 2 0)) false true; ln 2 0 3 0]
  = [mv 0 0; mkSeg (KQuad (Some (at_ 1 1))) (Some (at_ 0 0)) (Some (at_ 2 0)) false true; ln 2 0 3 0].
Proof. vm_compute. reflexivity. Qed.
Print Assumptions approximate_arcs_partial.
