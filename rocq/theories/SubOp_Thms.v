(** Property theorems about the operators of subpaths and segments (C96). *)
Require Import ZArith QArith Qcanon Ascii String List Bool Lia.
Require Import Verif.Base Verif.Path_Model Verif.PathText_Model Verif.PathText_Spec Verif.PathDraw_Spec Verif.PathEdit_Model.
Require Import Verif.PathEdit_Spec Verif.PathEdit_Proofs Verif.PathSub_Proofs Verif.PathEdit_Thms Verif.SubOp_Model.
Import ListNotations.
Local Open Scope Z_scope.

Lemma nth_error_same : forall A (l m : list A), (forall k, nth_error l k = nth_error m k) -> l = m.
Proof.
  induction l as [|x l IH]; intros [|y m] H; auto; try discriminate (H O).
  pose proof (H O) as H0. injection H0 as <-. f_equal. apply IH. intros k. exact (H (S k)).
Qed.
(** segment + subpath: the segment, then those of the subpath, connected. Full statement: for every subpath. Proved
    for those that begin with a move. *)
Theorem subpath_radd_segment_partial : forall v p u l, inside p u -> between p (u_start u) (u_end u) l ->
  joined l -> begins_with_a_move l -> s_end v <> None ->
  exists q, sub_radd_seg v p u = Ok q /\ joined q /\ map s_kind q = s_kind v :: map s_kind l /\ ends q = s_end v :: ends l.
Proof.
  intros v p u l I1 B J M E. destruct (subpath_reads p u I1) as (B2 & _).
  assert (l = sub_segments p u) as ->.
  { destruct B as [L1 N1], B2 as [L2 N2]. apply nth_error_same. intros k.
    destruct (Nat.lt_ge_cases k (List.length l)) as [H|H].
    - specialize (N1 (Z.of_nat k) ltac:(lia)). specialize (N2 (Z.of_nat k) ltac:(lia)). rewrite Nat2Z.id in *. congruence.
    - transitivity (@None seg); [|symmetry]; apply nth_error_None; lia. }
  unfold sub_radd_seg. cbn [path_init rbind]. exact (path_insert_front_joined _ v J M E).
Qed.
Example subpath_radd_segment_ex : inside demo (mkSub 4 5) /\ between demo 4 5 [mv2 0 0 5 5; ln 5 5 6 5] /\
  joined [mv2 0 0 5 5; ln 5 5 6 5] /\ exists q, sub_radd_seg (lnto 7 7) demo (mkSub 4 5) = Ok q /\ ends q = map Some [at_ 7 7; at_ 5 5; at_ 6 5].
Proof.
  split; [cbv; repeat split; discriminate|]. split.
  { split; [reflexivity|]. intros k K. cbn [List.length Z.of_nat] in K. assert (k = 0 \/ k = 1) as [->| ->] by lia; reflexivity. }
  split; [valid|]. eexists. split; vm_compute; reflexivity.
Qed.
Print Assumptions subpath_radd_segment_partial.

(** text + subpath. Full statement: the kinds of the text, then those of the subpath. Proved when the subpath is the
    whole path: what is added is the whole backing path in any case. *)
Theorem subpath_radd_text_partial : forall t q p u, parse t [] = (q, None) -> u_start u = 0 -> u_end u = Z.of_nat (List.length p) - 1 ->
  exists r, sub_radd_text t p u = Ok r /\ map s_kind r = map s_kind q ++ map s_kind (sub_segments p u).
Proof.
  intros t q p u P A B. exists (extend q (map seg_copy p)). unfold sub_radd_text. cbn [path_init]. rewrite P. split; [reflexivity|].
  rewrite extend_kinds, map_app. f_equal. rewrite map_map. unfold sub_segments, pyslice, lo, hi, pyclamp. rewrite A, B.
  replace (Z.of_nat (List.length p) - 1 + 1) with (Z.of_nat (List.length p)) by lia.
  replace (Z.of_nat (List.length p) <? 0) with false by (symmetry; apply Z.ltb_ge; lia). cbn [Z.ltb Z.compare].
  replace (Z.to_nat (Z.min (Z.max 0 (Z.of_nat (List.length p))) (Z.of_nat (List.length p)))) with (List.length p) by lia.
  replace (Z.to_nat (Z.min (Z.max 0 0) (Z.of_nat (List.length p)))) with O by lia.
  rewrite Nat.sub_0_r. cbn [skipn]. rewrite firstn_all. apply map_ext. intros [k a b r m]. destruct k; reflexivity.
Qed.
Print Assumptions subpath_radd_text_partial.
(** For a subpath that is not everything, the others come along: "M9,9" + the second subpath of demo has its first. *)
Theorem subpath_radd_text_refuted : exists t p u r, In u (as_subpaths p) /\ sub_radd_text t p u = Ok r /\
  List.length r = S (List.length p) /\ (List.length (sub_segments p u) < List.length p)%nat.
Proof.
  exists (list_ascii_of_string "M9,9"), demo, (mkSub 4 5). eexists. split; [vm_compute; auto|]. split; [vm_compute; reflexivity|].
  split; [vm_compute; reflexivity|vm_compute; lia].
Qed.
Print Assumptions subpath_radd_text_refuted.

(** subpath + other. Full statement: the result has the segments of the subpath, then the others. It is false for all
    of them: the result does not depend on the subpath's segments at all. *)
Theorem subpath_add_refuted : forall p p' u a, sub_add p u a = sub_add p' u a.
Proof. intros p p' u [t|q|q w|s]; reflexivity. Qed.
Example subpath_add_ex : exists n, sub_add demo (mkSub 4 5) (APath demo) = Ok n /\ fst n = [].
Proof. eexists. split; [vm_compute; reflexivity|reflexivity]. Qed.
Print Assumptions subpath_add_refuted.

(** subpath *= matrix: the segments of the range, and only they, are changed. *)
Lemma map_range_nth : forall f l h p k i, nth_error (map_range f k l h p) i =
  option_map (fun s => if (l <=? k + Z.of_nat i) && (k + Z.of_nat i <=? h) then f s else s) (nth_error p i).
Proof.
  intros f l h p. induction p as [|s r IH]; intros k i; [now destruct i|]. destruct i as [|i]; cbn [map_range nth_error option_map].
  - now rewrite Z.add_0_r.
  - rewrite IH. now replace (k + 1 + Z.of_nat i) with (k + Z.of_nat (S i)) by lia.
Qed.
Theorem subpath_imul_range : forall f p u i,
  (u_start u <= Z.of_nat i <= u_end u -> nth_error (sub_imul f p u) i = option_map f (nth_error p i)) /\
  (~ u_start u <= Z.of_nat i <= u_end u -> nth_error (sub_imul f p u) i = nth_error p i).
Proof.
  intros f p u i. unfold sub_imul. rewrite map_range_nth, Z.add_0_l. split; intros H.
  - replace (u_start u <=? Z.of_nat i) with true by (symmetry; apply Z.leb_le; lia). now replace (Z.of_nat i <=? u_end u) with true by (symmetry; apply Z.leb_le; lia).
  - destruct ((u_start u <=? Z.of_nat i) && (Z.of_nat i <=? u_end u)) eqn:E; [|now destruct (nth_error p i)].
    apply andb_prop in E as [E1 E2]. apply Z.leb_le in E1. apply Z.leb_le in E2. lia.
Qed.
Example subpath_imul_ex : sub_imul seg_reverse demo (mkSub 5 5) = [mv 0 0; ln 0 0 1 0; ln 1 0 1 1; zz 1 1 0 0; mv2 0 0 5 5; ln 6 5 5 5].
Proof. vm_compute. reflexivity. Qed.
Print Assumptions subpath_imul_range.
(** subpath * matrix has no segments, whatever the subpath. *)
Theorem subpath_mul_refuted : forall f p u, exists n, sub_mul f p u = Ok n /\ fst n = [].
Proof. intros f p u. exists ([], u). split; reflexivity. Qed.
Print Assumptions subpath_mul_refuted.

(** segment + segment is the path of the two; it is connected only if they met before. *)
Theorem segment_add_two : forall s v, exists q, seg_add s v = Ok q /\ q = [s; v] /\ (joined q -> meets (s_end s) (s_start v)).
Proof. intros s v. exists [s; v]. split; [reflexivity|]. split; [reflexivity|]. intros [H _]. exact (H [] s v [] eq_refl). Qed.
Print Assumptions segment_add_two.
Theorem segment_add_joined_refuted : exists s v q, s_end s <> None /\ draws v /\ seg_add s v = Ok q /\ ~ joined q.
Proof.
  exists (ln 0 0 1 0), (lnto 2 2). eexists. split; [discriminate|]. split; [split; discriminate|]. split; [reflexivity|]. invalid.
Qed.
Print Assumptions segment_add_joined_refuted.
(** segment + text is the path of the text alone. *)
Theorem segment_add_text_refuted : forall s t q, parse t [] = (q, None) -> seg_add_text s t = Ok q.
Proof. intros s t q P. unfold seg_add_text. cbn [path_init rbind]. unfold path_add, path_copy. cbn [path_init rbind map path_iadd]. now rewrite P. Qed.
Example segment_add_text_ex : seg_add_text (mv 0 0) (list_ascii_of_string "M9,9") = Ok (fst (parse (list_ascii_of_string "M9,9") [])) /\
  List.length (fst (parse (list_ascii_of_string "M9,9") [])) = 1%nat.
Proof. split; vm_compute; reflexivity. Qed.
Print Assumptions segment_add_text_refuted.
