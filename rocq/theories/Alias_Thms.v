(** C98: paths made and edited through the library hold no object in common, so a path may be taken for the list of the
    values of its segments; passing on segments a path already holds breaks this. *)
Require Import String ZArith QArith Qcanon List Bool Lia.
Require Import Verif.Base Verif.Path_Model Verif.PathText_Model Verif.PathEdit_Model Verif.SubOp_Model Verif.Alias_Model Verif.Alias_Spec
  Verif.Alias_Proofs Verif.AliasOps_Proofs Verif.AliasRev_Proofs Verif.AliasPath_Proofs Verif.AliasWorld_Proofs.
Require Import Verif.SubOp_Thms.
Import ListNotations.
Local Open Scope Z_scope.

(** ** Any program of statements that make their own segments *)
Theorem alias_run_refines : forall cs w, unshared (w_heap w) (w_paths w) ->
  match exec w cs with
  | Ok w' => v_exec (values w) cs = Ok (values w')
  | Err e => v_exec (values w) cs = Err e
  end.
Proof.
  intros cs w U. apply wf_unshared in U. pose proof (exec_agrees cs w U) as A. destruct (exec w cs); cbn in A; [apply A|exact A].
Qed.
(** A program: two paths, one with a Move, two Lines and a Close; the second gets a copy of the first, is reversed and
    scaled, and the first is edited. *)
Definition pt_ (x y : Z) : pt := (Q2Qc (inject_Z x), Q2Qc (inject_Z y)).
Definition seg_to (k : kind) (x y : Z) : seg := mkSeg k None (Some (pt_ x y)) false true.
Definition tri : list seg := [seg_to KMove 0 0; seg_to KLine 4 0; seg_to KLine 4 4; mkSeg KClose None None false true].
Definition twice (p : pt) : pt := (fst p + fst p, snd p + snd p)%Qc.
Definition prog : list stmt :=
  [SNewList tri; SNew; SAddPath 1 0; SReverse 1; SScale 1 1 twice; SDraw 0 (DLine (APt (pt_ 9 9)) false); SDel 0 1; SDirect 1;
   SScaleSub 0 (mkSub 1 2) twice; SReverseSub 0 (mkSub 0 2)].
Definition ends_of (w : world) : list (list (option (Q * Q))) :=
  map (map (fun s => option_map (fun q => (this (fst q), this (snd q))) (s_end s))) (values w).
Example alias_run_ex : exists w, exec empty_world prog = Ok w /\ unshared (w_heap empty_world) (w_paths empty_world) /\
  ends_of w = [[Some (8, 8); Some (0, 0); Some (8, 8); Some (9, 9)];
               [Some (4, 4); Some (8, 0); Some (0, 0); Some (4, 4); Some (4, 4)]]%Q.
Proof.
  eexists. split; [vm_compute; reflexivity|]. split; [|vm_compute; reflexivity].
  split; [constructor|]. split; [constructor|]. split; intros x [].
Qed.
Print Assumptions alias_run_refines.

(** The Path class says (path.py:1954) "Each one exists only once in each path and every point contained within the object is also unique". *)
Theorem alias_run_unshared : forall cs w, exec empty_world cs = Ok w -> unshared (w_heap w) (w_paths w).
Proof.
  intros cs w E. pose proof (exec_agrees cs empty_world) as A. rewrite E in A. apply wf_unshared, A. split; cbn; try tauto; constructor.
Qed.
Example alias_run_unshared_ex : exists w, exec empty_world prog = Ok w /\ w_paths w = [[0; 2; 3; 12]; [8; 9; 10; 13; 11]]%nat.
Proof. eexists. split; vm_compute; reflexivity. Qed.
Print Assumptions alias_run_unshared.
(** A program that reads path data, for a new path and at the end of one, and adds paths: the two paths and text + path have 3, 2 and 5 segments, copy(path)
    none, and no object is in two of them. *)
Definition text_prog : list stmt :=
  [SNewText (T "M0,0h4v4"%string); SNewText (T "m1,1"%string); SText 1 (T "q2,2,4,0"%string); STextPlus (T "M9,9l1,1z"%string) 1; SCopy 0; SPlus 2 0; SScale 0 1 twice].
Example alias_text_ex : exists w, exec empty_world text_prog = Ok w /\ map (@length nat) (w_paths w) = [3; 2; 5; 0; 3]%nat /\ unshared (w_heap w) (w_paths w).
Proof. eexists. split; [vm_compute; reflexivity|]. split; [reflexivity|]. apply (alias_run_unshared text_prog). vm_compute. reflexivity. Qed.

(** A statement leaves every path it does not name as it was: the same segment objects with the same values. *)
Theorem alias_frame : forall w c w' j l, unshared (w_heap w) (w_paths w) -> step w c = Ok w' -> target c <> Some j ->
  nth_error (w_paths w) j = Some l ->
  nth_error (w_paths w') j = Some l /\ reads (w_heap w') l = reads (w_heap w) l.
Proof.
  intros w c w' j l U E T J.
  assert (L : nth_error (w_paths w') j = Some l).
  { assert (P : forall k f, Some k <> Some j -> with_path w k f = Ok w' -> nth_error (w_paths w') j = Some l).
    { intros k f K H. unfold with_path in H. destruct (nth_error (w_paths w) k); [|discriminate].
      destruct (f (w_heap w, l0)); [|discriminate]. injection H as <-. cbn. rewrite nth_error_upd_ne by congruence. auto. }
    assert (New : forall x, nth_error (w_paths w ++ x) j = Some l).
    { intro x. rewrite nth_error_app1; auto. apply nth_error_Some. congruence. }
    assert (Made : forall x, with_made w x = Ok w' -> nth_error (w_paths w') j = Some l).
    { intros x H. unfold with_made in H. destruct x; [|discriminate]. injection H as <-. apply New. }
    assert (Source : forall i f, with_source w i f = Ok w' -> (forall src, f src = Ok w' -> nth_error (w_paths w') j = Some l) -> nth_error (w_paths w') j = Some l).
    { intros i f H K. unfold with_source in H. destruct (nth_error (w_paths w) i); [|discriminate]. eauto. }
    destruct c; cbn [step target] in *; eauto;
      try (match type of E with match nth_error ?a ?b with _ => _ end = _ => destruct (nth_error a b); [|discriminate] end; eauto; fail).
    - injection E as <-. apply New.
    - destruct (construct_all (w_heap w) vs). injection E as <-. apply New.
    - destruct (construct_all (w_heap w) vs). injection E as <-. apply New.
    - apply (Source _ _ E). intros src E'. apply (Made _ E').
    - apply (Source _ _ E). intros src E'. apply (Source _ _ E'). intros src' E''. apply (Made _ E'').
    - apply (Source _ _ E). intros src E'. apply (Made _ E').
    - apply (Source _ _ E). intros src E'. apply (Made _ E'). }
  split; auto.
  assert (V : forall ps, v_step (values w) c = Ok ps -> nth_error ps j = nth_error (values w) j).
  { assert (Jv : (j < length (values w))%nat). { unfold values. rewrite map_length. apply nth_error_Some. congruence. }
    assert (P : forall k f ps, Some k <> Some j -> v_with (values w) k f = Ok ps -> nth_error ps j = nth_error (values w) j).
    { intros k f ps K H. unfold v_with in H. destruct (nth_error (values w) k); [|discriminate].
      destruct (f p); [|discriminate]. injection H as <-. apply nth_error_upd_ne. congruence. }
    assert (Made : forall x ps, (do q <- x; Ok (values w ++ [q])) = Ok ps -> nth_error ps j = nth_error (values w) j).
    { intros x ps H. destruct x; [|discriminate]. injection H as <-. apply nth_error_app1; auto. }
    assert (Source : forall i f ps, v_source (values w) i f = Ok ps -> (forall p, f p = Ok ps -> nth_error ps j = nth_error (values w) j) -> nth_error ps j = nth_error (values w) j).
    { intros i f ps H K. unfold v_source in H. destruct (nth_error (values w) i); [|discriminate]. eauto. }
    intros ps H. destruct c; cbn [v_step target] in *; eauto; try (apply (Source _ _ _ H); intros p1 H1; try (apply (Source _ _ _ H1); intros p2 H2); eauto; fail);
      try (match type of H with match nth_error ?a ?b with _ => _ end = _ => destruct (nth_error a b); [|discriminate] end; eauto; fail);
      injection H as <-; apply nth_error_app1; auto. }
  apply wf_unshared in U. pose proof (step_agrees w c U) as A. rewrite E in A. destruct A as [A _].
  apply V in A. unfold values in A. rewrite !nth_error_map, J, L in A. cbn in A. congruence.
Qed.
Example alias_frame_ex : exists w w', exec empty_world [SNewList tri; SNew; SAddPath 1 0] = Ok w /\ step w (SReverse 1) = Ok w' /\
  target (SReverse 1) <> Some 0%nat /\ ends_of w' <> ends_of w /\ nth_error (w_paths w) 0 = Some [0; 1; 2; 3]%nat.
Proof.
  eexists. eexists. split; [vm_compute; reflexivity|]. split; [vm_compute; reflexivity|]. split; [discriminate|].
  split; [vm_compute; discriminate|reflexivity].
Qed.
Print Assumptions alias_frame.

(** subpath *= matrix on the objects is [sub_imul] of SubOp_Model.v on the values. *)
Lemma nth_error_all {A} : forall l l' : list A, (forall i, nth_error l i = nth_error l' i) -> l = l'.
Proof.
  induction l as [|x l IH]; intros [|y l'] H; auto; try (specialize (H 0%nat); discriminate).
  pose proof (H 0%nat) as H0. cbn in H0. injection H0 as ->. f_equal. apply IH. intro i. exact (H (S i)).
Qed.
Lemma pyidx_in n i : 0 <= i < Z.of_nat n -> pyidx n i = Some (Z.to_nat i).
Proof.
  intro H. unfold pyidx. replace (i <? 0) with false by (symmetry; apply Z.ltb_ge; lia).
  replace (0 <=? i) with true by (symmetry; apply Z.leb_le; lia). replace (i <? Z.of_nat n) with true by (symmetry; apply Z.ltb_lt; lia). auto.
Qed.
Lemma imul_range_map m n : forall i p, forallb (fun s => negb (is_arc s)) p = true -> 0 <= i -> i + Z.of_nat n <= Z.of_nat (length p) ->
  v_imul_range m n i p = Ok (map_range (seg_map m) 0 i (i + Z.of_nat n - 1) p).
Proof.
  induction n as [|n IH]; intros i p NA I N; cbn [v_imul_range].
  - f_equal. apply nth_error_all. intro j. rewrite map_range_nth. destruct (nth_error p j); cbn; auto.
    replace ((i <=? Z.of_nat j) && (Z.of_nat j <=? i + 0 - 1)) with false; auto.
    destruct (i <=? Z.of_nat j) eqn:E1, (Z.of_nat j <=? i + 0 - 1) eqn:E2; auto. lia.
  - unfold pyget, pyset. rewrite pyidx_in by lia.
    destruct (nth_error p (Z.to_nat i)) as [s|] eqn:S.
    2:{ apply nth_error_None in S. lia. }
    assert (As : is_arc s = false). { rewrite forallb_forall in NA. specialize (NA s (nth_error_In _ _ S)). now destruct (is_arc s). }
    unfold v_imul. rewrite As. cbn [rbind]. rewrite IH.
    + f_equal. apply nth_error_all. intro j. rewrite !map_range_nth. 
      destruct (Nat.eq_dec j (Z.to_nat i)) as [->|Nj].
      * rewrite nth_error_upd, Nat.eqb_refl, S by lia. cbn [option_map]. f_equal.
        rewrite (proj2 (Z.leb_gt _ _)) by lia. rewrite (proj2 (Z.leb_le i _)), (proj2 (Z.leb_le _ (i + _ - 1))) by lia. auto.
      * rewrite nth_error_upd_ne by auto. destruct (nth_error p j); cbn [option_map]; auto. f_equal.
        replace (i + 1 + Z.of_nat n - 1) with (i + Z.of_nat (Datatypes.S n) - 1) by lia.
        replace (i + 1 <=? 0 + Z.of_nat j) with (i <=? 0 + Z.of_nat j); auto.
        apply eq_true_iff_eq. rewrite !Z.leb_le. lia.
    + rewrite forallb_forall in *. intros x Hx. apply in_upd in Hx. destruct Hx as [->|Hx]; auto.
      unfold is_arc, seg_map in *. cbn. destruct (s_kind s); auto.
    + lia.
    + rewrite len_upd. lia.
Qed.
Theorem alias_subpath_imul : forall w k u m p, nth_error (values w) k = Some p ->
  forallb (fun s => negb (is_arc s)) p = true -> 0 <= u_start u <= u_end u + 1 -> u_end u < Z.of_nat (length p) ->
  unshared (w_heap w) (w_paths w) ->
  exists w', step w (SScaleSub k u m) = Ok w' /\ values w' = upd (values w) k (sub_imul (seg_map m) p u).
Proof.
  intros w k u m p K NA S E U. pose proof (alias_run_refines [SScaleSub k u m] w U) as R. cbn [exec v_exec v_step] in R.
  unfold v_with in R. rewrite K in R. cbn [rbind] in R. rewrite imul_range_map in R by (auto; lia). cbn [rbind] in R.
  rewrite Z2Nat.id in R by lia. replace (u_start u + (u_end u - u_start u + 1) - 1) with (u_end u) in R by lia.
  destruct (step w (SScaleSub k u m)) as [w'|e]; cbn [rbind] in R; [|discriminate].
  exists w'. split; auto. injection R as R. symmetry. exact R.
Qed.
Example alias_subpath_imul_ex : exists w p, exec empty_world [SNewList tri] = Ok w /\ nth_error (values w) 0 = Some p /\
  forallb (fun s => negb (is_arc s)) p = true /\ List.length p = 4%nat /\ unshared (w_heap w) (w_paths w).
Proof.
  eexists. eexists. split; [vm_compute; reflexivity|]. split; [reflexivity|]. split; [reflexivity|]. split; [reflexivity|].
  eapply (alias_run_unshared [SNewList tri]). vm_compute; reflexivity.
Qed.
Print Assumptions alias_subpath_imul.

(** ** Statements that pass on segments a path holds already *)
Lemma nth_error_firstn_lt {A} : forall n (l : list A) i, (i < n)%nat -> nth_error (firstn n l) i = nth_error l i.
Proof. induction n as [|n IH]; intros [|x l] [|i] H; cbn; auto; try lia. apply IH; lia. Qed.
Lemma nth_error_skipn' {A} : forall n (l : list A) i, nth_error (skipn n l) i = nth_error l (n + i).
Proof. induction n as [|n IH]; intros [|x l] i; cbn; auto. now destruct i. Qed.
(** Path(subpath) holds the segments of the path it was taken from: what is done to one of them is done to that path. *)
Theorem alias_subpath_shares : forall w j l u w1 i m w2 s, unshared (w_heap w) (w_paths w) -> nth_error (w_paths w) j = Some l ->
  0 <= u_start u -> u_end u < Z.of_nat (length l) -> 0 <= i <= u_end u - u_start u ->
  share w (HNewSub j u) = Ok w1 -> step w1 (SScale (length (w_paths w)) i m) = Ok w2 ->
  nth_error (reads (w_heap w) l) (Z.to_nat (u_start u + i)) = Some s ->
  nth_error (values w2) j = Some (upd (reads (w_heap w) l) (Z.to_nat (u_start u + i)) (seg_map m s)).
Proof.
  intros w j l u w1 i m w2 s U J S E I H1 H2 G. apply wf_unshared in U.
  unfold share in H1. rewrite J in H1. injection H1 as <-.
  cbn [step] in H2. unfold with_path in H2. cbn [w_paths w_heap] in H2.
  rewrite nth_error_app2, Nat.sub_diag in H2 by lia. cbn [nth_error fst snd] in H2.
  set (q := pyslice l (Some (u_start u)) (Some (u_end u + 1))) in *.
  rewrite nth_error_reads in G. destruct (nth_error l (Z.to_nat (u_start u + i))) as [x|] eqn:X; [|discriminate]. injection G as <-.
  assert (Q : pyget q i = Ok x).
  { assert (Q1 : nth_error q (Z.to_nat i) = Some x).
    { unfold q, pyslice, lo, hi, pyclamp. replace (u_start u <? 0) with false by (symmetry; apply Z.ltb_ge; lia).
      replace (u_end u + 1 <? 0) with false by (symmetry; apply Z.ltb_ge; lia).
      rewrite !Z.max_r, !Z.min_l by lia. rewrite nth_error_firstn_lt by lia. rewrite nth_error_skipn'.
      replace (Z.to_nat (u_start u) + Z.to_nat i)%nat with (Z.to_nat (u_start u + i)) by lia. exact X. }
    unfold pyget. rewrite pyidx_in, Q1; auto. assert (Z.to_nat i < length q)%nat by (apply nth_error_Some; congruence). lia. }
  rewrite Q in H2. cbn [rbind] in H2. destruct (h_imul m (w_heap w) x) as [h'|] eqn:M; [|discriminate]. injection H2 as <-.
  assert (Jl : (j < length (w_paths w))%nat) by (apply nth_error_Some; congruence).
  unfold values. cbn [w_paths w_heap fst snd]. rewrite nth_error_map, nth_error_upd_ne, nth_error_app1, J by lia. cbn [option_map]. f_equal.
  destruct (nth_error_split _ _ J) as (p1 & p2 & EQ & <-).
  assert (Wl : wf (w_heap w) l []). { rewrite EQ in U. eapply wf_l. eapply wf_perm; [apply concat_mid|exact U]. }
  assert (V : v_imul m (read (w_heap w) x) = Ok (seg_map m (read (w_heap w) x))).
  { unfold v_imul. unfold h_imul in M. rewrite is_arc_read. destruct (is_oarc (gets (w_heap w) x)); [discriminate|auto]. }
  destruct (h_imul_does _ _ _ _ _ _ _ _ Wl X M V) as [[D _] _]. exact D.
Qed.
Example alias_subpath_shares_ex : exists w w1 w2, exec empty_world [SNewList (tri ++ tri)] = Ok w /\
  share w (HNewSub 0 (mkSub 4 7)) = Ok w1 /\ step w1 (SScale 1 2 twice) = Ok w2 /\
  nth_error (ends_of w) 0 = Some (map Some [(0, 0); (4, 0); (4, 4); (0, 0); (0, 0); (4, 0); (4, 4); (0, 0)])%Q /\
  nth_error (ends_of w2) 0 = Some (map Some [(0, 0); (4, 0); (4, 4); (0, 0); (0, 0); (4, 0); (8, 8); (0, 0)])%Q.
Proof.
  do 3 eexists. split; [vm_compute; reflexivity|]. split; [vm_compute; reflexivity|]. split; [vm_compute; reflexivity|].
  split; vm_compute; reflexivity.
Qed.
Print Assumptions alias_subpath_shares.

(** Path([other[1], other[0]]) joins up the segments it is given: the other path is changed by making this one. *)
Theorem alias_list_refuted : exists cs w j is_ w', exec empty_world cs = Ok w /\ share w (HNewList j is_) = Ok w' /\
  nth_error (values w') j <> nth_error (values w) j.
Proof.
  exists [SNewList tri]. eexists. exists 0%nat, [2; 1]. eexists. split; [vm_compute; reflexivity|]. split; [vm_compute; reflexivity|].
  intro H. apply (f_equal (option_map (map (fun s => option_map (fun q => (this (fst q), this (snd q))) (s_start s))))) in H.
  vm_compute in H. discriminate H.
Qed.
Print Assumptions alias_list_refuted.

(** path.append(path[i]): the path holds one segment at two positions, and a change of the one is a change of the other.
    On values only one of the two would change. *)
Theorem alias_append_refuted : exists cs w w1 w2 m, exec empty_world cs = Ok w /\ share w (HAppend 0 0 1) = Ok w1 /\
  step w1 (SScale 0 1 m) = Ok w2 /\ ~ unshared (w_heap w1) (w_paths w1) /\
  (exists p q, nth_error (values w1) 0 = Some p /\ nth_error (values w2) 0 = Some q /\
     nth_error q 4 <> nth_error p 4 /\ v_step (values w1) (SScale 0 1 m) <> Ok (values w2)).
Proof.
  exists [SNewList tri]. do 3 eexists. exists twice. split; [vm_compute; reflexivity|]. split; [vm_compute; reflexivity|].
  split; [vm_compute; reflexivity|]. split.
  - intros [N _]. vm_compute in N. inversion N as [|a b A B]; subst. inversion B as [|a b A' B']; subst. apply A'. cbn; auto.
  - do 2 eexists. split; [reflexivity|]. split; [reflexivity|].
    set (f := fun s => option_map (fun q => (this (fst q), this (snd q))) (s_end s)). split.
    + intro H. apply (f_equal (option_map f)) in H. vm_compute in H. discriminate H.
    + intro H. apply (f_equal (fun r => match r with Ok v => Some (map (map f) v) | Err _ => None end)) in H. vm_compute in H. discriminate H.
Qed.
Print Assumptions alias_append_refuted.

(** path.extend(other), which path += other is not: the two paths hold the same segments, and reversing the one
    changes the other. *)
Theorem alias_extend_refuted : exists cs w w1 w2, exec empty_world cs = Ok w /\ share w (HExtend 1 0) = Ok w1 /\
  step w1 (SReverseSub 1 (mkSub 0 3)) = Ok w2 /\ nth_error (values w2) 0 <> nth_error (values w1) 0.
Proof.
  exists [SNewList tri; SNew]. do 3 eexists. split; [vm_compute; reflexivity|]. split; [vm_compute; reflexivity|].
  split; [vm_compute; reflexivity|]. 
  intro H. apply (f_equal (option_map (map (fun s => option_map (fun q => (this (fst q), this (snd q))) (s_end s))))) in H.
  vm_compute in H. discriminate H.
Qed.
Print Assumptions alias_extend_refuted.
