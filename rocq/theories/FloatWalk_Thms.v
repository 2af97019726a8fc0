(** C106: positions along a path in floating point. *)
Require Import ZArith Reals List Bool Lra Lia.
From Flocq Require Import Core BinarySingleNaN.
Require Import Verif.Base Verif.Float_Model Verif.Float_Spec Verif.Float_Proofs Verif.FloatBox_Proofs Verif.Float_Thms Verif.FloatWalk_Model Verif.FloatWalk_Spec Verif.FloatWalk_Proofs.
Import ListNotations.
Open Scope R_scope.

(** Path.point(t) for 0 < t < 1 never divides by zero; it takes a fraction between 0 and 1 of a segment, and that place is at the
    fraction t of the whole length but for 8(n+1) 2^-53. The segment has a length. Partial: with t within this distance of 1 it
    may be the beginning of the last segment instead, see [float_walk_refuted]. *)
Theorem float_walk_partial : forall l t, lengths_ok l -> (Z.of_nat (length l) <= 2 ^ 40)%Z -> 0 < total l -> finite t -> 0 < value t < 1 ->
  exists i p, fpath_point l t = Ok (Some (i, p)) /\ (i < length l)%nat /\ finite p /\ 0 <= value p <= 1 /\
    ((Rabs (reached l i (value p) - value t) <= 8 * (INR (length l) + 1) * bpow radix2 (-53) /\ 0 < value (nth i l (fz 0))) \/
     (1 - 8 * (INR (length l) + 1) * bpow radix2 (-53) < value t /\ i = (length l - 1)%nat /\ value p = 0)).
Proof.
  intros l t H N. apply point_close; auto. unfold few. rewrite INR_IZR_INZ. change (bpow radix2 40) with (IZR (2 ^ 40)). apply IZR_le. exact N.
Qed.
Definition sevens : list fl := repeat (fz 1) 7.
Lemma sevens_ok : lengths_ok sevens.
Proof.
  destruct fz1 as [F V]. split.
  - unfold sevens. apply Forall_forall. intros x H. apply repeat_spec in H. subst x. split; [auto|]. rewrite V. lra.
  - cbn [sevens repeat total]. rewrite V. apply Rle_trans with (bpow radix2 3); [cbn; lra|apply bpow_le; lia].
Qed.
Lemma sevens_total : total sevens = 7.
Proof. destruct fz1 as [F V]. cbn [sevens repeat total]. rewrite V. lra. Qed.
(** To compute examples: the segment, and the position by its value. *)
Definition lands (i : nat) (q : fl) (r : Res (option (nat * fl))) : bool :=
  match r with Ok (Some (j, p)) => Nat.eqb j i && is_finite p && feq p q | _ => false end.
Lemma lands_is : forall i q r, finite q -> lands i q r = true -> exists p, r = Ok (Some (i, p)) /\ value p = value q.
Proof.
  intros i q [[[j p]|]|e] Q H; cbn in H; try discriminate. apply andb_true_iff in H. destruct H as [H E]. apply andb_true_iff in H. destruct H as [H F]. apply Nat.eqb_eq in H. subst j. exists p. split; [reflexivity|].
  unfold feq in E. rewrite Beqb_correct in E by auto. revert E. unfold value. case Req_bool_spec; [auto|discriminate].
Qed.
Example float_walk_case : lengths_ok sevens /\ (Z.of_nat (length sevens) <= 2 ^ 40)%Z /\ 0 < total sevens /\ finite (fd 1 (-1)) /\ 0 < value (fd 1 (-1)) < 1 /\
  exists p, fpath_point sevens (fd 1 (-1)) = Ok (Some (3%nat, p)) /\ value p = value (fd 4503599627370498 (-53)).
Proof.
  split; [apply sevens_ok|]. split; [vm_compute; discriminate|]. split; [rewrite sevens_total; lra|]. split; [vm_compute; reflexivity|]. split.
  - rewrite (proj2 (fd_is 1 (-1) ltac:(lia) ltac:(lia))). change (bpow radix2 (-1)) with (/ 2). lra.
  - apply lands_is; vm_compute; reflexivity.
Qed.
Print Assumptions float_walk_partial.

(** Up to 0 it is the first segment and from 1 on the last, with the position as it is. *)
Theorem float_walk_ends : forall l t, l <> [] -> finite t ->
  (value t <= 0 -> fpath_point l t = Ok (Some (0%nat, t))) /\ (1 <= value t -> fpath_point l t = Ok (Some ((length l - 1)%nat, t))).
Proof.
  intros l t L F. destruct fz0 as [F0 V0]. destruct fz1 as [F1 V1]. unfold fpath_point. split; intros H.
  - replace (fle t (fz 0)) with true by (symmetry; apply fle_spec; auto; lra). destruct l; [congruence|reflexivity].
  - replace (fle t (fz 0)) with false by (symmetry; apply not_true_iff_false; intros C; apply fle_spec in C; auto; lra). replace (fle (fz 1) t) with true by (symmetry; apply fle_spec; auto; lra). destruct l; [congruence|reflexivity].
Qed.
Example float_walk_ends_case : sevens <> [] /\ finite (fz 2) /\ 1 <= value (fz 2).
Proof. split; [discriminate|]. split; [vm_compute; reflexivity|]. rewrite (proj2 (fz_is 2 ltac:(lia))). lra. Qed.
Print Assumptions float_walk_ends.

(** Seven lines of length 1: just before 1, point goes back to the beginning of the last line, although an earlier position
    already is at its end. *)
Theorem float_walk_refuted : exists l t1 t2 p1 p2, lengths_ok l /\ total l = 7 /\ finite t1 /\ finite t2 /\ 0 < value t1 < value t2 /\ value t2 < 1 /\
  fpath_point l t1 = Ok (Some (6%nat, p1)) /\ fpath_point l t2 = Ok (Some (6%nat, p2)) /\ reached l 6 (value p1) = 1 /\ reached l 6 (value p2) = 6 / 7.
Proof.
  destruct (lands_is 6 (fz 1) (fpath_point sevens (fd 9007199254740990 (-53)))) as (p1 & E1 & V1); [vm_compute; reflexivity|vm_compute; reflexivity|].
  destruct (lands_is 6 (fz 0) (fpath_point sevens (fd 9007199254740991 (-53)))) as (p2 & E2 & V2); [vm_compute; reflexivity|vm_compute; reflexivity|].
  exists sevens, (fd 9007199254740990 (-53)), (fd 9007199254740991 (-53)), p1, p2. split; [apply sevens_ok|]. split; [apply sevens_total|].
  split; [vm_compute; reflexivity|]. split; [vm_compute; reflexivity|]. split; [split; [rewrite <- (proj2 fz0)|]; apply flt_spec; vm_compute; reflexivity|]. split; [rewrite <- (proj2 fz1); apply flt_spec; vm_compute; reflexivity|].
  split; [exact E1|]. split; [exact E2|]. unfold reached. rewrite sevens_total, V1, V2, (proj2 fz0). destruct fz1 as [F V]. cbn [sevens repeat firstn total nth]. rewrite V. split; lra.
Qed.
Print Assumptions float_walk_refuted.
