(** Rounding errors in Path.point. *)
Require Import ZArith Reals List Bool Lra Lia Psatz.
From Flocq Require Import Core BinarySingleNaN Relative Plus_error.
Require Import Verif.Base Verif.Float_Model Verif.Float_Spec Verif.Float_Proofs Verif.FloatBox_Proofs Verif.FloatWalk_Model Verif.FloatWalk_Spec.
Import ListNotations.
Open Scope R_scope.

(** * One operation *)
Lemma plus_rel : forall (x y : fl), exists e, Rabs e <= u /\ rnd (value x + value y) = (value x + value y) * (1 + e).
Proof.
  intros x y. destruct (@FLT_plus_error_N_ex radix2 (-1074) 53 p53 (fun z => negb (Z.even z)) (value x) (value y)) as (e & E & R).
  - rewrite <- fexp_FLT. apply generic_format_B2R.
  - rewrite <- fexp_FLT. apply generic_format_B2R.
  - exists e. assert (U : u_ro radix2 53 = u) by (unfold u_ro, u; change (/ 2) with (bpow radix2 (-1)); rewrite <- bpow_plus; reflexivity).
    rewrite U in E. pose proof u_pos. split; [|exact R].
    eapply Rle_trans; [exact E|]. apply Rmult_le_reg_r with (1 + u); [lra|]. unfold Rdiv. rewrite Rmult_assoc, Rinv_l by lra. nra.
Qed.
Lemma fadd_rel : forall x y, finite x -> finite y -> Rabs (value x + value y) <= big -> exists e, Rabs e <= u /\ is (fadd x y) ((value x + value y) * (1 + e)).
Proof. intros x y X Y H. destruct (fadd_rnd x y X Y H) as [F V]. destruct (plus_rel x y) as (e & E & R). exists e. split; auto. split; auto. congruence. Qed.
Lemma fsub_rel : forall x y, finite x -> finite y -> Rabs (value x - value y) <= big -> exists e, Rabs e <= u /\ is (fsub x y) ((value x - value y) * (1 + e)).
Proof.
  intros x y X Y H. destruct (fsub_rnd x y X Y H) as [F V]. destruct (plus_rel x (fneg y)) as (e & E & R). exists e. split; auto. split; auto.
  unfold fneg, value in R. rewrite B2R_Bopp in R. exact (eq_trans V R).
Qed.
Lemma u_small : u <= / 1000000. Proof. rewrite u_val. lra. Qed.

(** * Sums *)
Definition few (n : nat) : Prop := INR n <= bpow radix2 40.
Lemma few_u : forall n, few n -> INR n * u <= / 8192.
Proof. intros n N. apply Rle_trans with (bpow radix2 40 * u); [apply Rmult_le_compat_r; [left; apply u_pos|auto]|]. unfold u. rewrite <- bpow_plus. cbn. lra. Qed.
Lemma total_nonneg : forall l, Forall (fun x => finite x /\ 0 <= value x) l -> 0 <= total l.
Proof. induction 1 as [|x l [F X] H IH]; cbn; lra. Qed.
Lemma cap_big : 4 * bpow radix2 1000 <= big.
Proof. change 4 with (bpow radix2 2). rewrite <- bpow_plus. apply bpow_le. lia. Qed.
Lemma fold_sum : forall l (s : fl) (a k : R), Forall (fun x => finite x /\ 0 <= value x) l -> finite s -> 0 <= a -> a + total l <= bpow radix2 1000 -> 0 <= k -> (k + INR (length l)) * u <= / 8192 ->
  a * (1 - k * u) <= value s <= a * (1 + 2 * k * u) ->
  exists v, is (fold_left fadd l s) v /\ (a + total l) * (1 - (k + INR (length l)) * u) <= v <= (a + total l) * (1 + 2 * (k + INR (length l)) * u).
Proof.
  induction l as [|x l IH]; intros s a k H FS A B K S V.
  - cbn [length INR] in *. cbn [fold_left total]. exists (value s). split; [split; auto|]. rewrite !Rplus_0_r. exact V.
  - inversion H as [|? ? [FX X] HL]. subst. cbn [fold_left total] in *. cbn [length] in *. rewrite S_INR in *. pose proof (total_nonneg l HL) as TL. pose proof u_pos as U. pose proof (pos_INR (length l)) as PL.
    assert (KU : 0 <= k * u <= / 8192 - u) by (split; [nra|]; nra).
    assert (SA : value s <= 2 * a) by nra. assert (S0 : 0 <= value s) by nra.
    destruct (fadd_rel s x FS FX) as (e & E & F' & V'). { pose proof cap_big. apply abs_le. nra. }
    apply abs_ge in E. destruct (IH (fadd s x) (a + value x) (k + 1) HL F') as (v & I & J); try lra.
    + rewrite V'. assert (Y1 : (a + value x) * (1 - k * u) <= value s + value x) by nra. assert (Y2 : value s + value x <= (a + value x) * (1 + 2 * k * u)) by nra.
      assert (Z : 0 <= a + value x) by lra. assert (KK : 0 <= k * u * u) by nra. split.
      * apply Rle_trans with ((a + value x) * (1 - k * u) * (1 - u)); [|nra]. assert (0 <= (a + value x) * (k * u * u)) by nra. nra.
      * apply Rle_trans with ((a + value x) * (1 + 2 * k * u) * (1 + u)); [nra|]. assert (0 <= (a + value x) * (u * (1 - 2 * (k * u)))) by (apply Rmult_le_pos; [lra|]; nra). nra.
    + exists v. split; auto. replace (a + (value x + total l)) with (a + value x + total l) by ring. replace (k + (INR (length l) + 1)) with (k + 1 + INR (length l)) by ring. exact J.
Qed.
Lemma fsum_close : forall l, lengths_ok l -> few (length l) -> exists v, is (fsum l) v /\ total l * (1 - INR (length l) * u) <= v <= total l * (1 + 2 * INR (length l) * u).
Proof.
  intros l [H B] N. destruct fz0 as [F0 V0]. destruct (fold_sum l (fz 0) 0 0 H F0) as (v & I & J); try lra.
  - rewrite Rplus_0_l. apply few_u. auto.
  - exists v. split; auto. rewrite !Rplus_0_l in J. exact J.
Qed.

(** * The walk *)
Lemma prefix_reached : forall pre x r p, reached (pre ++ x :: r) (length pre) p = (total pre + p * value x) / total (pre ++ x :: r).
Proof. intros. unfold reached. rewrite firstn_app, Nat.sub_diag, firstn_all, app_nil_r, nth_middle. reflexivity. Qed.
Lemma total_app : forall a b, total (a ++ b) = total a + total b.
Proof. induction a as [|x a IH]; intros b; cbn; [lra|]. rewrite IH. lra. Qed.
(** One fraction. *)
Lemma fraction_close : forall (S x : fl) T n, few n -> 0 < T -> finite S -> T * (1 - INR n * u) <= value S <= T * (1 + 2 * INR n * u) -> finite x -> 0 <= value x <= T ->
  finite (fdiv x S) /\ 0 <= value (fdiv x S) /\ (value x = 0 -> value (fdiv x S) = 0) /\ Rabs (value (fdiv x S) - value x / T) <= value x / T * ((2 * INR n + 2) * u) + eta.
Proof.
  intros S x T n N HT FS VS FX X. pose proof (few_u n N) as NU. pose proof u_pos as U. pose proof u_small as US. pose proof (pos_INR n) as PN. assert (NU0 : 0 <= INR n * u) by nra.
  assert (SP : 0 < value S) by nra. set (w := value x / T). assert (W : 0 <= w <= 1). { unfold w. split; [apply Rmult_le_pos; [lra|left; apply Rinv_0_lt_compat; auto]|]. apply Rmult_le_reg_r with T; auto. unfold Rdiv. rewrite Rmult_assoc, Rinv_l by lra. lra. }
  set (q := value x / value S). set (k := T / value S). assert (K : 1 - 2 * (INR n * u) <= k <= 1 + 2 * (INR n * u)).
  { unfold k. split; apply Rmult_le_reg_r with (value S); auto; unfold Rdiv; rewrite Rmult_assoc, Rinv_l, Rmult_1_r by lra; nra. }
  assert (Q : q = w * k) by (unfold q, w, k; field; lra). assert (Q2 : 0 <= q <= 2) by (rewrite Q; nra).
  destruct (fdiv_rnd x S FX) as [F V]; [lra|fold q; pose proof one_big; pose proof cap_big; assert (1 <= bpow radix2 1000) by (change 1 with (bpow radix2 0); apply bpow_le; lia); apply abs_le; lra|]. fold q in V.
  split; auto. split; [rewrite V, <- rnd_0; apply rnd_le; lra|]. split; [intros Z; rewrite V; unfold q; rewrite Z; unfold Rdiv; rewrite Rmult_0_l; apply rnd_0|].
  rewrite V. replace (rnd q - w) with ((rnd q - q) + (q - w)) by ring. eapply Rle_trans; [apply Rabs_triang|]. pose proof (rnd_err q) as E. rewrite (Rabs_right q) in E by lra.
  assert (D : Rabs (q - w) <= w * (2 * (INR n * u))) by (apply abs_le; rewrite Q; nra). assert (u * q <= w * (2 * u)). { rewrite Q. assert (k <= 2) by lra. assert (w * k <= w * 2) by nra. nra. }
  nra.
Qed.
(** The position within the segment. *)
Lemma within_close : forall (s e t : fl), finite s -> finite e -> finite t -> 0 <= value s -> value s < value t -> value t <= value e -> value e <= 2 ->
  feq (fsub e s) (fz 0) = false /\ finite (fdiv (fsub t s) (fsub e s)) /\ 0 <= value (fdiv (fsub t s) (fsub e s)) <= 1 /\
  Rabs (value (fdiv (fsub t s) (fsub e s)) - (value t - value s) / (value e - value s)) <= 6 * u.
Proof.
  intros s e t FS FE FT S0 ST TE E2. pose proof one_big as OB. pose proof u_pos as U. pose proof u_small as US. assert (B2 : 2 <= big) by (change 2 with (bpow radix2 1); apply bpow_le; lia).
  destruct (fsub_rel e s FE FS) as (a & A & FD & VD); [apply abs_le; lra|]. destruct (fsub_rel t s FT FS) as (b & B & FN & VN); [apply abs_le; lra|].
  destruct (fsub_rnd e s FE FS) as [_ RD]; [apply abs_le; lra|]. destruct (fsub_rnd t s FT FS) as [_ RN]; [apply abs_le; lra|].
  apply abs_ge in A, B. assert (DP : 0 < value (fsub e s)) by (rewrite VD; nra). assert (NP : 0 < value (fsub t s)) by (rewrite VN; nra).
  assert (ND : value (fsub t s) <= value (fsub e s)) by (rewrite RD, RN; apply rnd_le; lra).
  set (q := value (fsub t s) / value (fsub e s)). assert (Q : 0 <= q <= 1). { unfold q. split; [apply Rmult_le_pos; [lra|left; apply Rinv_0_lt_compat; auto]|]. apply Rmult_le_reg_r with (value (fsub e s)); auto. unfold Rdiv. rewrite Rmult_assoc, Rinv_l by lra. lra. }
  destruct (fdiv_rnd (fsub t s) (fsub e s) FN) as [F V]; [lra|fold q; apply abs_le; lra|]. fold q in V. split; [|split; [auto|split; [rewrite V; apply rnd_unit; auto|]]].
  - destruct fz0 as [F0 V0]. unfold feq. rewrite Beqb_correct by auto. apply Req_bool_false. change (B2R (fz 0)) with (value (fz 0)). rewrite V0. unfold value in DP. lra.
  - set (r := (value t - value s) / (value e - value s)). assert (R : 0 <= r <= 1). { unfold r. split; [apply Rmult_le_pos; [lra|left; apply Rinv_0_lt_compat; lra]|]. apply Rmult_le_reg_r with (value e - value s); [lra|]. unfold Rdiv. rewrite Rmult_assoc, Rinv_l by lra. lra. }
    assert (QR : q = r * ((1 + b) / (1 + a))). { unfold q, r. rewrite VD, VN. field. split; lra. }
    assert (K : 1 - 3 * u <= (1 + b) / (1 + a) <= 1 + 3 * u). { split; apply Rmult_le_reg_r with (1 + a); try lra; unfold Rdiv; rewrite Rmult_assoc, Rinv_l, Rmult_1_r by lra; nra. }
    rewrite V. replace (rnd q - r) with ((rnd q - q) + (q - r)) by ring. eapply Rle_trans; [apply Rabs_triang|]. pose proof (rnd_err q) as E. rewrite (Rabs_right q) in E by lra. pose proof eta_u.
    assert (Rabs (q - r) <= 3 * u) by (apply abs_le; rewrite QR; nra). nra.
Qed.

Section Walk.
  Variables (n : nat) (T : R) (S t : fl).
  Hypotheses (N : few n) (HT : 0 < T) (FS : finite S) (VS : T * (1 - INR n * u) <= value S <= T * (1 + 2 * INR n * u)) (FT : finite t) (T0 : 0 < value t) (T1 : value t < 1).
  Lemma walk_close : forall r pre s, Forall (fun x => finite x /\ 0 <= value x) r -> 0 <= total pre -> total (pre ++ r) = T -> length (pre ++ r) = n -> (0 < n)%nat ->
    finite s -> 0 <= value s -> value s < value t -> Rabs (value s - total pre / T) <= total pre / T * ((2 * INR n + 2) * u) + 3 * INR (length pre) * u ->
    exists i p, fwalk (length pre) s (map (fun x => fdiv x S) r) t = Ok (i, p) /\ (i < n)%nat /\ finite p /\ 0 <= value p <= 1 /\
      ((Rabs (reached (pre ++ r) i (value p) - value t) <= 8 * (INR n + 1) * u /\ 0 < value (nth i (pre ++ r) (fz 0))) \/
       (1 - 8 * (INR n + 1) * u < value t /\ i = (n - 1)%nat /\ value p = 0)).
  Proof.
    pose proof (few_u n N) as NU. pose proof u_pos as U. pose proof u_small as US. pose proof (pos_INR n) as PN. pose proof eta_u as EU. pose proof eta_pos as EP.
    induction r as [|x r IH]; intros pre s H P0 HP HL Hn Fs S0 ST E.
    - rewrite app_nil_r in *. cbn [map fwalk]. exists (n - 1)%nat, (fz 0). destruct fz0 as [F0 V0]. rewrite HL. split; [reflexivity|]. split; [lia|]. split; [auto|]. rewrite V0. split; [lra|]. right. split; [|auto].
      rewrite HP, HL in E. replace (T / T) with 1 in E by (field; lra). apply abs_ge in E. nra.
    - inversion H as [|? ? [FX X] HR]. subst x0 l. pose proof (total_nonneg r HR) as TR. assert (HP' := HP). rewrite total_app in HP'. cbn [total] in HP'.
      destruct (fraction_close S x T n N HT FS VS FX) as (FF & F0 & FZ & FE); [lra|]. cbn [map fwalk]. set (f := fdiv x S) in *.
      set (W := total pre / T) in *. set (w := value x / T) in *. assert (WW : 0 <= W /\ 0 <= w /\ W + w <= 1).
      { unfold W, w, Rdiv. pose proof (Rinv_0_lt_compat T HT) as I. split; [nra|]. split; [nra|]. rewrite <- Rmult_plus_distr_r. apply Rmult_le_reg_r with T; auto. rewrite Rmult_assoc, Rinv_l by lra. lra. }
      assert (LP : INR (length pre) + 1 <= INR n). { rewrite <- S_INR. apply le_INR. rewrite <- HL, app_length. cbn. lia. } pose proof (pos_INR (length pre)) as PL.
      assert (SF : Rabs (value s + value f - (W + w)) <= (W + w) * ((2 * INR n + 2) * u) + 3 * INR (length pre) * u + eta).
      { replace (value s + value f - (W + w)) with ((value s - W) + (value f - w)) by ring. eapply Rle_trans; [apply Rabs_triang|]. lra. }
      assert (G : (W + w) * ((2 * INR n + 2) * u) + 3 * INR (length pre) * u + eta <= / 100). { assert ((W + w) * ((2 * INR n + 2) * u) <= 1 * ((2 * INR n + 2) * u)) by (apply Rmult_le_compat_r; nra). nra. }
      assert (SF2 : 0 <= value s + value f <= 1 + / 100) by (apply abs_ge in SF; lra).
      destruct (fadd_rel s f Fs FF) as (a & A & FA & VA); [pose proof one_big; assert (2 <= big) by (change 2 with (bpow radix2 1); apply bpow_le; lia); apply abs_le; lra|].
      destruct (fadd_rnd s f Fs FF) as [_ RA]; [pose proof one_big; assert (2 <= big) by (change 2 with (bpow radix2 1); apply bpow_le; lia); apply abs_le; lra|].
      assert (MONO : value s <= value (fadd s f)). { rewrite RA. apply Rle_trans with (rnd (value s)); [unfold value; rewrite rnd_format; apply Rle_refl|]. apply rnd_le. lra. }
      assert (EA : Rabs (value (fadd s f) - (W + w)) <= (W + w) * ((2 * INR n + 2) * u) + 3 * (INR (length pre) + 1) * u).
      { rewrite VA. apply abs_ge in A. apply abs_ge in SF. apply abs_le. nra. }
      assert (BND : (W + w) * ((2 * INR n + 2) * u) + 3 * (INR (length pre) + 1) * u <= (5 * INR n + 2) * u). { assert ((W + w) * ((2 * INR n + 2) * u) <= 1 * ((2 * INR n + 2) * u)) by (apply Rmult_le_compat_r; nra). nra. }
      assert (EB : Rabs (value s - W) <= (5 * INR n + 2) * u). { eapply Rle_trans; [exact E|]. assert (W * ((2 * INR n + 2) * u) <= 1 * ((2 * INR n + 2) * u)) by (apply Rmult_le_compat_r; nra). nra. }
      destruct (fle t (fadd s f)) eqn:L.
      + apply fle_spec in L; auto. destruct (within_close s (fadd s f) t Fs FA FT S0 ST L) as (Z & FP & PP & EPp).
        { apply abs_ge in EA. nra. }
        rewrite Z. exists (length pre), (fdiv (fsub t s) (fsub (fadd s f) s)). split; [reflexivity|]. split; [rewrite <- HL, app_length; cbn; lia|]. split; [auto|]. split; [auto|]. left.
        rewrite prefix_reached, nth_middle. set (p := value (fdiv (fsub t s) (fsub (fadd s f) s))) in *. rewrite HP. set (e := value (fadd s f)) in *. set (q := (value t - value s) / (e - value s)) in *.
        assert (Q : 0 <= q <= 1). { unfold q. split; [apply Rmult_le_pos; [lra|left; apply Rinv_0_lt_compat; lra]|]. apply Rmult_le_reg_r with (e - value s); [lra|]. unfold Rdiv. rewrite Rmult_assoc, Rinv_l by lra. lra. }
        split.
        * assert (TQ : value t = (1 - q) * value s + q * e) by (unfold q; field; lra).
          replace ((total pre + p * value x) / T) with (W + p * w) by (unfold W, w; field; lra).
          replace (W + p * w - value t) with ((1 - q) * (W - value s) + q * (W + w - e) + (p - q) * w) by (rewrite TQ; ring).
          apply abs_ge in EA, EB, EPp. assert (X1 : Rabs (W - value s) <= (5 * INR n + 2) * u) by (apply abs_le; lra). assert (X2 : Rabs (W + w - e) <= (5 * INR n + 2) * u) by (apply abs_le; lra).
          assert (X3 : Rabs ((p - q) * w) <= 6 * u). { rewrite Rabs_mult, (Rabs_right w) by lra. assert (Rabs (p - q) <= 6 * u) by (apply abs_le; lra). pose proof (Rabs_pos (p - q)). nra. }
          eapply Rle_trans; [apply Rabs_triang|]. eapply Rle_trans; [apply Rplus_le_compat_r, Rabs_triang|]. rewrite !(Rabs_mult _ (_ - _)), (Rabs_right (1 - q)), (Rabs_right q) by lra.
          assert ((1 - q) * Rabs (W - value s) + q * Rabs (W + w - e) <= (5 * INR n + 2) * u) by nra. nra.
        * destruct X as [X|X]; [exact X|]. exfalso. assert (e <= value s); [|lra]. rewrite RA, FZ, Rplus_0_r by auto. unfold value. rewrite rnd_format. lra.
      + assert (L' : value (fadd s f) < value t). { destruct (Rlt_or_le (value (fadd s f)) (value t)) as [C|C]; auto. apply (proj2 (fle_spec t (fadd s f) FT FA)) in C. congruence. }
        destruct (IH (pre ++ [x]) (fadd s f) HR) as (i & p & K); auto.
        * rewrite total_app. cbn. lra.
        * rewrite <- app_assoc. exact HP.
        * rewrite <- app_assoc. exact HL.
        * lra.
        * rewrite total_app, app_length, plus_INR. cbn [total length INR]. replace ((total pre + (value x + 0)) / T) with (W + w) by (unfold W, w; field; lra). exact EA.
        * rewrite app_length, Nat.add_1_r, <- app_assoc in K. cbn [app] in K. exists i, p. exact K.
  Qed.
End Walk.

Lemma point_close : forall l t, lengths_ok l -> few (length l) -> 0 < total l -> finite t -> 0 < value t < 1 ->
  exists i p, fpath_point l t = Ok (Some (i, p)) /\ (i < length l)%nat /\ finite p /\ 0 <= value p <= 1 /\
    ((Rabs (reached l i (value p) - value t) <= 8 * (INR (length l) + 1) * u /\ 0 < value (nth i l (fz 0))) \/
     (1 - 8 * (INR (length l) + 1) * u < value t /\ i = (length l - 1)%nat /\ value p = 0)).
Proof.
  intros l t H N P FT [T0 T1]. pose proof (few_u _ N) as NU. pose proof u_pos as U. destruct (fsum_close l H N) as (v & [FS VS] & B). destruct H as [HL HB]. destruct fz0 as [F0 V0]. destruct fz1 as [F1 V1].
  assert (LP : (0 < length l)%nat) by (destruct l; cbn in *; [lra|lia]).
  unfold fpath_point. replace (fle t (fz 0)) with false. 2: { symmetry. apply not_true_iff_false. intros C. apply fle_spec in C; auto. lra. }
  replace (fle (fz 1) t) with false. 2: { symmetry. apply not_true_iff_false. intros C. apply fle_spec in C; auto. lra. }
  assert (Z : feq (fsum l) (fz 0) = false). { unfold feq. rewrite Beqb_correct by auto. apply Req_bool_false. change (B2R (fz 0)) with (value (fz 0)). change (B2R (fsum l)) with (value (fsum l)). rewrite V0, VS. pose proof (pos_INR (length l)). nra. }
  rewrite Z. unfold ffractions. rewrite Z. destruct (walk_close (length l) (total l) (fsum l) t N P FS) with (r := l) (pre := @nil fl) (s := fz 0) as (i & p & E & K); auto.
  - rewrite VS. exact B.
  - cbn. lra.
  - rewrite V0. lra.
  - rewrite V0. cbn [total length INR]. unfold Rdiv. rewrite !Rmult_0_l, Rminus_0_r, Rabs_R0. lra.
  - exists i, p. cbn [length app] in *. split; [|exact K]. destruct l; [cbn in LP; lia|]. rewrite E. reflexivity.
Qed.
