(** Proofs about angles in binary floating point. *)
Require Import ZArith QArith Qreals Reals Lra Lia List Bool Machin.
From Flocq Require Import Core BinarySingleNaN Relative.
Require Import Verif.Float_Model Verif.Float_Spec Verif.Float_Proofs Verif.FloatWalk_Proofs Verif.FloatAngle_Model Verif.FloatAngle_Spec.
Open Scope R_scope.

(** * Pi to twenty digits *)
Fixpoint qpi (x : Q) (xx p : Q) (k : Z) (n : nat) : Q :=
  match n with O => p / inject_Z k | S n => (p / inject_Z k - qpi x xx (p * xx) (k + 2) n) end.
Definition part (x : R) (n : nat) : R := sum_f_R0 (fun i => (-1) ^ i * Ratan_seq x i) n.
Lemma Q2R_div' : forall a b : Q, ~ (b == 0)%Q -> Q2R (a / b) = Q2R a / Q2R b.
Proof. intros. apply Q2R_div. auto. Qed.
Lemma Q2R_Z : forall z, Q2R (inject_Z z) = IZR z.
Proof. intros. unfold Q2R, inject_Z. cbn. field. Qed.
Lemma sum_opp : forall (f g : nat -> R) n, (forall i, f i = - g i) -> sum_f_R0 f n = - sum_f_R0 g n.
Proof. intros f g n H. induction n as [|n IH]; cbn; rewrite ?IH, H; lra. Qed.
Lemma qpi_sum : forall x n p m, Q2R p = Q2R x ^ (2 * m + 1) ->
  Q2R (qpi x (x * x) p (Z.of_nat (2 * m + 1)) n) = sum_f_R0 (fun i => (-1) ^ i * Ratan_seq (Q2R x) (m + i)) n.
Proof.
  intros x. induction n as [|n IH]; intros p m H.
  - cbn [qpi sum_f_R0]. rewrite Q2R_div' by (unfold Qeq, inject_Z; cbn; lia). rewrite Q2R_Z, H. unfold Ratan_seq. rewrite <- INR_IZR_INZ, Nat.add_0_r. cbn [pow]. ring.
  - cbn [qpi]. rewrite Q2R_minus, Q2R_div' by (unfold Qeq, inject_Z; cbn; lia). rewrite Q2R_Z, H, <- INR_IZR_INZ.
    replace (Z.of_nat (2 * m + 1) + 2)%Z with (Z.of_nat (2 * S m + 1)) by lia. rewrite IH.
    + rewrite (decomp_sum _ (S n)) by lia. cbn [pred]. rewrite Nat.add_0_r. cbn [pow]. unfold Rminus.
      replace (- sum_f_R0 (fun i => (-1) ^ i * Ratan_seq (Q2R x) (S m + i)) n) with (sum_f_R0 (fun i => -1 * (-1) ^ i * Ratan_seq (Q2R x) (m + S i)) n).
      * unfold Ratan_seq at 2. f_equal. ring.
      * apply sum_opp. intros i. replace (m + S i)%nat with (S m + i)%nat by lia. ring.
    + rewrite !Q2R_mult, H. replace (2 * S m + 1)%nat with (S (S (2 * m + 1))) by lia. cbn [pow]. ring.
Qed.
Lemma qpi_part : forall x n, Q2R (qpi x (x * x) x 1 n) = part (Q2R x) n.
Proof. intros x n. exact (qpi_sum x n x 0 ltac:(cbn; ring)). Qed.
Definition qpi4 (n : nat) : Q := Qred (2 * qpi (1 # 3) ((1 # 3) * (1 # 3)) (1 # 3) 1 n + qpi (1 # 7) ((1 # 7) * (1 # 7)) (1 # 7) 1 n).
Lemma qpi4_sum : forall n, Q2R (qpi4 n) = sum_f_R0 (tg_alt PI_2_3_7_tg) n.
Proof.
  intros n. unfold qpi4. rewrite (Qeq_eqR _ _ (Qred_correct _)), Q2R_plus, Q2R_mult, !qpi_part. unfold part, tg_alt, PI_2_3_7_tg.
  replace (Q2R (1 # 3)) with (/ 3) by (unfold Q2R; cbn; lra). replace (Q2R (1 # 7)) with (/ 7) by (unfold Q2R; cbn; lra). replace (Q2R 2) with 2 by (unfold Q2R; cbn; lra).
  rewrite scal_sum, <- sum_plus. apply sum_eq. intros i _. ring.
Qed.
(** 1e-20 *)
Lemma pi_bounds : 314159265358979323846 / 100000000000000000000 <= PI <= 314159265358979323847 / 100000000000000000000.
Proof.
  pose proof (PI_2_3_7_ineq 11) as [A B]. rewrite <- !qpi4_sum in *.
  assert (L : (314159265358979323846 # 400000000000000000000 <= qpi4 (S (2 * 11)))%Q) by (vm_compute; discriminate).
  assert (U : (qpi4 (2 * 11) <= 314159265358979323847 # 400000000000000000000)%Q) by (vm_compute; discriminate).
  apply Qle_Rle in L, U. unfold Q2R at 1 in L. unfold Q2R at 2 in U. cbn [Qnum Qden] in L, U. lra.
Qed.

(** * Numbers of the form m * 2^e *)
Lemma format_me : forall m e, (Z.abs m < 2 ^ 53)%Z -> (-1074 <= e)%Z -> generic_format radix2 (SpecFloat.fexp 53 1024) (F2R (Float radix2 m e)).
Proof. intros m e M E. rewrite fexp_FLT. apply generic_format_FLT. exists (Float radix2 m e); auto. Qed.
Lemma norm_gen : forall m e s, (Z.abs m < 2 ^ 53)%Z -> (-1074 <= e <= 971)%Z -> is (binary_normalize 53 1024 p53 p1024 mode_NE m e s) (IZR m * bpow radix2 e).
Proof.
  intros m e s M E. pose proof (binary_normalize_correct 53 1024 p53 p1024 mode_NE m e s) as C. cbn zeta in C.
  pose proof (format_me m e M (proj1 E)) as G. unfold F2R in G, C. cbn [Fnum Fexp] in G, C.
  rewrite (@round_generic radix2 _ (round_mode mode_NE) _ _ G) in C. rewrite Rlt_bool_true in C; [destruct C as (A & B & _); split; auto|].
  rewrite Rabs_mult, (Rabs_pos_eq (bpow _ _)) by apply bpow_ge_0. apply Rlt_le_trans with (bpow radix2 53 * bpow radix2 e); [|rewrite <- bpow_plus; apply bpow_le; lia].
  apply Rmult_lt_compat_r; [apply bpow_gt_0|]. rewrite <- abs_IZR. change (bpow radix2 53) with (IZR (2 ^ 53)). apply IZR_lt. exact M.
Qed.
Lemma norm_is : forall m e, (Z.abs m < 2 ^ 53)%Z -> (-1074 <= e <= 971)%Z -> is (fnorm m e) (IZR m * bpow radix2 e).
Proof. intros. apply norm_gen; auto. Qed.
Definition tauv : R := 7074237752028440 / 1125899906842624.
Lemma tau_is : is ftau tauv.
Proof. destruct (norm_is 7074237752028440 (-50)) as [F V]; [lia|lia|]. split; [exact F|]. unfold ftau. rewrite V. unfold tauv. change (bpow radix2 (-50)) with (/ 1125899906842624). reflexivity. Qed.
Lemma tau_close : Rabs (tauv - 2 * PI) <= 2 * PI * (u / 2).
Proof. pose proof pi_bounds. apply abs_le. unfold tauv. rewrite u_val. lra. Qed.
Lemma tau_rel : exists e, Rabs e <= u / 2 /\ tauv = 2 * PI * (1 + e).
Proof.
  pose proof pi_bounds. exists ((tauv - 2 * PI) / (2 * PI)). split; [|field; lra]. unfold Rdiv at 1. rewrite Rabs_mult, Rabs_inv, (Rabs_pos_eq (2 * PI)) by lra.
  apply Rmult_le_reg_r with (2 * PI); [lra|]. rewrite Rmult_assoc, Rinv_l by lra. pose proof tau_close. lra.
Qed.

(** * Relative errors *)
Lemma rnd_rel : forall r, r = 0 \/ bpow radix2 (-1000) <= Rabs r -> exists e, Rabs e <= u /\ rnd r = r * (1 + e).
Proof.
  intros r [-> | H]; [exists 0; rewrite Rabs_R0, rnd_0; pose proof u_pos; split; lra|].
  destruct (relative_error_N_FLT_ex radix2 (-1074) 53 p53 (fun z => negb (Z.even z)) r) as (e & E & R); [eapply Rle_trans; [|exact H]; apply bpow_le; lia|].
  exists e. split; [|unfold rnd; rewrite fexp_FLT; exact R]. eapply Rle_trans; [exact E|]. right. unfold u. change (/ 2) with (bpow radix2 (-1)). rewrite <- bpow_plus. reflexivity.
Qed.
Definition sized (lo hi : Z) (r : R) : Prop := r = 0 \/ bpow radix2 lo <= Rabs r <= bpow radix2 hi.
Lemma sized_mul : forall lo hi a b l h, sized lo hi a -> bpow radix2 l <= Rabs b <= bpow radix2 h -> sized (lo + l) (hi + h) (a * b).
Proof.
  intros lo hi a b l h [-> | A] B; [left; ring|]. right. rewrite Rabs_mult, !bpow_plus. pose proof (bpow_gt_0 radix2 lo). pose proof (bpow_gt_0 radix2 l).
  split; apply Rmult_le_compat; try lra; try apply Rabs_pos.
Qed.
Lemma fmul_rel : forall x y, finite x -> finite y -> sized (-1000) 1000 (value x * value y) -> exists e, Rabs e <= u /\ is (fmul x y) (value x * value y * (1 + e)).
Proof.
  intros x y X Y H. destruct (rnd_rel (value x * value y)) as (e & E & R); [destruct H; tauto|]. exists e. split; auto. rewrite <- R. apply fmul_rnd; auto.
  destruct H as [-> | H]; [rewrite Rabs_R0; apply bpow_ge_0|]. eapply Rle_trans; [apply H|]. apply bpow_le. lia.
Qed.
Lemma fdiv_rel : forall x y, finite x -> value y <> 0 -> sized (-1000) 1000 (value x / value y) -> exists e, Rabs e <= u /\ is (fdiv x y) (value x / value y * (1 + e)).
Proof.
  intros x y X Y H. destruct (rnd_rel (value x / value y)) as (e & E & R); [destruct H; tauto|]. exists e. split; auto. rewrite <- R. apply fdiv_rnd; auto.
  destruct H as [-> | H]; [rewrite Rabs_R0; apply bpow_ge_0|]. eapply Rle_trans; [apply H|]. apply bpow_le. lia.
Qed.
Lemma one_rel : forall e, Rabs e <= u -> bpow radix2 (-1) <= Rabs (1 + e) <= bpow radix2 1.
Proof. intros e H. apply abs_ge in H. pose proof u_small. change (bpow radix2 (-1)) with (/ 2). change (bpow radix2 1) with 2. rewrite Rabs_pos_eq; lra. Qed.
(** The two products of conversions. *)
Lemma sized_widen : forall lo hi lo' hi' r, (lo' <= lo)%Z -> (hi <= hi')%Z -> sized lo hi r -> sized lo' hi' r.
Proof. intros lo hi lo' hi' r A B [-> | [C D]]; [left; auto|right]. split; (eapply Rle_trans; [|eassumption]) || (eapply Rle_trans; [eassumption|]); apply bpow_le; auto. Qed.
Lemma conv_md : forall c x d l h l' h', finite c -> finite x -> finite d -> sized (-950) 950 (value x) -> bpow radix2 l <= Rabs (value c) <= bpow radix2 h -> (-20 <= l)%Z -> (h <= 20)%Z ->
  bpow radix2 l' <= Rabs (/ value d) <= bpow radix2 h' -> (-20 <= l')%Z -> (h' <= 20)%Z -> value d <> 0 ->
  exists e f, Rabs e <= u /\ Rabs f <= u /\ is (fdiv (fmul c x) d) (value c * value x * (1 + e) / value d * (1 + f)).
Proof.
  intros c x d l h l' h' C X D SX SC L H SD L' H' N. pose proof (sized_mul _ _ _ _ _ _ SX SC) as S1. rewrite (Rmult_comm (value x)) in S1.
  destruct (fmul_rel c x C X) as (e & E & FM & VM); [eapply sized_widen; [| |exact S1]; lia|].
  pose proof (sized_mul _ _ _ _ _ _ (sized_mul _ _ _ _ _ _ S1 (one_rel e E)) SD) as S2.
  destruct (fdiv_rel (fmul c x) d FM N) as (f & F & I); [rewrite VM; eapply sized_widen; [| |exact S2]; lia|]. exists e, f. split; auto. split; auto. rewrite <- VM. exact I.
Qed.
Lemma near_by : forall x v r k, is x (v * r) -> Rabs (r - 1) <= k -> nearly x v k.
Proof. intros x v r k [F V] H. split; auto. rewrite V. replace (v * r - v) with ((r - 1) * v) by ring. rewrite Rabs_mult. apply Rmult_le_compat_r; [apply Rabs_pos|auto]. Qed.
Lemma prod2 : forall e f, Rabs e <= u -> Rabs f <= u -> Rabs ((1 + e) * (1 + f) - 1) <= 2 * u + u * u.
Proof. intros e f E F. apply abs_ge in E, F. apply abs_le. nra. Qed.
Lemma prod3 : forall e f g, Rabs e <= u -> Rabs f <= u -> Rabs g <= u / 2 -> Rabs ((1 + g) * ((1 + e) * (1 + f)) - 1) <= 3 * u.
Proof. intros e f g E F G. pose proof (prod2 e f E F) as H. pose proof u_pos. pose proof u_small. apply abs_ge in H, G. set (p := (1 + e) * (1 + f)) in *. apply abs_le. nra. Qed.
Lemma prod3_inv : forall e f g, Rabs e <= u -> Rabs f <= u -> Rabs g <= u / 2 -> Rabs ((1 + e) * (1 + f) / (1 + g) - 1) <= 3 * u.
Proof.
  intros e f g E F G. pose proof (prod2 e f E F) as H. pose proof u_pos. pose proof u_small. apply abs_ge in H, G. set (p := (1 + e) * (1 + f)) in *.
  replace (p / (1 + g) - 1) with ((p - 1 - g) / (1 + g)) by (field; lra). apply abs_le. split; [apply Rmult_le_reg_r with (1 + g)|apply Rmult_le_reg_r with (1 + g)]; try lra;
  unfold Rdiv; rewrite Rmult_assoc, Rinv_l by lra; nra.
Qed.
Lemma prod4 : forall e f g h, Rabs e <= u -> Rabs f <= u -> Rabs g <= u -> Rabs h <= u -> Rabs ((1 + e) * (1 + f) * ((1 + g) * (1 + h)) - 1) <= 5 * u.
Proof.
  intros e f g h E F G H. pose proof (prod2 e f E F) as A. pose proof (prod2 g h G H) as B. pose proof u_pos. pose proof u_small. apply abs_ge in A, B.
  set (p := (1 + e) * (1 + f)) in *. set (q := (1 + g) * (1 + h)) in *. assert (C : 2 * u + u * u <= 2 * u + / 1000000 * u) by nra. set (k := 2 * u + u * u) in *. apply abs_le. nra.
Qed.
Lemma tauv_size : bpow radix2 2 <= Rabs tauv <= bpow radix2 3 /\ bpow radix2 (-3) <= Rabs (/ tauv) <= bpow radix2 (-2).
Proof.
  change (bpow radix2 2) with 4. change (bpow radix2 3) with 8. change (bpow radix2 (-3)) with (/ 8). change (bpow radix2 (-2)) with (/ 4).
  assert (H : 4 <= tauv <= 8) by (unfold tauv; lra). rewrite Rabs_inv, Rabs_pos_eq by lra. split; [lra|]. split; apply Rinv_le_contravar; lra.
Qed.
Lemma unit_size : forall z, (256 <= z <= 512)%Z -> bpow radix2 8 <= Rabs (IZR z) <= bpow radix2 9 /\ bpow radix2 (-9) <= Rabs (/ IZR z) <= bpow radix2 (-8).
Proof.
  intros z H. change (bpow radix2 8) with 256. change (bpow radix2 9) with 512. change (bpow radix2 (-9)) with (/ 512). change (bpow radix2 (-8)) with (/ 256).
  assert (K : 256 <= IZR z <= 512) by (split; apply IZR_le; lia). rewrite Rabs_inv, Rabs_pos_eq by lra. split; [lra|]. split; apply Rinv_le_contravar; lra.
Qed.
Lemma ordinary_sized : forall x, ordinary x -> sized (-900) 900 (value x).
Proof. intros x [_ H]. exact H. Qed.
(** tau * x / z and x * z / tau. *)
Lemma into_radians : forall z x, (256 <= z <= 512)%Z -> ordinary x -> exists e f, Rabs e <= u /\ Rabs f <= u /\ is (fdiv (fmul ftau x) (fz z)) (tauv * value x / IZR z * ((1 + e) * (1 + f))).
Proof.
  intros z x Z X. destruct tau_is as [FT VT]. destruct (fz_is z) as [FZ VZ]; [lia|]. destruct tauv_size as [TS _]. destruct (unit_size z Z) as [_ ZS].
  destruct (conv_md ftau x (fz z) 2 3 (-9) (-8) FT (proj1 X) FZ) as (e & f & E & F & I); rewrite ?VT, ?VZ; auto; try lia.
  - apply (sized_widen (-900) 900); try lia. apply ordinary_sized; auto.
  - apply IZR_neq. lia.
  - exists e, f. split; auto. split; auto. rewrite VT, VZ in I. replace (tauv * value x / IZR z * ((1 + e) * (1 + f))) with (tauv * value x * (1 + e) / IZR z * (1 + f)); auto. field. apply IZR_neq. lia.
Qed.
Lemma out_of_radians : forall z x, (256 <= z <= 512)%Z -> finite x -> sized (-950) 950 (value x) -> exists e f, Rabs e <= u /\ Rabs f <= u /\ is (fdiv (fmul x (fz z)) ftau) (value x * IZR z / tauv * ((1 + e) * (1 + f))).
Proof.
  intros z x Z X SX. destruct tau_is as [FT VT]. destruct (fz_is z) as [FZ VZ]; [lia|]. destruct tauv_size as [T0 TS]. destruct (unit_size z Z) as [ZS _].
  assert (N : tauv <> 0) by (unfold tauv; lra).
  pose proof (sized_mul _ _ _ _ _ _ SX ZS) as S1. rewrite <- VZ in S1.
  destruct (fmul_rel x (fz z) X FZ) as (e & E & FM & VM); [eapply sized_widen; [| |exact S1]; lia|].
  pose proof (sized_mul _ _ _ _ _ _ (sized_mul _ _ _ _ _ _ S1 (one_rel e E)) TS) as S2.
  destruct (fdiv_rel (fmul x (fz z)) ftau FM) as (f & F & I); [rewrite VT; auto|rewrite VM, VT; eapply sized_widen; [| |exact S2]; lia|].
  exists e, f. split; auto. split; auto. rewrite VM, VT, VZ in I. replace (value x * IZR z / tauv * ((1 + e) * (1 + f))) with (value x * IZR z * (1 + e) / tauv * (1 + f)); auto. field. auto.
Qed.
Lemma into_close : forall z x, (256 <= z <= 512)%Z -> ordinary x -> nearly (fdiv (fmul ftau x) (fz z)) (2 * PI * value x / IZR z) (3 * u).
Proof.
  intros z x Z X. destruct (into_radians z x Z X) as (e & f & E & F & I). destruct tau_rel as (g & G & T). assert (N : IZR z <> 0) by (apply IZR_neq; lia).
  apply near_by with ((1 + g) * ((1 + e) * (1 + f))); [|apply prod3; auto]. rewrite T in I. replace (2 * PI * value x / IZR z * ((1 + g) * ((1 + e) * (1 + f)))) with (2 * PI * (1 + g) * value x / IZR z * ((1 + e) * (1 + f))); auto. field. auto.
Qed.
Lemma out_close : forall z x, (256 <= z <= 512)%Z -> ordinary x -> nearly (fdiv (fmul x (fz z)) ftau) (value x * IZR z / (2 * PI)) (3 * u).
Proof.
  intros z x Z X. destruct (out_of_radians z x Z (proj1 X)) as (e & f & E & F & I); [apply (sized_widen (-900) 900); try lia; apply ordinary_sized; auto|].
  destruct tau_rel as (g & G & T). pose proof pi_bounds. assert (N : 1 + g <> 0) by (apply abs_ge in G; pose proof u_small; lra).
  apply near_by with ((1 + e) * (1 + f) / (1 + g)); [|apply prod3_inv; auto]. rewrite T in I.
  replace (value x * IZR z / (2 * PI) * ((1 + e) * (1 + f) / (1 + g))) with (value x * IZR z / (2 * PI * (1 + g)) * ((1 + e) * (1 + f))); auto. field. split; [auto|lra].
Qed.
Lemma there_and_back : forall z x, (256 <= z <= 512)%Z -> ordinary x -> nearly (fdiv (fmul (fdiv (fmul ftau x) (fz z)) (fz z)) ftau) (value x) (5 * u).
Proof.
  intros z x Z X. destruct (into_radians z x Z X) as (e & f & E & F & FI & VI). destruct tauv_size as [TS TS']. destruct (unit_size z Z) as [_ ZS].
  assert (N : IZR z <> 0) by (apply IZR_neq; lia). assert (N' : tauv <> 0) by (unfold tauv; lra).
  destruct (out_of_radians z _ Z FI) as (g & h & G & H & I).
  - rewrite VI. rewrite <- Rmult_assoc. pose proof (ordinary_sized x X) as SX.
    pose proof (sized_mul _ _ _ _ _ _ (sized_mul _ _ _ _ _ _ (sized_mul _ _ _ _ _ _ (sized_mul _ _ _ _ _ _ SX TS) ZS) (one_rel e E)) (one_rel f F)) as S. rewrite (Rmult_comm (value x)) in S.
    eapply sized_widen; [| |exact S]; lia.
  - apply near_by with ((1 + e) * (1 + f) * ((1 + g) * (1 + h))); [|apply prod4; auto]. rewrite VI in I.
    replace (value x * ((1 + e) * (1 + f) * ((1 + g) * (1 + h)))) with (tauv * value x / IZR z * ((1 + e) * (1 + f)) * IZR z / tauv * ((1 + g) * (1 + h))); auto. field. auto.
Qed.
(** Turns. *)
Lemma turns_rel : forall x, ordinary x -> exists e, Rabs e <= u /\ is (fmul ftau x) (tauv * value x * (1 + e)).
Proof.
  intros x X. destruct tau_is as [FT VT]. destruct tauv_size as [TS _]. pose proof (sized_mul _ _ _ _ _ _ (ordinary_sized x X) TS) as S. rewrite Rmult_comm in S.
  rewrite <- VT. apply fmul_rel; auto; [apply X|]. rewrite VT. eapply sized_widen; [| |exact S]; lia.
Qed.
Lemma as_turns_rel : forall x, finite x -> sized (-950) 950 (value x) -> exists e, Rabs e <= u /\ is (fdiv x ftau) (value x / tauv * (1 + e)).
Proof.
  intros x X SX. destruct tau_is as [FT VT]. destruct tauv_size as [_ TS]. pose proof (sized_mul _ _ _ _ _ _ SX TS) as S. assert (N : tauv <> 0) by (unfold tauv; lra).
  rewrite <- VT. apply fdiv_rel; auto; rewrite VT; auto. eapply sized_widen; [| |exact S]; lia.
Qed.
Lemma turns_close : forall x, ordinary x -> nearly (fmul ftau x) (2 * PI * value x) (3 * u) /\ nearly (fdiv x ftau) (value x / (2 * PI)) (3 * u) /\ nearly (fdiv (fmul ftau x) ftau) (value x) (5 * u).
Proof.
  intros x X. destruct (turns_rel x X) as (e & E & I). destruct (as_turns_rel x (proj1 X)) as (f & F & J); [apply (sized_widen (-900) 900); try lia; apply ordinary_sized; auto|].
  destruct tau_rel as (g & G & T). pose proof pi_bounds. assert (N : 1 + g <> 0) by (apply abs_ge in G; pose proof u_small; lra). assert (N' : tauv <> 0) by (unfold tauv; lra).
  assert (O : Rabs 0 <= u) by (rewrite Rabs_R0; left; apply u_pos). split; [|split].
  - apply near_by with ((1 + g) * ((1 + e) * (1 + 0))); [|apply prod3; auto]. rewrite T in I. replace (2 * PI * value x * ((1 + g) * ((1 + e) * (1 + 0)))) with (2 * PI * (1 + g) * value x * (1 + e)) by ring. auto.
  - apply near_by with ((1 + f) * (1 + 0) / (1 + g)); [|apply prod3_inv; auto]. rewrite T in J.
    replace (value x / (2 * PI) * ((1 + f) * (1 + 0) / (1 + g))) with (value x / (2 * PI * (1 + g)) * (1 + f)); auto. field. split; [auto|lra].
  - destruct I as [FI VI]. destruct tauv_size as [TS _]. destruct (as_turns_rel _ FI) as (h & H' & K).
    + rewrite VI. pose proof (sized_mul _ _ _ _ _ _ (sized_mul _ _ _ _ _ _ (ordinary_sized x X) TS) (one_rel e E)) as S. rewrite (Rmult_comm (value x)) in S. eapply sized_widen; [| |exact S]; lia.
    + apply near_by with ((1 + e) * (1 + h) * ((1 + 0) * (1 + 0))); [|apply prod4; auto]. rewrite VI in K.
      replace (value x * ((1 + e) * (1 + h) * ((1 + 0) * (1 + 0)))) with (tauv * value x * (1 + e) / tauv * (1 + h)); auto. field. auto.
Qed.

(** * The loop *)
Notation fexp64 := (SpecFloat.fexp 53 1024).
Lemma cexp_mag : forall x, cexp radix2 fexp64 x = Z.max (mag radix2 x - 53) (-1074).
Proof. reflexivity. Qed.
(** A number of the format is a multiple of 2^e if e is at most its exponent, and multiples of it that are no larger are in the format. *)
Lemma smaller_multiple : forall x m, generic_format radix2 fexp64 x -> x <> 0 -> Rabs (IZR m * bpow radix2 (cexp radix2 fexp64 x)) <= Rabs x -> generic_format radix2 fexp64 (IZR m * bpow radix2 (cexp radix2 fexp64 x)).
Proof.
  intros x m G N H. change (IZR m * bpow radix2 (cexp radix2 fexp64 x)) with (F2R (Float radix2 m (cexp radix2 fexp64 x))) in *. apply generic_format_F2R. intros M.
  set (y := F2R (Float radix2 m (cexp radix2 fexp64 x))) in *. rewrite !cexp_mag. assert (Y : y <> 0) by (unfold y; apply F2R_neq_0; auto).
  pose proof (mag_le_abs radix2 y x Y H). lia.
Qed.
Lemma multiple : forall (x : fl), exists m, value x = IZR m * bpow radix2 (cexp radix2 fexp64 (value x)).
Proof. intros x. pose proof (generic_format_B2R 53 1024 x) as G. exists (Ztrunc (scaled_mantissa radix2 fexp64 (B2R x))). exact G. Qed.
Lemma fadd_format : forall x y, finite x -> finite y -> generic_format radix2 fexp64 (value x + value y) -> Rabs (value x + value y) <= Rabs (value x) -> is (fadd x y) (value x + value y).
Proof.
  intros x y X Y G H. pose proof (Bplus_correct 53 1024 p53 p1024 mode_NE x y X Y) as C. fold (value x) (value y) in C.
  rewrite (@round_generic radix2 _ (round_mode mode_NE) _ _ G) in C. rewrite Rlt_bool_true in C; [destruct C as (A & B & _); split; auto|].
  eapply Rle_lt_trans; [exact H|apply abs_B2R_lt_emax].
Qed.
Lemma f360 : is (fz 360) 360. Proof. apply fz_is. lia. Qed.
Lemma step_exact : forall v, finite v -> - bpow radix2 56 < value v <= -360 -> is (fadd v (fz 360)) (value v + 360).
Proof.
  intros v F V. destruct f360 as [F3 V3]. rewrite <- V3. assert (N : value v <> 0) by lra. assert (A : Rabs (value v + 360) <= Rabs (value v)) by (rewrite !Rabs_left1; lra).
  apply fadd_format; auto; rewrite V3; [|exact A]. destruct (multiple v) as [m M]. set (e := cexp radix2 fexp64 (value v)) in *.
  assert (E : (e <= 3)%Z). { unfold e. rewrite cexp_mag. assert (mag radix2 (value v) <= 56)%Z; [|lia]. apply mag_le_bpow; auto. rewrite Rabs_left1; lra. }
  assert (Q : value v + 360 = IZR (m + 45 * 2 ^ (3 - e)) * bpow radix2 e).
  { rewrite plus_IZR, mult_IZR, Rmult_plus_distr_r, <- M. f_equal. change (2 ^ (3 - e))%Z with (Zpower radix2 (3 - e)). rewrite IZR_Zpower by lia. rewrite Rmult_assoc, <- bpow_plus. replace (3 - e + e)%Z with 3%Z by lia. cbn. lra. }
  rewrite Q. apply smaller_multiple; auto; [apply generic_format_B2R|]. fold e. rewrite <- Q. exact A.
Qed.
Lemma flt_zero : forall v, finite v -> flt v (fz 0) = Rlt_bool (value v) 0.
Proof. intros v F. unfold flt. rewrite Bltb_correct by (auto; apply fz0). unfold value. reflexivity. Qed.
Lemma rnd_360 : forall r, -360 < r < 0 -> 0 <= rnd (r + 360) <= 360.
Proof. intros r H. assert (E : rnd 360 = 360) by (apply (rnd_int 360); lia). pose proof (rnd_le 0 (r + 360)). pose proof (rnd_le (r + 360) 360). rewrite rnd_0, E in *. lra. Qed.
Lemma up_ends : forall n v, finite v -> - bpow radix2 56 < value v -> - (360 * INR n) <= value v ->
  exists r j, (forall k, (n <= k)%nat -> fup360 k v = Some r) /\ is r (rnd (value v + 360 * INR j)) /\ (value v < 0 -> 0 <= value v + 360 * INR j < 360) /\ (0 <= value v -> j = 0%nat).
Proof.
  induction n as [|n IH]; intros v F L H.
  - assert (P : 0 <= value v) by (cbn in H; lra). exists v, 0%nat. split; [|split; [|split; intros; [lra|auto]]].
    + intros k _. destruct k; cbn [fup360]; rewrite flt_zero, Rlt_bool_false by auto; auto.
    + split; auto. cbn [INR]. rewrite Rmult_0_r, Rplus_0_r. symmetry. apply rnd_format.
  - rewrite S_INR in H. destruct (Rle_or_lt 0 (value v)) as [P | P].
    + exists v, 0%nat. split; [|split; [|split; intros; [lra|auto]]].
      * intros k _. destruct k; cbn [fup360]; rewrite flt_zero, Rlt_bool_false by auto; auto.
      * split; auto. cbn [INR]. rewrite Rmult_0_r, Rplus_0_r. symmetry. apply rnd_format.
    + destruct (Rle_or_lt (value v) (-360)) as [D | D].
      * destruct (step_exact v F) as [FS VS]; [lra|]. destruct (IH (fadd v (fz 360)) FS) as (r & j & A & B & C1 & C2); [rewrite VS; lra|rewrite VS; lra|]. rewrite VS in *.
        exists r, (S j). split; [|split; [|split; [|lra]]].
        -- intros k K. destruct k as [|k]; [lia|]. cbn [fup360]. rewrite flt_zero, Rlt_bool_true by auto. apply A. lia.
        -- rewrite S_INR. replace (value v + 360 * (INR j + 1)) with (value v + 360 + 360 * INR j) by ring. auto.
        -- intros _. rewrite S_INR. destruct (Rle_or_lt 0 (value v + 360)) as [Z | Z]; [rewrite (C2 Z) in *; cbn [INR]; lra|]. specialize (C1 Z). lra.
      * destruct f360 as [F3 V3]. destruct (fadd_rnd v (fz 360) F F3) as [FS VS]; [rewrite V3; apply abs_le; unfold big; assert (512 <= bpow radix2 1023) by (apply (bpow_le radix2 9 1023); lia); lra|].
        rewrite V3 in VS. pose proof (rnd_360 (value v)) as R. exists (fadd v (fz 360)), 1%nat. split; [|split; [|split; [|lra]]].
        -- intros k K. destruct k as [|k]; [lia|]. cbn [fup360]. rewrite flt_zero, Rlt_bool_true by auto. destruct k; cbn [fup360]; rewrite flt_zero, Rlt_bool_false by (auto; rewrite VS; apply R; lra); auto.
        -- split; auto. rewrite VS. f_equal. cbn [INR]. lra.
        -- intros _. cbn [INR]. lra.
Qed.
(** Numbers beyond 2^62 are multiples of 1024. *)
Lemma coarse : forall x, generic_format radix2 fexp64 x -> bpow radix2 62 <= Rabs x -> exists m, x = IZR m * 1024.
Proof.
  intros x G H. assert (M : (63 <= mag radix2 x)%Z) by (apply mag_ge_bpow; exact H). pose proof (cexp_mag x) as E. set (e := cexp radix2 fexp64 x) in *.
  exists (Ztrunc (scaled_mantissa radix2 fexp64 x) * 2 ^ (e - 10))%Z. rewrite mult_IZR. change (2 ^ (e - 10))%Z with (Zpower radix2 (e - 10)). rewrite IZR_Zpower by lia.
  change 1024 with (bpow radix2 10). rewrite Rmult_assoc, <- bpow_plus. replace (e - 10 + 10)%Z with e by lia. exact G.
Qed.
Lemma stuck_rnd : forall v, finite v -> value v < - bpow radix2 62 -> rnd (value v + 360) = value v.
Proof.
  intros v F V. assert (P : 0 < bpow radix2 62) by apply bpow_gt_0. set (x := value v + 360) in *. assert (GV : generic_format radix2 fexp64 (value v)) by apply generic_format_B2R.
  destruct (coarse (value v) GV) as [a A]; [rewrite Rabs_left; lra|].
  assert (B62 : bpow radix2 62 = IZR (2 ^ 52) * 1024) by (change (IZR (2 ^ 52)) with (bpow radix2 52); change 1024 with (bpow radix2 10); rewrite <- bpow_plus; reflexivity).
  assert (A1 : (a <= - 2 ^ 52 - 1)%Z). { assert ((a < - 2 ^ 52)%Z); [|lia]. apply lt_IZR. rewrite opp_IZR. rewrite A, B62 in V. lra. }
  assert (X : x <= - bpow radix2 62). { unfold x. rewrite A, B62. apply IZR_le in A1. rewrite minus_IZR, opp_IZR in A1. lra. }
  assert (RX : rnd x <= - bpow radix2 62). { assert (E : rnd (- bpow radix2 62) = - bpow radix2 62). { unfold rnd. apply round_generic; [typeclasses eauto|]. apply generic_format_opp, generic_format_bpow. cbv. discriminate. } rewrite <- E. apply rnd_le. exact X. }
  assert (GR : generic_format radix2 fexp64 (rnd x)) by (unfold rnd; apply generic_format_round; typeclasses eauto).
  destruct (coarse (rnd x) GR) as [b B]; [rewrite Rabs_left; lra|].
  destruct (round_N_pt radix2 fexp64 (fun z => negb (Z.even z)) x) as [_ M]. specialize (M (value v) GV). fold (rnd x) in M.
  assert (D : Rabs (value v - x) = 360) by (unfold x; replace (value v - (value v + 360)) with (-(360)) by ring; rewrite Rabs_Ropp, Rabs_pos_eq; lra).
  change (round radix2 fexp64 (Znearest (fun z => negb (Z.even z))) x) with (rnd x) in M. rewrite D in M. apply abs_ge in M. rewrite B in M |- *. assert (EX : x = IZR a * 1024 + 360) by (unfold x; lra). rewrite A.
  assert (Q : (a = b)%Z); [|subst; auto]. assert (L1 : IZR a < IZR b + 1) by lra. assert (L2 : IZR b < IZR a + 1) by lra. rewrite <- plus_IZR in L1, L2. apply lt_IZR in L1, L2. lia.
Qed.
Lemma stuck_add : forall v, finite v -> value v < - bpow radix2 62 -> is (fadd v (fz 360)) (value v).
Proof.
  intros v F V. destruct f360 as [F3 V3]. pose proof (Bplus_correct 53 1024 p53 p1024 mode_NE v (fz 360) F F3) as C. fold (value v) (value (fz 360)) in C. rewrite V3 in C.
  change (round radix2 fexp64 (round_mode mode_NE) (value v + 360)) with (rnd (value v + 360)) in C. rewrite (stuck_rnd v F V) in C. rewrite Rlt_bool_true in C by apply abs_B2R_lt_emax.
  destruct C as (A & B & _). split; auto.
Qed.
Lemma stuck : forall k v, finite v -> value v < - bpow radix2 62 -> fup360 k v = None.
Proof.
  induction k as [|k IH]; intros v F V; pose proof (bpow_gt_0 radix2 62); cbn [fup360]; rewrite flt_zero, Rlt_bool_true by (auto; lra); auto.
  destruct (stuck_add v F V) as [A B]. apply IH; auto. rewrite B. auto.
Qed.
Lemma stuck_inf : forall k, fup360 k (B754_infinity true) = None.
Proof. induction k as [|k IH]; auto. Qed.

(** * Remainders *)
Lemma bounds_me : forall m e, SpecFloat.bounded 53 1024 m e = true -> (Zpos m < 2 ^ 53)%Z /\ (-1074 <= e <= 971)%Z.
Proof.
  intros m e H. unfold SpecFloat.bounded in H. apply andb_prop in H. destruct H as [C B]. apply Zle_bool_imp_le in B. unfold SpecFloat.canonical_mantissa in C. apply Zeq_bool_eq in C.
  rewrite Digits.Zpos_digits2_pos in C. unfold SpecFloat.fexp, SpecFloat.emin in C. pose proof (Digits.Zdigits_correct radix2 (Zpos m)) as [_ D]. set (d := Digits.Zdigits radix2 (Z.pos m)) in *.
  split; [|lia]. cbn [Z.abs] in D. eapply Z.lt_le_trans; [exact D|]. apply (Zpower_le radix2 d 53). lia.
Qed.
Lemma scaled : forall m e k, (k <= e)%Z -> F2R (Float radix2 m e) = IZR (m * 2 ^ (e - k)) * bpow radix2 k.
Proof. intros m e k K. unfold F2R. cbn [Fnum Fexp]. rewrite mult_IZR. change (2 ^ (e - k))%Z with (Zpower radix2 (e - k)). rewrite IZR_Zpower, Rmult_assoc, <- bpow_plus by lia. replace (e - k + k)%Z with e by lia. reflexivity. Qed.
Lemma rem_small : forall a b, (0 < b)%Z -> (Z.abs (Z.rem a b) < b)%Z /\ (Z.abs (Z.rem a b) <= Z.abs a)%Z.
Proof.
  intros a b B. pose proof (Z.rem_bound_abs a b). rewrite (Z.abs_eq b) in H by lia. split; [lia|]. rewrite <- (Z.rem_abs a b) by lia. apply Z.rem_le; lia.
Qed.
Lemma frem_is : forall x y, finite x -> finite y -> 0 < value y -> is (frem x y) (value x - value y * IZR (Ztrunc (value x / value y))).
Proof.
  intros x y X Y P. destruct y as [sy|sy| |sy my ey By]; try discriminate Y; [cbn in P; lra|]. destruct sy.
  { exfalso. unfold value, B2R in P. pose proof (F2R_lt_0 radix2 (Float radix2 (SpecFloat.cond_Zopp true (Z.pos my)) ey)). cbn [Fnum SpecFloat.cond_Zopp] in H. specialize (H ltac:(lia)). cbn [SpecFloat.cond_Zopp] in P. lra. }
  destruct x as [sx|sx| |sx mx ex Bx]; try discriminate X.
  { cbn [frem]. split; [reflexivity|]. unfold value at 1 2 4. cbn [B2R]. unfold Rdiv. rewrite Rmult_0_l, Ztrunc_IZR. lra. }
  cbn [frem]. set (e := Z.min ex ey). set (A := (SpecFloat.cond_Zopp sx (Z.pos mx) * 2 ^ (ex - e))%Z). set (B := (Z.pos my * 2 ^ (ey - e))%Z).
  destruct (bounds_me _ _ Bx) as [MX EX]. destruct (bounds_me _ _ By) as [MY EY].
  assert (PB : (0 < B)%Z) by (unfold B; apply Z.mul_pos_pos; [lia|apply Z.pow_pos_nonneg; lia]). destruct (rem_small A B PB) as [R1 R2].
  assert (VX : value (B754_finite sx mx ex Bx) = IZR A * bpow radix2 e) by (apply scaled; lia). assert (VY : value (B754_finite false my ey By) = IZR B * bpow radix2 e) by (apply (scaled (Z.pos my)); lia).
  assert (S : (Z.abs (Z.rem A B) < 2 ^ 53)%Z).
  { destruct (Z.le_gt_cases ex ey) as [L | L].
    - replace (Z.abs A) with (Z.pos mx) in R2; [lia|]. unfold A. replace (ex - e)%Z with 0%Z by lia. destruct sx; cbn [SpecFloat.cond_Zopp Z.pow]; lia.
    - replace B with (Z.pos my) in R1 at 2; [lia|]. unfold B. replace (ey - e)%Z with 0%Z by lia. cbn [Z.pow]. lia. }
  destruct (norm_gen (Z.rem A B) e sx S) as [F V]; [lia|]. split; [exact F|]. rewrite V, VX, VY. pose proof (bpow_gt_0 radix2 e).
  assert (NB : IZR B <> 0) by (apply IZR_neq; lia). replace (IZR A * bpow radix2 e / (IZR B * bpow radix2 e)) with (IZR A / IZR B) by (field; split; [lra|auto]). rewrite Ztrunc_div by lia.
  pose proof (Z.quot_rem' A B) as Q. replace (Z.rem A B) with (A - B * (A ÷ B))%Z by lia. rewrite minus_IZR, mult_IZR. ring.
Qed.
Definition residue (x y : R) : R := x - y * IZR (Zfloor (x / y)).
Lemma residue_range : forall x y, 0 < y -> 0 <= residue x y < y.
Proof.
  intros x y Y. unfold residue. pose proof (Zfloor_lb (x / y)) as L. pose proof (Zfloor_ub (x / y)) as U. assert (E : x = x / y * y) by (field; lra). set (q := x / y) in *. set (k := IZR (Zfloor q)) in *.
  rewrite E. split; nra.
Qed.
Lemma feq_zero : forall v, finite v -> feq v (fz 0) = Req_bool (value v) 0.
Proof. intros v F. unfold feq. rewrite Beqb_correct by (auto; apply fz0). reflexivity. Qed.
Lemma fmod_is : forall x y, finite x -> finite y -> 0 < value y <= big -> is (fmodulo x y) (rnd (residue (value x) (value y))).
Proof.
  intros x y X Y [P B]. destruct (frem_is x y X Y P) as [F V]. pose proof (residue_range (value x) (value y) P) as RR. unfold fmodulo. set (m := frem x y) in *.
  assert (E : value x = value x / value y * value y) by (field; lra). set (q := value x / value y) in *. rewrite feq_zero by auto. rewrite (flt_zero y), (Rlt_bool_false (value y)) by (auto; lra). rewrite flt_zero by auto.
  destruct (Rle_or_lt 0 q) as [Q | Q].
  - rewrite Ztrunc_floor in V by auto. change (value x - value y * IZR (Zfloor q)) with (residue (value x) (value y)) in V. destruct (Req_bool_spec (value m) 0) as [Z | Z].
    + split; [reflexivity|]. rewrite <- V, Z, rnd_0. reflexivity.
    + rewrite Rlt_bool_false by lra. cbn [xorb]. split; auto. rewrite <- V. symmetry. apply rnd_format.
  - rewrite Ztrunc_ceil in V by lra. destruct (Req_bool_spec (value m) 0) as [Z | Z].
    + assert (I : q = IZR (Zceil q)) by nra. unfold residue. fold q. rewrite I, Zfloor_IZR, <- I. replace (value x - value y * q) with 0 by nra. rewrite rnd_0. split; reflexivity.
    + pose proof (Zceil_ub q) as U. pose proof (Zceil_lb q) as L. assert (I : Zfloor q = (Zceil q - 1)%Z). { apply Zfloor_imp. replace (Zceil q - 1 + 1)%Z with (Zceil q) by lia. rewrite minus_IZR. split; [lra|]. destruct (Req_dec q (IZR (Zceil q))); [nra|lra]. }
      assert (N : value m < 0) by nra. rewrite Rlt_bool_true by auto. cbn [xorb]. unfold residue in *. fold q in RR |- *. rewrite I, minus_IZR in RR |- *.
      replace (value x - value y * (IZR (Zceil q) - 1)) with (value m + value y) in * by (rewrite V; ring). apply fadd_rnd; auto. apply abs_le. lra.
Qed.
Lemma tau_mod : forall a, finite a -> is (fmodulo a ftau) (rnd (residue (value a) tauv)) /\ 0 <= value (fmodulo a ftau) <= tauv.
Proof.
  intros a A. destruct tau_is as [FT VT]. assert (TB : 0 < tauv <= big). { assert (8 <= big) by (apply (bpow_le radix2 3 1023); lia). unfold tauv in *. lra. }
  pose proof (fmod_is a ftau A FT) as M. rewrite VT in M. specialize (M TB). split; auto. destruct M as [_ V]. rewrite V. pose proof (residue_range (value a) tauv (proj1 TB)) as R.
  assert (E : rnd tauv = tauv) by (rewrite <- VT; apply rnd_format). pose proof (rnd_le 0 (residue (value a) tauv)). pose proof (rnd_le (residue (value a) tauv) tauv). rewrite rnd_0, E in *. lra.
Qed.
Lemma norm_close : forall a, finite a -> exists k : Z, Rabs (value (fmodulo a ftau) - (value a - 2 * PI * IZR k)) <= (Rabs (value a) + 13) * u.
Proof.
  intros a A. destruct (tau_mod a A) as [[F V] _]. assert (T : 6 < tauv < 7) by (unfold tauv; lra). exists (Zfloor (value a / tauv)). rewrite V. pose proof (residue_range (value a) tauv ltac:(lra)) as R.
  pose proof (rnd_err (residue (value a) tauv)) as E. rewrite (Rabs_pos_eq (residue _ _)) in E by lra. pose proof u_pos. pose proof eta_u. pose proof tau_close as TC. pose proof pi_bounds as PB.
  unfold residue in *. set (k := IZR (Zfloor (value a / tauv))) in *. set (w := rnd (value a - tauv * k)) in *. clearbody w.
  assert (K : Rabs k * 6 <= Rabs (value a) + 7). { assert (Rabs (tauv * k) <= Rabs (value a) + 7). { replace (tauv * k) with (value a - (value a - tauv * k)) by ring. eapply Rle_trans; [apply Rabs_triang|]. rewrite Rabs_Ropp, (Rabs_pos_eq (value a - tauv * k)) by lra. lra. } rewrite Rabs_mult, (Rabs_pos_eq tauv) in H1 by lra. pose proof (Rabs_pos k). nra. }
  assert (D : Rabs ((tauv - 2 * PI) * k) <= 4 * u * Rabs k). { rewrite Rabs_mult. apply Rmult_le_compat_r; [apply Rabs_pos|]. eapply Rle_trans; [exact TC|]. nra. }
  replace (w - (value a - 2 * PI * k)) with ((w - (value a - tauv * k)) - (tauv - 2 * PI) * k) by ring. eapply Rle_trans; [apply Rabs_triang|]. rewrite Rabs_Ropp.
  assert (E' : u * (value a - tauv * k) <= 7 * u) by nra. pose proof (Rabs_pos (value a)) as PA. assert (KU : u * (Rabs k * 6) <= u * (Rabs (value a) + 7)) by (apply Rmult_le_compat_l; lra). assert (AU : 0 <= u * Rabs (value a)) by (apply Rmult_le_pos; lra). lra.
Qed.

(** * Equality *)
Lemma e11_is : is f1e11 (6189700196426901 * bpow radix2 (-89)).
Proof. apply norm_is; lia. Qed.
Lemma e11_val : / 100000000000 - / 1000000 * u <= value f1e11 <= / 100000000000 + / 1000000 * u.
Proof. rewrite (proj2 e11_is), u_val. change (bpow radix2 (-89)) with (/ 618970019642690137449562112). lra. Qed.
Lemma eq_is : forall a b, finite a -> finite b -> exists e, Rabs e <= u /\
  fangle_eq a b = Rle_bool (Rabs ((value (fmodulo a ftau) - value (fmodulo b ftau)) * (1 + e))) (value f1e11).
Proof.
  intros a b A B. destruct (tau_mod a A) as [[FA _] RA]. destruct (tau_mod b B) as [[FB _] RB]. assert (T : 0 < tauv <= 8) by (unfold tauv; lra). assert (8 <= big) by (apply (bpow_le radix2 3 1023); lia).
  destruct (fsub_rel (fmodulo a ftau) (fmodulo b ftau) FA FB) as (e & E & FS & VS); [apply abs_le; lra|]. exists e. split; auto.
  unfold fangle_eq, fle. rewrite Bleb_correct; [|unfold fabs; rewrite is_finite_Babs; exact FS|apply e11_is]. unfold fabs. rewrite B2R_Babs. fold (value (fsub (fmodulo a ftau) (fmodulo b ftau))). rewrite VS. reflexivity.
Qed.
Lemma eq_sound : forall a b, finite a -> finite b -> fangle_eq a b = true -> same_way (value a) (value b) (/ 100000000000 + (Rabs (value a) + Rabs (value b) + 30) * u).
Proof.
  intros a b A B H. destruct (eq_is a b A B) as (e & E & Q). rewrite Q in H. destruct (norm_close a A) as [k K]. destruct (norm_close b B) as [j J]. exists (k - j)%Z. rewrite minus_IZR.
  destruct (tau_mod a A) as [_ RA]. destruct (tau_mod b B) as [_ RB]. set (ra := value (fmodulo a ftau)) in *. set (rb := value (fmodulo b ftau)) in *.
  assert (L : Rabs ((ra - rb) * (1 + e)) <= value f1e11). { revert H. case Rle_bool_spec; [auto|discriminate]. }
  pose proof e11_val. pose proof u_pos. pose proof u_small. rewrite Rabs_mult in L. apply abs_ge in E. rewrite (Rabs_pos_eq (1 + e)) in L by lra. pose proof (Rabs_pos (ra - rb)) as P.
  assert (UU : u * u <= / 1000000 * u) by nra. assert (D : Rabs (ra - rb) <= / 100000000000 + u) by nra.
  replace (value a - value b - 2 * PI * (IZR k - IZR j)) with ((ra - rb) - (ra - (value a - 2 * PI * IZR k)) + (rb - (value b - 2 * PI * IZR j))) by ring.
  apply abs_ge in D, K, J. apply abs_le. lra.
Qed.
Lemma lands_on : forall r h n d, 0 <= r <= 2 * PI + 10 * d -> / 1000000000 <= h <= 2 * PI - / 1000000000 -> 0 <= d <= / 100000000000 -> Rabs (r - (h + 2 * PI * IZR n)) <= 10 * d -> Rabs (r - h) <= 10 * d.
Proof.
  intros r h n d R H D E. pose proof pi_bounds. assert (N : n = 0%Z); [|subst; replace (h + 2 * PI * 0) with h in E by ring; auto]. apply abs_ge in E.
  destruct (Z.lt_trichotomy n 0) as [L | [L | L]]; auto; exfalso; [assert (M : (n <= -1)%Z) by lia|assert (M : (1 <= n)%Z) by lia]; apply IZR_le in M; apply (Rmult_le_compat_l (2 * PI)) in M; lra.
Qed.
Lemma eq_complete : forall a b h d, finite a -> finite b -> heading (value a) h -> / 1000000000 <= h <= 2 * PI - / 1000000000 -> same_way (value a) (value b) d ->
  d + (Rabs (value a) + Rabs (value b) + 60) * u <= / 100000000000 -> fangle_eq a b = true.
Proof.
  intros a b h d A B [H0 [m M]] H [n N] S. destruct (eq_is a b A B) as (e & E & Q). rewrite Q. destruct (norm_close a A) as [k K]. destruct (norm_close b B) as [j J].
  destruct (tau_mod a A) as [_ RA]. destruct (tau_mod b B) as [_ RB]. set (ra := value (fmodulo a ftau)) in *. set (rb := value (fmodulo b ftau)) in *. clearbody ra rb. clear Q.
  pose proof u_pos. pose proof u_small. pose proof pi_bounds as PB. pose proof tau_close as TC. apply abs_ge in TC. pose proof (Rabs_pos (value a)) as PA. pose proof (Rabs_pos (value b)) as PB'.
  assert (D : 0 <= d) by (eapply Rle_trans; [apply Rabs_pos|exact N]). assert (ND : forall x, 0 <= x -> 0 <= x * u) by (intros; apply Rmult_le_pos; lra). pose proof (ND _ PA) as PAu. pose proof (ND _ PB') as PBu.
  assert (T2 : tauv <= 2 * PI + 8 * u). { assert (PI * u <= 8 * u) by (apply Rmult_le_compat_r; lra). lra. }
  set (da := (Rabs (value a) + 13) * u) in *. set (db := (Rabs (value b) + 13) * u) in *. assert (SD : da + db + d + 34 * u <= / 100000000000) by (unfold da, db; lra).
  assert (DA : 13 * u <= da) by (unfold da; lra). assert (DB : 13 * u <= db) by (unfold db; lra).
  assert (LA : Rabs (ra - h) <= da). { replace da with (10 * (da / 10)) by field. apply (lands_on ra h (m - k) (da / 10)); try lra. rewrite minus_IZR. rewrite M in K. replace (ra - (h + 2 * PI * (IZR m - IZR k))) with (ra - (h + 2 * PI * IZR m - 2 * PI * IZR k)) by ring. lra. }
  assert (LB : Rabs (rb - h) <= db + d). { replace (db + d) with (10 * ((db + d) / 10)) by field. apply (lands_on rb h (m - n - j) ((db + d) / 10)); try lra. rewrite !minus_IZR. rewrite M in N. apply abs_ge in N, J. apply abs_le. lra. }
  apply Rle_bool_true. rewrite Rabs_mult. apply abs_ge in E. rewrite (Rabs_pos_eq (1 + e)) by lra. pose proof e11_val.
  assert (AB : Rabs (ra - rb) <= / 100000000000 - 34 * u). { apply abs_ge in LA, LB. apply abs_le. lra. } pose proof (Rabs_pos (ra - rb)) as PR. apply Rle_trans with (Rabs (ra - rb) + Rabs (ra - rb) * u); [rewrite Rmult_plus_distr_l, Rmult_1_r; apply Rplus_le_compat_l, Rmult_le_compat_l; lra|].
  assert (SM : Rabs (ra - rb) * u <= 1 * u) by (apply Rmult_le_compat_r; lra). lra.
Qed.
(** * Right angles *)
Lemma quarter_is : is (fdiv ftau (fz 4)) (tauv / 4).
Proof.
  destruct tau_is as [FT VT]. destruct (fz_is 4) as [F4 V4]; [lia|]. assert (B : 8 <= big) by (apply (bpow_le radix2 3 1023); lia).
  destruct (fdiv_rnd ftau (fz 4) FT) as [F V]; [rewrite V4; lra|rewrite VT, V4; apply abs_le; unfold tauv; lra|]. split; auto. rewrite V, VT, V4.
  replace (tauv / 4) with (value (fnorm 7074237752028440 (-52))); [apply rnd_format|]. destruct (norm_is 7074237752028440 (-52)) as [_ E]; [lia|lia|]. rewrite E.
  change (bpow radix2 (-52)) with (/ 4503599627370496). unfold tauv. lra.
Qed.
Lemma orthogonal_iff : forall a, finite a -> (fis_orthogonal a = true <-> exists k : Z, value a = tauv / 4 * IZR k).
Proof.
  intros a A. destruct quarter_is as [FQ VQ]. assert (QB : 0 < tauv / 4 <= big). { assert (8 <= big) by (apply (bpow_le radix2 3 1023); lia). unfold tauv in *. lra. }
  unfold fis_orthogonal. pose proof (fmod_is a _ A FQ) as M. rewrite VQ in M. specialize (M QB). destruct M as [F V]. rewrite feq_zero by auto. rewrite V. split.
  - intros H. exists (Zfloor (value a / (tauv / 4))). revert H. case Req_bool_spec; [|discriminate]. intros H _. assert (Z : residue (value a) (tauv / 4) = 0); [|unfold residue in Z; lra].
    destruct (frem_is a (fdiv ftau (fz 4)) A FQ) as [FR VR]; [rewrite VQ; lra|]. rewrite VQ in VR. pose proof (residue_range (value a) (tauv / 4) ltac:(lra)) as RR.
    set (m := frem a (fdiv ftau (fz 4))) in *. set (q := value a / (tauv / 4)) in *. assert (E : value a = q * (tauv / 4)) by (unfold q; field; lra).
    destruct (Rle_or_lt 0 q) as [Q | Q].
    + rewrite Ztrunc_floor in VR by auto. change (value a - tauv / 4 * IZR (Zfloor q)) with (residue (value a) (tauv / 4)) in VR. rewrite <- VR in *. unfold value in H. rewrite rnd_format in H. exact H.
    + rewrite Ztrunc_ceil in VR by lra. destruct (Req_dec (value m) 0) as [Z | Z].
      * assert (I : q = IZR (Zceil q)) by nra. unfold residue. fold q. rewrite I, Zfloor_IZR, <- I. lra.
      * pose proof (Zceil_ub q) as U. pose proof (Zceil_lb q) as L. assert (I : Zfloor q = (Zceil q - 1)%Z). { apply Zfloor_imp. replace (Zceil q - 1 + 1)%Z with (Zceil q) by lia. rewrite minus_IZR. split; [lra|]. destruct (Req_dec q (IZR (Zceil q))); [nra|lra]. }
        assert (ER : residue (value a) (tauv / 4) = value m + value (fdiv ftau (fz 4))) by (unfold residue; fold q; rewrite I, minus_IZR, VR, VQ; ring).
        rewrite ER in *. destruct (plus_rel m (fdiv ftau (fz 4))) as (e & Ee & R). rewrite R in H. apply Rmult_integral in H. destruct H as [H | H]; auto. apply abs_ge in Ee. pose proof u_small. lra.
  - intros [k K]. rewrite K. unfold residue. replace (tauv / 4 * IZR k / (tauv / 4)) with (IZR k) by (field; lra). rewrite Zfloor_IZR. replace (tauv / 4 * IZR k - tauv / 4 * IZR k) with 0 by ring. rewrite rnd_0. apply Req_bool_true. auto.
Qed.
