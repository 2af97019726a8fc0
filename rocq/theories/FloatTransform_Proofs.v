Require Import ZArith QArith Qabs Qreals Reals Ascii String List Bool Lqa Lia Lra.
From Flocq Require Import Core BinarySingleNaN.
Require Import Verif.Base Verif.Text_Spec Verif.Text_Proofs Verif.Length_Model Verif.Length_Proofs Verif.Angle_Spec Verif.Angle_Model Verif.Angle_Proofs Verif.Point_Model Verif.Matrix_Spec Verif.Matrix_Model Verif.Matrix_Proofs
  Verif.Transform_Model Verif.Transform_Spec Verif.Transform_Proofs
  Verif.Float_Model Verif.Float_Spec Verif.Float_Proofs Verif.FloatAngle_Model Verif.FloatAngle_Spec Verif.FloatAngle_Proofs Verif.FloatMat_Proofs Verif.FloatText_Model Verif.FloatText_Proofs
  Verif.FloatLength_Model Verif.FloatLength_Spec Verif.FloatLength_Proofs Verif.FloatTransform_Model Verif.FloatTransform_Spec.
Import ListNotations.
Open Scope R_scope.

(** * Numbers with a bound on their size and their error *)
Definition close (D h : R) (x : fl) (r v : R) : Prop := finite x /\ Rabs (value x - r) <= (D - 1) * v + h /\ Rabs r <= v.
Lemma close_weaken : forall D h D' h' x r v, D <= D' -> h <= h' -> close D h x r v -> close D' h' x r v.
Proof. intros D h D' h' x r v A B (F & E & V). split; auto. split; auto. pose proof (Rabs_pos r). nra. Qed.
Lemma close_size : forall D h x r v, close D h x r v -> Rabs (value x) <= D * v + h.
Proof. intros D h x r v (F & E & V). replace (value x) with (r + (value x - r)) by ring. eapply Rle_trans; [apply Rabs_triang|]. lra. Qed.
Lemma close_exact : forall x v, is x v -> close 1 0 x v (Rabs v).
Proof. intros x v [F V]. split; auto. split; [|lra]. rewrite V, Rminus_diag_eq, Rabs_R0 by auto. lra. Qed.
Lemma close_round : forall D h y z r v, 1 <= D -> 0 <= h -> finite y -> value y = rnd z -> Rabs (z - r) <= (D - 1) * v + h -> Rabs r <= v ->
  close (D * (1 + u)) (h * (1 + u) + eta) y r v.
Proof.
  intros D h y z r v D1 H F V E R. split; auto. split; auto. rewrite V. pose proof (rnd_err z) as RE. pose proof u_pos.
  assert (Z : Rabs z <= D * v + h). { replace z with (r + (z - r)) by ring. eapply Rle_trans; [apply Rabs_triang|]. lra. }
  replace (rnd z - r) with ((rnd z - z) + (z - r)) by ring. eapply Rle_trans; [apply Rabs_triang|].
  assert (u * Rabs z <= u * (D * v + h)) by (apply Rmult_le_compat_l; lra). nra.
Qed.
Lemma mul_close : forall D h E x y A B v w, 1 <= D -> 1 <= E -> 0 <= h -> close D h x A v -> close E 0 y B w -> (D * v + h) * (E * w) <= big ->
  close (D * E * (1 + u)) (h * (E * w) * (1 + u) + eta) (fmul x y) (A * B) (v * w).
Proof.
  intros D h E x y A B v w D1 E1 H X Y BIG. pose proof (close_size _ _ _ _ _ X) as SX. pose proof (close_size _ _ _ _ _ Y) as SY. rewrite Rplus_0_r in SY.
  destruct X as (FX & EX & RX). destruct Y as (FY & EY & RY). rewrite Rplus_0_r in EY. pose proof (Rabs_pos A). pose proof (Rabs_pos B). pose proof (Rabs_pos (value x)). pose proof (Rabs_pos (value y)).
  destruct (fmul_rnd x y FX FY) as [FM VM]. { rewrite Rabs_mult. eapply Rle_trans; [|exact BIG]. apply Rmult_le_compat; lra. }
  apply (close_round (D * E) _ _ (value x * value y)); auto; [nra|apply Rmult_le_pos; nra| |rewrite Rabs_mult; apply Rmult_le_compat; lra].
  replace (value x * value y - A * B) with ((value x - A) * value y + A * (value y - B)) by ring. eapply Rle_trans; [apply Rabs_triang|]. rewrite !Rabs_mult.
  assert (Rabs (value x - A) * Rabs (value y) <= ((D - 1) * v + h) * (E * w)) by (apply Rmult_le_compat; auto; apply Rabs_pos).
  assert (Rabs A * Rabs (value y - B) <= v * ((E - 1) * w)) by (apply Rmult_le_compat; auto; apply Rabs_pos). lra.
Qed.
Lemma add_close : forall D h g x y A B v w, 1 <= D -> 0 <= h -> 0 <= g -> close D h x A v -> close D g y B w -> D * (v + w) + (h + g) <= big ->
  close (D * (1 + u)) ((h + g) * (1 + u) + eta) (fadd x y) (A + B) (v + w).
Proof.
  intros D h g x y A B v w D1 H G X Y BIG. pose proof (close_size _ _ _ _ _ X) as SX. pose proof (close_size _ _ _ _ _ Y) as SY.
  destruct X as (FX & EX & RX). destruct Y as (FY & EY & RY).
  destruct (fadd_rnd x y FX FY) as [FM VM]. { eapply Rle_trans; [apply Rabs_triang|]. lra. }
  apply (close_round D _ _ (value x + value y)); auto; [lra| |eapply Rle_trans; [apply Rabs_triang|]; lra].
  replace (value x + value y - (A + B)) with ((value x - A) + (value y - B)) by ring. eapply Rle_trans; [apply Rabs_triang|]. lra.
Qed.

(** * One entry of a product *)
Definition fdot (a b c d e : fl) (k : Z) : fl := fadd (fadd (fmul a b) (fmul c d)) (fmul e (fz k)).
Lemma big_900 : 1000000 * bpow radix2 900 <= big.
Proof.
  unfold big. apply Rle_trans with (bpow radix2 20 * bpow radix2 900); [apply Rmult_le_compat_r; [apply bpow_ge_0|]; change (bpow radix2 20) with 1048576; lra|].
  rewrite <- bpow_plus. apply bpow_le. lia.
Qed.
Lemma dot_close : forall D E h a b c d e k A B C DD Ee va wb vc wd ve K N, 1 <= D <= 3 -> 1 <= E <= 3 -> 0 <= h <= 1 -> 1 <= K -> 1 <= N -> K * N <= bpow radix2 900 -> (k = 0 \/ k = 1)%Z ->
  va <= K -> vc <= K -> ve <= K -> wb + wd + 1 <= N ->
  close D h a A va -> close E 0 b B wb -> close D h c C vc -> close E 0 d DD wd -> close D h e Ee ve ->
  close (D * E * (1 + u) ^ 3) (h * (E * (1 + u) ^ 3) * N + 5 * eta) (fdot a b c d e k) (A * B + C * DD + Ee * IZR k) (va * wb + vc * wd + ve * IZR k).
Proof.
  intros D E h a b c d e k A B C DD Ee va wb vc wd ve K N HD HE HH HK HN KN Hk VA VC VE WN CA CB CC CD CE. pose proof u_tiny as [UP US]. pose proof eta_pos as EP. pose proof eta_u as EU. pose proof big_900 as BG.
  assert (N0 : forall D h x r v, close D h x r v -> 0 <= v). { intros ? ? x r v (_ & _ & V). eapply Rle_trans; [apply (Rabs_pos r)|exact V]. }
  pose proof (N0 _ _ _ _ _ CA) as A0. pose proof (N0 _ _ _ _ _ CB) as B0. pose proof (N0 _ _ _ _ _ CC) as C0. pose proof (N0 _ _ _ _ _ CD) as D0. pose proof (N0 _ _ _ _ _ CE) as E0. clear N0.
  assert (KN1 : 1 <= K * N) by nra.
  assert (PB : forall v w, 0 <= v <= K -> 0 <= w <= N -> (D * v + h) * (E * w) <= 12 * (K * N)).
  { intros v w V W. replace (12 * (K * N)) with ((4 * K) * (3 * N)) by ring. apply Rmult_le_compat; nra. }
  assert (SB : forall v w, 0 <= v <= K -> 0 <= w <= N -> 0 <= v * w <= K * N). { intros v w V W. split; [apply Rmult_le_pos; lra|]. apply Rmult_le_compat; lra. }
  pose proof (SB va wb ltac:(lra) ltac:(lra)) as S1. pose proof (SB vc wd ltac:(lra) ltac:(lra)) as S2.
  pose proof (mul_close D h E a b A B va wb ltac:(lra) ltac:(lra) ltac:(lra) CA CB) as M1. pose proof (mul_close D h E c d C DD vc wd ltac:(lra) ltac:(lra) ltac:(lra) CC CD) as M2.
  pose proof (PB va wb ltac:(lra) ltac:(lra)). pose proof (PB vc wd ltac:(lra) ltac:(lra)). specialize (M1 ltac:(lra)). specialize (M2 ltac:(lra)).
  set (D1 := D * E * (1 + u)) in *. assert (HD1 : 1 <= D1 <= 10). { unfold D1. assert (1 <= D * E <= 9) by nra. nra. }
  set (h1 := h * (E * wb) * (1 + u) + eta) in *. set (h2 := h * (E * wd) * (1 + u) + eta) in *.
  assert (W1 : 0 <= h * (E * wb) <= 3 * N). { split; [apply Rmult_le_pos; nra|]. replace (3 * N) with (1 * (3 * N)) by ring. apply Rmult_le_compat; nra. }
  assert (W2 : 0 <= h * (E * wd) <= 3 * N). { split; [apply Rmult_le_pos; nra|]. replace (3 * N) with (1 * (3 * N)) by ring. apply Rmult_le_compat; nra. }
  assert (NK : N <= K * N) by nra. assert (KK : K <= K * N) by nra.
  assert (H1 : 0 <= h1 <= 4 * (K * N)) by (unfold h1; nra). assert (H2 : 0 <= h2 <= 4 * (K * N)) by (unfold h2; nra).
  pose proof (add_close D1 h1 h2 _ _ _ _ _ _ ltac:(lra) ltac:(lra) ltac:(lra) M1 M2) as M3.
  assert (SS : D1 * (va * wb + vc * wd) <= 20 * (K * N)). { replace (20 * (K * N)) with (10 * (2 * (K * N))) by ring. apply Rmult_le_compat; lra. }
  specialize (M3 ltac:(lra)). set (D2 := D1 * (1 + u)) in *. assert (HD2 : D1 <= D2 <= 11) by (unfold D2; nra). set (h3 := (h1 + h2) * (1 + u) + eta) in *. assert (H3 : 0 <= h3 <= 9 * (K * N)) by (unfold h3; nra).
  assert (DD2 : D <= D2). { apply Rle_trans with D1; [|lra]. unfold D1. rewrite Rmult_assoc. rewrite <- (Rmult_1_r D) at 1. apply Rmult_le_compat_l; [lra|]. nra. }
  assert (CL : close D2 h (fmul e (fz k)) (Ee * IZR k) (ve * IZR k)).
  { destruct CE as (FE & EE & RE). destruct Hk as [-> | ->].
    - destruct (mul_zero e (fz 0) FE fz0) as [F V]. rewrite !Rmult_0_r. split; auto. rewrite V, Rminus_0_r, Rabs_R0. lra.
    - destruct (mul_one e (fz 1) FE fz1) as [F V]. rewrite !Rmult_1_r. apply (close_weaken D h); [auto|lra|]. split; auto. split; auto. rewrite V. exact EE. }
  pose proof (add_close D2 h3 h _ _ _ _ _ _ ltac:(lra) ltac:(lra) ltac:(lra) M3 CL) as M4.
  assert (KV : 0 <= ve * IZR k <= K * N) by (destruct Hk as [-> | ->]; rewrite ?Rmult_0_r, ?Rmult_1_r; nra).
  assert (SS2 : D2 * (va * wb + vc * wd + ve * IZR k) <= 33 * (K * N)). { replace (33 * (K * N)) with (11 * (3 * (K * N))) by ring. apply Rmult_le_compat; lra. }
  specialize (M4 ltac:(lra)). change (fadd (fadd (fmul a b) (fmul c d)) (fmul e (fz k))) with (fdot a b c d e k) in M4.
  eapply close_weaken; [| |exact M4].
  - apply Req_le. unfold D2, D1. ring.
  - assert (Q : (h3 + h) * (1 + u) + eta = h * (E * (1 + u) ^ 3) * (wb + wd) + h * (1 + u) + eta * (2 * (1 + u) ^ 2 + (1 + u) + 1)) by (unfold h3, h1, h2; ring). rewrite Q.
    assert (P3 : (1 + u) <= (1 + u) ^ 3) by (cbn [pow]; nra). assert (E3 : 1 + u <= E * (1 + u) ^ 3) by nra.
    assert (eta * (2 * (1 + u) ^ 2 + (1 + u) + 1) <= 5 * eta). { rewrite (Rmult_comm 5). apply Rmult_le_compat_l; [lra|]. cbn [pow]. nra. }
    assert (h * (1 + u) <= h * (E * (1 + u) ^ 3)) by (apply Rmult_le_compat_l; lra).
    assert (h * (E * (1 + u) ^ 3) * (wb + wd + 1) <= h * (E * (1 + u) ^ 3) * N) by (apply Rmult_le_compat_l; [apply Rmult_le_pos; lra|lra]). lra.
Qed.

(** * Matrices *)
Definition mclose (D h : R) (m : fmx) (r v : mx) : Prop :=
  close D h (fma m) (ma r) (ma v) /\ close D h (fmb m) (mb r) (mb v) /\ close D h (fmc m) (mc r) (mc v) /\
  close D h (fmd m) (md r) (md v) /\ close D h (fme m) (me r) (me v) /\ close D h (fmf m) (mf r) (mf v).
Ltac six := split; [|split; [|split; [|split; [|split]]]].
Definition bounded (K : R) (v : mx) : Prop := ma v <= K /\ mb v <= K /\ mc v <= K /\ md v <= K /\ me v <= K /\ mf v <= K.
Definition total (v : mx) : R := 1 + (ma v + mc v + me v) + (mb v + md v + mf v).
(** After n roundings. *)
Definition grown (n : R) : R := exp (15 * u * n).
Definition slack (n K : R) : R := 5 * eta * n * grown n * K.
Definition inv (n K : R) (m : fmx) (r v : mx) : Prop := 0 <= n /\ 1 <= K /\ mclose (grown n) (slack n K) m r v /\ bounded K v.
Definition factor (k : R) (m : fmx) (r v : mx) : Prop := 1 <= k /\ mclose (exp (11 * u * k)) 0 m r v.
Lemma exp_lin : forall x, 1 + x <= exp x.
Proof. intros x. destruct (Req_dec x 0) as [-> |N]; [rewrite exp_0; lra|]. apply Rlt_le, exp_ineq1; auto. Qed.
Lemma exp_up : forall x y, x <= y -> exp x <= exp y.
Proof. intros x y [H| ->]; [apply Rlt_le, exp_increasing; auto|lra]. Qed.
Lemma exp_3 : forall x, 0 <= x <= 1 -> 1 <= exp x <= 3.
Proof. intros x X. split; [pose proof (exp_lin x); lra|]. apply Rle_trans with (exp 1); [apply exp_up; lra|apply exp_le_3]. Qed.
Lemma exp_two : forall x, 0 <= x <= / 2 -> exp x - 1 <= 2 * x.
Proof.
  intros x X. pose proof (exp_lin (- x)) as L. rewrite exp_Ropp in L. pose proof (exp_pos x) as P. assert (exp x * (1 - x) <= 1). { replace 1 with (exp x * / exp x) at 2 by (field; lra). apply Rmult_le_compat_l; lra. } nra.
Qed.
Lemma grown_one : forall n, 0 <= n -> 15 * u * n <= 1 -> 1 <= grown n <= 3.
Proof. intros n N B. pose proof u_pos. apply exp_3. split; [|auto]. apply Rmult_le_pos; lra. Qed.
Lemma grown_up : forall n k, 1 <= k -> grown n * exp (11 * u * k) * (1 + u) ^ 3 <= grown (n + k).
Proof.
  intros n k K. pose proof u_pos. assert (U : (1 + u) ^ 3 <= exp (3 * u)).
  { replace (3 * u) with (u + (u + u)) by ring. rewrite !exp_plus. pose proof (exp_lin u). cbn [pow]. rewrite Rmult_1_r. apply Rmult_le_compat; [lra|nra|lra|]. apply Rmult_le_compat; lra. }
  apply Rle_trans with (grown n * exp (11 * u * k) * exp (3 * u)). { apply Rmult_le_compat_l; auto. apply Rlt_le, Rmult_lt_0_compat; apply exp_pos. }
  unfold grown. rewrite <- !exp_plus. apply exp_up. nra.
Qed.
Lemma slack_small : forall n K, 0 <= n -> 15 * u * n <= 1 -> 1 <= K <= bpow radix2 900 -> 0 <= slack n K <= bpow radix2 (-120).
Proof.
  intros n K N B HK. pose proof (grown_one n N B) as G. pose proof eta_pos as EP. pose proof u_pos as UP. assert (NU : n <= bpow radix2 50). { rewrite u_val in B. change (bpow radix2 50) with 1125899906842624. lra. }
  unfold slack. split. { apply Rmult_le_pos; [|lra]. apply Rmult_le_pos; [|lra]. apply Rmult_le_pos; lra. }
  apply Rle_trans with (bpow radix2 4 * eta * bpow radix2 50 * bpow radix2 900).
  2:{ unfold eta. rewrite <- !bpow_plus. apply bpow_le. lia. }
  replace (5 * eta * n * grown n * K) with ((5 * grown n) * (eta * n) * K) by ring. replace (bpow radix2 4 * eta * bpow radix2 50 * bpow radix2 900) with (bpow radix2 4 * (eta * bpow radix2 50) * bpow radix2 900) by ring.
  change (bpow radix2 4) with 16. assert (0 <= eta * n) by (apply Rmult_le_pos; lra). assert (eta * n <= eta * bpow radix2 50) by (apply Rmult_le_compat_l; lra).
  apply Rmult_le_compat; try lra; [apply Rmult_le_pos; lra|]. apply Rmult_le_compat; lra.
Qed.
Lemma inv_start : inv 0 1 fident ident ident.
Proof.
  assert (Z : close (grown 0) (slack 0 1) (fz 0) 0 0). { destruct fz0 as [F V]. split; auto. rewrite V, Rminus_0_r, Rabs_R0. unfold slack. lra. }
  assert (O : close (grown 0) (slack 0 1) (fz 1) 1 1). { destruct fz1 as [F V]. split; auto. rewrite V, Rminus_diag_eq, Rabs_R0, Rabs_R1 by auto. unfold slack, grown. rewrite !Rmult_0_r, exp_0. lra. }
  split; [lra|]. split; [lra|]. split; [six; exact Z || exact O|]. unfold bounded, ident. cbn. lra.
Qed.
Lemma close_nonneg : forall D h x r v, close D h x r v -> 0 <= v.
Proof. intros ? ? x r v (_ & _ & V). eapply Rle_trans; [apply (Rabs_pos r)|exact V]. Qed.
Lemma inv_step : forall n K m r v k fm fr fv, inv n K m r v -> factor k fm fr fv -> 15 * u * (n + k) <= 1 -> K * total fv <= bpow radix2 900 ->
  inv (n + k) (K * total fv) (fmul_mx fm m) (mul fr r) (mul fv v).
Proof.
  intros n K m r v k fm fr fv (N & HK & MC & BD) (K1 & FC) B KN. pose proof u_tiny as [UP US]. pose proof eta_pos as EP.
  assert (UN : 0 <= 15 * u * n) by (apply Rmult_le_pos; lra). assert (UK : 0 <= 11 * u * k <= 1) by nra. assert (BN : 15 * u * n <= 1) by nra.
  pose proof (grown_one n N BN) as G. pose proof (exp_3 _ UK) as E. destruct FC as (FA & FB & FC & FD & FE & FF). destruct MC as (MA & MB & MC & MD & ME & MF). destruct BD as (BA & BB & BC & BD & BE & BF).
  pose proof (close_nonneg _ _ _ _ _ FA). pose proof (close_nonneg _ _ _ _ _ FB). pose proof (close_nonneg _ _ _ _ _ FC). pose proof (close_nonneg _ _ _ _ _ FD). pose proof (close_nonneg _ _ _ _ _ FE). pose proof (close_nonneg _ _ _ _ _ FF).
  pose proof (close_nonneg _ _ _ _ _ MA). pose proof (close_nonneg _ _ _ _ _ MB). pose proof (close_nonneg _ _ _ _ _ MC). pose proof (close_nonneg _ _ _ _ _ MD). pose proof (close_nonneg _ _ _ _ _ ME). pose proof (close_nonneg _ _ _ _ _ MF).
  set (T := total fv) in *. assert (T1 : 1 <= T) by (unfold T, total; lra). assert (KK : K <= bpow radix2 900) by nra. assert (KT : 1 <= K * T) by nra.
  pose proof (slack_small n K N BN ltac:(lra)) as S. assert (S1 : 0 <= slack n K <= 1). { split; [apply S|]. eapply Rle_trans; [apply S|]. change 1 with (bpow radix2 0). apply bpow_le. lia. }
  split; [lra|]. split; [auto|].
  assert (DW : forall D' h', D' <= grown (n + k) -> h' <= slack (n + k) (K * T) -> forall x a b, close D' h' x a b -> close (grown (n + k)) (slack (n + k) (K * T)) x a b) by (intros; eapply close_weaken; eauto).
  specialize (DW (grown n * exp (11 * u * k) * (1 + u) ^ 3) (slack n K * (exp (11 * u * k) * (1 + u) ^ 3) * T + 5 * eta) (grown_up n k K1)).
  assert (SL : slack n K * (exp (11 * u * k) * (1 + u) ^ 3) * T + 5 * eta <= slack (n + k) (K * T)).
  { pose proof (grown_up n k K1) as GU. pose proof (grown_one (n + k) ltac:(lra) B) as G2. unfold slack.
    replace (5 * eta * n * grown n * K * (exp (11 * u * k) * (1 + u) ^ 3) * T) with (5 * eta * (n * (grown n * exp (11 * u * k) * (1 + u) ^ 3 * (K * T)))) by ring.
    replace (5 * eta * (n + k) * grown (n + k) * (K * T)) with (5 * eta * (n * (grown (n + k) * (K * T)) + k * (grown (n + k) * (K * T)))) by ring.
    rewrite <- (Rmult_1_r (5 * eta)) at 2. rewrite <- Rmult_plus_distr_l. apply Rmult_le_compat_l; [lra|]. apply Rplus_le_compat.
    - apply Rmult_le_compat_l; auto. apply Rmult_le_compat_r; [lra|auto].
    - assert (1 <= grown (n + k) * (K * T)) by nra. nra. }
  specialize (DW SL).
  assert (DC := fun a b c d e j A B C DD Ee va wb vc wd ve => dot_close (grown n) (exp (11 * u * k)) (slack n K) a b c d e j A B C DD Ee va wb vc wd ve K T G E S1 HK T1 KN).
  split.
  - unfold mclose, fmul_mx, mul. cbn [fma fmb fmc fmd fme fmf ma mb mc md me mf].
    six; apply DW; (apply (DC _ _ _ _ _ 0%Z) || apply (DC _ _ _ _ _ 1%Z)); auto; unfold T, total; lra.
  - assert (ENT : forall a b c d e j, 0 <= a <= K -> 0 <= c <= K -> 0 <= e <= K -> 0 <= b -> 0 <= d -> 0 <= j <= 1 -> b + d + 1 <= T -> a * b + c * d + e * j <= K * T).
    { intros a b c d e j A C E' B' D' J HT. apply Rle_trans with (K * b + K * d + K * 1); [|nra]. apply Rplus_le_compat; [apply Rplus_le_compat; apply Rmult_le_compat_r; lra|]. apply Rmult_le_compat; lra. }
    unfold bounded, mul. cbn [ma mb mc md me mf]. repeat split; apply ENT; try lra; unfold T, total; lra.
Qed.
Lemma inv_weaken : forall n K n' K' m r v, inv n K m r v -> n <= n' -> K <= K' -> inv n' K' m r v.
Proof.
  intros n K n' K' m r v (N & HK & MC & BD) HN HK'. assert (G : grown n <= grown n'). { apply exp_up. pose proof u_pos. nra. } assert (G0 : 0 < grown n) by apply exp_pos. pose proof eta_pos.
  assert (S : slack n K <= slack n' K'). { unfold slack. rewrite !(Rmult_assoc (5 * eta)). apply Rmult_le_compat_l; [lra|]. apply Rmult_le_compat; try lra; [apply Rmult_le_pos; lra|]. apply Rmult_le_compat; lra. }
  split; [lra|]. split; [lra|]. split; [|unfold bounded in *; lra]. destruct MC as (A & B & C & D & E & F). six; (eapply close_weaken; [exact G|exact S|]; assumption).
Qed.

(** * Reading parameters *)
Lemma lit_value : forall l, lit_ok l -> Rabs (Q2R (lit_val l)) <= bpow radix2 900 -> is (ffnum (fnum_of l)) (rnd (Q2R (lit_val l))).
Proof.
  intros l L B. destruct (ffnum_spec l (Qabs (lit_val l)) L ltac:(reflexivity)) as (F & V & _).
  { apply rnd_big. rewrite Q2R_abs, Rabs_Rabsolu. eapply Rle_trans; [exact B|apply bpow_le; lia]. }
  split; auto. rewrite V, (lit_signed l L). unfold signed. destruct (l_sgn l); auto. rewrite rnd_opp. reflexivity.
Qed.
Lemma lit_rel : forall l, lit_ok l -> moderate_r (Q2R (lit_val l)) -> rel 1 (ffnum (fnum_of l)) (Q2R (lit_val l)).
Proof.
  intros l L M. destruct (lit_value l L) as [F V]. { destruct M as [-> | [_ B]]; [rewrite Rabs_R0; apply bpow_ge_0|]. eapply Rle_trans; [exact B|apply bpow_le; lia]. }
  split; auto. rewrite V. destruct (rnd_rel (Q2R (lit_val l))) as (e & E & R). { destruct M as [Z | [B _]]; [left; auto|right]. eapply Rle_trans; [|exact B]. apply bpow_le. lia. }
  exists e. split; auto. lra.
Qed.
Lemma mod_lit : forall l, moderate_r (Q2R (lit_val l)) -> sized (-300) 300 (Q2R (lit_val l)). Proof. intros l M. exact M. Qed.
Lemma flen_of_known : forall l u, lit_ok l -> uknown u -> flen_of_text (lit_text l ++ u) = mkFlen (ffnum (fnum_of l)) (unit_of_text u).
Proof.
  intros l u0 L U. unfold flen_of_text. assert (M : match_float (lit_text l ++ u0) = Some (fnum_of l, u0)). { apply match_float_lit; auto. rewrite <- (app_nil_r u0). apply tail_nc; simpl; auto. }
  assert (H : forallb is_unit_char u0 = true). { unfold uknown in U; simpl in U. repeat (destruct U as [<-|U]; [reflexivity|]). contradiction. }
  replace (ffind_length (lit_text l ++ u0)) with (Some (ffnum (fnum_of l), u0)); auto.
  destruct (lit_text l ++ u0) eqn:E; cbn [ffind_length]; rewrite M; rewrite (span_all _ _ H); reflexivity.
Qed.
Definition fconv (u : string) (x : fl) : fl :=
  if String.eqb u "deg" then fdegrees x else if String.eqb u "grad" then fgradians x else if String.eqb u "rad" then fradians x
  else if String.eqb u "turn" then fturns x else if String.eqb u "%" then fturns (fdiv x (fz 100)) else fdegrees x.
Lemma fangle_lit : forall l u n, lit_ok l -> circle u n -> forall s, lower s = T u ->
  fangle_parse (lit_text l ++ s) = Ok (fconv u (ffnum (fnum_of (lower_lit l)))).
Proof.
  intros l u0 n L C s S. unfold fangle_parse. rewrite lower_app, S, lower_lit_text by auto.
  destruct (lower_lit_ok l L) as [L' V]. clear V. set (m := lower_lit l) in *. clearbody m. clear S L l s.
  pose proof (ffloat_lit m L') as Q1. destruct (lit_last m L') as (p & d & D & E).
  assert (LG : forall c suf, is_digit c = false -> strip_suffix (suf ++ [c]) (lit_text m) = None).
  { intros c suf H. rewrite E. apply strip_suffix_last. apply dchar_not; auto. }
  inversion C; subst u0 n.
  - rewrite strip_suffix_app, Q1. reflexivity.
  - rewrite (strip_suffix_last2 (lit_text m ++ T "gra") "d" (T "de") "g"); [ | rewrite <- app_assoc; reflexivity | reflexivity | discriminate].
    rewrite strip_suffix_app, Q1. reflexivity.
  - rewrite (strip_suffix_last2 (lit_text m ++ T "ra") "d" (T "de") "g"); [ | rewrite <- app_assoc; reflexivity | reflexivity | discriminate].
    replace (strip_suffix (T "grad") (lit_text m ++ T "rad")) with (@None text).
    2:{ symmetry. unfold strip_suffix. rewrite app_length. cbn [T list_ascii_of_string List.length].
        destruct (teqb _ _) eqn:K; auto. apply teqb_true in K. exfalso.
        rewrite E in K. rewrite app_length in K. simpl in K.
        replace (List.length p + 1 + 3 - 4)%nat with (List.length p) in K by lia.
        rewrite <- app_assoc, skipn_app, skipn_all, Nat.sub_diag in K. simpl in K. inversion K. 
        assert (is_digit (dchar d) = true) by (apply dchar_digit; auto). rewrite H0 in H. discriminate. }
    rewrite strip_suffix_app, Q1. reflexivity.
  - replace (lit_text m ++ T "turn") with ((lit_text m ++ T "tur") ++ ["n"%char]) by (rewrite <- app_assoc; reflexivity).
    change (T "deg") with (T "de" ++ ["g"%char]). change (T "grad") with (T "gra" ++ ["d"%char]). change (T "rad") with (T "ra" ++ ["d"%char]).
    rewrite !strip_suffix_last by discriminate.
    replace ((lit_text m ++ T "tur") ++ ["n"%char]) with (lit_text m ++ T "turn") by (rewrite <- app_assoc; reflexivity).
    rewrite strip_suffix_app, Q1. reflexivity.
  - change (T "%") with ["%"%char].
    change (T "deg") with (T "de" ++ ["g"%char]). change (T "grad") with (T "gra" ++ ["d"%char]). change (T "rad") with (T "ra" ++ ["d"%char]).
    change (T "turn") with (T "tur" ++ ["n"%char]).
    rewrite !strip_suffix_last by discriminate. rewrite strip_suffix_app, Q1. reflexivity.
  - change (T "") with (@nil ascii). rewrite app_nil_r.
    change (T "deg") with (T "de" ++ ["g"%char]). change (T "grad") with (T "gra" ++ ["d"%char]). change (T "rad") with (T "ra" ++ ["d"%char]).
    change (T "turn") with (T "tur" ++ ["n"%char]). change (T "%") with (T "" ++ ["%"%char]).
    rewrite !LG by reflexivity. rewrite Q1. reflexivity.
Qed.
Lemma conv_rel : forall u n x v, circle u n -> sized (-300) 300 v -> rel 1 x v -> rel 5 (fconv u x) (2 * PI * (v / n)).
Proof.
  intros u0 n x v C S R. pose proof pi_bounds as PB.
  assert (TR : rel 1 ftau (2 * PI)). { destruct tau_is as [F V]. destruct tau_rel as (e & E & TE). split; auto. exists e. split; [pose proof u_pos; lra|]. rewrite V, TE. reflexivity. }
  assert (RM : forall k y w, 0 <= k <= 5 / 2 -> sized (-320) 320 w -> rel k y w -> rel (k + 1 + 1 + / 100) (fmul ftau y) (2 * PI * w)).
  { intros k y w HK SW RW. eapply rel_weaken; [|eapply rel_mul; [| |exact TR|exact RW|]]; try lra. size. }
  assert (SV : sized (-320) 320 v) by size. pose proof (RM 1 x v ltac:(lra) SV R) as M1.
  assert (ST : forall w, sized (-320) 320 w -> sized (-325) 327 (2 * PI * w)) by (intros w SW; size).
  assert (S3 : forall z, 256 <= z <= 512 -> sized 8 9 z). { intros z Z. right. change (bpow radix2 8) with 256. change (bpow radix2 9) with 512. rewrite Rabs_pos_eq; lra. }
  assert (RD : forall z, (256 <= z <= 512)%Z -> rel 5 (fdiv (fmul ftau x) (fz z)) (2 * PI * (v / IZR z))).
  { intros z Z. assert (Z' : 256 <= IZR z <= 512) by (split; apply IZR_le; lia). replace (2 * PI * (v / IZR z)) with (2 * PI * v / IZR z) by (field; lra).
    eapply rel_weaken; [|eapply rel_div; [| | |exact M1|exact (int_rel z ltac:(lia))|]]; try lra.
    pose proof (ST v SV). pose proof (S3 _ Z'). eapply sized_widen; [| |eapply sized_div; [lra|eassumption|eassumption]]; lia. }
  inversion C; subst; unfold fconv; cbn [String.eqb Ascii.eqb Bool.eqb].
  - apply RD; lia.
  - apply RD; lia.
  - unfold fradians. replace (2 * PI * (v / (2 * PI))) with v by (field; lra). apply (rel_weaken 1); auto. lra.
  - unfold fturns. replace (2 * PI * (v / 1)) with (2 * PI * v) by field. apply (rel_weaken (1 + 1 + 1 + / 100)); auto. lra.
  - unfold fturns. assert (RH : rel (202 / 100) (fdiv x (fz 100)) (v / 100)). { eapply rel_weaken; [|eapply rel_div; [| | |exact R|exact (int_rel 100 ltac:(lia))|]]; try lra. size. }
    apply (rel_weaken (202 / 100 + 1 + 1 + / 100)); [lra|]. apply RM; auto; [lra|]. eapply sized_widen; [| |eapply sized_div; [lra|exact S|apply sized_const; lra]]; lia.
  - apply RD; lia.
Qed.
Lemma num_reads : forall p v, is_num p v -> moderate_r (Q2R (lit_val (p_lit p))) -> exists x, ffloat (param_text (lowp p)) = Ok x /\ rel 5 x v.
Proof.
  intros p v H M. destruct H as [p L U]. destruct (lower_lit_ok _ L) as [L' V]. unfold param_text, lowp. cbn [p_lit p_unit]. rewrite U. change (lower []) with (@nil ascii). rewrite app_nil_r, ffloat_lit by auto.
  eexists. split; [reflexivity|]. rewrite <- V in *. apply (rel_weaken 1); [lra|]. apply lit_rel; auto.
Qed.
Lemma angle_reads : forall p v, is_angle p v -> moderate_r (Q2R (lit_val (p_lit p))) -> exists x, fangle_parse (param_text (lowp p)) = Ok x /\ rel 5 x v.
Proof.
  intros p v H M. destruct H as [p u0 n L C U]. destruct (lower_lit_ok _ L) as [L' V]. destruct (lower_lit_ok _ L') as [L2 V2]. unfold param_text, lowp. cbn [p_lit p_unit].
  rewrite (fangle_lit _ u0 n) by (auto; rewrite lower_idem; auto). eexists. split; [reflexivity|]. apply conv_rel; auto. rewrite <- V, <- V2 in *. apply lit_rel; auto.
Qed.
Lemma dist_reads : forall p v, is_dist p v -> moderate_r (Q2R (lit_val (p_lit p))) -> exists x, fpx_param (param_text (lowp p)) = Ok x /\ rel 5 x v.
Proof.
  intros p v H M. destruct H as [p L U|p L U]; destruct (lower_lit_ok _ L) as [L' V]; unfold fpx_param, param_text, lowp; cbn [p_lit p_unit];
    rewrite flen_of_known by (auto; unfold uknown; simpl; intuition); assert (R : rel 1 (ffnum (fnum_of (lower_lit (p_lit p)))) (Q2R (lit_val (p_lit p)))) by (rewrite <- V in *; apply lit_rel; auto).
  - destruct U as [-> | ->]; (eexists; split; [reflexivity|]); apply (rel_weaken 1); auto; lra.
  - rewrite U. eexists. split; [reflexivity|]. cbn [famount]. rewrite (Rmult_comm 16). apply (rel_weaken (1 + 0 + 1 + / 100)); [lra|]. apply rel_mul; try lra; auto; [exact (int_rel 16 ltac:(lia))|].
    assert (sized (-300) 300 (Q2R (lit_val (p_lit p)))) by exact M. size.
Qed.

(** * The matrices of the steps *)
Lemma close_up : forall k x r v, 1 <= k -> close 1 0 x r v -> close (exp (11 * u * k)) 0 x r v.
Proof. intros k x r v K C. pose proof u_pos. eapply close_weaken; [| |exact C]; [|lra]. pose proof (exp_lin (11 * u * k)). nra. Qed.
Lemma close_off : forall k x r v, 1 <= k -> finite x -> Rabs r <= v -> Rabs (value x - r) <= 11 * u * k * v -> close (exp (11 * u * k)) 0 x r v.
Proof. intros k x r v K F R E. split; auto. split; auto. pose proof (exp_lin (11 * u * k)). pose proof (Rabs_pos r). nra. Qed.
Lemma close_is : forall k x v, 1 <= k -> is x v -> close (exp (11 * u * k)) 0 x v (Rabs v).
Proof. intros. apply close_up, close_exact; auto. Qed.
Lemma close_rel : forall k x v, 1 <= k -> rel 5 x v -> close (exp (11 * u * k)) 0 x v (Rabs v).
Proof. intros k x v K R. pose proof (rel_about _ _ _ R) as E. apply close_off; auto; [apply R|lra|]. pose proof u_pos. pose proof (Rabs_pos v). eapply Rle_trans; [exact E|]. apply Rmult_le_compat_r; nra. Qed.
Definition wt (a b c d e f : R) : mx := M (Rabs a) (Rabs b) (Rabs c) (Rabs d) (Rabs e) (Rabs f).
Lemma entries_factor : forall m a b c d e f, rel 5 (fma m) a -> rel 5 (fmb m) b -> rel 5 (fmc m) c -> rel 5 (fmd m) d -> rel 5 (fme m) e -> rel 5 (fmf m) f ->
  factor 1 m (M a b c d e f) (wt a b c d e f).
Proof. intros. split; [lra|]. six; cbn; apply close_rel; auto; lra. Qed.
Lemma rel0 : rel 5 (fz 0) 0. Proof. apply (rel_weaken 0); [lra|]. apply (int_rel 0). lia. Qed.
Lemma rel1 : rel 5 (fz 1) 1. Proof. apply (rel_weaken 0); [lra|]. apply (int_rel 1). lia. Qed.
Lemma rel_neg : forall k x r, rel k x r -> rel k (fneg x) (- r).
Proof. intros k x r [F (e & E & V)]. split; [unfold finite, fneg; rewrite is_finite_Bopp; exact F|]. exists e. split; auto. unfold value, fneg. rewrite B2R_Bopp. unfold value in V. rewrite V. ring. Qed.
Lemma translate_factor : forall x y tx ty, rel 5 x tx -> rel 5 y ty -> factor 1 (fm_translate x y) (m_translate tx ty) (wt 1 0 0 1 tx ty).
Proof. intros. apply entries_factor; auto using rel0, rel1. Qed.
Lemma scale_factor : forall x y sx sy, rel 5 x sx -> rel 5 y sy -> factor 1 (fm_scale x y) (m_scale sx (Some sy)) (wt sx 0 0 sy 0 0).
Proof. intros. apply entries_factor; auto using rel0, rel1. Qed.
Lemma sin_abs : forall x, Rabs (sin x) <= Rabs x.
Proof.
  assert (P : forall x, 0 <= x -> Rabs (sin x) <= x).
  { intros x X. apply abs_le. destruct (Req_dec x 0) as [-> |N]; [rewrite sin_0; lra|]. pose proof (sin_lt_x x ltac:(lra)). split; [|lra].
    destruct (MVT_cor2 (fun y => sin y + y) (fun y => cos y + 1) 0 x ltac:(lra)) as (c & E & C). { intros. apply derivable_pt_lim_plus; [apply derivable_pt_lim_sin|apply derivable_pt_lim_id]. }
    rewrite sin_0 in E. pose proof (COS_bound c). nra. }
  intros x. destruct (Rle_dec 0 x); [rewrite (Rabs_pos_eq x) by auto; auto|]. pose proof (P (- x) ltac:(lra)) as Q. rewrite sin_neg, Rabs_Ropp in Q. rewrite (Rabs_left x) by lra. exact Q.
Qed.
Lemma cos_near : forall x y, Rabs (cos x - cos y) <= Rabs (x - y).
Proof.
  intros x y. rewrite form2, !Rabs_mult. replace (Rabs (-2)) with 2 by (rewrite Rabs_left; lra). pose proof (sin_abs ((x - y) / 2)) as S. replace (Rabs ((x - y) / 2)) with (Rabs (x - y) / 2) in S by (unfold Rdiv; rewrite Rabs_mult, (Rabs_pos_eq (/ 2)); lra).
  assert (B : Rabs (sin ((x + y) / 2)) <= 1) by (apply abs_le; apply SIN_bound). pose proof (Rabs_pos (sin ((x + y) / 2))). pose proof (Rabs_pos (sin ((x - y) / 2))). nra.
Qed.
Lemma sin_near : forall x y, Rabs (sin x - sin y) <= Rabs (x - y).
Proof.
  intros x y. rewrite form4, !Rabs_mult. rewrite (Rabs_pos_eq 2) by lra. pose proof (sin_abs ((x - y) / 2)) as S. replace (Rabs ((x - y) / 2)) with (Rabs (x - y) / 2) in S by (unfold Rdiv; rewrite Rabs_mult, (Rabs_pos_eq (/ 2)); lra).
  assert (B : Rabs (cos ((x + y) / 2)) <= 1) by (apply abs_le; apply COS_bound). pose proof (Rabs_pos (cos ((x + y) / 2))). pose proof (Rabs_pos (sin ((x - y) / 2))). nra.
Qed.
Lemma tan_near : forall a x, cos a <> 0 -> Rabs (x - a) <= 5 * u * Rabs a -> 15 * u * (1 + steep a * Rabs a) <= 1 ->
  cos x <> 0 /\ Rabs (tan x - tan a) <= 41 / 5 * u * steep a * (steep a * Rabs a).
Proof.
  intros a x C E B. set (t := tan a). set (d := x - a) in *. unfold steep in *. fold t in B |- *. pose proof (Rabs_pos t) as T0. pose proof (Rabs_pos a) as A0. pose proof u_pos as UP.
  set (q := (1 + Rabs t) * Rabs a) in *. assert (Q0 : 0 <= q) by (apply Rmult_le_pos; lra). assert (QA : Rabs a <= q) by (unfold q; nra). assert (UQ : u * q <= / 15) by nra.
  assert (D3 : Rabs d <= / 3) by nra. pose proof (Rabs_pos d) as D0. assert (SD : Rabs (sin d) <= Rabs d) by apply sin_abs.
  assert (CD : 17 / 18 <= cos d). { pose proof (sin_abs (d / 2)) as S2. replace (Rabs (d / 2)) with (Rabs d / 2) in S2 by (unfold Rdiv; rewrite Rabs_mult, (Rabs_pos_eq (/ 2)); lra).
    replace d with (2 * (d / 2)) by field. rewrite cos_2a_sin. pose proof (Rabs_pos (sin (d / 2))). assert (Q2 : sin (d / 2) * sin (d / 2) = Rabs (sin (d / 2)) * Rabs (sin (d / 2))) by (rewrite <- Rabs_mult; symmetry; apply Rabs_pos_eq; nra). rewrite Rmult_assoc, Q2. nra. }
  set (s := tan d). assert (SV : sin d = s * cos d) by (unfold s, tan; field; lra).
  assert (S1 : Rabs s <= 18 / 17 * Rabs d). { rewrite SV, Rabs_mult, (Rabs_pos_eq (cos d)) in SD by lra. pose proof (Rabs_pos s). nra. }
  assert (TS : Rabs (t * s) <= 6 / 17). { rewrite Rabs_mult. apply Rle_trans with (Rabs t * (18 / 17 * (5 * u * Rabs a))). { apply Rmult_le_compat_l; auto. lra. }
    replace (Rabs t * (18 / 17 * (5 * u * Rabs a))) with (90 / 17 * u * (Rabs t * Rabs a)) by field. assert (Rabs t * Rabs a <= q) by (unfold q; nra). assert (90 / 17 * u * (Rabs t * Rabs a) <= 90 / 17 * (u * q)) by nra. lra. }
  assert (TV : sin a = t * cos a) by (unfold t, tan; field; auto).
  assert (CX : cos x = cos a * cos d * (1 - t * s)). { replace x with (a + d) by (unfold d; ring). rewrite cos_plus, TV, SV. ring. }
  assert (SX : sin x = cos a * cos d * (t + s)). { replace x with (a + d) by (unfold d; ring). rewrite sin_plus, TV, SV. ring. }
  assert (TSB := TS). apply abs_ge in TSB. assert (NX : cos x <> 0). { rewrite CX. apply Rmult_integral_contrapositive_currified; [apply Rmult_integral_contrapositive_currified; lra|lra]. }
  split; auto. replace (tan x - t) with ((1 + t * t) * s / (1 - t * s)). 2:{ unfold tan at 1. rewrite SX, CX. field. split; [lra|]. split; auto. lra. }
  unfold Rdiv. rewrite !Rabs_mult, (Rabs_pos_eq (/ (1 - t * s))) by (apply Rlt_le, Rinv_0_lt_compat; lra).
  assert (I : / (1 - t * s) <= 17 / 11). { replace (17 / 11) with (/ (11 / 17)) by field. apply Rinv_le; lra. }
  assert (T2 : Rabs (1 + t * t) <= (1 + Rabs t) * (1 + Rabs t)). { rewrite Rabs_pos_eq by nra. assert (t * t = Rabs t * Rabs t) by (rewrite <- Rabs_mult; symmetry; apply Rabs_pos_eq; nra). nra. }
  apply Rle_trans with ((1 + Rabs t) * (1 + Rabs t) * (18 / 17 * (5 * u * Rabs a)) * (17 / 11)).
  { apply Rmult_le_compat; auto; [apply Rmult_le_pos; apply Rabs_pos|apply Rlt_le, Rinv_0_lt_compat; lra|]. apply Rmult_le_compat; auto; try apply Rabs_pos. lra. }
  unfold q. replace ((1 + Rabs t) * (1 + Rabs t) * (18 / 17 * (5 * u * Rabs a)) * (17 / 11)) with (90 / 11 * (u * (1 + Rabs t) * ((1 + Rabs t) * Rabs a))) by field.
  assert (0 <= u * (1 + Rabs t) * ((1 + Rabs t) * Rabs a)) by (apply Rmult_le_pos; [apply Rmult_le_pos; lra|exact Q0]). lra.
Qed.
Section Trig.
  Variables fcos fsin ftan : fl -> fl.
  Hypothesis GT : good_trig fcos fsin ftan.
  Lemma rotate_factor : forall x a, rel 5 x a -> factor (1 + Rabs a) (fm_rotate fcos fsin x) (m_rotate a) (M 1 1 1 1 0 0).
  Proof.
    intros x a R. pose proof (rel_about _ _ _ R) as E. destruct (GT x (proj1 R)) as ((FC & EC) & (FS & ES) & _). change roundoff with u in *. pose proof (Rabs_pos a) as A0. pose proof u_pos as UP.
    pose proof (cos_near (value x) a) as CN. pose proof (sin_near (value x) a) as SN.
    assert (C : close (exp (11 * u * (1 + Rabs a))) 0 (fcos x) (cos a) 1).
    { apply close_off; auto; [lra|apply abs_le; apply COS_bound|]. replace (value (fcos x) - cos a) with ((value (fcos x) - cos (value x)) + (cos (value x) - cos a)) by ring. eapply Rle_trans; [apply Rabs_triang|]. nra. }
    assert (S : close (exp (11 * u * (1 + Rabs a))) 0 (fsin x) (sin a) 1).
    { apply close_off; auto; [lra|apply abs_le; apply SIN_bound|]. replace (value (fsin x) - sin a) with ((value (fsin x) - sin (value x)) + (sin (value x) - sin a)) by ring. eapply Rle_trans; [apply Rabs_triang|]. nra. }
    assert (NS : close (exp (11 * u * (1 + Rabs a))) 0 (fneg (fsin x)) (- sin a) 1).
    { destruct S as (F1 & E1 & R1). split; [unfold finite, fneg; rewrite is_finite_Bopp; exact F1|]. unfold value, fneg. rewrite B2R_Bopp, Rabs_Ropp. split; auto. unfold value in E1. rewrite <- Rabs_Ropp. replace (- (- B2R (fsin x) - - sin a)) with (B2R (fsin x) - sin a) by ring. exact E1. }
    assert (Z : close (exp (11 * u * (1 + Rabs a))) 0 (fz 0) 0 0). { rewrite <- Rabs_R0 at 3. apply close_is; [lra|apply fz0]. }
    split; [lra|]. six; cbn; auto.
  Qed.
  Lemma tan_close : forall k x a, rel 5 x a -> cos a <> 0 -> 1 + steep a * Rabs a <= k -> 15 * u * k <= 1 -> steep a <= bpow radix2 900 -> close (exp (11 * u * k)) 0 (ftan x) (tan a) (steep a).
  Proof.
    intros k x a R C K B LS. pose proof (rel_about _ _ _ R) as E. pose proof u_pos as UP. assert (B2 : 15 * u * (1 + steep a * Rabs a) <= 1) by nra. destruct (tan_near a (value x) C E B2) as [NX TN].
    destruct (GT x (proj1 R)) as (_ & _ & TT & _). change roundoff with u in *. pose proof (Rabs_pos (tan a)) as T0. pose proof (Rabs_pos a) as A0.
    assert (S1 : 1 <= steep a) by (unfold steep; lra). set (q := steep a * Rabs a) in *. assert (Q0 : 0 <= q) by (apply Rmult_le_pos; lra). assert (UQ : u * q <= / 15) by nra.
    assert (TX : 1 + Rabs (tan (value x)) <= steep a * (1 + 41 / 75)). { replace (tan (value x)) with (tan a + (tan (value x) - tan a)) by ring. pose proof (Rabs_triang (tan a) (tan (value x) - tan a)). assert (41 / 5 * u * steep a * q <= steep a * (41 / 75)). { replace (41 / 5 * u * steep a * q) with (steep a * (41 / 5 * (u * q))) by ring. apply Rmult_le_compat_l; lra. } unfold steep in *. lra. }
    assert (LX : Rabs (tan (value x)) <= bpow radix2 1000). { apply Rle_trans with (2 * steep a); [lra|]. apply Rle_trans with (bpow radix2 901); [|apply bpow_le; lia]. change (bpow radix2 901) with (bpow radix2 (1 + 900)). rewrite bpow_plus. change (bpow radix2 1) with 2. lra. }
    destruct (TT NX LX) as [FT ET].
    apply close_off; auto; [lra|unfold steep; lra|]. replace (value (ftan x) - tan a) with ((value (ftan x) - tan (value x)) + (tan (value x) - tan a)) by ring. eapply Rle_trans; [apply Rabs_triang|].
    assert (4 * u * (1 + Rabs (tan (value x))) <= 4 * u * (steep a * (1 + 41 / 75))) by (apply Rmult_le_compat_l; lra).
    replace (11 * u * k * steep a) with (u * steep a * (11 * k)) by ring. apply Rle_trans with (u * steep a * (4 * (1 + 41 / 75) + 41 / 5 * q)); [|apply Rmult_le_compat_l; [apply Rmult_le_pos; lra|lra]]. lra.
  Qed.
  Lemma tan_zero : forall k, 1 <= k -> close (exp (11 * u * k)) 0 (ftan (fz 0)) (tan 0) 0.
  Proof.
    intros k K. destruct fz0 as [F0 V0]. destruct (GT (fz 0) F0) as (_ & _ & TT & TZ). rewrite V0 in TT. destruct (TT ltac:(rewrite cos_0; lra) ltac:(rewrite tan_0, Rabs_R0; apply bpow_ge_0)) as [FT _]. split; auto. rewrite (TZ V0), tan_0, Rminus_0_r, Rabs_R0. lra.
  Qed.
End Trig.

(** * Functions *)
Definition fits (s : step) (w : mx) : Prop := forall p, reach s p = act w p.
Lemma fits_entries : forall a b c d e f, fits (entries a b c d e f) (wt a b c d e f).
Proof. intros a b c d e f [x y]. unfold act, wt. cbn. apply pair_eq; ring. Qed.
Lemma fits_turning : forall a, fits (turning a) (M 1 1 1 1 0 0).
Proof. intros a [x y]. unfold act. cbn. apply pair_eq; ring. Qed.
Lemma fits_slanting : forall a b ra rb, fits (slanting a b ra rb) (M 1 rb ra 1 0 0).
Proof. intros a b ra rb [x y]. unfold act. cbn. apply pair_eq; ring. Qed.
Lemma fits_total : forall s w, fits s w -> span_of s = total w.
Proof. intros s w F. unfold span_of. rewrite F. unfold act, total. cbn. ring. Qed.
(** Where a matrix has got to, behind the steps l. *)
Definition reached (n K : R) (m : fmx) (g w : plane -> plane) : Prop := exists r v, inv n K m r v /\ (forall p, act r p = g p) /\ forall p, act v p = w p.
Lemma reached_step : forall n K m g w s fm fr fv, reached n K m g w -> factor (rounds s) fm fr fv -> fits s fv -> 15 * u * (n + rounds s) <= 1 -> K * span_of s <= bpow radix2 900 ->
  reached (n + rounds s) (K * span_of s) (fpre_cat m fm) (fun p => g (act fr p)) (fun p => w (reach s p)).
Proof.
  intros n K m g w s fm fr fv (r & v & I & RG & VW) F FT B KB. rewrite (fits_total _ _ FT) in *. exists (mul fr r), (mul fv v). split; [apply inv_step; auto|].
  split; intros p; rewrite act_mul; [apply RG|]. rewrite VW, FT. reflexivity.
Qed.
Lemma reached_weaken : forall n K n' K' m g w g' w', reached n K m g w -> n <= n' -> K <= K' -> (forall p, g p = g' p) -> (forall p, w p = w' p) -> reached n' K' m g' w'.
Proof.
  intros n K n' K' m g w g' w' (r & v & I & RG & VW) HN HK G W. exists r, v. split; [apply (inv_weaken n K); auto|]. split; intros p; [rewrite RG; auto|rewrite VW; auto].
Qed.
Lemma factor_span : forall k m r v s, factor k m r v -> fits s v -> 1 <= span_of s.
Proof.
  intros k m r v s (_ & A & B & C & D & E & F) FT. rewrite (fits_total _ _ FT). unfold total.
  pose proof (close_nonneg _ _ _ _ _ A). pose proof (close_nonneg _ _ _ _ _ B). pose proof (close_nonneg _ _ _ _ _ C). pose proof (close_nonneg _ _ _ _ _ D). pose proof (close_nonneg _ _ _ _ _ E). pose proof (close_nonneg _ _ _ _ _ F). lra.
Qed.
(** A step about a centre. *)
Lemma about_steps : forall n K m g w s fm fr fv x y tx ty, reached n K m g w -> factor (rounds s) fm fr fv -> fits s fv -> rel 5 x tx -> rel 5 y ty ->
  let l := [entries 1 0 0 1 tx ty; s; entries 1 0 0 1 tx ty] in 15 * u * (n + roundings l) <= 1 -> K * spans l <= bpow radix2 900 ->
  reached (n + roundings l) (K * spans l) (fabout m fm (Some x) (Some y)) (fun p => g (sp_about tx ty (act fr) p)) (fun p => w (together l p)).
Proof.
  intros n K m g w s fm fr fv x y tx ty RC F FT RX RY l B KB. unfold fabout, fc0. assert (T1 := translate_factor x y tx ty RX RY). assert (T2 := translate_factor (fneg x) (fneg y) (- tx) (- ty) (rel_neg _ _ _ RX) (rel_neg _ _ _ RY)).
  assert (WT : wt 1 0 0 1 (- tx) (- ty) = wt 1 0 0 1 tx ty) by (unfold wt; rewrite !Rabs_Ropp; reflexivity). rewrite WT in T2. set (e := entries 1 0 0 1 tx ty) in *. pose proof (fits_entries 1 0 0 1 tx ty) as FE. fold e in FE.
  pose proof (factor_span _ _ _ _ _ T1 FE) as SE. pose proof (factor_span _ _ _ _ _ F FT) as SS. pose proof u_pos as UP. destruct F as [K1 F]. destruct RC as (r & v & I & RG & VW). assert (IK := I). destruct IK as (N0 & HK & _).
  assert (RS : roundings l = 1 + (rounds s + 1)) by (unfold l, roundings, e, entries; cbn [fold_right rounds]; ring). assert (SP : spans l = span_of e * (span_of s * span_of e)) by (unfold l, spans; cbn [fold_right]; ring). rewrite RS, SP in *.
  assert (RC : reached n K m g w) by (exists r, v; auto). assert (R1 : rounds e = 1) by reflexivity.
  destruct (feq x (fz 0) && feq y (fz 0)) eqn:Z.
  - apply andb_true_iff in Z as [ZX ZY]. apply (fis0_true x (proj1 RX)) in ZX. apply (fis0_true y (proj1 RY)) in ZY.
    assert (NZ : forall x t, rel 5 x t -> value x = 0 -> t = 0). { intros x0 t [_ (e0 & E0 & V0)] H. destruct (one_off 5 e0 ltac:(lra) E0) as [O _]. rewrite V0 in H. apply Rmult_integral in H. lra. }
    apply (NZ _ _ RX) in ZX. apply (NZ _ _ RY) in ZY. subst tx ty.
    eapply reached_weaken; [eapply (reached_step n K m g w s); [exact RC|split; eassumption|exact FT| |]| | | |].
    + assert (15 * u * (n + rounds s) <= 15 * u * (n + (1 + (rounds s + 1)))) by (apply Rmult_le_compat_l; lra). lra.
    + eapply Rle_trans; [|exact KB]. apply Rmult_le_compat_l; [lra|]. assert (span_of s <= span_of s * span_of e) by nra. nra.
    + lra.
    + apply Rmult_le_compat_l; [lra|]. assert (span_of s <= span_of s * span_of e) by nra. nra.
    + intros p. cbn. rewrite about_0. reflexivity.
    + assert (IE : forall q, reach e q = q). { intros [a b]. unfold e, entries. cbn. rewrite Rabs_R0, Rabs_R1. apply pair_eq; ring. } intros p. unfold l, together. cbn [fold_right]. rewrite !IE. reflexivity.
  - assert (SES : 1 <= span_of s * span_of e) by nra.
    assert (B1 : 15 * u * (n + rounds e) <= 1). { rewrite R1. assert (15 * u * (n + 1) <= 15 * u * (n + (1 + (rounds s + 1)))) by (apply Rmult_le_compat_l; lra). lra. }
    assert (B2 : 15 * u * (n + rounds e + rounds s) <= 1). { rewrite R1. assert (15 * u * (n + 1 + rounds s) <= 15 * u * (n + (1 + (rounds s + 1)))) by (apply Rmult_le_compat_l; lra). lra. }
    assert (B3 : 15 * u * (n + rounds e + rounds s + rounds e) <= 1) by (rewrite R1; lra).
    assert (KE : 1 <= K * span_of e) by nra. assert (K2 : K * span_of e * span_of s <= bpow radix2 900). { eapply Rle_trans; [|exact KB]. rewrite Rmult_assoc. apply Rmult_le_compat_l; [lra|]. apply Rmult_le_compat_l; [lra|]. nra. }
    assert (K0 : K * span_of e <= bpow radix2 900) by nra. assert (K3 : K * span_of e * span_of s * span_of e <= bpow radix2 900) by (eapply Rle_trans; [|exact KB]; apply Req_le; ring).
    pose proof (reached_step _ _ _ _ _ e _ _ _ RC T1 FE B1 K0) as A1. pose proof (reached_step _ _ _ _ _ s _ _ _ A1 (conj K1 F) FT B2 K2) as A2. pose proof (reached_step _ _ _ _ _ e _ _ _ A2 T2 FE B3 K3) as A3.
    eapply reached_weaken; [exact A3|rewrite R1; lra|apply Req_le; ring| |].
    + intros p. cbn beta. f_equal. rewrite !act_translate. unfold sp_about, sp_translate. cbn [fst snd]. destruct (act fr (fst p + - tx, snd p + - ty)) as [c d] eqn:E1. replace (fst p - tx, snd p - ty) with (fst p + - tx, snd p + - ty) by (apply pair_eq; ring). rewrite E1. reflexivity.
    + intros p. reflexivity.
Qed.
Lemma reached_ext : forall n K m g w g' w', reached n K m g w -> (forall p, g p = g' p) -> (forall p, w p = w' p) -> reached n K m g' w'.
Proof. intros. eapply reached_weaken; eauto; lra. Qed.
Lemma one_step : forall n K m g w s fm fr fv f, reached n K m g w -> factor (rounds s) fm fr fv -> fits s fv -> (forall p, act fr p = f p) ->
  15 * u * (n + roundings [s]) <= 1 -> K * spans [s] <= bpow radix2 900 ->
  reached (n + roundings [s]) (K * spans [s]) (fpre_cat m fm) (fun p => g (f p)) (fun p => w (together [s] p)).
Proof.
  intros n K m g w s fm fr fv f RC F FT A B KB. assert (RS : roundings [s] = rounds s) by (unfold roundings; cbn [fold_right]; ring). assert (SP : spans [s] = span_of s) by (unfold spans; cbn [fold_right]; ring). rewrite RS, SP in *.
  eapply reached_ext; [eapply reached_step; eauto| |]; intros p; cbn beta; [rewrite A|]; reflexivity.
Qed.
Lemma none_about : forall m k, fabout m k None None = fpre_cat m k.
Proof. intros. unfold fabout, fc0. replace (feq (fz 0) (fz 0)) with true by reflexivity. reflexivity. Qed.
Lemma slant_factor : forall ftan k x y a b ra rb, 1 <= k -> close (exp (11 * u * k)) 0 (ftan x) (tan a) ra -> close (exp (11 * u * k)) 0 (ftan y) (tan b) rb ->
  factor k (fm_skew ftan x y) (m_skew a b) (M 1 rb ra 1 0 0).
Proof.
  intros ftan k x y a b ra rb K A B. pose proof (close_is k (fz 1) 1 K fz1) as O. rewrite Rabs_R1 in O.
  pose proof (close_is k (fz 0) 0 K fz0) as Z. rewrite Rabs_R0 in Z. split; auto. unfold mclose, fm_skew, m_skew. cbn [fma fmb fmc fmd fme fmf ma mb mc md me mf]. six; auto.
Qed.
Lemma steep_span : forall K a b ra rb, 1 <= K -> K * spans [slanting a b ra rb] <= bpow radix2 900 -> 0 <= ra /\ 0 <= rb -> ra <= bpow radix2 900 /\ rb <= bpow radix2 900.
Proof. intros K a b ra rb HK KB [A B]. unfold spans, span_of, slanting in KB. cbn [fold_right reach fst snd] in KB. split; nra. Qed.
Section Funcs.
  Variables fcos fsin ftan : fl -> fl.
  Hypothesis GT : good_trig fcos fsin ftan.
  Ltac reads := repeat match goal with
    | H : is_num ?p ?v, M : moderate_r (Q2R (lit_val (p_lit ?p))) |- _ => destruct (num_reads p v H M) as (? & ? & ?); clear H
    | H : is_dist ?p ?v, M : moderate_r (Q2R (lit_val (p_lit ?p))) |- _ => destruct (dist_reads p v H M) as (? & ? & ?); clear H
    | H : is_angle ?p ?v, M : moderate_r (Q2R (lit_val (p_lit ?p))) |- _ => destruct (angle_reads p v H M) as (? & ? & ?); clear H
    end.
  Lemma func_reached : forall n K m g w nm ps f l, reached n K m g w -> weighs nm ps f l -> modest nm ps -> 15 * u * (n + roundings l) <= 1 -> K * spans l <= bpow radix2 900 ->
    exists m', fapply_func fcos fsin ftan m (T nm) (map param_text (map lowp ps)) = Ok m' /\ reached (n + roundings l) (K * spans l) m' (fun p => g (f p)) (fun p => w (together l p)).
  Proof.
    intros n K m g w nm ps f l RC W MD B KB. unfold modest in MD. assert (RC1 : 1 <= K /\ True) by (destruct RC as (r & v & I & _); split; auto; apply I). assert (N0 : 0 <= n) by (destruct RC as (r & v & I & _); apply I). pose proof u_pos as UP.
    destruct W; repeat match goal with H : Forall _ (_ :: _) |- _ => inversion H; subst; clear H end; reads;
      unfold fapply_func; cbn [map teqb T list_ascii_of_string aeqb Ascii.eqb Bool.eqb andb mapM fcentre rbind fmx_of];
      repeat match goal with H : _ = Ok _ |- _ => rewrite H; clear H; cbn [rbind fmx_of mapM] end;
      (eexists; split; [reflexivity|]); unfold fpre_translate, fpre_scale, fpre_rotate, fpre_skew; rewrite ?none_about.
    - eapply one_step; eauto; [apply entries_factor; eauto|apply fits_entries|intros [x7 y7]; unfold act; cbn; apply pair_eq; ring].
    - eapply one_step; eauto; [apply translate_factor; eauto using rel0|apply fits_entries|intros; apply act_translate].
    - eapply one_step; eauto; [apply translate_factor; eauto using rel0|apply fits_entries|intros; apply act_translate].
    - eapply one_step; eauto; [apply translate_factor; eauto using rel0|apply fits_entries|intros; apply act_translate].
    - eapply one_step; eauto; [apply translate_factor; eauto using rel0|apply fits_entries|intros; apply act_translate].
    - eapply one_step; eauto; [apply scale_factor; eauto using rel1|apply fits_entries|intros; apply act_scale].
    - eapply one_step; eauto; [apply scale_factor; eauto using rel1|apply fits_entries|intros; apply act_scale].
    - eapply one_step; eauto; [apply scale_factor; eauto using rel1|apply fits_entries|intros; apply act_scale].
    - eapply one_step; eauto; [apply scale_factor; eauto using rel1|apply fits_entries|intros; apply act_scale].
    - eapply one_step; eauto; [apply (rotate_factor fcos fsin ftan GT); eauto|apply fits_turning|intros; apply act_rotate].
    - eapply reached_ext; [eapply about_steps; eauto; [apply (rotate_factor fcos fsin ftan GT); eauto|apply fits_turning]| |]; intros q; [|reflexivity]. cbn beta. f_equal. unfold sp_about. rewrite act_rotate. reflexivity.
    - assert (RK : roundings [slanting a 0 (steep a) 0] = 1 + steep a * Rabs a) by (unfold roundings, slanting; cbn; ring).
      assert (K1 : 1 <= 1 + steep a * Rabs a). { unfold steep. pose proof (Rabs_pos a). pose proof (Rabs_pos (tan a)). nra. } assert (BK : 15 * u * (1 + steep a * Rabs a) <= 1) by (rewrite RK in B; nra).
      assert (LS : steep a <= bpow radix2 900) by (apply (steep_span K a 0 (steep a) 0); auto; [apply RC1|unfold steep; pose proof (Rabs_pos (tan a)); lra]).
      assert (RR : rounds (slanting a 0 (steep a) 0) = 1 + steep a * Rabs a) by (unfold slanting; cbn; ring).
      eapply one_step; eauto; [|apply fits_slanting|intros; apply act_skew]. rewrite RR. apply slant_factor; auto; first [apply (tan_zero fcos fsin); auto; fail | apply (tan_close fcos fsin); auto; unfold k; lra | apply (tan_close fcos fsin); auto; lra].
    - assert (RK : roundings [slanting 0 a 0 (steep a)] = 1 + steep a * Rabs a) by (unfold roundings, slanting; cbn; ring).
      assert (K1 : 1 <= 1 + steep a * Rabs a). { unfold steep. pose proof (Rabs_pos a). pose proof (Rabs_pos (tan a)). nra. } assert (BK : 15 * u * (1 + steep a * Rabs a) <= 1) by (rewrite RK in B; nra).
      assert (LS : steep a <= bpow radix2 900) by (apply (steep_span K 0 a 0 (steep a)); auto; [apply RC1|unfold steep; pose proof (Rabs_pos (tan a)); lra]).
      assert (RR : rounds (slanting 0 a 0 (steep a)) = 1 + steep a * Rabs a) by (unfold slanting; cbn; ring).
      eapply one_step; eauto; [|apply fits_slanting|intros; apply act_skew]. rewrite RR. apply slant_factor; auto; first [apply (tan_zero fcos fsin); auto; fail | apply (tan_close fcos fsin); auto; unfold k; lra | apply (tan_close fcos fsin); auto; lra].
    - set (k := 1 + steep a * Rabs a + steep b * Rabs b). assert (RK : roundings [slanting a b (steep a) (steep b)] = k) by (unfold roundings, slanting, k; cbn; ring).
      assert (PA : 0 <= steep a * Rabs a). { unfold steep. pose proof (Rabs_pos a). pose proof (Rabs_pos (tan a)). nra. } assert (PB : 0 <= steep b * Rabs b). { unfold steep. pose proof (Rabs_pos b). pose proof (Rabs_pos (tan b)). nra. }
      assert (LA : steep a <= bpow radix2 900) by (apply (steep_span K a b (steep a) (steep b)); auto; [apply RC1|]; unfold steep; pose proof (Rabs_pos (tan a)); pose proof (Rabs_pos (tan b)); lra).
      assert (LB : steep b <= bpow radix2 900) by (apply (steep_span K a b (steep a) (steep b)); auto; [apply RC1|]; unfold steep; pose proof (Rabs_pos (tan a)); pose proof (Rabs_pos (tan b)); lra).
      assert (BK : 15 * u * k <= 1) by (rewrite RK in B; unfold k in *; nra). assert (RR : rounds (slanting a b (steep a) (steep b)) = k) by reflexivity. assert (K1 : 1 <= k) by (unfold k; lra).
      eapply one_step; eauto; [|apply fits_slanting|intros; apply act_skew]. rewrite RR. apply slant_factor; auto; first [apply (tan_zero fcos fsin); auto; fail | apply (tan_close fcos fsin); auto; unfold k; lra | apply (tan_close fcos fsin); auto; lra].
  Qed.
End Funcs.

(** * Lists of functions *)
Lemma weighs_denotes : forall nm ps f l, weighs nm ps f l -> denotes nm ps f.
Proof. intros nm ps f l H. destruct H; constructor; auto. Qed.
Inductive flisted (asked : string -> list param -> Prop) : list (text * text) -> (plane -> plane) -> list step -> Prop :=
| fl_nil : flisted asked [] (fun p => p) []
| fl_cons : forall nm args ps f l rest g l', find_params 0 args = map param_text (map lowp ps) -> weighs nm ps f l -> asked nm ps -> flisted asked rest g l' ->
    flisted asked ((T nm, args) :: rest) (fun p => f (g p)) (l ++ l').
Lemma weighed_listed : forall asked s g l, weighed asked s g l -> flisted asked (find_funcs 0 (lower s)) g l.
Proof.
  induction 1.
  - rewrite sepc_lower by auto. rewrite <- (app_nil_r w), tlist_ends_ok by auto. apply fl_nil.
  - pose proof (weighs_denotes _ _ _ _ H1) as DN. destruct (denotes_ok _ _ _ DN) as [F1 F2]. destruct H0 as [nm ps n w0 w1 s LN W0 W1 PT].
    pose proof (params_lower _ _ PT F1) as PL. destruct (params_chars _ _ PL F2) as [C1 C2].
    rewrite !lower_app, (sepc_lower w), LN, (wsp_lower w0), tlist_ends_ok by auto.
    assert (E : find_funcs 0 ((T nm ++ w0 ++ lower ("("%char :: w1 ++ s ++ [")"%char])) ++ lower rest) = (T nm, w1 ++ lower s) :: find_funcs 0 (lower rest)).
    { change (lower ("("%char :: w1 ++ s ++ [")"%char])) with ("("%char :: lower (w1 ++ s ++ [")"%char])).
      rewrite !lower_app, (sepc_lower w1) by auto. change (lower [")"%char]) with [")"%char].
      replace ((T nm ++ w0 ++ "("%char :: w1 ++ lower s ++ [")"%char]) ++ lower rest) with (T nm ++ w0 ++ "("%char :: (w1 ++ lower s) ++ ")"%char :: lower rest).
      2:{ rewrite <- !app_assoc. simpl. rewrite <- !app_assoc. reflexivity. }
      apply find_funcs_hit. apply match_names_ok; auto.
      - eapply name_ok; eauto.
      - rewrite forallb_app, sep_chars, C1 by auto. reflexivity.
      - destruct w1; [auto|discriminate]. }
    rewrite E. eapply fl_cons; eauto. rewrite find_params_sep by auto. apply find_params_text; auto.
Qed.
Definition positive (s : step) : Prop := 1 <= rounds s /\ 1 <= span_of s.
Lemma entries_positive : forall a b c d e f, positive (entries a b c d e f).
Proof. intros. split; [cbn; lra|]. unfold span_of, entries. cbn. pose proof (Rabs_pos a). pose proof (Rabs_pos b). pose proof (Rabs_pos c). pose proof (Rabs_pos d). pose proof (Rabs_pos e). pose proof (Rabs_pos f). lra. Qed.
Lemma turning_positive : forall a, positive (turning a).
Proof. intros. split; cbn; [pose proof (Rabs_pos a); lra|]. unfold span_of. cbn. lra. Qed.
Lemma slanting_positive : forall a b ra rb, 0 <= ra -> 0 <= rb -> positive (slanting a b ra rb).
Proof. intros a b ra rb A B. split; cbn; [pose proof (Rabs_pos a); pose proof (Rabs_pos b); nra|]. unfold span_of. cbn. lra. Qed.
Lemma weighs_positive : forall nm ps f l, weighs nm ps f l -> Forall positive l.
Proof.
  assert (S : forall a, 0 <= steep a) by (intros a; unfold steep; pose proof (Rabs_pos (tan a)); lra).
  intros nm ps f l H. destruct H; repeat (apply Forall_cons; [first [apply entries_positive | apply turning_positive | apply slanting_positive; auto; lra]|]); apply Forall_nil.
Qed.
Lemma listed_positive : forall asked fs g l, flisted asked fs g l -> Forall positive l.
Proof. induction 1; auto. apply Forall_app. split; auto. eapply weighs_positive; eauto. Qed.
Lemma roundings_app : forall l l', roundings (l ++ l') = roundings l + roundings l'.
Proof. induction l; intros; cbn; [unfold roundings; cbn; ring|]. unfold roundings in *. cbn [fold_right app]. rewrite IHl. ring. Qed.
Lemma spans_app : forall l l', spans (l ++ l') = spans l * spans l'.
Proof. induction l; intros; cbn; [unfold spans; cbn; ring|]. unfold spans in *. cbn [fold_right app]. rewrite IHl. ring. Qed.
Lemma together_app : forall l l' p, together (l ++ l') p = together l (together l' p).
Proof. intros. unfold together. rewrite fold_right_app. reflexivity. Qed.
Lemma positive_totals : forall l, Forall positive l -> 0 <= roundings l /\ 1 <= spans l.
Proof. induction 1 as [|s l [A B] F [C D]]; [unfold roundings, spans; cbn; lra|]. unfold roundings, spans in *. cbn [fold_right]. split; [lra|nra]. Qed.
Section Lists.
  Variables fcos fsin ftan : fl -> fl.
  Hypothesis GT : good_trig fcos fsin ftan.
  Lemma list_reached : forall fs g l, flisted modest fs g l -> forall n K m g0 w0, reached n K m g0 w0 -> 15 * u * (n + roundings l) <= 1 -> K * spans l <= bpow radix2 900 ->
    exists m', fapply_funcs fcos fsin ftan m fs = Ok m' /\ reached (n + roundings l) (K * spans l) m' (fun p => g0 (g p)) (fun p => w0 (together l p)).
  Proof.
    induction 1 as [|nm args ps f l rest g l' FP W MD FL IH]; intros n K m g0 w0 RC B KB.
    - exists m. split; [reflexivity|]. eapply reached_weaken; [exact RC| | | |]; unfold roundings, spans; cbn; try lra; reflexivity.
    - pose proof (positive_totals _ (weighs_positive _ _ _ _ W)) as [P1 S1]. pose proof (positive_totals _ (listed_positive _ _ _ _ FL)) as [P2 S2]. rewrite roundings_app, spans_app in *. pose proof u_pos as UP.
      assert (IK : 0 <= n /\ 1 <= K) by (destruct RC as (r & v & (A1 & A2 & _) & _); auto).
      destruct (func_reached fcos fsin ftan GT n K m g0 w0 nm ps f l RC W MD) as (m1 & E1 & R1).
      { assert (15 * u * (n + roundings l) <= 15 * u * (n + (roundings l + roundings l'))) by (apply Rmult_le_compat_l; lra). lra. }
      { eapply Rle_trans; [|exact KB]. apply Rmult_le_compat_l; [lra|]. nra. }
      destruct (IH _ _ _ _ _ R1) as (m2 & E2 & R2); [rewrite Rplus_assoc; auto|rewrite Rmult_assoc; auto|].
      exists m2. cbn [fapply_funcs]. rewrite FP, E1. cbn [rbind]. split; auto. eapply reached_weaken; [exact R2|lra|apply Req_le; ring|reflexivity|].
      intros p. cbn beta. rewrite together_app. reflexivity.
  Qed.
  Lemma text_reached : forall t g l, weighed modest t g l -> roundings l <= bpow radix2 48 -> spans l <= bpow radix2 900 ->
    exists m, fmx_of_text fcos fsin ftan t = Ok m /\ finite_mx m /\ forall p,
      Rabs (fst (image_of m p) - fst (g p)) <= 30 * roundings l * u * fst (together l (Rabs (fst p), Rabs (snd p))) + bpow radix2 (-120) * (1 + Rabs (fst p) + Rabs (snd p)) /\
      Rabs (snd (image_of m p) - snd (g p)) <= 30 * roundings l * u * snd (together l (Rabs (fst p), Rabs (snd p))) + bpow radix2 (-120) * (1 + Rabs (fst p) + Rabs (snd p)).
  Proof.
    intros t g l W RB SB. apply weighed_listed in W. destruct (positive_totals _ (listed_positive _ _ _ _ W)) as [P S]. pose proof u_pos as UP.
    assert (B : 15 * u * roundings l <= / 2). { rewrite u_val. change (bpow radix2 48) with 281474976710656 in RB. lra. }
    assert (R0 : reached 0 1 fident (fun p => p) (fun p => p)) by (exists ident, ident; split; [apply inv_start|split; apply act_ident]).
    destruct (list_reached _ _ _ W _ _ _ _ _ R0) as (m & E & r & v & (_ & _ & MC & _) & RG & VW); [rewrite Rplus_0_l; lra|rewrite Rmult_1_l; auto|].
    rewrite Rplus_0_l, Rmult_1_l in MC. exists m. split; [exact E|]. destruct MC as (CA & CB & CC & CD & CE & CF). split. { repeat split; [apply CA|apply CB|apply CC|apply CD|apply CE|apply CF]. }
    pose proof (slack_small (roundings l) (spans l) P ltac:(lra) ltac:(lra)) as SL. assert (G : grown (roundings l) - 1 <= 30 * roundings l * u). { unfold grown. pose proof (exp_two (15 * u * roundings l)) as H. assert (0 <= 15 * u * roundings l) by (apply Rmult_le_pos; lra). specialize (H ltac:(lra)). lra. }
    set (n := roundings l) in *. set (h := slack n (spans l)) in *.
    assert (EN : forall x r v, close (grown n) h x r v -> Rabs (value x - r) <= 30 * n * u * v + bpow radix2 (-120)). { intros x r0 v0 C. pose proof (close_nonneg _ _ _ _ _ C). destruct C as (_ & C & _). assert ((grown n - 1) * v0 <= 30 * n * u * v0) by (apply Rmult_le_compat_r; auto). lra. }
    assert (ROW : forall fa fc fe a c e wa wc we x y, close (grown n) h fa a wa -> close (grown n) h fc c wc -> close (grown n) h fe e we ->
      Rabs (value fa * x + value fc * y + value fe - (x * a + y * c + 1 * e)) <= 30 * n * u * (Rabs x * wa + Rabs y * wc + 1 * we) + bpow radix2 (-120) * (1 + Rabs x + Rabs y)).
    { intros fa fc fe a c e wa wc we x y A C E0. apply EN in A, C, E0. replace (value fa * x + value fc * y + value fe - (x * a + y * c + 1 * e)) with ((value fa - a) * x + (value fc - c) * y + (value fe - e)) by ring.
      eapply Rle_trans; [apply Rabs_triang|]. pose proof (Rabs_triang ((value fa - a) * x) ((value fc - c) * y)) as TR. rewrite !Rabs_mult in TR. pose proof (Rmult_le_compat_r (Rabs x) _ _ (Rabs_pos x) A). pose proof (Rmult_le_compat_r (Rabs y) _ _ (Rabs_pos y) C). lra. }
    intros [x y]. rewrite <- VW. rewrite <- RG. unfold image_of, act. cbn. split; apply ROW; auto.
  Qed.
End Lists.

(** * Whole numbers *)
Definition wis (x : fl) (r v : R) : Prop := exists z, is x (IZR z) /\ r = IZR z /\ Rabs r <= v.
Definition p53r : R := bpow radix2 53.
Lemma abs_53 : forall z, Rabs (IZR z) <= p53r -> (Z.abs z <= 2 ^ 53)%Z.
Proof. intros z H. rewrite <- abs_IZR in H. apply le_IZR. change (IZR (2 ^ 53)) with p53r. exact H. Qed.
Lemma wis_mul : forall x y a b v w, wis x a v -> wis y b w -> v * w <= p53r -> wis (fmul x y) (a * b) (v * w).
Proof.
  intros x y a b v w (z & X & -> & A) (t & Y & -> & B) L. assert (Rabs (IZR (z * t)) <= v * w). { rewrite mult_IZR, Rabs_mult. apply Rmult_le_compat; auto; apply Rabs_pos. }
  exists (z * t)%Z. rewrite <- mult_IZR. split; [apply mul_whole; auto; apply abs_53; lra|]. split; auto.
Qed.
Lemma wis_add : forall x y a b v w, wis x a v -> wis y b w -> v + w <= p53r -> wis (fadd x y) (a + b) (v + w).
Proof.
  intros x y a b v w (z & X & -> & A) (t & Y & -> & B) L. assert (Rabs (IZR (z + t)) <= v + w). { rewrite plus_IZR. eapply Rle_trans; [apply Rabs_triang|lra]. }
  exists (z + t)%Z. rewrite <- plus_IZR. split; [apply add_whole; auto; apply abs_53; lra|]. split; auto.
Qed.
Lemma wis_nonneg : forall x r v, wis x r v -> 0 <= v.
Proof. intros x r v (z & _ & _ & V). eapply Rle_trans; [apply (Rabs_pos r)|exact V]. Qed.
Lemma wis_z : forall k, (k = 0 \/ k = 1)%Z -> wis (fz k) (IZR k) (IZR k).
Proof. intros k [-> | ->]; eexists; (split; [apply fz_is; lia|split; [reflexivity|]]); [rewrite Rabs_R0|rewrite Rabs_R1]; lra. Qed.
Definition mwis (m : fmx) (r v : mx) : Prop := wis (fma m) (ma r) (ma v) /\ wis (fmb m) (mb r) (mb v) /\ wis (fmc m) (mc r) (mc v) /\ wis (fmd m) (md r) (md v) /\ wis (fme m) (me r) (me v) /\ wis (fmf m) (mf r) (mf v).
Definition winv (K : R) (m : fmx) (r v : mx) : Prop := 1 <= K /\ mwis m r v /\ bounded K v.
Lemma winv_start : winv 1 fident ident ident.
Proof. split; [lra|]. split; [unfold mwis, ident, fident; cbn [fma fmb fmc fmd fme fmf ma mb mc md me mf]; six; first [apply (wis_z 1); auto | apply (wis_z 0); auto]|]. unfold bounded, ident. cbn. lra. Qed.
Lemma winv_step : forall K m r v fm fr fv, winv K m r v -> mwis fm fr fv -> K * total fv <= p53r -> winv (K * total fv) (fmul_mx fm m) (mul fr r) (mul fv v).
Proof.
  intros K m r v fm fr fv (HK & MC & BD) FC KN. destruct FC as (FA & FB & FC & FD & FE & FF). destruct MC as (MA & MB & MC & MD & ME & MF). destruct BD as (BA & BB & BC & BD & BE & BF).
  pose proof (wis_nonneg _ _ _ FA). pose proof (wis_nonneg _ _ _ FB). pose proof (wis_nonneg _ _ _ FC). pose proof (wis_nonneg _ _ _ FD). pose proof (wis_nonneg _ _ _ FE). pose proof (wis_nonneg _ _ _ FF).
  pose proof (wis_nonneg _ _ _ MA). pose proof (wis_nonneg _ _ _ MB). pose proof (wis_nonneg _ _ _ MC). pose proof (wis_nonneg _ _ _ MD). pose proof (wis_nonneg _ _ _ ME). pose proof (wis_nonneg _ _ _ MF).
  set (T := total fv) in *. assert (T1 : 1 <= T) by (unfold T, total; lra). assert (KT : 1 <= K * T) by nra.
  assert (ENT : forall a b c d e j, 0 <= a <= K -> 0 <= c <= K -> 0 <= e <= K -> 0 <= b -> 0 <= d -> 0 <= j <= 1 -> b + d + 1 <= T -> a * b + c * d + e * j <= K * T).
  { intros a b c d e j A C E' B' D' J HT. apply Rle_trans with (K * b + K * d + K * 1); [|nra]. apply Rplus_le_compat; [apply Rplus_le_compat; apply Rmult_le_compat_r; lra|]. apply Rmult_le_compat; lra. }
  assert (DOT : forall a b c d e k A B C D E va wb vc wd ve, (k = 0 \/ k = 1)%Z -> wis a A va -> wis b B wb -> wis c C vc -> wis d D wd -> wis e E ve -> va <= K -> vc <= K -> ve <= K -> wb + wd + 1 <= T ->
    wis (fadd (fadd (fmul a b) (fmul c d)) (fmul e (fz k))) (A * B + C * D + E * IZR k) (va * wb + vc * wd + ve * IZR k)).
  { intros a b c d e k A B C D E va wb vc wd ve KK WA WB WC WD WE LA LC LE LT. pose proof (wis_nonneg _ _ _ WA). pose proof (wis_nonneg _ _ _ WB). pose proof (wis_nonneg _ _ _ WC). pose proof (wis_nonneg _ _ _ WD). pose proof (wis_nonneg _ _ _ WE).
    assert (J : 0 <= IZR k <= 1) by (destruct KK as [-> | ->]; lra). pose proof (ENT va wb vc wd ve (IZR k) ltac:(lra) ltac:(lra) ltac:(lra) ltac:(lra) ltac:(lra) J LT) as SUM.
    assert (0 <= va * wb) by (apply Rmult_le_pos; lra). assert (0 <= vc * wd) by (apply Rmult_le_pos; lra). assert (0 <= ve * IZR k) by (apply Rmult_le_pos; lra).
    apply wis_add; [apply wis_add; [apply wis_mul; auto; lra|apply wis_mul; auto; lra|lra]|apply wis_mul; auto; [apply wis_z; auto|lra]|lra]. }
  split; [auto|]. split.
  - unfold mwis, fmul_mx, mul. cbn [fma fmb fmc fmd fme fmf ma mb mc md me mf]. six; (apply (DOT _ _ _ _ _ 0%Z) || apply (DOT _ _ _ _ _ 1%Z)); auto; unfold T, total; lra.
  - unfold bounded, mul. cbn [ma mb mc md me mf]. repeat split; apply ENT; try lra; unfold T, total; lra.
Qed.
Lemma lit_whole : forall l z, lit_ok l -> Q2R (lit_val l) = IZR z -> Rabs (IZR z) <= p53r -> is (ffnum (fnum_of l)) (IZR z).
Proof.
  intros l z L E B. pose proof (lit_value l L) as H. rewrite E, rnd_int in H by (apply abs_53; auto). apply H. eapply Rle_trans; [exact B|]. apply bpow_le. lia.
Qed.
Lemma num_whole : forall p v, is_num p v -> (exists z, Q2R (lit_val (p_lit p)) = IZR z) -> Rabs v <= p53r -> exists x, ffloat (param_text (lowp p)) = Ok x /\ wis x v (Rabs v).
Proof.
  intros p v H (z & Z) B. destruct H as [p L U]. destruct (lower_lit_ok _ L) as [L' V]. unfold param_text, lowp. cbn [p_lit p_unit]. rewrite U. change (lower []) with (@nil ascii). rewrite app_nil_r, ffloat_lit by auto.
  eexists. split; [reflexivity|]. exists z. rewrite Z in *. split; [apply lit_whole; auto; rewrite V; auto|]. split; auto. lra.
Qed.
Lemma dist_whole : forall p v, is_dist p v -> (exists z, Q2R (lit_val (p_lit p)) = IZR z) -> Rabs v <= p53r -> exists x, fpx_param (param_text (lowp p)) = Ok x /\ wis x v (Rabs v).
Proof.
  intros p v H (z & Z) B. destruct H as [p L U|p L U]; destruct (lower_lit_ok _ L) as [L' V]; unfold fpx_param, param_text, lowp; cbn [p_lit p_unit]; rewrite flen_of_known by (auto; unfold uknown; simpl; intuition); rewrite Z in *.
  - assert (W : wis (ffnum (fnum_of (lower_lit (p_lit p)))) (IZR z) (Rabs (IZR z))) by (exists z; split; [apply lit_whole; auto; rewrite V; auto|split; auto; lra]).
    destruct U as [-> | ->]; (eexists; split; [reflexivity|]); exact W.
  - rewrite Rabs_mult, (Rabs_pos_eq 16) in B by lra. pose proof (Rabs_pos (IZR z)).
    rewrite U. eexists. split; [reflexivity|]. cbn [famount]. rewrite (Rmult_comm 16), Rabs_mult. apply wis_mul; [| |rewrite (Rabs_pos_eq 16); lra].
    + exists z. split; [apply lit_whole; auto; [rewrite V; auto|lra]|split; auto; lra].
    + exists 16%Z. split; [apply fz_is; lia|]. split; auto. lra.
Qed.
Definition wreached (K : R) (m : fmx) (g : plane -> plane) : Prop := exists r v, winv K m r v /\ forall p, act r p = g p.
Lemma wone_step : forall K m g s fm fr fv f, wreached K m g -> mwis fm fr fv -> fits s fv -> (forall p, act fr p = f p) -> K * spans [s] <= p53r -> wreached (K * spans [s]) (fpre_cat m fm) (fun p => g (f p)).
Proof.
  intros K m g s fm fr fv f (r & v & I & G) F FT A KB. assert (SP : spans [s] = total fv) by (unfold spans; cbn [fold_right]; rewrite (fits_total _ _ FT); ring). rewrite SP in *.
  exists (mul fr r), (mul fv v). split; [apply winv_step; auto|]. intros p. rewrite act_mul, A, G. reflexivity.
Qed.
Lemma entries_span : forall a b c d e f K, 1 <= K -> K * spans [entries a b c d e f] <= p53r ->
  Rabs a <= p53r /\ Rabs b <= p53r /\ Rabs c <= p53r /\ Rabs d <= p53r /\ Rabs e <= p53r /\ Rabs f <= p53r.
Proof.
  intros a b c d e f K HK. unfold spans, span_of, entries. cbn [fold_right reach fst snd]. pose proof (Rabs_pos a). pose proof (Rabs_pos b). pose proof (Rabs_pos c). pose proof (Rabs_pos d). pose proof (Rabs_pos e). pose proof (Rabs_pos f).
  intros HH. assert (S : forall t, 0 <= t -> K * t <= p53r -> t <= p53r) by (intros t T0 TK; nra). apply S in HH; [|nra]. repeat split; lra.
Qed.
Section Whole.
  Variables fcos fsin ftan : fl -> fl.
  Ltac wreads := repeat match goal with
    | H : is_num ?p ?v, M : exists z, Q2R (lit_val (p_lit ?p)) = IZR z, B : Rabs ?v <= p53r |- _ => destruct (num_whole p v H M B) as (? & ? & ?); clear H
    | H : is_dist ?p ?v, M : exists z, Q2R (lit_val (p_lit ?p)) = IZR z, B : Rabs ?v <= p53r |- _ => destruct (dist_whole p v H M B) as (? & ? & ?); clear H
    end.
  Lemma wis0 : wis (fz 0) 0 (Rabs 0). Proof. rewrite Rabs_R0. apply (wis_z 0). auto. Qed.
  Lemma wis1 : wis (fz 1) 1 (Rabs 1). Proof. rewrite Rabs_R1. apply (wis_z 1). auto. Qed.
  Lemma func_whole : forall K m g nm ps f l, wreached K m g -> weighs nm ps f l -> by_whole nm ps -> K * spans l <= p53r ->
    exists m', fapply_func fcos fsin ftan m (T nm) (map param_text (map lowp ps)) = Ok m' /\ wreached (K * spans l) m' (fun p => g (f p)).
  Proof.
    intros K m g nm ps f l RC W [MN MD] KB. assert (HK : 1 <= K) by (destruct RC as (r & v & I & _); apply I).
    destruct W; try (exfalso; simpl in MN; repeat (destruct MN as [MN|MN]; [discriminate MN|]); exact MN); clear MN; destruct (entries_span _ _ _ _ _ _ _ HK KB) as (? & ? & ? & ? & ? & ?);
      repeat match goal with H : Forall _ (_ :: _) |- _ => inversion H; subst; clear H end; wreads;
      unfold fapply_func; cbn [map teqb T list_ascii_of_string aeqb Ascii.eqb Bool.eqb andb mapM fcentre rbind fmx_of];
      repeat match goal with H : _ = Ok _ |- _ => rewrite H; clear H; cbn [rbind fmx_of mapM] end;
      (eexists; split; [reflexivity|]); unfold fpre_translate, fpre_scale, fpre_rotate, fpre_skew; rewrite ?none_about.
    - eapply wone_step; eauto; [|apply fits_entries|]; [|intros [x7 y7]; instantiate (1 := M a b c d e f); unfold act; cbn; apply pair_eq; ring]. unfold mwis, wt. cbn [fma fmb fmc fmd fme fmf ma mb mc md me mf]. six; auto.
    - eapply wone_step; eauto; [|apply fits_entries|intros; apply act_translate]. unfold mwis, wt, fm_translate, m_translate. cbn [fma fmb fmc fmd fme fmf ma mb mc md me mf]. six; auto using wis0, wis1.
    - eapply wone_step; eauto; [|apply fits_entries|intros; apply act_translate]. unfold mwis, wt, fm_translate, m_translate. cbn [fma fmb fmc fmd fme fmf ma mb mc md me mf]. six; auto using wis0, wis1.
    - eapply wone_step; eauto; [|apply fits_entries|intros; apply act_translate]. unfold mwis, wt, fm_translate, m_translate. cbn [fma fmb fmc fmd fme fmf ma mb mc md me mf]. six; auto using wis0, wis1.
    - eapply wone_step; eauto; [|apply fits_entries|intros; apply act_translate]. unfold mwis, wt, fm_translate, m_translate. cbn [fma fmb fmc fmd fme fmf ma mb mc md me mf]. six; auto using wis0, wis1.
    - eapply wone_step; eauto; [|apply fits_entries|intros; apply (act_scale s s)]. unfold mwis, wt, fm_scale, m_scale. cbn [fma fmb fmc fmd fme fmf ma mb mc md me mf]. six; auto using wis0, wis1.
    - eapply wone_step; eauto; [|apply fits_entries|intros; apply act_scale]. unfold mwis, wt, fm_scale, m_scale. cbn [fma fmb fmc fmd fme fmf ma mb mc md me mf]. six; auto using wis0, wis1.
    - eapply wone_step; eauto; [|apply fits_entries|intros; apply act_scale]. unfold mwis, wt, fm_scale, m_scale. cbn [fma fmb fmc fmd fme fmf ma mb mc md me mf]. six; auto using wis0, wis1.
    - eapply wone_step; eauto; [|apply fits_entries|intros; apply act_scale]. unfold mwis, wt, fm_scale, m_scale. cbn [fma fmb fmc fmd fme fmf ma mb mc md me mf]. six; auto using wis0, wis1.
  Qed.
  Lemma list_whole : forall fs g l, flisted by_whole fs g l -> forall K m g0, wreached K m g0 -> K * spans l <= p53r ->
    exists m', fapply_funcs fcos fsin ftan m fs = Ok m' /\ wreached (K * spans l) m' (fun p => g0 (g p)).
  Proof.
    induction 1 as [|nm args ps f l rest g l' FP W MD FL IH]; intros K m g0 RC KB.
    - exists m. split; [reflexivity|]. replace (K * spans []) with K by (unfold spans; cbn; ring). exact RC.
    - pose proof (positive_totals _ (weighs_positive _ _ _ _ W)) as [P1 S1]. pose proof (positive_totals _ (listed_positive _ _ _ _ FL)) as [P2 S2]. rewrite spans_app in *.
      assert (HK : 1 <= K) by (destruct RC as (r & v & I & _); apply I).
      destruct (func_whole K m g0 nm ps f l RC W MD) as (m1 & E1 & R1). { eapply Rle_trans; [|exact KB]. apply Rmult_le_compat_l; [lra|]. nra. }
      destruct (IH _ _ _ R1) as (m2 & E2 & R2); [rewrite Rmult_assoc; auto|].
      exists m2. cbn [fapply_funcs]. rewrite FP, E1. cbn [rbind]. split; auto. rewrite <- Rmult_assoc. exact R2.
  Qed.
  Lemma text_whole : forall t g l, weighed by_whole t g l -> spans l <= p53r -> exists m, fmx_of_text fcos fsin ftan t = Ok m /\ finite_mx m /\ forall p, image_of m p = g p.
  Proof.
    intros t g l W SB. apply weighed_listed in W. assert (R0 : wreached 1 fident (fun p => p)) by (exists ident, ident; split; [apply winv_start|apply act_ident]).
    destruct (list_whole _ _ _ W _ _ _ R0) as (m & E & r & v & (_ & MC & _) & RG); [rewrite Rmult_1_l; auto|].
    exists m. split; [exact E|]. destruct MC as ((za & CA & EA & _) & (zb & CB & EB & _) & (zc & CC & EC & _) & (zd & CD & ED & _) & (ze & CE & EE & _) & (zf & CF & EF & _)). split. { repeat split; [apply CA|apply CB|apply CC|apply CD|apply CE|apply CF]. }
    intros p. rewrite <- RG. unfold image_of, act. destruct CA as [_ ->], CB as [_ ->], CC as [_ ->], CD as [_ ->], CE as [_ ->], CF as [_ ->]. unfold apply_mx. cbn [fst snd px py]. apply pair_eq; rewrite ?EA, ?EB, ?EC, ?ED, ?EE, ?EF; ring.
  Qed.
End Whole.

(** * Success and failure do not depend on rounding *)
Section Same.
  Definition same {A B} (x : Res A) (y : Res B) : Prop := failure x = failure y.
  Lemma same_bind : forall A B C D (x : Res A) (y : Res B) (f : A -> Res C) (g : B -> Res D), same x y -> (forall a b, x = Ok a -> y = Ok b -> same (f a) (g b)) -> same (do a <- x; f a) (do b <- y; g b).
  Proof. intros A B C D x y f g S H. destruct x, y; unfold same in *; cbn in *; try congruence. apply H; auto. Qed.
  Lemma same_map : forall A B C D (x : Res A) (y : Res B) (f : A -> C) (g : B -> D), same x y -> same (rmap f x) (rmap g y).
  Proof. intros A B C D x y f g S. destruct x, y; unfold same in *; cbn in *; congruence. Qed.
  Lemma same_num : forall s, same (ffloat s) (py_float s).
  Proof. intros s. unfold ffloat, py_float. destruct (match_float s) as [[f [|c t]]|]; reflexivity. Qed.
  Lemma same_numr : forall s, same (ffloat s) (num_param s).
  Proof. intros s. unfold num_param. pose proof (same_num s). unfold same in *. destruct (ffloat s), (py_float s); cbn in *; congruence. Qed.
  Lemma same_list : forall ps, same (mapM ffloat ps) (mapM num_param ps) /\ forall a b, mapM ffloat ps = Ok a -> mapM num_param ps = Ok b -> List.length a = List.length b.
  Proof.
    induction ps as [|p ps [IH IL]]; cbn [mapM]; [split; [reflexivity|intros a b A B; injection A as <-; injection B as <-; reflexivity]|]. pose proof (same_numr p) as S.
    destruct (ffloat p), (num_param p); unfold same in *; cbn in *; try congruence; [|split; [auto|discriminate]]. destruct (mapM ffloat ps), (mapM num_param ps); cbn in *; try congruence; split; auto; try discriminate.
    intros x y A B. injection A as <-. injection B as <-. cbn. f_equal. apply IL; auto.
  Qed.
  Lemma same_angle : forall s, same (fangle_parse s) (angle_parse s).
  Proof. intros s. unfold fangle_parse, angle_parse. repeat (destruct (strip_suffix _ _); [apply same_map, same_num|]). apply same_map, same_num. Qed.
  Lemma same_find : forall s, match ffind_length s, find_length s with Some (_, a), Some (_, b) => a = b | None, None => True | _, _ => False end.
  Proof. induction s as [|c s IH]; cbn [ffind_length find_length]; [|destruct (match_float (c :: s)) as [[f r]|]; auto]. destruct (match_float []) as [[f r]|]; auto. Qed.
  Lemma same_px : forall s, same (fpx_param s) (px_param s).
  Proof.
    intros s. unfold fpx_param, px_param, flen_of_text, len_of_text. pose proof (same_find s) as E. destruct (ffind_length s) as [[a w]|], (find_length s) as [[b v]|]; try contradiction; [|reflexivity]. subst v.
    unfold fvalue, Length_Model.value, len2. cbn [famount funits amount units]. destruct (unit_of_text w); reflexivity.
  Qed.
  Lemma same_centre : forall ps, same (fcentre ps) (centre ps).
  Proof. intros [|x [|y ps]]; cbn [fcentre centre]; [reflexivity| |]; repeat (apply same_bind; [apply same_px|intros]); reflexivity. Qed.
  Variables fcos fsin ftan : fl -> fl.
  Lemma same_func : forall m m' nm ps, same (fapply_func fcos fsin ftan m nm ps) (apply_func m' nm ps).
  Proof.
    assert (P : forall A B (x : Res A) (y : Res B) C D (f : A -> C) (g : B -> D), same x y -> same (do a <- x; Ok (f a)) (do b <- y; Ok (g b))) by (intros; apply same_bind; auto; intros; reflexivity).
    intros m m' nm ps. unfold fapply_func, apply_func. destruct (same_list ps) as [SL LL].
    repeat match goal with |- same (if teqb nm ?t then _ else _) _ => destruct (teqb nm t) end.
    - apply same_bind; auto. intros a b A B. specialize (LL a b A B). apply same_bind; [|intros; reflexivity]. destruct a as [|? [|? [|? [|? [|? [|? ?]]]]]], b as [|? [|? [|? [|? [|? [|? ?]]]]]]; cbn in LL; try discriminate; reflexivity.
    - destruct ps as [|x [|y ps]]; [reflexivity| |]; repeat (apply same_bind; [apply same_px|intros]); reflexivity.
    - destruct ps; [reflexivity|]. apply P, same_px.
    - destruct ps; [reflexivity|]. apply P, same_px.
    - apply same_bind; auto. intros a b A B. specialize (LL a b A B). destruct a as [|? [|? [|? [|? [|? ?]]]]], b as [|? [|? [|? [|? [|? ?]]]]]; cbn in LL; try discriminate; reflexivity.
    - destruct ps; [reflexivity|]. apply P, same_numr.
    - destruct ps; [reflexivity|]. apply P, same_numr.
    - destruct ps; [reflexivity|]. apply same_bind; [apply same_angle|]. intros. apply same_bind; [apply same_centre|]. intros [? ?] [? ?] _ _. reflexivity.
    - destruct ps as [|x [|y ps]]; [reflexivity| |]; [apply P, same_angle|]. apply same_bind; [apply same_angle|]. intros. apply same_bind; [apply same_angle|]. intros. apply same_bind; [apply same_centre|]. intros [? ?] [? ?] _ _. reflexivity.
    - destruct ps; [reflexivity|]. apply same_bind; [apply same_angle|]. intros. apply same_bind; [apply same_centre|]. intros [? ?] [? ?] _ _. reflexivity.
    - destruct ps; [reflexivity|]. apply same_bind; [apply same_angle|]. intros. apply same_bind; [apply same_centre|]. intros [? ?] [? ?] _ _. reflexivity.
    - reflexivity.
  Qed.
  Lemma same_funcs : forall l m m', same (fapply_funcs fcos fsin ftan m l) (apply_funcs m' l).
  Proof. induction l as [|[nm args] l IH]; intros; [reflexivity|]. cbn [fapply_funcs apply_funcs]. apply same_bind; [apply same_func|]. intros. apply IH. Qed.
  Lemma same_text : forall t, failure (fmx_of_text fcos fsin ftan t) = failure (mx_of_text t).
  Proof. intros. apply same_funcs. Qed.
End Same.
