(** C101, continued: inverses of matrices in floating point. *)
Require Import ZArith Reals List Bool Lra Lia Psatz.
From Flocq Require Import Core BinarySingleNaN.
Require Import Verif.Point_Model Verif.Float_Model Verif.Float_Spec Verif.Float_Proofs Verif.FloatMat_Proofs.
Open Scope R_scope.

Lemma sub_whole : forall x y a b, is x (IZR a) -> is y (IZR b) -> (Z.abs (a - b) <= 2 ^ 53)%Z -> is (fsub x y) (IZR (a - b)).
Proof.
  intros x y a b [X V] [Y W] H. apply (fsub_exact x y (fz (a - b)) _ X Y); [rewrite V, W, minus_IZR; reflexivity|]. symmetry. apply fz_is. auto.
Qed.
Lemma neg_whole : forall x a, is x (IZR a) -> is (fneg x) (IZR (- a)).
Proof. intros x a [X V]. split; [unfold finite, fneg; rewrite is_finite_Bopp; exact X|]. unfold value, fneg. rewrite B2R_Bopp, opp_IZR. f_equal. exact V. Qed.
Lemma unit_whole : forall x s, (s = 1 \/ s = -1)%Z -> is x (IZR s) -> feq x (fz 0) = false /\ is (fdiv (fz 1) x) (IZR s).
Proof.
  intros x s S [F V]. destruct fz0 as [F0 V0]. destruct fz1 as [F1 V1]. assert (N : value x <> 0) by (rewrite V; destruct S as [-> | ->]; lra). split.
  - unfold feq. rewrite Beqb_correct by auto. apply Req_bool_false. change (B2R (fz 0)) with (value (fz 0)). rewrite V0. exact N.
  - assert (Q : value (fz 1) / value x = IZR s) by (rewrite V1, V; destruct S as [-> | ->]; lra). destruct (fdiv_rnd (fz 1) x F1 N) as [A B].
    + rewrite Q, <- abs_IZR. apply Rle_trans with 1; [|apply one_big]. apply IZR_le. lia.
    + split; auto. rewrite B, Q. apply rnd_int. lia.
Qed.
Section Sizes.
  Local Open Scope Z_scope.
  Lemma prod_le : forall a b A B : Z, Z.abs a <= A -> Z.abs b <= B -> Z.abs (a * b) <= A * B.
  Proof. intros. rewrite Z.abs_mul. apply Z.mul_le_mono_nonneg; lia. Qed.
  Lemma prod53 : forall a b, Z.abs a <= 65536 -> Z.abs b <= 65536 -> Z.abs (a * b) <= 2 ^ 53.
  Proof. intros a b A B. pose proof (prod_le _ _ _ _ A B). lia. Qed.
  Lemma minus_le : forall a b c d, Z.abs a <= 65536 -> Z.abs b <= 65536 -> Z.abs c <= 65536 -> Z.abs d <= 65536 -> Z.abs (a * b - c * d) <= 2 ^ 33.
  Proof. intros a b c d A B C D. pose proof (prod_le _ _ _ _ A B). pose proof (prod_le _ _ _ _ C D). lia. Qed.
  Lemma sum_le : forall A K u v w t k, Z.abs u <= A -> Z.abs v <= 65536 -> Z.abs w <= A -> Z.abs t <= 65536 -> Z.abs k <= K -> Z.abs (u * v) + Z.abs (w * t) + Z.abs k <= A * 131072 + K.
  Proof. intros A K u v w t k U V W T L. pose proof (prod_le _ _ _ _ U V). pose proof (prod_le _ _ _ _ W T). lia. Qed.
  Lemma sum_abs : forall a b c M, Z.abs a + Z.abs b + Z.abs c <= M -> Z.abs (a + b + c) <= M. Proof. lia. Qed.
  Lemma flip_le : forall s z N, s = 1 \/ s = -1 -> Z.abs z <= N -> Z.abs (z * s) <= N. Proof. intros s z N [-> | ->]; lia. Qed.
  Lemma opp_le : forall z N, Z.abs z <= N -> Z.abs (- z) <= N. Proof. lia. Qed.
  Lemma le53 : forall a N, Z.abs a <= N -> N <= 2 ^ 53 -> Z.abs a <= 2 ^ 53. Proof. lia. Qed.
End Sizes.

(** Full statement: a matrix undoes what its inverse does, and the other way round. Proved exactly for integers and the
    determinant 1 or -1: quarter turns, mirrors, integral shifts and skews; in general see [float_inverse_refuted]. *)
Theorem float_inverse_partial : forall m p, whole_mx 65536 m -> whole_pt 65536 p -> Rabs (value (fma m) * value (fmd m) - value (fmc m) * value (fmb m)) = 1 ->
  exists i, finverse m = Some i /\ is_pt (fapply i (fapply m p)) (place p) /\ is_pt (fapply m (fapply i p)) (place p).
Proof.
  intros m p ((a & A & A') & (b & B & B') & (c & C & C') & (d & D & D') & (e & E & E') & (f & F & F')) ((x & X & X') & (y & Y & Y')) DET.
  rewrite (proj2 A), (proj2 B), (proj2 C), (proj2 D), <- !mult_IZR, <- minus_IZR, <- abs_IZR in DET. apply eq_IZR in DET. set (s := (a * d - c * b)%Z) in *. assert (S : (s = 1 \/ s = -1)%Z) by lia.
  assert (SS : (s * s = 1)%Z) by (destruct S as [-> | ->]; reflexivity).
  assert (DT : is (fsub (fmul (fma m) (fmd m)) (fmul (fmc m) (fmb m))) (IZR s)) by (apply sub_whole; [apply mul_whole; auto using prod53|apply mul_whole; auto using prod53|apply le53 with (2 ^ 33)%Z; [apply minus_le; auto|discriminate]]).
  destruct (unit_whole _ s S DT) as [NZ I]. unfold finverse. rewrite NZ. set (i := fdiv _ _) in I |- *. eexists. split; [reflexivity|].
  assert (L1 : (65536 <= 2 ^ 53)%Z) by discriminate. assert (L2 : (2 ^ 33 <= 2 ^ 53)%Z) by discriminate.
  set (j := FM _ _ _ _ _ _).
  pose proof (flip_le s d _ S D') as DA. pose proof (flip_le s (- b) _ S (opp_le _ _ B')) as DB. pose proof (flip_le s (- c) _ S (opp_le _ _ C')) as DC. pose proof (flip_le s a _ S A') as DD.
  pose proof (flip_le s _ _ S (minus_le c f e d C' F' E' D')) as DE. pose proof (flip_le s _ _ S (minus_le b e a f B' E' A' F')) as DF.
  assert (JA : is (fma j) (IZR (d * s))) by (apply mul_whole; eauto using le53). assert (JB : is (fmb j) (IZR (- b * s))) by (apply mul_whole; eauto using neg_whole, le53).
  assert (JC : is (fmc j) (IZR (- c * s))) by (apply mul_whole; eauto using neg_whole, le53). assert (JD : is (fmd j) (IZR (a * s))) by (apply mul_whole; eauto using le53).
  assert (JE : is (fme j) (IZR ((c * f - e * d) * s))) by (apply mul_whole; [apply sub_whole; [apply mul_whole; auto using prod53|apply mul_whole; auto using prod53|apply le53 with (2 ^ 33)%Z; [apply minus_le; auto|exact L2]]|exact I|eauto using le53]).
  assert (JF : is (fmf j) (IZR ((b * e - a * f) * s))) by (apply mul_whole; [apply sub_whole; [apply mul_whole; auto using prod53|apply mul_whole; auto using prod53|apply le53 with (2 ^ 33)%Z; [apply minus_le; auto|exact L2]]|exact I|eauto using le53]).
  split.
  - destruct (apply_whole m p a b c d e f x y A B C D E F X Y) as [P Q].
    { eapply Z.le_trans; [apply (sum_le 65536 65536); assumption|discriminate]. }
    { eapply Z.le_trans; [apply (sum_le 65536 65536); assumption|discriminate]. }
    set (q := fapply m p) in *.
    pose proof (sum_abs _ _ _ _ (sum_le 65536 65536 x a y c e X' A' Y' C' E')) as PB. pose proof (sum_abs _ _ _ _ (sum_le 65536 65536 x b y d f X' B' Y' D' F')) as QB.
    destruct (apply_whole j q _ _ _ _ _ _ _ _ JA JB JC JD JE JF P Q) as [U V].
    { eapply Z.le_trans; [eapply sum_le; eassumption|discriminate]. }
    { eapply Z.le_trans; [eapply sum_le; eassumption|discriminate]. }
    unfold is_pt, place. cbn [px py]. rewrite (proj2 X), (proj2 Y). split; [destruct U as [U1 U2]|destruct V as [U1 U2]]; (split; [exact U1|]); rewrite U2; f_equal.
    + replace ((x * a + y * c + e) * (d * s) + (x * b + y * d + f) * (- c * s) + (c * f - e * d) * s)%Z with (x * (s * (a * d - c * b)))%Z by ring. fold s. rewrite SS. ring.
    + replace ((x * a + y * c + e) * (- b * s) + (x * b + y * d + f) * (a * s) + (b * e - a * f) * s)%Z with (y * (s * (a * d - c * b)))%Z by ring. fold s. rewrite SS. ring.
  - destruct (apply_whole j p _ _ _ _ _ _ x y JA JB JC JD JE JF X Y) as [P Q].
    { eapply Z.le_trans; [eapply sum_le; eassumption|discriminate]. }
    { eapply Z.le_trans; [eapply sum_le; eassumption|discriminate]. }
    set (q := fapply j p) in *.
    pose proof (sum_abs _ _ _ _ (sum_le _ _ _ _ _ _ _ X' DA Y' DC DE)) as PB. pose proof (sum_abs _ _ _ _ (sum_le _ _ _ _ _ _ _ X' DB Y' DD DF)) as QB.
    set (qx := (x * (d * s) + y * (- c * s) + (c * f - e * d) * s)%Z) in *. set (qy := (x * (- b * s) + y * (a * s) + (b * e - a * f) * s)%Z) in *.
    destruct (apply_whole m q a b c d e f qx qy A B C D E F P Q) as [U V].
    { eapply Z.le_trans; [eapply sum_le; eassumption|discriminate]. }
    { eapply Z.le_trans; [eapply sum_le; eassumption|discriminate]. }
    unfold is_pt, place. cbn [px py]. rewrite (proj2 X), (proj2 Y). split; [destruct U as [U1 U2]|destruct V as [U1 U2]]; (split; [exact U1|]); rewrite U2; f_equal; unfold qx, qy.
    + replace ((x * (d * s) + y * (- c * s) + (c * f - e * d) * s) * a + (x * (- b * s) + y * (a * s) + (b * e - a * f) * s) * c + e)%Z with (x * (s * (a * d - c * b)) + e * (1 - s * (a * d - c * b)))%Z by ring. fold s. rewrite SS. ring.
    + replace ((x * (d * s) + y * (- c * s) + (c * f - e * d) * s) * b + (x * (- b * s) + y * (a * s) + (b * e - a * f) * s) * d + f)%Z with (y * (s * (a * d - c * b)) + f * (1 - s * (a * d - c * b)))%Z by ring. fold s. rewrite SS. ring.
Qed.
Example float_inverse_partial_ex : whole_mx 65536 (FM (fz 0) (fz 1) (fz (-1)) (fz 3) (fz 100) (fz (-7))) /\ whole_pt 65536 (FP (fz 3) (fz 4)) /\
  Rabs (value (fz 0) * value (fz 3) - value (fz (-1)) * value (fz 1)) = 1.
Proof.
  assert (Z : forall z, (Z.abs z <= 100)%Z -> whole 65536 (fz z)) by (intros z H; exists z; split; [apply fz_is|]; lia).
  split; [repeat split; apply Z; lia|]. split; [split; apply Z; lia|]. rewrite (proj2 fz0), (proj2 fz1), (proj2 (fz_is (-1) ltac:(lia))), (proj2 (fz_is 3 ltac:(lia))). replace (0 * 3 - IZR (-1) * 1) with 1 by lra. apply Rabs_R1.
Qed.
Print Assumptions float_inverse_partial.
(** A matrix whose determinant is computed as 0 has no inverse: ZeroDivisionError. With integers that is when it is 0. *)
Theorem float_singular : forall m, whole_mx 65536 m -> (finverse m = None <-> value (fma m) * value (fmd m) = value (fmc m) * value (fmb m)).
Proof.
  intros m ((a & A & A') & (b & B & B') & (c & C & C') & (d & D & D') & _). pose proof (prod_le _ _ _ _ A' D'). pose proof (prod_le _ _ _ _ C' B').
  assert (DT : is (fsub (fmul (fma m) (fmd m)) (fmul (fmc m) (fmb m))) (IZR (a * d - c * b))) by (apply sub_whole; [apply mul_whole|apply mul_whole|]; auto; lia).
  destruct DT as [F V]. destruct fz0 as [F0 V0]. unfold finverse. unfold feq. rewrite Beqb_correct by auto. change (B2R (fz 0)) with (value (fz 0)). match goal with |- context [B2R ?x] => change (B2R x) with (value x) end. rewrite V, V0.
  rewrite (proj2 A), (proj2 B), (proj2 C), (proj2 D), <- !mult_IZR. case Req_bool_spec; intros K.
  - split; [intros _|reflexivity]. apply (eq_IZR _ 0) in K. f_equal. lia.
  - split; [discriminate|]. intros E. apply eq_IZR in E. exfalso. apply K. apply (IZR_eq _ 0). lia.
Qed.
Example float_singular_ex : whole_mx 65536 (FM (fz 2) (fz 1) (fz 4) (fz 2) (fz 0) (fz 0)) /\ value (fz 2) * value (fz 2) = value (fz 4) * value (fz 1).
Proof.
  assert (Z : forall z, (Z.abs z <= 100)%Z -> whole 65536 (fz z)) by (intros z H; exists z; split; [apply fz_is|]; lia).
  split; [repeat split; apply Z; lia|]. rewrite (proj2 fz1), (proj2 (fz_is 2 ltac:(lia))), (proj2 (fz_is 4 ltac:(lia))). lra.
Qed.
Print Assumptions float_singular.
