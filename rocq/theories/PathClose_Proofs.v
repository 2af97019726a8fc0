(** Proofs about direct_close. *)
Require Import ZArith QArith Qcanon List Bool Lia.
Require Import Verif.Base Verif.Path_Model Verif.PathDraw_Spec Verif.PathDraw_Proofs Verif.PathEdit_Model Verif.PathEdit_Spec Verif.PathEdit_Proofs Verif.PathClose_Spec.
Import ListNotations.

Lemma has_length_iff : forall s, is_close s && has_length s = true <-> long_close s.
Proof.
  intros [k a b r m]. unfold long_close, has_length. cbn [s_kind s_start s_end]. rewrite andb_true_iff. split.
  - intros [C H]. apply is_close_kind in C. cbn in C. split; auto. destruct a as [a|], b as [b|]; try discriminate. exists a, b. repeat split; auto.
    intros ->. destruct (Qc_eq_dec _ _) as [_|N]; [|now apply N]. destruct (Qc_eq_dec _ _) as [_|N]; [discriminate|now apply N].
  - intros (C & a' & b' & -> & -> & N). split; [apply is_close_kind; auto|]. destruct a' as [x y], b' as [u v]. cbn [fst snd].
    destruct (Qc_eq_dec _ _) as [E1|_]; auto. destruct (Qc_eq_dec _ _) as [E2|_]; auto. subst. now elim N.
Qed.
Definition direct1 (s : seg) : path :=
  if is_close s && has_length s then [mkSeg KLine (s_start s) (s_end s) false true; set_start s (s_end s)] else [s].
Definition chained (p : path) : Prop := forall a f s b, p = a ++ f :: s :: b -> ms (s_end f) (s_start s).
Lemma direct_from : forall a b, chained (a ++ b) -> direct_close_from (length a) (a ++ b) = Ok (concat (map direct1 a) ++ b).
Proof.
  induction a as [|z a IH] using rev_ind; intros b H; [reflexivity|].
  rewrite app_length. cbn [length]. rewrite Nat.add_comm. cbn [plus direct_close_from]. rewrite <- app_assoc in *. cbn [app] in *.
  rewrite nth_at. rewrite map_app, concat_app. cbn [map concat]. rewrite app_nil_r, <- app_assoc. unfold direct1 at 2.
  assert (HA : chained (a ++ [])). { intros u f s v E. rewrite app_nil_r in E. apply (H u f s (v ++ z :: b)). rewrite E, <- app_assoc. reflexivity. }
  destruct (is_close z && has_length z) eqn:C.
  - rewrite upd_at. unfold insert. rewrite pyinsert_at. apply has_length_iff in C. destruct C as (K & s0 & e0 & S & E & N).
    set (v := mkSeg KLine (s_start z) (s_end z) false true). set (z' := set_start z (s_end z)).
    assert (V1 : validate_connection (a ++ v :: z' :: b) (Z.of_nat (length a) - 1) = a ++ v :: z' :: b).
    { destruct (snoc_cases _ a) as [->|(l & f & ->)].
      - apply vc_neg. cbn. lia.
      - rewrite app_length. cbn [length]. replace (Z.of_nat (length l + 1) - 1)%Z with (Z.of_nat (length l)) by lia. rewrite <- app_assoc. cbn [app].
        unfold validate_connection. rewrite vc_at. specialize (H l f z b). rewrite <- app_assoc in H. specialize (H eq_refl).
        assert (LK : link false f v = (f, v)).
        { unfold link. unfold v. cbn [s_start]. rewrite S in H |- *. destruct (s_end f) as [ef|]; [|contradiction]. cbn in H. rewrite H. reflexivity. }
        rewrite LK. reflexivity. }
    rewrite V1. unfold validate_connection. rewrite vc_at.
    assert (LK : link false v z' = (v, z')).
    { unfold link, v, z'. destruct z as [k a0 b0 r m]. cbn in *. subst b0. cbn. rewrite near_refl. reflexivity. }
    rewrite LK. cbn [fst snd is_move is_close s_kind v rbind]. fold v. cbn [app].
    rewrite IH; [reflexivity|].
    intros u f s w E1.
    assert (P : (exists w1, a = u ++ f :: s :: w1) \/ (u ++ [f] = a /\ s = v) \/ (u = a /\ f = v /\ s = z') \/ (exists u1, u = a ++ v :: u1)).
    { clear -E1. revert E1. generalize a v z' b. clear. intros a. revert u. induction a as [|x a IHa]; intros u v z' b E; cbn in *.
      - destruct u as [|y u]; cbn in E; injection E; intros; subst.
        + right. right. left. auto.
        + right. right. right. exists u. reflexivity.
      - destruct u as [|y u]; cbn in E; injection E as E2 E; subst.
        + destruct a as [|x2 a]; cbn in E; injection E; intros; subst; [right; left; auto|left; eexists; reflexivity].
        + destruct (IHa u v z' b E) as [(w1 & ->)|[(E3 & ->)|[(-> & -> & ->)|(u1 & ->)]]].
          * left. eexists. reflexivity.
          * right. left. cbn. rewrite E3. auto.
          * right. right. left. auto.
          * right. right. right. eexists. reflexivity. }
    destruct P as [(w1 & ->)|[(EA & ->)|[(-> & -> & ->)|(u1 & ->)]]].
    + apply (HA u f s w1). rewrite app_nil_r. reflexivity.
    + unfold v. cbn [s_start]. apply (H u f z b). rewrite <- EA, <- app_assoc. reflexivity.
    + unfold v, z'. destruct z as [k a0 b0 r m]. cbn in *. subst b0. cbn. apply near_refl.
    + rewrite <- app_assoc in E1. apply app_inv_head in E1. cbn in E1. injection E1 as E1. destruct u1 as [|y u1]; cbn in E1; injection E1 as E2 E1.
      * subst f. subst b. assert (EZ : s_end z' = s_end z) by reflexivity. rewrite EZ. apply (H a z s w). reflexivity.
      * subst b. apply (H (a ++ z :: u1) f s w). rewrite <- app_assoc. reflexivity.
  - exact (IH (z :: b) H).
Qed.
Lemma joined_chained : forall p, joined p -> chained p.
Proof. intros p [H _] a f s b E. apply ms_iff. eapply H; eauto. Qed.
Lemma direct_close_exact : forall p, joined p -> direct_close p = Ok (concat (map direct1 p)).
Proof. intros p H. unfold direct_close. pose proof (direct_from p []) as X. rewrite !app_nil_r in X. apply X. now apply joined_chained. Qed.
Lemma direct1_stands : forall s, stands_for s (direct1 s).
Proof.
  intros s. unfold direct1, stands_for. destruct (is_close s && has_length s) eqn:E.
  - left. apply has_length_iff in E. split; auto. do 2 eexists. split; [reflexivity|]. destruct E as [K _]. destruct s. cbn in *. repeat split; auto.
  - right. split; auto. intros L. apply has_length_iff in L. congruence.
Qed.
Lemma direct_J : forall p z e, J z e p -> J z e (concat (map direct1 p)).
Proof.
  induction p as [|s p IH]; intros z e H; cbn [map concat]; auto. cbn [J] in H. destruct H as (A & B & H). apply J_app. unfold direct1.
  destruct (is_close s && has_length s) eqn:C.
  - apply has_length_iff in C. destruct C as (K & a & b & S & E & N).
    assert (CL : is_close s = true) by (apply is_close_kind; auto). assert (MV : is_move s = false) by (unfold is_move; now rewrite K).
    destruct s as [k o d r m]. cbn [s_kind s_start s_end set_start] in *. subst k o d.
    cbn. split; [split; [exact A|split; [discriminate|split; [apply near_refl|split; [auto|exact I]]]]|]. apply IH. rewrite MV in H. exact H.
  - split; [cbn [J]; auto|]. cbn. apply IH. exact H.
Qed.
Lemma direct_joined : forall p, joined p -> joined (concat (map direct1 p)).
Proof.
  intros [|s p] H; [exact H|]. apply joined_iff in H. apply joined_iff. cbn [map concat JJ] in *. apply direct_J in H. unfold direct1 at 1.
  destruct (is_close s && has_length s) eqn:C; cbn [app JJ]; auto.
  apply has_length_iff in C. destruct C as (K & a & b & S & E & N). destruct s as [k o d r m]. cbn [s_kind s_start s_end set_start] in *. subst k o d. cbn.
  split; [apply near_refl|]. split; [intros _; apply near_refl|exact H].
Qed.
Lemma direct_no_long : forall p s, In s (concat (map direct1 p)) -> ~ long_close s.
Proof.
  intros p s I. apply in_concat in I. destruct I as (l & I & IS). apply in_map_iff in I. destruct I as (x & <- & _). unfold direct1 in IS.
  destruct (is_close x && has_length x) eqn:C.
  - destruct IS as [<-|[<-|[]]]; intros (K & a & b & A & B & N); cbn in *; [discriminate|]. congruence.
  - destruct IS as [<-|[]]. intros L. apply has_length_iff in L. congruence.
Qed.
