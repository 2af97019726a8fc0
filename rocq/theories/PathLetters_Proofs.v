(** Printed coordinates contain no command letters. *)
Require Import ZArith QArith Qround Qcanon Qabs Ascii String List Bool Lia.
Require Import Verif.Base Verif.Text_Spec Verif.Fmt_Model Verif.Fmt_Proofs Verif.FmtG_Model Verif.FmtG_Proofs Verif.Path_Model Verif.PathText_Spec Verif.PathD_Model Verif.PathLetters_Spec.
Import ListNotations.
Open Scope Z_scope.

Definition plain (s : text) : Prop := commands_of s = [].
Lemma commands_app : forall a b, commands_of (a ++ b) = commands_of a ++ commands_of b.
Proof. intros a b. apply filter_app. Qed.
Lemma plain_app : forall a b, plain a -> plain b -> plain (a ++ b).
Proof. intros a b A B. unfold plain. rewrite commands_app, A, B. reflexivity. Qed.
Lemma plain_forall : forall s, plain s <-> Forall (fun c => ~ In c commands_letters) s.
Proof.
  intros s. unfold plain. induction s as [|c s IH]; [split; [constructor|reflexivity]|]. unfold commands_of in *. cbn [filter]. destruct (in_dec ascii_dec c commands_letters) as [I|N].
  - split; [intros H; inversion H|]. intros H. inversion H. contradiction.
  - rewrite IH. split; [intros H; constructor; auto|intros H; inversion H; auto].
Qed.
Lemma plain_rev : forall s, plain s -> plain (rev s).
Proof. intros s H. apply plain_forall. apply Forall_rev, plain_forall. exact H. Qed.
Lemma plain_lstrip : forall c s, plain s -> plain (lstrip1 c s).
Proof. intros c s H. apply plain_forall. apply plain_forall in H. induction H as [|x s X H IH]; cbn; [constructor|]. destruct (aeqb x c); auto. Qed.
Lemma plain_strip : forall s, plain s -> plain (strip_zeros s).
Proof. intros s H. unfold strip_zeros, rstrip1. repeat (apply plain_rev || apply plain_lstrip). exact H. Qed.
Lemma plain_digit : forall d, is_dig d -> plain [dch d].
Proof.
  intros d H. assert (K : d = 0 \/ d = 1 \/ d = 2 \/ d = 3 \/ d = 4 \/ d = 5 \/ d = 6 \/ d = 7 \/ d = 8 \/ d = 9) by (unfold is_dig in H; lia).
  repeat (destruct K as [-> | K]; [reflexivity|]). subst d. reflexivity.
Qed.
Lemma plain_digits : forall ds, Forall is_dig ds -> plain (map dch ds).
Proof. induction 1 as [|d ds D H IH]; [reflexivity|]. cbn [map]. apply (plain_app [dch d]); auto. apply plain_digit. auto. Qed.
Lemma plain_number : forall n, 0 <= n -> plain (map dch (digits n)).
Proof. intros n H. apply plain_digits. apply digits_spec. auto. Qed.
Lemma plain_fixed : forall k n, plain (map dch (fixed_digits k n)).
Proof.
  intros k n. apply plain_digits. revert n. induction k as [|k IH]; intros n; cbn; [constructor|]. apply Forall_app. split; auto. constructor; auto. unfold is_dig. pose proof (Z.mod_pos_bound n 10). lia.
Qed.
Lemma round_nonneg : forall q, (0 <= q)%Q -> 0 <= Qround_even q.
Proof.
  intros q H. assert (F : 0 <= Qfloor q) by (change 0 with (Qfloor 0); apply Qfloor_resp_le; auto). unfold Qround_even. destruct (Qcompare _ _); [destruct (Z.even _)| |]; lia.
Qed.
Lemma plain_exp : forall e, plain (exp_text e).
Proof.
  intros e. unfold exp_text. apply (plain_app [_]); [destruct (e <? 0); reflexivity|]. apply plain_app; [destruct (Z.abs e <? 10); reflexivity|]. apply plain_number. lia.
Qed.
Lemma plain_G : forall p q, plain (fmt_G p q).
Proof.
  intros p q. unfold fmt_G. destruct (Qeq_bool (Qabs q) 0); [reflexivity|].
  set (m0 := Qround_even _). assert (M0 : 0 <= m0). { apply round_nonneg. apply Qmult_le_0_compat; [apply Qabs_nonneg|]. generalize (p - 1 - exp10 (Qabs q)). intros [|k|k]; cbn [ten_pow]; [discriminate| |apply Qinv_le_0_compat]; change 0%Q with (inject_Z 0); rewrite <- Zle_Qle; apply Z.pow_nonneg; lia. }
  destruct (if m0 =? 10 ^ p then _ else _) as [m e] eqn:EM. assert (M : 0 <= m). { destruct (m0 =? 10 ^ p); injection EM as <- <-; [|auto]. apply Z.pow_nonneg. lia. }
  apply plain_app; [destruct (Qltb q 0); reflexivity|].
  assert (D : forall k, 0 <= m / 10 ^ k). { intros k. pose proof (Z.pow_nonneg 10 k ltac:(lia)) as P. destruct (Z.eq_dec (10 ^ k) 0) as [Z|Z]; [rewrite Z, Zdiv_0_r; lia|]. apply Z.div_pos; lia. }
  destruct (_ && _).
  - apply plain_strip. apply plain_app; [apply plain_number; auto|]. apply (plain_app [_]); [reflexivity|apply plain_fixed].
  - apply plain_app; [|apply (plain_app [_]); [reflexivity|apply plain_exp]]. apply plain_strip. apply plain_app; [apply plain_number; auto|]. apply (plain_app [_]); [reflexivity|apply plain_fixed].
Qed.
Lemma plain_point : forall p, plain (pstr p).
Proof.
  intros p. assert (C : forall q, plain (coord_str q)) by (intros q; unfold coord_str; match goal with |- context [if ?b then _ else _] => destruct b end; [apply plain_strip|]; apply plain_G).
  unfold pstr, point_str. apply plain_app; auto. apply (plain_app [_]); [reflexivity|auto].
Qed.
Lemma plain_ptxt : forall cur rel p, plain (ptxt cur rel p).
Proof. intros [c|] [|] p; apply plain_point. Qed.
Lemma commands_words : forall l, commands_of (words l) = List.concat (map commands_of l).
Proof.
  induction l as [|a [|b l] IH]; [reflexivity|cbn; rewrite app_nil_r; reflexivity|]. change (words (a :: b :: l)) with (a ++ [" "%char] ++ words (b :: l)). rewrite !commands_app, IH. reflexivity.
Qed.

Lemma seg_letter : forall s c rel sm w, seg_d s (Some c) rel sm = Ok w -> exists k, commands_of w = [k] /\ stands_for rel sm s k.
Proof.
  intros s c rel sm w H. unfold seg_d in H. unfold stands_for.
  destruct (s_kind s) as [| | |[q|]|[x|] [y|]|a]; destruct (s_end s) as [e|]; try discriminate; match type of H with Ok ?x = Ok w => assert (E : w = x) by congruence; clear H; rewrite E; clear E end; try destruct sm; rewrite ?commands_words; cbn [map List.concat];
    rewrite ?(plain_ptxt (Some c) rel); unfold cmd, absolute_d; destruct rel; cbn [negb app]; eexists; (split; [reflexivity|]); auto.
Qed.
Lemma svg_letters : forall relative smooth p prev c ws, Forall (fun s => s_end s <> None) p -> svg_d_from prev (Some c) relative smooth p = Ok ws ->
  Forall2 (fun s k => stands_for (wanted relative (s_rel s)) (wanted smooth (s_smooth s)) s k) p (List.concat (map commands_of ws)).
Proof.
  intros relative smooth. induction p as [|s p IH]; intros prev c ws E H; cbn [svg_d_from] in H; [injection H as <-; constructor|].
  inversion E as [|? ? ES EP]. subst. fold (wanted relative (s_rel s)) in H. fold (wanted smooth (s_smooth s)) in H.
  destruct (if wanted smooth (s_smooth s) then is_smooth_from s prev else Ok false) as [sm|] eqn:SM; [|discriminate]. cbn [rbind] in H.
  destruct (seg_d s (Some c) (wanted relative (s_rel s)) sm) as [w|] eqn:W; [|discriminate]. cbn [rbind] in H. destruct (s_end s) as [e|] eqn:EE; [|congruence].
  destruct (svg_d_from (Some s) (Some e) relative smooth p) as [r|] eqn:R; [|discriminate]. injection H as <-. destruct (seg_letter _ _ _ _ _ W) as (k & K & SF). cbn [map List.concat]. rewrite K. constructor; [|eapply IH; eauto].
  destruct (wanted smooth (s_smooth s)); [|injection SM as <-; exact SF]. destruct sm; [exact SF|]. unfold stands_for in *. destruct (s_kind s); try exact SF; (destruct SF as [SF|[N _]]; [auto|discriminate]).
Qed.
