(** Lemmas for Alias_Thms.v: programs with several paths. *)
Require Import ZArith QArith Qcanon List Bool Lia Permutation.
Require Import Verif.Base Verif.Path_Model Verif.PathText_Model Verif.PathEdit_Model Verif.Alias_Model Verif.Alias_Spec
  Verif.Alias_Proofs Verif.AliasOps_Proofs Verif.AliasRev_Proofs Verif.AliasPath_Proofs Verif.AliasText_Proofs.
Import ListNotations.
Local Open Scope Z_scope.

Lemma flat_opts_iff h l p : In p (flat_map (fun s => opts (gets h s)) l) <-> exists s, In s l /\ In p (pids h s).
Proof. rewrite in_flat_map. reflexivity. Qed.
Lemma wf_unshared h ls : wf h (List.concat ls) [] <-> unshared h ls.
Proof.
  unfold unshared. set (l := List.concat ls). clearbody l. split.
  - intros [A B C D E _]. split; [auto|]. split; [|split; [auto|]].
    + clear D. induction l as [|s l IH]; cbn; [constructor|]. inversion A; subst. apply NoDup_app_i.
      * apply C; cbn; auto.
      * apply IH; auto; try (intros; apply B || apply C; cbn; auto; fail).
        intros s0 t p H3 H4. apply E; cbn; auto.
      * intros p Hp Hq. apply flat_opts_iff in Hq. destruct Hq as (t & Ht & Hq).
        apply (E s t p); cbn; auto. intros ->; auto.
    + intros p Hp. apply flat_opts_iff in Hp. destruct Hp as (s & Hs & Hp). eauto.
  - intros (A & B & C & D). split; auto; [| | |intros p []].
    + clear A C D. induction l as [|s l IH]; cbn [In flat_map] in *; [tauto|]. intros t [<-|Ht]; [eapply NoDup_app_l; eauto|].
      apply IH; auto. eapply NoDup_app_r; eauto.
    + intros s p Hs Hp. apply D. apply flat_opts_iff. eauto.
    + clear A C D. induction l as [|s l IH]; cbn [In flat_map] in *; [tauto|].
      pose proof (NoDup_app_r _ _ B) as N.
      intros a b p [<-|Ha] [<-|Hb] Nab Hp Hq; [congruence| | |eapply (IH N a b p); eauto].
      * apply (NoDup_app_dis _ _ p B Hp). apply flat_opts_iff; eauto.
      * apply (NoDup_app_dis _ _ p B Hq). apply flat_opts_iff; eauto.
Qed.

Lemma upd_mid {A} (p1 : list A) x y p2 : upd (p1 ++ x :: p2) (length p1) y = p1 ++ y :: p2.
Proof. induction p1; cbn; congruence. Qed.
Lemma concat_mid {A} (p1 p2 : list (list A)) x : Permutation (List.concat (p1 ++ x :: p2)) (x ++ (List.concat p1 ++ List.concat p2)).
Proof.
  rewrite concat_app. cbn. rewrite app_assoc, (app_assoc x). apply Permutation_app_tail, Permutation_app_comm.
Qed.
Lemma in_concat_of {A} (l : list A) ls s : In l ls -> In s l -> In s (List.concat ls).
Proof. intros. apply in_concat. eauto. Qed.

(** What a statement on one path does to the world, when it does to the path what it does to the values. *)
Definition agrees (w : world) (x : Res world) (q : Res (list path)) : Prop :=
  match x with
  | Err e => q = Err e
  | Ok w' => q = Ok (values w') /\ wf (w_heap w') (List.concat (w_paths w')) []
  end.
Lemma with_path_agrees w k f fq : wf (w_heap w) (List.concat (w_paths w)) [] ->
  (forall l, nth_error (w_paths w) k = Some l -> wf (w_heap w) l [] ->
     does_r (w_heap w) l (f (w_heap w, l)) (fq (reads (w_heap w) l))) ->
  agrees w (with_path w k f) (v_with (values w) k fq).
Proof.
  intros W H. unfold with_path, v_with, values. rewrite nth_error_map.
  destruct (nth_error (w_paths w) k) as [l|] eqn:K; cbn; [|reflexivity].
  destruct (nth_error_split _ _ K) as (p1 & p2 & E & <-). set (r := List.concat p1 ++ List.concat p2).
  assert (W1 : wf (w_heap w) (l ++ r) []). { rewrite E in W. eapply wf_perm; [apply concat_mid|auto]. }
  specialize (H l eq_refl (wf_l _ _ _ _ W1)). destruct (f (w_heap w, l)) as [[h' l']|e]; cbn in *; [|rewrite H; auto].
  destruct H as (p & -> & D). cbn. destruct (proj2 D r [] W1) as (W2 & R & _).
  split.
  - unfold values. cbn. f_equal. rewrite E, upd_mid, !map_app. cbn. rewrite <- (map_length (reads (w_heap w)) p1), upd_mid.
    rewrite (does_reads _ _ _ _ _ D). f_equal; [|f_equal].
    + apply map_ext_in. intros q Hq. apply map_ext_in. intros s Hs. symmetry. apply R. unfold r. apply in_or_app; left. eapply in_concat_of; eauto.
    + apply map_ext_in. intros q Hq. apply map_ext_in. intros s Hs. symmetry. apply R. unfold r. apply in_or_app; right. eapply in_concat_of; eauto.
  - rewrite E, upd_mid. eapply wf_perm; [apply Permutation_sym, concat_mid|exact W2].
Qed.

(** A new path beside those there are. *)
Lemma new_path_agrees w h' l' q : wf (w_heap w) (List.concat (w_paths w)) [] ->
  does (w_heap w) [] h' l' q -> agrees w (Ok (mkW h' (w_paths w ++ [l']))) (Ok (values w ++ [q])).
Proof.
  intros W D. destruct (proj2 D (List.concat (w_paths w)) [] W) as (W2 & R & _). split; cbn.
  - unfold values; cbn. rewrite map_app. cbn. rewrite (does_reads _ _ _ _ _ D). f_equal. f_equal.
    apply map_ext_in. intros l Hl. apply map_ext_in. intros s Hs. symmetry. apply R. eapply in_concat_of; eauto.
  - rewrite concat_app. cbn. rewrite app_nil_r. eapply wf_perm; [apply Permutation_app_comm|exact W2].
Qed.

Lemma wf_nil h X l : wf h l X -> wf h [] X.
Proof. intro W. eapply wf_incl; [apply W| constructor |intros x []]. Qed.

Lemma with_new_does h l v f fq X : wf h l X ->
  (forall h1 s, wf h1 (l ++ [s]) X -> reads h1 l = reads h l -> read h1 s = v ->
     does_r h1 (l ++ [s]) (f (h1, l) s) fq) ->
  does_r h l (with_new v f (h, l)) fq.
Proof.
  intros W H. unfold with_new. cbn [fst snd]. destruct (construct h v) as [s h1] eqn:E.
  destruct (construct_does _ _ _ _ _ _ W E) as (D & A & B). eapply does_r_after; [apply D|].
  apply H; auto. eapply does_wf; eauto.
Qed.
Lemma with_news_does h l vs f fq X : wf h l X ->
  (forall h1 ss, wf h1 (l ++ ss) X -> reads h1 l = reads h l -> reads h1 ss = vs ->
     does_r h1 (l ++ ss) (f (h1, l) ss) fq) ->
  does_r h l (with_news vs f (h, l)) fq.
Proof.
  intros W H. unfold with_news. cbn [fst snd]. destruct (construct_all h vs) as [s h1] eqn:E.
  destruct (construct_all_does _ _ _ _ _ _ W E) as (D & A & B). eapply does_r_after; [apply D|].
  apply H; auto. eapply does_wf; eauto.
Qed.
Lemma does_pair h l (y : st) q : does h l (fst y) (snd y) q -> does_r h l (Ok y) (Ok q).
Proof. destruct y. apply does_r_ok. Qed.

Lemma with_made_agrees w x q : wf (w_heap w) (List.concat (w_paths w)) [] -> does_r (w_heap w) [] x q ->
  agrees w (with_made w x) (do p <- q; Ok (values w ++ [p])).
Proof.
  intros W D. unfold with_made. destruct x as [[h' l']|e]; cbn [does_r rbind] in *; [|rewrite D; reflexivity].
  destruct D as (p & -> & D). cbn [rbind fst snd]. apply new_path_agrees; auto.
Qed.
Lemma with_source_agrees w j f fq : (forall l, nth_error (w_paths w) j = Some l -> agrees w (f l) (fq (reads (w_heap w) l))) ->
  agrees w (with_source w j f) (v_source (values w) j fq).
Proof.
  intros H. unfold with_source, v_source, values. rewrite nth_error_map. destruct (nth_error (w_paths w) j) as [l|]; cbn [option_map]; [|reflexivity]. apply H. reflexivity.
Qed.

Lemma step_agrees w c : wf (w_heap w) (List.concat (w_paths w)) [] -> agrees w (step w c) (v_step (values w) c).
Proof.
  intro W. pose proof (wf_nil _ _ _ W) as W0.
  destruct c as [|vs|vs|k d|k v|k i v|k i v|k a b vs|k i|k a b|k vs|k j|k j u|k|k|k|k u|k i m|k i m|k u m|t|k t|j|j i|j t|t j]; cbn [step v_step].
  - apply new_path_agrees; auto. apply does_refl.
  - destruct (construct_all (w_heap w) vs) as [l h] eqn:E.
    destruct (construct_all_does _ _ _ _ _ _ W0 E) as (D & _). apply new_path_agrees; auto.
  - destruct (construct_all (w_heap w) vs) as [l h] eqn:E.
    destruct (construct_all_does _ _ _ _ _ _ W0 E) as (D & _ & R). apply new_path_agrees; auto.
    eapply does_trans; [apply D|]. cbn [app] in *. rewrite <- R. eapply h_connections_does. eapply does_wf in W0; eauto.
  - apply with_path_agrees; auto. intros l _ Wl. eapply h_draw_does; eauto.
  - apply with_path_agrees; auto. intros l _ Wl. eapply with_new_does; eauto. intros h1 s W1 A B. rewrite <- A, <- B. eapply h_append_does; eauto.
  - apply with_path_agrees; auto. intros l _ Wl. eapply with_new_does; eauto. intros h1 s W1 A B. rewrite <- A, <- B. eapply h_insert_does; eauto.
  - apply with_path_agrees; auto. intros l _ Wl. eapply with_new_does; eauto. intros h1 s W1 A B. rewrite <- A, <- B. eapply h_setitem_does; eauto.
  - apply with_path_agrees; auto. intros l _ Wl. eapply with_news_does; eauto. intros h1 s W1 A B. rewrite <- A, <- B. apply does_pair. eapply h_setslice_does; eauto.
  - apply with_path_agrees; auto. intros l _ Wl. eapply h_delitem_does; eauto.
  - apply with_path_agrees; auto. intros l _ Wl. apply does_pair. 
    pose proof (h_setslice_does (w_heap w) l a b [] []) as D. rewrite app_nil_r in D. apply D; auto.
  - apply with_path_agrees; auto. intros l _ Wl. eapply with_news_does; eauto. intros h1 s W1 A B. rewrite <- A, <- B. apply does_pair. eapply h_extend_does; eauto.
  - unfold values at 1. rewrite nth_error_map. destruct (nth_error (w_paths w) j) as [src|]; cbn [option_map]; [|reflexivity].
    apply with_path_agrees; auto. intros l _ Wl. apply does_pair. eapply h_add_copies_does; eauto.
  - unfold values at 1. rewrite nth_error_map. destruct (nth_error (w_paths w) j) as [src|]; cbn [option_map]; [|reflexivity].
    apply with_path_agrees; auto. intros l _ Wl. apply does_pair. cbn [path_iadd]. rewrite sub_list_reads. eapply h_add_copies_does; eauto.
  - apply with_path_agrees; auto. intros l _ Wl. apply does_r_ok. eapply h_connections_does; eauto.
  - apply with_path_agrees; auto. intros l _ Wl. unfold h_direct_close, direct_close. rewrite len_reads. eapply h_direct_does; eauto.
  - apply with_path_agrees; auto. intros l _ Wl. eapply h_path_reverse_does; eauto.
  - apply with_path_agrees; auto. intros l _ Wl. eapply h_sub_reverse_does; eauto.
  - apply with_path_agrees; auto. intros l _ Wl. eapply h_scale_does; eauto.
  - apply with_path_agrees; auto. intros l _ Wl. eapply h_scale_set_does; eauto.
  - apply with_path_agrees; auto. intros l _ Wl. cbn [fst snd]. unfold h_sub_list. eapply h_scale_sub_does; eauto.
  - apply with_made_agrees; auto. change (path_init (IText t)) with (path_iadd (reads (w_heap w) []) (ATextual t)). eapply h_parse_does; eauto.
  - apply with_path_agrees; auto. intros l _ Wl. eapply h_parse_does; eauto.
  - apply with_source_agrees. intros src _. apply (with_made_agrees w (Ok (w_heap w, [])) (Ok [])); auto. apply does_r_ok, does_refl.
  - apply with_source_agrees. intros src _. apply with_source_agrees. intros o _. apply (with_made_agrees w (Ok (h_add_copies (w_heap w, []) o)) (path_add (reads (w_heap w) src) (APath (reads (w_heap w) o)))); auto.
    apply does_pair. apply (h_add_copies_does (w_heap w) [] o []); auto.
  - apply with_source_agrees. intros src _. apply (with_made_agrees w (h_parse t (w_heap w, [])) (path_iadd (reads (w_heap w) []) (ATextual t))); auto. eapply h_parse_does; eauto.
  - apply with_source_agrees. intros src J. apply with_made_agrees; auto. unfold path_radd_text.
    change (path_init (IText t)) with (path_iadd (reads (w_heap w) []) (ATextual t)).
    pose proof (h_parse_does t (w_heap w) [] [] W0) as D. destruct (h_parse t (w_heap w, [])) as [[h1 l1]|e]; cbn [does_r] in D; [|rewrite D; reflexivity].
    destruct D as (p & -> & D). cbn [rbind]. pose proof (does_reads _ _ _ _ _ D) as R. subst p. eapply does_r_after; [exact D|].
    assert (RS : reads (w_heap w) src = reads h1 src).
    { destruct (proj2 D (List.concat (w_paths w)) [] W) as (_ & K & _). apply map_ext_in. intros s Hs. symmetry. apply K. eapply in_concat_of; eauto. eapply nth_error_In; eauto. }
    rewrite RS. apply does_pair. eapply h_add_copies_does. eapply does_wf; eauto.
Qed.
Lemma exec_agrees cs : forall w, wf (w_heap w) (List.concat (w_paths w)) [] -> agrees w (exec w cs) (v_exec (values w) cs).
Proof.
  induction cs as [|c cs IH]; intros w W; cbn [exec v_exec]; [split; auto|].
  pose proof (step_agrees w c W) as S. destruct (step w c) as [w1|e]; cbn in *; [|rewrite S; auto].
  destruct S as [-> W1]. cbn. specialize (IH w1 W1). exact IH.
Qed.
