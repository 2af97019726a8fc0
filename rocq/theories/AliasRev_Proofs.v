(** Lemmas for Alias_Thms.v: copies, direct_close, multiplication and reversal. *)
Require Import ZArith QArith Qcanon List Bool Lia Permutation.
Require Import Verif.Base Verif.Path_Model Verif.PathText_Model Verif.PathEdit_Model Verif.Alias_Model Verif.Alias_Spec
  Verif.Alias_Proofs Verif.AliasOps_Proofs.
Import ListNotations.
Local Open Scope Z_scope.

Lemma h_add_copies_does h l src X : wf h l X ->
  does h l (fst (h_add_copies (h, l) src)) (snd (h_add_copies (h, l) src)) (extend (reads h l) (map seg_copy (reads h src))).
Proof.
  intro W. unfold h_add_copies, copy_all. destruct (construct_all h (map seg_copy (reads h src))) as [v h1] eqn:E.
  destruct (construct_all_does _ _ _ _ _ _ W E) as (A & B & C).
  eapply does_trans; [apply A|]. rewrite <- B, <- C at 1. eapply h_extend_does. eapply does_wf; eauto.
Qed.
Lemma h_draw_does h l d X : wf h l X -> does_r h l (h_draw (h, l) d) (v_draw d (reads h l)).
Proof.
  intro W. unfold h_draw.
  assert (E : v_draw d (reads h l) = do v <- drawn d (reads h l); Ok (append (reads h l) v)).
  { set (p := reads h l). destruct d; cbn; try reflexivity.
    - unfold vertical. destruct (current_point p), v; reflexivity.
    - unfold horizontal. destruct (current_point p), v; reflexivity.
    - unfold smooth_quad. destruct (smooth_point p); reflexivity.
    - unfold smooth_cubic. destruct (smooth_point p) as [c1|]; [|reflexivity]. cbn.
      destruct (cubic_kind c1 (resolve p c2)); reflexivity.
    - unfold cubic. destruct (cubic_kind (resolve p c1) (resolve p c2)); reflexivity.
    - unfold arc. destruct (current_point p), (resolve p a); try reflexivity. cbv zeta.
      destruct (near p0 p1 || isz rx || isz ry); try reflexivity. destruct rx, ry, rot; reflexivity. }
  rewrite E. destruct (drawn d (reads h l)) as [v|e]; cbn [rbind]; [|reflexivity].
  destruct (construct h v) as [s h1] eqn:C. destruct (construct_does _ _ _ _ _ _ W C) as (A & B & V).
  eapply does_r_after; [apply A|]. rewrite <- B, <- V at 1. eapply h_append_does. eapply does_wf; eauto.
Qed.

Lemma h_direct_does n : forall h l X, wf h l X -> does_r h l (h_direct_from n (h, l)) (direct_close_from n (reads h l)).
Proof.
  induction n as [|i IH]; intros h l X W; cbn [h_direct_from direct_close_from]; [apply does_r_ok, does_refl|].
  rewrite nth_error_reads. destruct (nth_error l i) as [z|] eqn:Z; cbn [option_map]; [|reflexivity].
  rewrite is_close_read. destruct (o_is_close h z && has_length (read h z)); [|eapply IH; eauto].
  set (v := mkSeg KLine (val h (o_start (gets h z))) (val h (o_end (gets h z))) false true).
  destruct (construct h v) as [s h1] eqn:C. destruct (construct_does _ _ _ _ _ _ W C) as (A & B & V).
  pose proof (does_wf _ _ _ _ _ _ A W) as W1.
  assert (Iz : In z l) by (eapply nth_error_In; eauto).
  assert (Rz : read h1 z = read h z).
  { unfold reads in B. apply (f_equal (fun q => nth_error q i)) in B.
    rewrite !(map_nth_error _ _ _ Z) in B. congruence. }
  assert (Nz : z <> s).
  { intros ->. eapply (NoDup_app_dis l [s] s); cbn; auto. apply (wf_nd _ _ _ W1). }
  assert (Ve : val h1 (o_end (gets h1 z)) = s_end (read h z)) by (rewrite <- Rz; reflexivity).
  rewrite Ve. set (h2 := assign_start h1 z (s_end (read h z))).
  assert (Z1 : nth_error (l ++ [s]) i = Some z). { rewrite nth_error_app1; auto. apply nth_error_Some. congruence. }
  pose proof (assign_start_does h1 (l ++ [s]) i z (s_end (read h z)) X W1 Z1) as D2. fold h2 in D2.
  pose proof (does_wf _ _ _ _ _ _ D2 W1) as W2.
  assert (R2 : reads h2 l = upd (reads h l) i (set_start (read h z) (s_end (read h z)))).
  { rewrite <- Rz at 1. rewrite <- B. apply (assign_start_ok h1 l i z (s_end (read h z)) X); auto. eapply wf_l; eauto. }
  assert (S2 : read h2 s = v).
  { rewrite <- V. destruct (assign_start_at h1 (l ++ [s]) z (s_end (read h z)) X W1) as (_ & R & _).
    - apply in_or_app; auto.
    - apply R; auto. apply in_or_app; cbn; auto. }
  eapply does_r_after; [eapply does_trans; [apply A|apply D2]|].
  eapply does_r_bind.
  - pose proof (h_insert_does h2 l (Z.of_nat i) s X W2) as I. rewrite R2, S2 in I. apply I.
  - intros h3 l3 E3 D3. eapply IH. eapply does_wf; eauto.
Qed.

(** ** Multiplication by a matrix *)
Lemma fold_upd_len {A} (f : A -> A) d ps : forall l, length (fold_left (fun l p => upd l p (f (nth p l d))) ps l) = length l.
Proof. induction ps; cbn; intro l; auto. rewrite IHps, len_upd; auto. Qed.
Lemma fold_upd_nth {A} (f : A -> A) d ps : forall l q, NoDup ps -> (forall p, In p ps -> (p < length l)%nat) ->
  nth q (fold_left (fun l p => upd l p (f (nth p l d))) ps l) d = if in_dec Nat.eq_dec q ps then f (nth q l d) else nth q l d.
Proof.
  induction ps as [|p ps IH]; intros l q ND H; cbn [fold_left]; [reflexivity|].
  inversion ND as [|? ? Np ND']; subst. rewrite IH; auto; [|intros; rewrite len_upd; apply H; cbn; auto].
  rewrite !nth_upd by (apply H; cbn; auto).
  destruct (Nat.eqb_spec q p) as [->|N].
  - destruct (in_dec Nat.eq_dec p ps) as [Y|Y]; [tauto|]. destruct (in_dec Nat.eq_dec p (p :: ps)) as [Y'|Y']; [auto|exfalso; cbn in Y'; tauto].
  - destruct (in_dec Nat.eq_dec q ps) as [Y|Y], (in_dec Nat.eq_dec q (p :: ps)) as [Y'|Y']; auto; exfalso; cbn in Y'; intuition.
Qed.
Lemma is_arc_read h s : is_arc (read h s) = is_oarc (gets h s).
Proof. unfold is_arc, is_oarc, read. cbn. destruct (o_kind (gets h s)); auto. Qed.
Lemma h_imul_at m h L s X h' : wf h L X -> In s L -> h_imul m h s = Ok h' ->
  wf h' L X /\ (forall t, In t L -> t <> s -> read h' t = read h t) /\ v_imul m (read h s) = Ok (read h' s)
  /\ (forall p, In p X -> getp h' p = getp h p).
Proof.
  intros W I. unfold h_imul, v_imul. rewrite is_arc_read. destruct (is_oarc (gets h s)) eqn:Arc; [discriminate|].
  intro H; injection H as <-. set (h' := mkH _ _).
  assert (G : forall t, gets h' t = gets h t) by reflexivity.
  assert (P : forall t, pids h' t = pids h t) by reflexivity.
  assert (Lp : length (h_pts h') = length (h_pts h)) by apply fold_upd_len.
  assert (V : forall p, getp h' p = if in_dec Nat.eq_dec p (pids h s) then m (getp h p) else getp h p).
  { intro p. unfold getp, h'; cbn. apply fold_upd_nth; [apply (wf_own _ _ _ W); auto|]. intros q Hq. eapply wf_pt; eauto. }
  split; [|split; [|split]].
  - destruct W as [A B C D E F]. split; auto; intros; rewrite ?P, ?Lp in *; eauto.
  - intros t Ht N. apply read_eq; auto. intros p Hp. rewrite V. destruct (in_dec Nat.eq_dec p (pids h s)); auto.
    exfalso. eapply (wf_sep _ _ _ W t s); eauto.
  - f_equal. unfold read. rewrite G. unfold seg_map. cbn [s_kind s_start s_end s_rel s_smooth].
    assert (VV : forall o, (forall p, o = Some p -> In p (pids h s)) -> option_map m (val h o) = val h' o).
    { intros [p|] Ho; cbn [val option_map]; auto. rewrite V. destruct (in_dec Nat.eq_dec p (pids h s)) as [|N]; auto. exfalso; apply N; auto. }
    f_equal.
    + unfold is_oarc in Arc. destruct (o_kind (gets h s)) as [| | |c|c1 c2|a] eqn:K; cbn; auto; try discriminate.
      * f_equal. apply VV. intros p ->. apply in_opts_kind. rewrite K. cbn; auto.
      * f_equal; apply VV; intros p ->; apply in_opts_kind; rewrite K; cbn; rewrite ?in_app_iff; cbn; auto.
    + apply VV. intros p Hp. apply in_opts_start; auto.
    + apply VV. intros p Hp. apply in_opts_end; auto.
  - intros p Hp. rewrite V. destruct (in_dec Nat.eq_dec p (pids h s)) as [Y|Y]; auto. exfalso.
    eapply (wf_loose _ _ _ W p Hp); eauto.
Qed.
Lemma h_imul_err m h s e : h_imul m h s = Err e -> v_imul m (read h s) = Err e.
Proof. unfold h_imul, v_imul. rewrite is_arc_read. destruct (is_oarc (gets h s)); [congruence|discriminate]. Qed.
Lemma h_imul_does m h l k s X h' t : wf h l X -> nth_error l k = Some s -> h_imul m h s = Ok h' -> v_imul m (read h s) = Ok t ->
  does h l h' l (upd (reads h l) k t) /\ t = read h' s.
Proof.
  intros W Hk E V. assert (I : In s l) by (eapply nth_error_In; eauto).
  destruct (h_imul_at _ _ _ _ _ _ W I E) as (A & B & C & _). split; [|congruence]. split.
  - eapply only_read; eauto. congruence.
  - eapply safe_of; eauto. intros L Y WL IL. destruct (h_imul_at _ _ _ _ _ _ WL IL E) as (A' & B' & _ & D'). auto.
Qed.
Lemma h_scale_does m h l i X : wf h l X ->
  does_r h l (do s <- pyget l i; do h1 <- h_imul m h s; Ok (h1, l))
    (do s <- pyget (reads h l) i; do t <- v_imul m s; pyset (reads h l) i t).
Proof.
  intro W. rewrite pyget_reads. destruct (pyget l i) as [s|e] eqn:G; cbn [rmap rbind]; [|reflexivity].
  apply pyget_at in G. destruct G as (k & K & E).
  destruct (h_imul m h s) as [h1|e] eqn:M; cbn [rbind]; [|rewrite (h_imul_err _ _ _ _ M); reflexivity].
  assert (I : In s l) by (eapply nth_error_In; eauto). destruct (h_imul_at _ _ _ _ _ _ W I M) as (_ & _ & V & _).
  rewrite V. cbn [rbind]. unfold pyset. rewrite len_reads, K. apply does_r_ok. eapply h_imul_does; eauto.
Qed.
Lemma h_scale_set_does m h l i X : wf h l X ->
  does_r h l (do s <- pyget l i; do h1 <- h_imul m h s; h_setitem (h1, l) i s)
    (do s <- pyget (reads h l) i; do t <- v_imul m s; setitem (reads h l) i t).
Proof.
  intro W. rewrite pyget_reads. destruct (pyget l i) as [s|e] eqn:G; cbn [rmap rbind]; [|reflexivity].
  pose proof G as G0. apply pyget_at in G. destruct G as (k & K & E).
  destruct (h_imul m h s) as [h1|e] eqn:M; cbn [rbind]; [|rewrite (h_imul_err _ _ _ _ M); reflexivity].
  assert (I : In s l) by (eapply nth_error_In; eauto). destruct (h_imul_at _ _ _ _ _ _ W I M) as (_ & _ & V & _).
  rewrite V. cbn [rbind]. destruct (h_imul_does _ _ _ _ _ _ _ _ W E M V) as [D _].
  pose proof (does_wf _ _ _ _ _ _ D W) as W1.
  eapply does_r_after; [apply D|].
  assert (Q : setitem (reads h l) i (read h1 s) = setitem (reads h1 l) i (read h1 s)).
  { unfold setitem. rewrite (proj1 D). unfold pyset. rewrite len_upd. destruct (pyidx (length (reads h l)) i) as [k'|] eqn:K'; auto.
    rewrite len_reads in K'. assert (k' = k) by congruence. subst. cbn [rbind].
    assert (U : upd (upd (reads h l) k (read h1 s)) k (read h1 s) = upd (reads h l) k (read h1 s)).
    { apply upd_same. rewrite nth_error_upd, Nat.eqb_refl; auto. rewrite len_reads. eapply pyidx_lt; eauto. }
    rewrite U. auto. }
  rewrite Q. eapply h_setitem_same; eauto.
Qed.
Lemma h_scale_sub_does m n : forall h l i X, wf h l X ->
  does_r h l (do h1 <- h_imul_all m h (iter_range l n i); Ok (h1, l)) (v_imul_range m n i (reads h l)).
Proof.
  induction n as [|n IH]; intros h l i X W; cbn [iter_range v_imul_range h_imul_all]; [apply does_r_ok, does_refl|].
  rewrite pyget_reads. destruct (pyget l i) as [s|e] eqn:G; cbn [rmap h_imul_all rbind]; [|apply does_r_ok, does_refl].
  apply pyget_at in G. destruct G as (k & K & E).
  destruct (h_imul m h s) as [h1|e] eqn:M; cbn [rbind]; [|rewrite (h_imul_err _ _ _ _ M); reflexivity].
  assert (I : In s l) by (eapply nth_error_In; eauto). destruct (h_imul_at _ _ _ _ _ _ W I M) as (_ & _ & V & _).
  rewrite V. cbn [rbind]. destruct (h_imul_does _ _ _ _ _ _ _ _ W E M V) as [D _].
  pose proof (does_wf _ _ _ _ _ _ D W) as W1.
  unfold pyset. rewrite len_reads, K. cbn [rbind]. eapply does_r_after; [apply D|]. rewrite <- (proj1 D). eapply IH; eauto.
Qed.

(** ** Reversal *)
Lemma h_reverse_at h L s X : wf h L X -> In s L ->
  let h' := h_reverse h s in
  wf h' L X /\ (forall t, In t L -> t <> s -> read h' t = read h t) /\ read h' s = seg_reverse (read h s)
  /\ ext_pts h h' /\ (forall t, t <> s -> gets h' t = gets h t).
Proof.
  intros W I. unfold h_reverse. cbv zeta. set (o := gets h s).
  set (o' := mkO (okind_reverse (o_kind o)) (o_end o) (o_start o) (o_rel o) (o_smooth o)).
  assert (KP : Permutation (okind_pts (o_kind o)) (okind_pts (okind_reverse (o_kind o)))).
  { destruct (o_kind o); cbn; auto. apply Permutation_app_comm. }
  assert (OP : Permutation (opts o) (opts o')).
  { unfold opts, o'; cbn. eapply perm_trans; [apply Permutation_app_comm|]. rewrite <- app_assoc.
    eapply perm_trans; [apply Permutation_app; [apply KP|apply Permutation_refl]|].
    rewrite !app_assoc. apply Permutation_app; [|apply Permutation_refl]. apply Permutation_app_comm. }
  destruct (put_ok h (put h s o') L s o' [] X) as (A & B & C); auto.
  - cbn. rewrite app_nil_r; auto.
  - eapply Permutation_NoDup; [apply OP|]. apply (wf_own _ _ _ W); auto.
  - intros p Hp. left. eapply Permutation_in; [apply Permutation_sym, OP|auto].
  - split; [auto|split; [auto|split; [|split; [exists []; cbn; rewrite app_nil_r; auto|]]]].
    + rewrite (read_of _ _ _ C). unfold read, seg_reverse. fold o. unfold o'. cbn. f_equal.
      destruct (o_kind o); auto.
    + intros t N. unfold gets, put; cbn. rewrite nth_upd by (eapply wf_seg; eauto). destruct (Nat.eqb_spec t s); congruence.
Qed.
Lemma h_reverse_does h l k s X : wf h l X -> nth_error l k = Some s ->
  does h l (h_reverse h s) l (upd (reads h l) k (seg_reverse (read h s))).
Proof.
  intros W Hk. assert (I : In s l) by (eapply nth_error_In; eauto). split.
  - destruct (h_reverse_at h l s X W I) as (A & B & C & _). eapply only_read; eauto.
  - eapply safe_of; eauto. intros L Y WL IL. destruct (h_reverse_at h L s Y WL IL) as (A & B & _ & D & _).
    split; [auto|split; [auto|eapply loose_ext; eauto]].
Qed.
Lemma upd_upd {A} (l : list A) k x y : upd (upd l k x) k y = upd l k y.
Proof. revert k; induction l; destruct k; cbn; try (f_equal; auto); auto. Qed.
Lemma upd_comm {A} (l : list A) a b x y : a <> b -> upd (upd l a x) b y = upd (upd l b y) a x.
Proof. revert a b; induction l as [|c l IH]; intros [|a] [|b]; cbn; intro; auto; try congruence; f_equal; auto. Qed.
Lemma upd4 {A} (l : list A) a b x y z w : a <> b -> upd (upd (upd (upd l a x) b y) a z) b w = upd (upd l a z) b w.
Proof. intro N. rewrite (upd_comm (upd l a x) b a) by auto. rewrite !upd_upd. auto. Qed.
Lemma NoDup_swap {A} (l : list A) a b x y : NoDup l -> nth_error l a = Some x -> nth_error l b = Some y ->
  Permutation l (upd (upd l a y) b x).
Proof.
  revert a b. induction l as [|c l IH]; intros a b N Ha Hb; [destruct a; discriminate|].
  inversion N as [|? ? Nc N']; subst.
  assert (One : forall k (z : A), nth_error l k = Some z -> Permutation (c :: l) (z :: upd l k c)).
  { clear. intros k z. revert k. induction l as [|d l IH]; intros k H; [destruct k; discriminate|].
    destruct k as [|k]; cbn in *; [injection H as ->; apply perm_swap|].
    eapply perm_trans; [apply perm_swap|]. eapply perm_trans; [apply perm_skip, IH; eauto|]. apply perm_swap. }
  destruct a as [|a], b as [|b]; cbn in *.
  - injection Ha as ->. apply Permutation_refl.
  - injection Ha as ->. apply One; auto.
  - injection Hb as ->. apply One; auto.
  - apply perm_skip. apply IH; auto.
Qed.
Lemma h_rev_loop_does fuel : forall h l s e X, wf h l X ->
  does_r h l (h_rev_loop fuel (h, l) s e) (rev_loop fuel (reads h l) s e).
Proof.
  induction fuel as [|f IH]; intros h l s e X W; cbn [h_rev_loop rev_loop];
    destruct (s <=? e); try reflexivity; try (apply does_r_ok, does_refl).
  rewrite !pyget_reads.
  destruct (pyget l s) as [a|er] eqn:Ga; cbn [rmap rbind]; [|reflexivity].
  destruct (pyget l e) as [b|er] eqn:Gb; cbn [rmap rbind]; [|reflexivity].
  apply pyget_at in Ga. destruct Ga as (ka & Ka & Ea). apply pyget_at in Gb. destruct Gb as (kb & Kb & Eb).
  assert (La : (ka < length l)%nat) by (eapply pyidx_lt; eauto). assert (Lb : (kb < length l)%nat) by (eapply pyidx_lt; eauto).
  unfold pyset. rewrite !len_reads, !Ka. cbn [rbind]. rewrite !len_upd, ?len_reads, !Kb.
  destruct (Nat.eqb_spec a b) as [->|N].
  - assert (ka = kb). { eapply NoDup_nth_error; [apply (wf_nd _ _ _ W)| |congruence]. auto. } subst kb.
    pose proof (h_reverse_does h l ka b X W Eb) as D. eapply does_r_after; [apply D|].
    assert (Q : (do p2 <- (if s =? e then Ok (upd (reads h l) ka (seg_reverse (read h b)))
                           else Ok (upd (upd (reads h l) ka (seg_reverse (read h b))) ka (seg_reverse (read h b))));
                 rev_loop f p2 (s + 1) (e - 1)) = rev_loop f (reads (h_reverse h b) l) (s + 1) (e - 1)).
    { rewrite upd_upd, (proj1 D). destruct (s =? e); reflexivity. }
    rewrite Q. eapply IH. eapply does_wf; eauto.
  - assert (Nk : ka <> kb) by (intros ->; congruence).
    assert (Nse : (s =? e) = false). { destruct (Z.eqb_spec s e); auto. subst. congruence. }
    rewrite Nse. cbn [rbind].
    pose proof (h_reverse_does h l ka a X W Ea) as D1. set (h1 := h_reverse h a) in *.
    pose proof (does_wf _ _ _ _ _ _ D1 W) as W1.
    pose proof (h_reverse_does h1 l kb b X W1 Eb) as D2. set (h2 := h_reverse h1 b) in *.
    pose proof (does_wf _ _ _ _ _ _ D2 W1) as W2.
    assert (D3 : does h2 l h2 (upd (upd l ka b) kb a) (reads h2 (upd (upd l ka b) kb a))).
    { apply does_perm, NoDup_swap; auto. apply (wf_nd _ _ _ W). }
    eapply does_r_after; [eapply does_trans; [apply D1|eapply does_trans; [apply D2|apply D3]]|].
    assert (Ia : In a l) by (eapply nth_error_In; eauto). assert (Ib : In b l) by (eapply nth_error_In; eauto).
    assert (Q : upd (upd (reads h l) ka (seg_reverse (read h b))) kb (seg_reverse (read h a))
                = reads h2 (upd (upd l ka b) kb a)).
    { unfold reads at 2. rewrite !map_upd. fold (reads h2 l).
      destruct (h_reverse_at h l a X W Ia) as (_ & R1 & S1 & _). fold h1 in R1, S1.
      destruct (h_reverse_at h1 l b X W1 Ib) as (_ & R2 & S2 & _). fold h2 in R2, S2.
      rewrite S2, (R2 a), S1, (R1 b) by auto.
      rewrite (proj1 D2), (proj1 D1), upd4 by auto. auto. }
    rewrite Q. eapply IH. eapply does_wf; eauto.
Qed.
