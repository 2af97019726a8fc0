(** Lemmas for Alias_Thms.v: the operations on whole paths. *)
Require Import ZArith QArith Qcanon List Bool Lia Permutation.
Require Import Verif.Base Verif.Path_Model Verif.PathText_Model Verif.PathEdit_Model Verif.Alias_Model Verif.Alias_Spec
  Verif.Alias_Proofs.
Import ListNotations.
Local Open Scope Z_scope.

Lemma does_r_ok h l h' l' q : does h l h' l' q -> does_r h l (Ok (h', l')) (Ok q).
Proof. intro D. exists q; auto. Qed.
Lemma does_r_after h l h1 l1 q1 x q : does h l h1 l1 q1 -> does_r h1 l1 x q -> does_r h l x q.
Proof.
  intros D R. destruct x as [[h' l']|e]; cbn in *; auto. destruct R as (p & E & R). exists p. split; auto.
  eapply does_trans; eauto.
Qed.
Lemma does_r_bind h l x q (k : st -> Res st) (kq : path -> Res path) :
  does_r h l x q ->
  (forall h' l', x = Ok (h', l') -> does h l h' l' (reads h' l') -> does_r h' l' (k (h', l')) (kq (reads h' l'))) ->
  does_r h l (rbind x k) (rbind q kq).
Proof.
  intros D H. destruct x as [[h' l']|e]; cbn in *; [|rewrite D; auto].
  destruct D as (p & -> & D). cbn. pose proof D as [E S]. subst p.
  eapply does_r_after; eauto.
Qed.
(** The same with an operation that keeps the list. *)
Lemma does_r_bind_on h l x q (k : heap -> Res st) (kq : path -> Res path) :
  does_r h l (on l x) q ->
  (forall h', x = Ok h' -> does h l h' l (reads h' l) -> does_r h' l (k h') (kq (reads h' l))) ->
  does_r h l (rbind x k) (rbind q kq).
Proof.
  intros D H. destruct x as [h'|e]; cbn in *; [|rewrite D; auto].
  destruct D as (p & -> & D). cbn. pose proof D as [E S]. subst p. eapply does_r_after; eauto.
Qed.
Lemma does_reads h l h' l' q : does h l h' l' q -> q = reads h' l'.
Proof. intros [<- _]; auto. Qed.

(** Fewer segments, in another order. *)
Lemma safe_drop h l l' : (NoDup l -> NoDup l') -> incl l' l -> safe h h l l'.
Proof.
  intros N I r X W. split; [|auto]. eapply wf_incl; eauto.
  - pose proof (wf_nd _ _ _ W) as ND. apply NoDup_app_i.
    + apply N. eapply NoDup_app_l; eauto.
    + eapply NoDup_app_r; eauto.
    + intros x Hx. eapply NoDup_app_dis; eauto.
  - intros x Hx. apply in_app_iff in Hx. apply in_or_app. destruct Hx; auto.
Qed.
Lemma does_drop h l l' : (NoDup l -> NoDup l') -> incl l' l -> does h l h l' (reads h l').
Proof. split; auto. apply safe_drop; auto. Qed.
Lemma does_perm h l l' : Permutation l l' -> does h l h l' (reads h l').
Proof.
  intro P. apply does_drop.
  - intro N. eapply Permutation_NoDup; eauto.
  - intros x Hx. eapply Permutation_in; [apply Permutation_sym|]; eauto.
Qed.

(** ** New objects *)
Lemma new_kind_spec h k ok h1 : new_kind h k = (ok, h1) ->
  ext_pts h h1 /\ h_segs h1 = h_segs h /\ kind_val h1 ok = k /\ NoDup (okind_pts ok)
  /\ (forall p, In p (okind_pts ok) -> (length (h_pts h) <= p < length (h_pts h1))%nat).
Proof.
  destruct k as [| | |c|c1 c2|a]; cbn.
  1,2,3,6: intro H; injection H as <- <-; cbn; repeat split; auto using ext_refl, NoDup_nil; tauto.
  - destruct (new_point h c) as [p h2] eqn:E. intro H; injection H as <- <-.
    destruct (new_point_spec _ _ _ _ E) as (e & A & B & C & D). cbn. split; [exists e; auto|]. split; auto.
    split; [congruence|]. destruct p as [p|]; cbn.
    + split; [repeat constructor; cbn; tauto|]. intros q [<-|[]]. destruct (D p eq_refl); lia.
    + split; [constructor|tauto].
  - destruct (new_point h c1) as [p h2] eqn:E. destruct (new_point h2 c2) as [q h3] eqn:F. intro H; injection H as <- <-.
    destruct (new_point_spec _ _ _ _ E) as (e & A & B & C & D). destruct (new_point_spec _ _ _ _ F) as (f & A' & B' & C' & D').
    assert (L : (length (h_pts h) <= length (h_pts h2))%nat) by (rewrite A, app_length; lia).
    assert (L' : (length (h_pts h2) <= length (h_pts h3))%nat) by (rewrite A', app_length; lia).
    cbn. split; [exists (e ++ f); rewrite A', A, app_assoc; auto|]. split; [congruence|]. split; [|split].
    + f_equal; [|auto]. rewrite <- C. eapply val_in; eauto. intros x Hx. destruct (D x Hx); auto.
    + destruct p as [p|], q as [q|]; cbn; repeat constructor; cbn; try tauto.
      intros [X|[]]. destruct (D p eq_refl), (D' q eq_refl). lia.
    + intros x Hx. apply in_app_iff in Hx. destruct Hx as [Hx|Hx].
      * destruct p as [p|]; cbn in Hx; [destruct Hx as [<-|[]]|tauto]. destruct (D p eq_refl); lia.
      * destruct q as [q|]; cbn in Hx; [destruct Hx as [<-|[]]|tauto]. destruct (D' q eq_refl); lia.
Qed.

Lemma construct_at h L X v s h1 : wf h L X -> construct h v = (s, h1) ->
  wf h1 (s :: L) X /\ (forall t, In t L -> read h1 t = read h t) /\ read h1 s = v /\ ext_pts h h1
  /\ (forall t, (t < length (h_segs h))%nat -> gets h1 t = gets h t).
Proof.
  intros W. unfold construct.
  destruct (new_point h (s_start v)) as [a ha] eqn:Ea. destruct (new_point ha (s_end v)) as [b hb] eqn:Eb.
  destruct (new_kind hb (s_kind v)) as [k hk] eqn:Ek. intro H. injection H as <- <-.
  destruct (new_point_spec _ _ _ _ Ea) as (ea & A1 & A2 & A3 & A4).
  destruct (new_point_spec _ _ _ _ Eb) as (eb & B1 & B2 & B3 & B4).
  destruct (new_kind_spec _ _ _ _ Ek) as ([ek K1] & K2 & K3 & K4 & K5).
  set (o := mkO k a b (s_rel v) (s_smooth v)). set (n := length (h_segs hk)).
  set (h1 := mkH (h_pts hk) (h_segs hk ++ [o])).
  assert (S : h_segs hk = h_segs h) by congruence.
  assert (P : h_pts h1 = h_pts h ++ (ea ++ eb ++ ek)) by (cbn; rewrite K1, B1, A1, !app_assoc; auto).
  assert (Gn : gets h1 n = o). { unfold gets, h1, n; cbn. rewrite app_nth2, Nat.sub_diag; auto. }
  assert (Gt : forall t, (t < length (h_segs h))%nat -> gets h1 t = gets h t).
  { intros t Ht. unfold gets, h1; cbn. rewrite S, app_nth1; auto. }
  assert (Lha : length (h_pts ha) = (length (h_pts h) + length ea)%nat) by (rewrite A1, app_length; auto).
  assert (Lhb : length (h_pts hb) = (length (h_pts ha) + length eb)%nat) by (rewrite B1, app_length; auto).
  assert (Lhk : length (h_pts hk) = (length (h_pts hb) + length ek)%nat) by (rewrite K1, app_length; auto).
  assert (Fresh : forall p, In p (opts o) -> (length (h_pts h) <= p < length (h_pts h1))%nat).
  { intros p Hp. apply opts_inv in Hp. cbn in Hp |- *. destruct Hp as [Hp|[Hp|Hp]].
    - destruct (A4 p Hp). lia.
    - specialize (K5 p Hp). lia.
    - destruct (B4 p Hp). lia. }
  assert (Nn : ~ In n L). { intro I. apply (wf_seg _ _ _ W) in I. unfold n in I. rewrite S in I. lia. }
  assert (R : forall t, In t L -> read h1 t = read h t).
  { intros t Ht. pose proof (wf_seg _ _ _ W _ Ht) as Lt. apply read_eq; auto.
    intros p Hp. eapply getp_ext; eauto. eapply wf_pt; eauto. }
  split; [|split; [auto|split; [|split; [exists (ea ++ eb ++ ek); auto|auto]]]].
  - destruct W as [A B C D E F]. split.
    + constructor; auto.
    + intros t [<-|Ht]; cbn; rewrite app_length; cbn; [lia|]. rewrite S. apply B in Ht. lia.
    + intros t [<-|Ht]; unfold pids.
      * rewrite Gn. unfold o, opts; cbn [o_start o_kind o_end].
        apply NoDup_app_i; [destruct a; repeat constructor; cbn; tauto| |].
        -- apply NoDup_app_i; auto; [destruct b; repeat constructor; cbn; tauto|].
           intros p Hp. specialize (K5 p Hp). destruct b as [q|]; cbn; [|tauto]. intros [<-|[]]. destruct (B4 q eq_refl). lia.
        -- intros p Hp. destruct a as [q|]; cbn in Hp; [destruct Hp as [<-|[]]|tauto]. destruct (A4 q eq_refl).
           rewrite in_app_iff. intros [Y|Y]; [specialize (K5 _ Y); lia|].
           destruct b as [q'|]; cbn in Y; [destruct Y as [<-|[]]|tauto]. destruct (B4 q' eq_refl). lia.
      * rewrite Gt by auto. apply C; auto.
    + intros t p [<-|Ht]; unfold pids.
      * rewrite Gn. intro Hp. apply Fresh in Hp. lia.
      * rewrite Gt by auto. intro Hp. apply (D _ _ Ht) in Hp. rewrite P, app_length. lia.
    + intros t u p [<-|Ht] [<-|Hu] N; unfold pids; rewrite ?Gn, ?Gt by auto; try congruence.
      * intros Y Z. apply Fresh in Y. apply (D _ _ Hu) in Z. lia.
      * intros Y Z. apply Fresh in Z. apply (D _ _ Ht) in Y. lia.
      * apply E; auto.
    + intros p Hp. destruct (F p Hp) as [F1 F2]. split; [rewrite P, app_length; lia|].
      intros t [<-|Ht]; unfold pids; rewrite ?Gn, ?Gt by auto; [|apply F2; auto]. intro Y. apply Fresh in Y. lia.
  - rewrite (read_of _ _ _ Gn). unfold o. cbn [o_kind o_start o_end o_rel o_smooth].
    destruct v as [vk vs ve vr vm]; cbn in *. f_equal.
    + rewrite <- K3. apply (kind_val_in hk h1 []); [unfold h1; cbn; rewrite app_nil_r; auto|]. intros p Hp. apply K5; auto.
    + rewrite <- A3. apply (val_in ha h1 (eb ++ ek)); [cbn; rewrite K1, B1, !app_assoc; auto|]. intros p Hp. apply A4; auto.
    + rewrite <- B3. apply (val_in hb h1 ek); [cbn; rewrite K1; auto|]. intros p Hp. apply B4; auto.
Qed.
Lemma perm_snoc {A} (l r : list A) s : Permutation (s :: l ++ r) ((l ++ [s]) ++ r).
Proof. rewrite <- app_assoc. cbn. apply Permutation_middle. Qed.
Lemma wf_perm h l l' X : Permutation l l' -> wf h l X -> wf h l' X.
Proof.
  intros P W. eapply wf_incl; eauto; [eapply Permutation_NoDup; eauto; apply (wf_nd _ _ _ W)|].
  intros x Hx. eapply Permutation_in; [apply Permutation_sym|]; eauto.
Qed.
Lemma construct_does h l X v s h1 : wf h l X -> construct h v = (s, h1) ->
  does h l h1 (l ++ [s]) (reads h l ++ [v]) /\ reads h1 l = reads h l /\ read h1 s = v.
Proof.
  intros W E. destruct (construct_at h l X v s h1 W E) as (A & B & C & D & _).
  assert (RL : reads h1 l = reads h l) by (apply map_ext_in; auto).
  split; [|auto]. split.
  - unfold reads in *. rewrite map_app, RL. cbn. congruence.
  - intros r Y Wr. destruct (construct_at h (l ++ r) Y v s h1 Wr E) as (A' & B' & C' & D' & _).
    split; [eapply wf_perm; [apply perm_snoc|auto]|]. split; [|eapply loose_ext; eauto].
    intros t Ht. apply B', in_or_app; auto.
Qed.
Lemma construct_all_does vs : forall h l X ss h1, wf h l X -> construct_all h vs = (ss, h1) ->
  does h l h1 (l ++ ss) (reads h l ++ vs) /\ reads h1 l = reads h l /\ reads h1 ss = vs.
Proof.
  induction vs as [|v vs IH]; intros h l X ss h1 W; cbn.
  - intro H; injection H as <- <-. rewrite !app_nil_r. split; [apply does_refl|auto].
  - destruct (construct h v) as [s h2] eqn:E. destruct (construct_all h2 vs) as [ss' h3] eqn:F.
    intro H; injection H as <- <-.
    destruct (construct_does _ _ _ _ _ _ W E) as (A & B & C).
    pose proof (does_wf _ _ _ _ _ _ A W) as W2.
    destruct (IH _ _ _ _ _ W2 F) as (A' & B' & C').
    assert (R1 : reads h3 l = reads h l /\ read h3 s = v).
    { unfold reads in B'. rewrite !map_app in B'. cbn in B'. apply app_inj_tail in B'. destruct B' as [B1 B2].
      unfold reads in *. split; congruence. }
    destruct R1 as [R1 R2]. split; [|split; [auto|cbn; unfold reads in *; congruence]].
    destruct A as [_ A], A' as [_ A']. split.
    + unfold reads in *. rewrite map_app, R1. cbn. rewrite R2, C'. auto.
    + replace (l ++ s :: ss') with ((l ++ [s]) ++ ss') by (rewrite <- app_assoc; auto). eapply safe_trans; eauto.
Qed.

(** ** Lists of references and their values *)
Lemma reads_app h a b : reads h (a ++ b) = reads h a ++ reads h b.
Proof. apply map_app. Qed.
Lemma pyset_reads h l i s : pyset (reads h l) i (read h s) = rmap (reads h) (pyset l i s).
Proof. unfold pyset. rewrite len_reads. destruct (pyidx (length l) i); cbn; auto. unfold reads. rewrite map_upd; auto. Qed.
Lemma pyinsert_reads h l i s : pyinsert (reads h l) i (read h s) = reads h (pyinsert l i s).
Proof. unfold pyinsert. rewrite len_reads, reads_app. cbn. rewrite firstn_reads, skipn_reads. auto. Qed.
Lemma pysplice_reads h l a b v : pysplice (reads h l) a b (reads h v) = reads h (pysplice l a b v).
Proof. unfold pysplice. rewrite len_reads, !reads_app, firstn_reads, skipn_reads. auto. Qed.
Lemma pydel_reads h l k : pydel (reads h l) k = reads h (pydel l k).
Proof. unfold pydel. rewrite reads_app, firstn_reads, skipn_reads. auto. Qed.
Lemma iter_range_reads h l n : forall i, iter_range (reads h l) n i = reads h (iter_range l n i).
Proof.
  induction n as [|n IH]; intro i; cbn; auto. rewrite pyget_reads. destruct (pyget l i); cbn; auto. rewrite IH; auto.
Qed.
Lemma sub_list_iter p u : sub_list p u = iter_range p (Z.to_nat (u_end u - u_start u + 1)) (u_start u).
Proof.
  unfold sub_list. generalize (u_start u) at 2 4. generalize (Z.to_nat (u_end u - u_start u + 1)).
  induction n as [|n IH]; intro i; cbn; auto. destruct (pyget p i); auto. f_equal. apply IH.
Qed.
Lemma sub_list_reads h l u : sub_list (reads h l) u = reads h (h_sub_list l u).
Proof. rewrite sub_list_iter. apply iter_range_reads. Qed.

(** ** Operations *)
Lemma h_checks_does h l i s X : wf h l X -> In s l ->
  does_r h l (h_checks h l i s)
    (let p2 := validate_connection (validate_connection (reads h l) (i - 1)) i in
     do p3 <- (if is_move (read h s) then validate_moveZ p2 i else Ok p2);
     if is_close (read h s) then validate_closeZ p3 i else Ok p3).
Proof.
  intros W I. unfold h_checks. rewrite is_move_read, is_close_read. cbn zeta.
  destruct (h_connection_does false h l (i - 1) X W) as [D1 K1].
  set (h1 := h_connection false h l (i - 1)) in *. pose proof (does_wf _ _ _ _ _ _ D1 W) as W1.
  destruct (h_connection_does false h1 l i X W1) as [D2 K2].
  set (h2 := h_connection false h1 l i) in *. pose proof (does_wf _ _ _ _ _ _ D2 W1) as W2.
  assert (K : kinds h h2) by (eapply kinds_trans; eauto).
  rewrite (kinds_move h h2) by auto.
  unfold validate_connection. rewrite <- (proj1 D1), <- (proj1 D2).
  eapply does_r_after; [eapply does_trans; [apply D1|apply D2]|].
  eapply (does_r_bind_on h2 l _ _ (fun h3 => do h4 <- (if o_is_close h3 s then h_close h3 l i else Ok h3); Ok (h4, l))).
  - destruct (o_is_move h s).
    + eapply h_move_does; eauto.
    + apply does_r_ok, does_refl.
  - intros h3 E3 D3. pose proof (does_wf _ _ _ _ _ _ D3 W2) as W3.
    assert (K3 : kinds h2 h3). { destruct (o_is_move h s); [eapply h_move_kinds; eauto|injection E3 as <-; intro; auto]. }
    rewrite (kinds_close h h3) by (eapply kinds_trans; eauto).
    destruct (o_is_close h s).
    + pose proof (h_close_does h3 l i X W3) as C. destruct (h_close h3 l i); cbn in *; auto.
    + apply does_r_ok, does_refl.
Qed.
Lemma h_append_does h l s X : wf h (l ++ [s]) X ->
  does_r h (l ++ [s]) (h_append (h, l) s) (Ok (append (reads h l) (read h s))).
Proof.
  intro W. unfold h_append, append. rewrite len_reads, is_close_read.
  destruct (h_connection_does false h (l ++ [s]) (Z.of_nat (length l) - 1) X W) as [D1 K1].
  set (h1 := h_connection false h (l ++ [s]) (Z.of_nat (length l) - 1)) in *.
  pose proof (does_wf _ _ _ _ _ _ D1 W) as W1. rewrite (kinds_close h h1) by auto.
  unfold validate_connection. change (reads h l ++ [read h s]) with (reads h l ++ reads h [s]). rewrite <- reads_app, <- (proj1 D1).
  eapply does_r_after; [apply D1|].
  destruct (o_is_close h s); [|apply does_r_ok, does_refl].
  pose proof (h_close_does h1 (l ++ [s]) (Z.of_nat (length l)) X W1) as C.
  unfold validate_closeZ in C. rewrite len_reads, app_length in C. cbn [length] in C.
  destruct (Z.of_nat (length l) <? 0) eqn:E; [exfalso; clear - E; apply Z.ltb_lt in E; lia|].
  destruct (Z.of_nat (length l) <? Z.of_nat (length l + 1)) eqn:F; [|exfalso; clear - F; apply Z.ltb_ge in F; lia]. rewrite Nat2Z.id in C.
  destruct (h_close h1 (l ++ [s]) (Z.of_nat (length l))) as [h2|e]; cbn in *; auto.
Qed.
Lemma skipn_incl {A} (l : list A) : forall i j, (i <= j)%nat -> incl (skipn j l) (skipn i l).
Proof.
  induction l as [|a l IH]; intros i j H; [rewrite !skipn_nil; apply incl_refl|].
  destruct i as [|i]; destruct j as [|j]; cbn; try lia; try apply incl_refl; [|apply IH; lia].
  apply incl_tl. apply (IH O j). lia.
Qed.
Lemma NoDup_firstn_skipn {A} (l : list A) i j v : (i <= j)%nat -> NoDup (l ++ v) -> NoDup (firstn i l ++ v ++ skipn j l).
Proof.
  intros H N. assert (Nl : NoDup l) by (eapply NoDup_app_l; eauto). assert (Nv : NoDup v) by (eapply NoDup_app_r; eauto).
  assert (Sj : incl (skipn j l) (skipn i l)).
  { apply skipn_incl; auto. }
  assert (Fi : incl (firstn i l) l). { intros x Hx. rewrite <- (firstn_skipn i l). apply in_or_app; auto. }
  assert (Si : incl (skipn i l) l). { intros x Hx. rewrite <- (firstn_skipn i l). apply in_or_app; auto. }
  pose proof Nl as N2. rewrite <- (firstn_skipn i l) in N2.
  pose proof Nl as N3. rewrite <- (firstn_skipn j l) in N3.
  apply NoDup_app_i; [eapply NoDup_app_l; eauto| |].
  - apply NoDup_app_i; auto; [eapply NoDup_app_r; eauto|]. intros x Hx Hy. eapply (NoDup_app_dis l v x); eauto.
  - intros x Hx Hy. apply in_app_iff in Hy. destruct Hy as [Hy|Hy]; [eapply (NoDup_app_dis l v x); eauto|].
    eapply (NoDup_app_dis (firstn i l) (skipn i l) x); eauto.
Qed.
Lemma pyinsert_perm {A} (l : list A) i s : Permutation (l ++ [s]) (pyinsert l i s).
Proof.
  unfold pyinsert. eapply perm_trans; [apply Permutation_sym, Permutation_cons_append|].
  eapply perm_trans; [|apply Permutation_middle]. rewrite firstn_skipn. apply Permutation_refl.
Qed.
Lemma does_r_reads_eq h l x q q' : q = q' -> does_r h l x q -> does_r h l x q'.
Proof. intros ->; auto. Qed.
Lemma h_insert_does h l i s X : wf h (l ++ [s]) X ->
  does_r h (l ++ [s]) (h_insert (h, l) i s) (insert (reads h l) i (read h s)).
Proof.
  intro W. unfold h_insert, insert. cbn [fst snd].
  eapply does_r_after; [apply does_perm, pyinsert_perm|]. rewrite pyinsert_reads.
  eapply h_checks_does; [eapply wf_perm; [apply pyinsert_perm|eauto]|].
  eapply Permutation_in; [apply pyinsert_perm|]. apply in_or_app; cbn; auto.
Qed.
Lemma upd_split {A} (l : list A) k x : (k < length l)%nat -> upd l k x = firstn k l ++ [x] ++ skipn (S k) l.
Proof. revert k; induction l as [|a l IH]; intros k H; cbn in H; [lia|]. destruct k; cbn; auto. f_equal. apply IH; lia. Qed.
Lemma in_firstn {A} n (l : list A) x : In x (firstn n l) -> In x l.
Proof. intro H. rewrite <- (firstn_skipn n l). apply in_or_app; auto. Qed.
Lemma in_skipn {A} n (l : list A) x : In x (skipn n l) -> In x l.
Proof. intro H. rewrite <- (firstn_skipn n l). apply in_or_app; auto. Qed.
Lemma pyidx_lt n i k : pyidx n i = Some k -> (k < n)%nat.
Proof. unfold pyidx. cbv zeta. destruct (i <? 0); match goal with |- (if ?b then _ else _) = _ -> _ => destruct b eqn:E end; try discriminate; intro H; injection H as <-; lia. Qed.
Lemma does_set h l k s : (k < length l)%nat -> does h (l ++ [s]) h (upd l k s) (reads h (upd l k s)).
Proof.
  intro H. rewrite upd_split by auto. apply does_drop.
  - intro N. apply NoDup_firstn_skipn; [lia|auto].
  - intros x Hx. rewrite !in_app_iff in *. cbn [In] in *. destruct Hx as [Hx|[[Hx|[]]|Hx]];
      [left; eapply in_firstn; eauto|auto|left; eapply in_skipn; eauto].
Qed.
Lemma h_setitem_does h l i s X : wf h (l ++ [s]) X ->
  does_r h (l ++ [s]) (h_setitem (h, l) i s) (setitem (reads h l) i (read h s)).
Proof.
  intro W. unfold h_setitem, setitem. cbn [fst snd]. rewrite pyset_reads. unfold pyset.
  destruct (pyidx (length l) i) as [k|] eqn:K; [|reflexivity]. cbn [rmap rbind].
  pose proof (pyidx_lt _ _ _ K) as Lk. pose proof (does_set h l k s Lk) as D.
  eapply does_r_after; [apply D|]. eapply h_checks_does; [eapply does_wf; eauto|].
  eapply nth_error_In. rewrite nth_error_upd by auto. rewrite Nat.eqb_refl. auto.
Qed.
(** Storing the segment that is already there. *)
Lemma h_setitem_same h l i s X : wf h l X -> pyget l i = Ok s ->
  does_r h l (h_setitem (h, l) i s) (setitem (reads h l) i (read h s)).
Proof.
  intros W G. unfold h_setitem, setitem. cbn [fst snd]. rewrite pyset_reads. apply pyget_at in G.
  destruct G as (k & K & E). unfold pyset. rewrite K. cbn [rmap rbind]. rewrite (upd_same _ _ _ E).
  eapply h_checks_does; eauto. eapply nth_error_In; eauto.
Qed.
Lemma h_setslice_does h l a b v X : wf h (l ++ v) X ->
  does h (l ++ v) (fst (h_setslice (h, l) a b v)) (snd (h_setslice (h, l) a b v)) (setslice (reads h l) a b (reads h v)).
Proof.
  intro W. unfold h_setslice, setslice. cbn [fst snd]. rewrite pysplice_reads.
  assert (D : does h (l ++ v) h (pysplice l a b v) (reads h (pysplice l a b v))).
  { unfold pysplice. apply does_drop.
    - apply NoDup_firstn_skipn. lia.
    - intros x Hx. rewrite !in_app_iff in *. destruct Hx as [Hx|[Hx|Hx]];
        [left; eapply in_firstn; eauto|auto|left; eapply in_skipn; eauto]. }
  eapply does_trans; [apply D|]. eapply h_connections_does. eapply does_wf; eauto.
Qed.
Lemma h_subpath_conn_does h l i X : wf h l X ->
  does h l (h_subpath (h_connection false h l i) l i) l (validate_subpath (validate_connection (reads h l) i) i).
Proof.
  intro W. destruct (h_connection_does false h l i X W) as [D1 K1].
  eapply does_trans; [apply D1|]. unfold validate_connection. rewrite <- (proj1 D1).
  eapply h_subpath_does. eapply does_wf; eauto.
Qed.
Lemma h_extend_does h l v X : wf h (l ++ v) X ->
  does h (l ++ v) (fst (h_extend (h, l) v)) (snd (h_extend (h, l) v)) (extend (reads h l) (reads h v)).
Proof.
  intro W. unfold h_extend, extend. cbn [fst snd]. rewrite len_reads, <- reads_app. eapply h_subpath_conn_does; eauto.
Qed.
Lemma h_delitem_does h l i X : wf h l X -> does_r h l (h_delitem (h, l) i) (delitem (reads h l) i).
Proof.
  intro W. unfold h_delitem, delitem. rewrite len_reads, pyget_reads.
  destruct (pyidx (length l) i) as [k|] eqn:K; [|reflexivity].
  destruct (pyget l i) as [s|e]; cbn [rmap rbind]; [|reflexivity].
  rewrite pydel_reads, is_close_read, is_move_read.
  assert (D : does h l h (pydel l k) (reads h (pydel l k))).
  { unfold pydel. apply does_drop.
    - intro N. apply (NoDup_firstn_skipn l k (S k) []); [lia|]. rewrite app_nil_r. auto.
    - intros x Hx. rewrite in_app_iff in Hx. destruct Hx; [eapply in_firstn|eapply in_skipn]; eauto. }
  pose proof (does_wf _ _ _ _ _ _ D W) as W0. eapply does_r_after; [apply D|].
  destruct (h_connection_does false h (pydel l k) (i - 1) X W0) as [D1 K1].
  pose proof (does_wf _ _ _ _ _ _ D1 W0) as W1.
  rewrite (kinds_close h _) by auto. rewrite (kinds_move h _) by auto.
  eapply does_r_after; [apply D1|]. unfold validate_connection. rewrite <- (proj1 D1). apply does_r_ok.
  destruct (o_is_close h s || o_is_move h s); [eapply h_subpath_does; eauto|apply does_refl].
Qed.
