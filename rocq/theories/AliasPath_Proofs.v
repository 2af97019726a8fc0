(** Lemmas for Alias_Thms.v: Subpath.reverse and Path.reverse. *)
Require Import ZArith QArith Qcanon List Bool Lia Permutation.
Require Import Verif.Base Verif.Path_Model Verif.PathText_Model Verif.PathEdit_Model Verif.Alias_Model Verif.Alias_Spec
  Verif.Alias_Proofs Verif.AliasOps_Proofs Verif.AliasRev_Proofs.
Import ListNotations.
Local Open Scope Z_scope.

Lemma h_reverse_segments_does h l u a b X : wf h l X ->
  does_r h l (h_reverse_segments (h, l) u a b) (reverse_segments (reads h l) u a b).
Proof.
  intro W. unfold h_reverse_segments, reverse_segments.
  eapply does_r_bind; [eapply h_rev_loop_does; eauto|].
  intros h1 l1 _ D1. pose proof (does_wf _ _ _ _ _ _ D1 W) as W1. cbv beta iota zeta.
  destruct (h_connection_does true h1 l1 (numeric_index u a - 1) X W1) as [D2 _].
  pose proof (does_wf _ _ _ _ _ _ D2 W1) as W2.
  destruct (h_connection_does false _ l1 (numeric_index u b) X W2) as [D3 _].
  eapply does_r_after; [apply D2|]. unfold validate_connection. rewrite <- (proj1 D2). apply does_r_ok, D3.
Qed.

(** Assigning at a position. *)
Lemma at_py h l i s (h' : heap) v X : wf h l X -> pyget l i = Ok s ->
  (forall k, nth_error l k = Some s -> does h l h' l (upd (reads h l) k v)) ->
  exists q, pyset (reads h l) i v = Ok q /\ does h l h' l q /\ q = reads h' l.
Proof.
  intros W G H. apply pyget_at in G. destruct G as (k & K & E). specialize (H k E).
  exists (upd (reads h l) k v). unfold pyset. rewrite len_reads, K. split; auto. split; auto. apply does_reads in H; auto.
Qed.
Lemma pyset_same h l i s : pyget l i = Ok s -> pyset (reads h l) i (read h s) = Ok (reads h l).
Proof.
  intro G. apply pyget_at in G. destruct G as (k & K & E). unfold pyset. rewrite len_reads, K. f_equal.
  apply upd_same. rewrite nth_error_reads, E. auto.
Qed.
Lemma at_read h l i s h' v q : pyget l i = Ok s -> pyset (reads h l) i v = Ok q -> q = reads h' l -> v = read h' s.
Proof.
  intros G P ->. apply pyget_at in G. destruct G as (k & K & E). unfold pyset in P. rewrite len_reads, K in P. injection P as P.
  apply (f_equal (fun q => nth_error q k)) in P. rewrite nth_error_upd, Nat.eqb_refl, nth_error_reads, E in P.
  - cbn in P. congruence.
  - rewrite len_reads. apply nth_error_Some. congruence.
Qed.
Ltac py_at := intros k0 Hk0; first [eapply assign_end_does | eapply assign_start_does | eapply h_reverse_does]; eauto.

Lemma h_sub_reverse_does h l u X : wf h l X -> does_r h l (h_sub_reverse (h, l) u) (sub_reverse (reads h l) u).
Proof.
  intro W. unfold h_sub_reverse, sub_reverse, sub_get. destruct (sub_len u =? 0); [apply does_r_ok, does_refl|].
  cbn [fst snd]. rewrite !pyget_reads.
  destruct (pyget l (numeric_index u (-1))) as [l0|e]; cbn [rmap rbind]; [|reflexivity].
  destruct (pyget l (numeric_index u 0)) as [f0|e]; cbn [rmap rbind]; [|reflexivity].
  rewrite is_close_read, is_move_read.
  eapply does_r_bind; [eapply h_reverse_segments_does; eauto|].
  intros h1 l1 _ D1. pose proof (does_wf _ _ _ _ _ _ D1 W) as W1. clear D1 W h l l0 f0. cbv beta iota.
  rewrite pyget_reads. destruct (pyget l1 (numeric_index u 0)) as [f1|e] eqn:F1; cbn [rmap rbind]; [|reflexivity].
  rewrite is_move_read.
  apply does_r_bind_on.
  - destruct ((1 <? sub_len u) && o_is_move h1 f1); [|apply does_r_ok, does_refl].
    rewrite pyget_reads. destruct (pyget l1 (numeric_index u 1)) as [n1|e]; cbn [rmap rbind]; [|reflexivity].
    change (s_start (read h1 n1)) with (val h1 (o_start (gets h1 n1))).
    destruct (at_py h1 l1 (numeric_index u 0) f1 (assign_end h1 f1 (val h1 (o_start (gets h1 n1))))
                (set_end (read h1 f1) (val h1 (o_start (gets h1 n1)))) X W1 F1) as (q & Q & D & _); [py_at|].
    rewrite Q. apply does_r_ok, D.
  - intros h2 _ D2. pose proof (does_wf _ _ _ _ _ _ D2 W1) as W2. cbv beta.
    rewrite pyget_reads. destruct (pyget l1 (numeric_index u (-1))) as [last|e] eqn:L1; cbn [rmap rbind]; [|reflexivity].
    rewrite is_close_read. destruct (o_is_close h2 last); [|apply does_r_ok, does_refl].
    destruct (at_py h2 l1 (numeric_index u (-1)) last (h_reverse h2 last) (seg_reverse (read h2 last)) X W2 L1)
      as (p3 & Q3 & D3 & R3); [py_at|].
    cbv zeta. rewrite (at_read _ _ _ _ _ _ _ L1 Q3 R3) in Q3 |- *. rewrite Q3. cbn [rbind].
    set (h3 := h_reverse h2 last) in *. pose proof (does_wf _ _ _ _ _ _ D3 W2) as W3. subst p3.
    eapply does_r_after; [apply D3|]. clear D3 Q3 W2.
    rewrite pyget_reads. destruct (pyget l1 (numeric_index u (-2))) as [b|e]; cbn [rmap rbind]; [|reflexivity].
    change (s_end (read h3 b)) with (val h3 (o_end (gets h3 b))).
    change (s_start (read h3 last)) with (val h3 (o_start (gets h3 last))).
    set (be := val h3 (o_end (gets h3 b))).
    set (h4 := if onear (val h3 (o_start (gets h3 last))) be then h3 else assign_start h3 last be).
    set (v4 := if onear (val h3 (o_start (gets h3 last))) be then read h3 last else set_start (read h3 last) be).
    assert (S4 : exists p4, pyset (reads h3 l1) (numeric_index u (-1)) v4 = Ok p4 /\ does h3 l1 h4 l1 p4 /\ p4 = reads h4 l1).
    { unfold v4, h4. destruct (onear (val h3 (o_start (gets h3 last))) be).
      - exists (reads h3 l1). split; [apply pyset_same; auto|]. split; [apply does_refl|auto].
      - eapply at_py; eauto. py_at. }
    destruct S4 as (p4 & Q4 & D4 & R4). rewrite (at_read _ _ _ _ _ _ _ L1 Q4 R4) in Q4 |- *. rewrite Q4. cbn [rbind].
    clearbody h4. clear v4 Q4. subst p4. pose proof (does_wf _ _ _ _ _ _ D4 W3) as W4.
    eapply does_r_after; [apply D4|].
    rewrite pyget_reads, F1; cbn [rmap rbind]. rename f1 into f.
    change (s_end (read h4 f)) with (val h4 (o_end (gets h4 f))).
    change (s_end (read h4 last)) with (val h4 (o_end (gets h4 last))).
    destruct (onear (val h4 (o_end (gets h4 last))) (val h4 (o_end (gets h4 f)))).
    + rewrite pyset_same by auto. apply does_r_ok, does_refl.
    + destruct (at_py h4 l1 (numeric_index u (-1)) last (assign_end h4 last (val h4 (o_end (gets h4 f))))
                  (set_end (read h4 last) (val h4 (o_end (gets h4 f)))) X W4 L1) as (q & Q & D & _); [py_at|].
      rewrite Q. apply does_r_ok, D.
Qed.
Lemma h_reverse_all_does us : forall h l X, wf h l X -> does_r h l (h_reverse_all (h, l) us) (reverse_all (reads h l) us).
Proof.
  induction us as [|u us IH]; intros h l X W; cbn [h_reverse_all reverse_all]; [apply does_r_ok, does_refl|].
  eapply does_r_bind; [eapply h_sub_reverse_does; eauto|]. intros h1 l1 _ D. eapply IH. eapply does_wf; eauto.
Qed.
Lemma subpaths_reads h l : forall a b, subpaths_from a b (reads h l) = h_subpaths_from h a b l.
Proof.
  induction l as [|s l IH]; intros a b; cbn; auto. fold (reads h l). rewrite is_move_read, !IH. auto.
Qed.

(** ** A point taken from one segment and given to another *)
Definition olist (o : option nat) : list nat := match o with Some p => [p] | None => [] end.
Lemma share_none_at h L s X : wf h L X -> In s L ->
  let h' := share_start h s None in
  wf h' L (olist (o_start (gets h s)) ++ X) /\ (forall t, In t L -> t <> s -> read h' t = read h t)
  /\ read h' s = set_start (read h s) None /\ h_pts h' = h_pts h.
Proof.
  intros W I. unfold share_start. cbv zeta. set (o := gets h s).
  set (o' := mkO (o_kind o) None (o_end o) (o_rel o) (o_smooth o)).
  assert (Sub : forall p, In p (opts o') -> In p (opts o)).
  { intros p Hp. unfold opts in *. cbn in Hp. apply in_or_app; auto. }
  destruct (put_ok h (put h s o') L s o' [] X) as (A & B & C); auto.
  - cbn. rewrite app_nil_r; auto.
  - pose proof (wf_own _ _ _ W _ I) as K. unfold pids in K. fold o in K. unfold o', opts in *. cbn. eapply NoDup_app_r; eauto.
  - split; [|split; [auto|split; [|auto]]].
    + destruct A as [A1 A2 A3 A4 A5 A6]. split; auto.
      intros p Hp. apply in_app_iff in Hp. destruct Hp as [Hp|Hp]; [|auto].
      destruct (o_start o) as [q|] eqn:S; cbn in Hp; [destruct Hp as [<-|[]]|tauto].
      assert (Iq : In q (pids h s)) by (apply in_opts_start; auto).
      split; [exact (wf_pt _ _ _ W _ _ I Iq)|]. intros t Ht. destruct (Nat.eq_dec t s) as [->|N].
      * unfold pids. rewrite C. pose proof (wf_own _ _ _ W _ I) as K. unfold pids in K. fold o in K. unfold o', opts in *. rewrite S in K.
        cbn in *. inversion K; auto.
      * assert (P : pids (put h s o') t = pids h t).
        { unfold pids, gets, put; cbn. rewrite nth_upd by (eapply wf_seg; eauto). destruct (Nat.eqb_spec t s); congruence. }
        rewrite P. eapply (wf_sep _ _ _ W s t); eauto.
    + rewrite (read_of _ _ _ C). reflexivity.
Qed.
Lemma share_some_at h L s X pre : wf h L (olist pre ++ X) -> In s L -> (forall p, pre = Some p -> ~ In p X) ->
  let h' := share_start h s pre in
  wf h' L X /\ (forall t, In t L -> t <> s -> read h' t = read h t)
  /\ read h' s = set_start (read h s) (val h pre) /\ h_pts h' = h_pts h.
Proof.
  intros W I NX. unfold share_start. cbv zeta. set (o := gets h s).
  set (o' := mkO (o_kind o) pre (o_end o) (o_rel o) (o_smooth o)).
  assert (Lt : (s < length (h_segs h))%nat) by (eapply wf_seg; eauto).
  assert (Loose : forall p, pre = Some p -> (p < length (h_pts h))%nat /\ forall t, In t L -> ~ In p (pids h t)).
  { intros p ->. apply (wf_loose _ _ _ W). cbn; auto. }
  assert (G : forall t, gets (put h s o') t = if Nat.eqb t s then o' else gets h t).
  { intro t. unfold gets, put; cbn. apply nth_upd; auto. }
  assert (Gs : gets (put h s o') s = o') by (rewrite G, Nat.eqb_refl; auto).
  assert (Gt : forall t, t <> s -> gets (put h s o') t = gets h t).
  { intros t N. rewrite G. destruct (Nat.eqb_spec t s); congruence. }
  assert (Inv : forall p, In p (opts o') -> pre = Some p \/ In p (pids h s)).
  { intros p Hp. apply opts_inv in Hp. cbn in Hp. destruct Hp as [Hp|[Hp|Hp]]; auto; right;
      [apply in_opts_kind|apply in_opts_end]; auto. }
  split; [|split; [|split; [|auto]]].
  - destruct W as [A B C D E F]. split; auto.
    + intros t Ht. cbn. rewrite len_upd; auto.
    + intros t Ht. unfold pids. destruct (Nat.eq_dec t s) as [->|N]; [rewrite Gs|rewrite Gt by auto; apply C; auto].
      unfold o'. apply (NoDup_opts_start (o_kind o) (o_start o) (o_end o) pre (o_rel o) (o_smooth o)); [exact (C _ I)|].
      intros p Hp. destruct (Loose p Hp) as [_ Q]. specialize (Q s I). split.
      * intro Y. apply Q. apply in_opts_kind. auto.
      * intro Y. apply Q. apply in_opts_end. auto.
    + intros t p Ht. unfold pids. destruct (Nat.eq_dec t s) as [->|N]; [rewrite Gs|rewrite Gt by auto; apply D; auto].
      intro Hp. destruct (Inv _ Hp) as [Y|Y]; [apply Loose; auto|eapply D; eauto].
    + intros t v p Ht Hv N. unfold pids. destruct (Nat.eq_dec t s) as [->|N1], (Nat.eq_dec v s) as [->|N2]; rewrite ?Gs, ?Gt by auto; try congruence.
      * intros Y Z. destruct (Inv _ Y) as [Y'|Y']; [exact (proj2 (Loose _ Y') v Hv Z)|eapply (E s v); eauto].
      * intros Y Z. destruct (Inv _ Z) as [Y'|Y']; [exact (proj2 (Loose _ Y') t Ht Y)|eapply (E t s); eauto].
      * apply (E t v); auto.
    + intros p Hp. destruct (F p) as [F1 F2]; [apply in_or_app; auto|]. split; auto. intros t Ht. unfold pids.
      destruct (Nat.eq_dec t s) as [->|N]; [rewrite Gs|rewrite Gt by auto; apply F2; auto].
      intro Y. destruct (Inv _ Y) as [Y'|Y']; [eapply NX; eauto|eapply F2; eauto].
  - intros t Ht N. apply read_eq; auto.
  - rewrite (read_of _ _ _ Gs). reflexivity.
Qed.

Lemma copies_fold us src : forall h acc X, wf h (acc ++ src) X ->
  let y := fold_left (fun z u => h_add_copies z (h_sub_list src u)) us (h, acc) in
  does h acc (fst y) (snd y)
    (fold_left (fun q u => extend q (map seg_copy (sub_list (reads h src) u))) us (reads h acc)).
Proof.
  induction us as [|u us IH]; intros h acc X W; cbn [fold_left]; [apply does_refl|].
  pose proof (h_add_copies_does h acc (h_sub_list src u) X (wf_l _ _ _ _ W)) as D.
  destruct (h_add_copies (h, acc) (h_sub_list src u)) as [h1 acc1] eqn:E. cbn [fst snd] in D.
  destruct (proj2 D src X W) as (W1 & R1 & _).
  assert (RS : reads h1 src = reads h src) by (apply map_ext_in; auto).
  eapply does_trans; [apply D|]. rewrite sub_list_reads. rewrite <- (proj1 D), <- RS. eapply IH; eauto.
Qed.

Lemma h_path_reverse_does h l X : wf h l X -> does_r h l (h_path_reverse (h, l)) (path_reverse (reads h l)).
Proof.
  intro W. destruct l as [|f l']; [apply does_r_ok, does_refl|]. set (l := f :: l') in *.
  assert (If : In f l) by (cbn; auto).
  set (pre := o_start (gets h f)). set (h0 := share_start h f None).
  assert (Step0 : forall r Y, wf h (l ++ r) Y ->
            wf h0 (l ++ r) (olist pre ++ Y) /\ (forall t, In t r -> read h0 t = read h t) /\ (forall p, pre = Some p -> ~ In p Y)).
  { intros r Y Wr. destruct (share_none_at h (l ++ r) f Y Wr) as (A & B & _); [apply in_or_app; auto|].
    split; [exact A|]. split.
    - intros t Ht. apply B; [apply in_or_app; auto|]. intros ->. exact (NoDup_app_dis l r f (wf_nd _ _ _ Wr) If Ht).
    - intros p Hp HY. apply (proj2 (wf_loose _ _ _ Wr p HY) f); [apply in_or_app; auto|]. apply in_opts_start; auto. }
  assert (R0 : reads h0 l = set_start (read h f) None :: reads h l').
  { destruct (share_none_at h l f X W If) as (_ & B & C & _). unfold l. cbn [reads map]. fold h0 in B, C. rewrite C. f_equal.
    apply map_ext_in. intros t Ht. apply B; [cbn; auto|]. intros ->. pose proof (wf_nd _ _ _ W) as N. inversion N; auto. }
  assert (W0 : wf h0 l (olist pre ++ X)). { destruct (Step0 [] X) as [A _]; rewrite ?app_nil_r in *; auto. }
  set (us := h_subpaths_from h0 0 0 l).
  change (does_r h l
    (do y <- h_reverse_all (h0, l) us;
     let '(h1, l1) := y in
     let '(h2, l2) := fold_left (fun z u => h_add_copies z (h_sub_list l1 u)) (rev us) (h1, []) in
     match l2 with [] => Err IndexError | g :: _ => Ok (share_start h2 g pre, l2) end)
    (do p1 <- reverse_all (set_start (read h f) None :: reads h l') (subpaths_from 0 0 (set_start (read h f) None :: reads h l'));
     match fold_left (fun q u => extend q (map seg_copy (sub_list p1 u)))
             (rev (subpaths_from 0 0 (set_start (read h f) None :: reads h l'))) [] with
     | [] => Err IndexError
     | g :: q => Ok (set_start g (s_start (read h f)) :: q)
     end)).
  rewrite <- R0, subpaths_reads. fold us.
  pose proof (h_reverse_all_does us h0 l _ W0) as DR.
  destruct (h_reverse_all (h0, l) us) as [[h1 l1]|e]; cbn [does_r] in DR; [|rewrite DR; reflexivity].
  destruct DR as (p1 & -> & D1). cbn [rbind]. pose proof (does_wf _ _ _ _ _ _ D1 W0) as W1.
  pose proof (does_reads _ _ _ _ _ D1) as ->.
  pose proof (copies_fold (rev us) l1 h1 [] (olist pre ++ X) W1) as D2. cbv zeta in D2.
  destruct (fold_left (fun z u => h_add_copies z (h_sub_list l1 u)) (rev us) (h1, [])) as [h2 l2]. cbn [fst snd] in D2.
  change (reads h1 []) with (@nil seg) in D2. rewrite <- (proj1 D2).
  destruct l2 as [|g l2']; [reflexivity|]. set (l2 := g :: l2') in *. cbn [reads map]. 
  assert (Ig : In g l2) by (cbn; auto).
  assert (Steps : forall r Y, wf h (l ++ r) Y -> wf h2 (l2 ++ r) (olist pre ++ Y) /\ (forall t, In t r -> read h2 t = read h t)
            /\ (forall p, In p (olist pre ++ Y) -> getp h2 p = getp h p) /\ (forall p, pre = Some p -> ~ In p Y)).
  { intros r Y Wr. destruct (Step0 r Y Wr) as (A & B & C).
    destruct (proj2 D1 r _ A) as (A1 & B1 & C1).
    destruct (proj2 D2 (l1 ++ r) _ A1) as (A2 & B2 & C2).
    split; [|split; [|split; [|auto]]].
    - eapply wf_incl; eauto.
      + pose proof (wf_nd _ _ _ A2) as N. apply NoDup_app_i.
        * eapply NoDup_app_l; eauto.
        * eapply NoDup_app_r, NoDup_app_r; eauto.
        * intros x Hx Hy. eapply (NoDup_app_dis l2 (l1 ++ r) x); eauto. apply in_or_app; auto.
      + intros x Hx. rewrite !in_app_iff in *. tauto.
    - intros t Ht. rewrite B2, B1, B; auto. apply in_or_app; auto.
    - intros p Hp. rewrite C2, C1; auto. }
  assert (W2 : wf h2 l2 (olist pre ++ X)). { destruct (Steps [] X) as [A _]; rewrite ?app_nil_r in *; auto. }
  assert (NX : forall p, pre = Some p -> ~ In p X). { destruct (Steps [] X) as (_ & _ & _ & A); rewrite ?app_nil_r in *; auto. }
  apply does_r_ok. split.
  - destruct (share_some_at h2 l2 g X pre W2 Ig NX) as (_ & B & C & _). unfold l2. cbn [reads map]. rewrite C. f_equal.
    + f_equal. unfold read; cbn. apply val_eq. intros p Hp. destruct (Steps [] X) as (_ & _ & Q & _); [rewrite app_nil_r; auto|].
      apply Q. fold pre in Hp. rewrite Hp. cbn; auto.
    + apply map_ext_in. intros t Ht. apply B; [cbn; auto|]. intros ->. pose proof (wf_nd _ _ _ W2) as N. inversion N; auto.
  - intros r Y Wr. destruct (Steps r Y Wr) as (A & B & C & D).
    destruct (share_some_at h2 (l2 ++ r) g Y pre A) as (A' & B' & _ & P'); [apply in_or_app; auto|auto|].
    split; [exact A'|]. split.
    + intros t Ht. rewrite B', B; auto; [apply in_or_app; auto|]. intros ->. exact (NoDup_app_dis l2 r g (wf_nd _ _ _ A) Ig Ht).
    + intros p Hp. rewrite <- C by (apply in_or_app; auto). unfold getp. rewrite P'. auto.
Qed.
