(** Lemmas for Alias_Thms.v. *)
Require Import ZArith QArith Qcanon List Bool Lia.
Require Import Verif.Base Verif.Path_Model Verif.PathText_Model Verif.PathEdit_Model Verif.Alias_Model Verif.Alias_Spec.
Import ListNotations.
Local Open Scope Z_scope.

(** ** Lists *)
Lemma len_upd {A} (l : list A) n x : length (upd l n x) = length l.
Proof. revert n; induction l; destruct n; cbn; auto. Qed.
Lemma nth_upd {A} (l : list A) n m x d : (n < length l)%nat -> nth m (upd l n x) d = if Nat.eqb m n then x else nth m l d.
Proof.
  revert n m; induction l as [|a l IH]; intros n m H; cbn in H; [lia|].
  destruct n, m; cbn; auto. rewrite IH by lia. reflexivity.
Qed.
Lemma nth_error_upd {A} (l : list A) n m x :
  (n < length l)%nat -> nth_error (upd l n x) m = if Nat.eqb m n then Some x else nth_error l m.
Proof.
  revert n m; induction l as [|a l IH]; intros n m H; cbn in H; [lia|].
  destruct n, m; cbn; auto. rewrite IH by lia. reflexivity.
Qed.
Lemma upd_out {A} (l : list A) n x : (length l <= n)%nat -> upd l n x = l.
Proof. revert n; induction l; destruct n; cbn; intro; auto; try lia. f_equal. apply IHl; lia. Qed.
Lemma map_upd {A B} (f : A -> B) l n x : map f (upd l n x) = upd (map f l) n (f x).
Proof. revert n; induction l; destruct n; cbn; auto. f_equal; auto. Qed.
Lemma upd_same {A} (l : list A) n x : nth_error l n = Some x -> upd l n x = l.
Proof. revert n; induction l; destruct n; cbn; intro H; auto; [congruence|]. f_equal; auto. Qed.
Lemma in_upd {A} (l : list A) n x y : In y (upd l n x) -> y = x \/ In y l.
Proof.
  revert n; induction l; destruct n; cbn; auto.
  - intros [|]; auto.
  - intros [|H]; auto. destruct (IHl _ H); auto.
Qed.
Lemma map_change {A B} (f g : A -> B) l k x :
  NoDup l -> nth_error l k = Some x -> (forall y, In y l -> y <> x -> g y = f y) -> map g l = upd (map f l) k (g x).
Proof.
  revert k; induction l as [|a l IH]; intros k ND Hk H; [destruct k; discriminate|].
  inversion ND as [|? ? Na ND']; subst. destruct k as [|k]; cbn in *.
  - injection Hk as ->. f_equal. apply map_ext_in. intros y Hy. apply H; auto. intros ->; auto.
  - f_equal; [|apply IH; auto]. apply H; auto. intros ->. apply Na. eapply nth_error_In; eauto.
Qed.

(** ** Separate objects *)
Definition pids (h : heap) (s : nat) : list nat := opts (gets h s).
(** [X]: point objects held by none of the segments, and still to be used. *)
Record wf (h : heap) (l X : list nat) : Prop := {
  wf_nd : NoDup l;
  wf_seg : forall s, In s l -> (s < length (h_segs h))%nat;
  wf_own : forall s, In s l -> NoDup (pids h s);
  wf_pt : forall s p, In s l -> In p (pids h s) -> (p < length (h_pts h))%nat;
  wf_sep : forall s t p, In s l -> In t l -> s <> t -> In p (pids h s) -> ~ In p (pids h t);
  wf_loose : forall p, In p X -> (p < length (h_pts h))%nat /\ forall s, In s l -> ~ In p (pids h s)
}.
Lemma wf_incl h l l' X : wf h l X -> NoDup l' -> incl l' l -> wf h l' X.
Proof.
  intros [A B C D E F] N I. split; auto; intros; eauto. destruct (F p); auto.
Qed.
Lemma NoDup_app_l {A} (l r : list A) : NoDup (l ++ r) -> NoDup l.
Proof. induction l; cbn; intro H; [constructor|]. inversion H; subst. constructor; auto. intro X; apply H2, in_or_app; auto. Qed.
Lemma NoDup_app_r {A} (l r : list A) : NoDup (l ++ r) -> NoDup r.
Proof. induction l; cbn; intro H; auto. inversion H; auto. Qed.
Lemma NoDup_app_dis {A} (l r : list A) x : NoDup (l ++ r) -> In x l -> ~ In x r.
Proof. induction l; cbn; intro H; [tauto|]. inversion H; subst. intros [->|I]; auto. intro; apply H2, in_or_app; auto. Qed.
Lemma NoDup_app_i {A} (l r : list A) : NoDup l -> NoDup r -> (forall x, In x l -> ~ In x r) -> NoDup (l ++ r).
Proof.
  induction l; cbn; intros H K D; auto. inversion H; subst. constructor.
  - rewrite in_app_iff. intros [|I]; auto. eapply D; eauto.
  - apply IHl; auto.
Qed.
Lemma wf_l h l r X : wf h (l ++ r) X -> wf h l X.
Proof. intro W. eapply wf_incl; eauto. eapply NoDup_app_l, wf_nd; eauto. apply incl_appl, incl_refl. Qed.
Lemma wf_r h l r X : wf h (l ++ r) X -> wf h r X.
Proof. intro W. eapply wf_incl; eauto. eapply NoDup_app_r, wf_nd; eauto. apply incl_appr, incl_refl. Qed.

(** ** Reading *)
Lemma getp_ext h h' ext p : h_pts h' = h_pts h ++ ext -> (p < length (h_pts h))%nat -> getp h' p = getp h p.
Proof. intros E L. unfold getp. rewrite E. apply app_nth1; auto. Qed.
Lemma val_eq h h' o : (forall p, o = Some p -> getp h' p = getp h p) -> val h' o = val h o.
Proof. destruct o; cbn; intro H; auto. rewrite H; auto. Qed.
Lemma read_eq h h' s : gets h' s = gets h s -> (forall p, In p (pids h s) -> getp h' p = getp h p) -> read h' s = read h s.
Proof.
  intros E H. unfold read. rewrite E. unfold pids, opts in H. set (o := gets h s) in *.
  f_equal.
  - destruct (o_kind o) as [| | |c|c1 c2|a]; cbn in *; auto.
    + f_equal. apply val_eq. intros p ->. apply H. rewrite !in_app_iff. cbn; auto.
    + f_equal; apply val_eq; intros p ->; apply H; rewrite !in_app_iff; cbn; auto.
  - apply val_eq. intros p Hp. apply H. rewrite Hp, in_app_iff. cbn; auto.
  - apply val_eq. intros p Hp. apply H. rewrite Hp, !in_app_iff. cbn; auto.
Qed.

(** One segment object is replaced; new points may have been made. *)
Lemma put_ok h h' L s o ext X :
  wf h L X -> In s L -> h_segs h' = upd (h_segs h) s o -> h_pts h' = h_pts h ++ ext ->
  NoDup (opts o) ->
  (forall p, In p (opts o) -> In p (pids h s) \/ (length (h_pts h) <= p < length (h_pts h'))%nat) ->
  wf h' L X /\ (forall t, In t L -> t <> s -> read h' t = read h t) /\ gets h' s = o.
Proof.
  intros W I Es Ep ND Hp.
  pose proof (wf_seg _ _ _ W _ I) as Ls.
  assert (G : forall t, gets h' t = if Nat.eqb t s then o else gets h t).
  { intro t. unfold gets. rewrite Es. apply nth_upd; auto. }
  assert (Gs : gets h' s = o). { rewrite G, Nat.eqb_refl; auto. }
  assert (Gt : forall t, t <> s -> gets h' t = gets h t).
  { intros t Ht. rewrite G. destruct (Nat.eqb_spec t s); congruence. }
  assert (Lp : (length (h_pts h) <= length (h_pts h'))%nat). { rewrite Ep, app_length. lia. }
  split; [|split; auto].
  - destruct W as [A B C D E F]. split; auto.
    + intros t Ht. rewrite Es, len_upd. auto.
    + intros t Ht. unfold pids. destruct (Nat.eq_dec t s) as [->|N]; [rewrite Gs; auto|rewrite Gt by auto; apply C; auto].
    + intros t p Ht. unfold pids. destruct (Nat.eq_dec t s) as [->|N].
      * rewrite Gs. intro HX. destruct (Hp _ HX) as [Y|Y]; [|lia]. specialize (D _ _ I Y). lia.
      * rewrite Gt by auto. intro HX. specialize (D _ _ Ht HX). lia.
    + intros t u p Ht Hu N. unfold pids.
      destruct (Nat.eq_dec t s) as [->|N1], (Nat.eq_dec u s) as [->|N2]; rewrite ?Gs, ?Gt by auto; try congruence.
      * intros HX Y. destruct (Hp _ HX) as [Z|Z]; [eapply (E s u); eauto|]. specialize (D _ _ Hu Y). lia.
      * intros HX Y. destruct (Hp _ Y) as [Z|Z]; [eapply (E t s); eauto|]. specialize (D _ _ Ht HX). lia.
      * apply (E t u); auto.
    + intros p P. destruct (F p P) as [F1 F2]. split; [lia|]. intros t Ht. unfold pids.
      destruct (Nat.eq_dec t s) as [->|N]; [rewrite Gs|rewrite Gt by auto; apply F2; auto].
      intro Y. destruct (Hp _ Y) as [Z|Z]; [eapply F2; eauto|lia].
  - intros t Ht N. apply read_eq; auto. intros p Hp'. eapply getp_ext; eauto. eapply wf_pt; eauto.
Qed.

Definition ext_pts (h h' : heap) : Prop := exists ext, h_pts h' = h_pts h ++ ext.
Lemma ext_refl h : ext_pts h h.
Proof. exists []. rewrite app_nil_r; auto. Qed.
Lemma ext_trans h1 h2 h3 : ext_pts h1 h2 -> ext_pts h2 h3 -> ext_pts h1 h3.
Proof. intros [a A] [b B]. exists (a ++ b). rewrite B, A, app_assoc; auto. Qed.
(** What an operation does for the rest of the heap: [l] and [l'] are the segments it may use before and after. *)
Definition safe (h h' : heap) (l l' : list nat) : Prop :=
  forall r X, wf h (l ++ r) X ->
    wf h' (l' ++ r) X /\ (forall s, In s r -> read h' s = read h s) /\ (forall p, In p X -> getp h' p = getp h p).
Lemma safe_refl h l : safe h h l l.
Proof. intros r X W; auto. Qed.
Lemma safe_trans h1 h2 h3 l1 l2 l3 : safe h1 h2 l1 l2 -> safe h2 h3 l2 l3 -> safe h1 h3 l1 l3.
Proof.
  intros A B r X W. destruct (A r X W) as (W1 & R1 & P1), (B r X W1) as (W2 & R2 & P2). split; auto.
  split; intros s Hs; [rewrite R2, R1|rewrite P2, P1]; auto.
Qed.
Lemma loose_ext h h' L X : ext_pts h h' -> wf h L X -> forall p, In p X -> getp h' p = getp h p.
Proof. intros [e E] W p P. eapply getp_ext; eauto. apply (wf_loose _ _ _ W p P). Qed.

Lemma NoDup_opts_start k a b a' rel sm :
  NoDup (opts (mkO k a b rel sm)) -> (forall p, a' = Some p -> ~ In p (okind_pts k) /\ b <> Some p) ->
  NoDup (opts (mkO k a' b rel sm)).
Proof.
  unfold opts; cbn. intros H K.
  assert (N : NoDup (okind_pts k ++ match b with Some p => [p] | None => [] end)) by (destruct a; cbn in H; [inversion H|]; auto).
  destruct a' as [p|]; cbn; auto. constructor; auto.
  destruct (K p eq_refl) as [K1 K2]. rewrite in_app_iff. intros [X|X]; auto. destruct b; cbn in X; [destruct X; [subst; auto|auto]|auto].
Qed.
Lemma NoDup_opts_end k a b b' rel sm :
  NoDup (opts (mkO k a b rel sm)) -> (forall p, b' = Some p -> ~ In p (okind_pts k) /\ a <> Some p) ->
  NoDup (opts (mkO k a b' rel sm)).
Proof.
  unfold opts; cbn. intros H K.
  rewrite app_assoc in H |- *. apply NoDup_app_l in H.
  destruct b' as [p|]; [|rewrite app_nil_r; auto]. apply NoDup_app_i; auto; [repeat constructor; cbn; tauto|].
  destruct (K p eq_refl) as [K1 K2]. intros x Hx [<-|[]]. rewrite in_app_iff in Hx.
  destruct Hx as [X|X]; auto. destruct a; cbn in X; [destruct X; [subst; auto|auto]|auto].
Qed.

Lemma new_point_spec h v p h1 : new_point h v = (p, h1) ->
  exists ext, h_pts h1 = h_pts h ++ ext /\ h_segs h1 = h_segs h /\ val h1 p = v
  /\ (forall q, p = Some q -> q = length (h_pts h) /\ (q < length (h_pts h1))%nat).
Proof.
  destruct v as [v|]; cbn; intro H; injection H as <- <-; cbn.
  - exists [v]. repeat split; auto.
    + unfold val, getp; cbn. rewrite app_nth2, Nat.sub_diag; auto.
    + injection H as <-; auto.
    + injection H as <-. rewrite app_length; cbn; lia.
  - exists []. rewrite app_nil_r. repeat split; auto; discriminate.
Qed.

Lemma read_of h s o : gets h s = o ->
  read h s = mkSeg (kind_val h (o_kind o)) (val h (o_start o)) (val h (o_end o)) (o_rel o) (o_smooth o).
Proof. intros <-; reflexivity. Qed.
Lemma val_in h h' ext o : h_pts h' = h_pts h ++ ext -> (forall p, o = Some p -> (p < length (h_pts h))%nat) -> val h' o = val h o.
Proof. intros E H. apply val_eq. intros p Hp. eapply getp_ext; eauto. Qed.
Lemma kind_val_in h h' ext k : h_pts h' = h_pts h ++ ext -> (forall p, In p (okind_pts k) -> (p < length (h_pts h))%nat) ->
  kind_val h' k = kind_val h k.
Proof.
  intros E H. destruct k as [| | |c|c1 c2|a]; cbn in *; auto; f_equal; eapply val_in; eauto; intros p ->; apply H;
    rewrite ?in_app_iff; cbn; auto.
Qed.
Lemma in_opts_start o p : o_start o = Some p -> In p (opts o).
Proof. unfold opts. intros ->. cbn; auto. Qed.
Lemma in_opts_end o p : o_end o = Some p -> In p (opts o).
Proof. unfold opts. intros ->. rewrite !in_app_iff. cbn; auto. Qed.
Lemma in_opts_kind o p : In p (okind_pts (o_kind o)) -> In p (opts o).
Proof. unfold opts. rewrite !in_app_iff. auto. Qed.
Lemma opts_inv o p : In p (opts o) -> o_start o = Some p \/ In p (okind_pts (o_kind o)) \/ o_end o = Some p.
Proof.
  unfold opts. rewrite !in_app_iff. intros [H|[H|H]]; auto.
  - destruct (o_start o); cbn in H; [destruct H; [subst; auto|tauto]|tauto].
  - destruct (o_end o); cbn in H; [destruct H; [subst; auto|tauto]|tauto].
Qed.

Lemma assign_start_at h L s v X : wf h L X -> In s L ->
  let h' := assign_start h s v in
  wf h' L X /\ (forall t, In t L -> t <> s -> read h' t = read h t) /\ read h' s = set_start (read h s) v
  /\ (exists ext, h_pts h' = h_pts h ++ ext) /\ (forall t, o_kind (gets h' t) = o_kind (gets h t)) /\ (forall t, o_end (gets h' t) = o_end (gets h t)).
Proof.
  intros W I. unfold assign_start. destruct (new_point h v) as [p h1] eqn:N.
  destruct (new_point_spec _ _ _ _ N) as (ext & E1 & E2 & E3 & E4).
  assert (Eg : gets h1 s = gets h s) by (unfold gets; rewrite E2; auto). cbn zeta. rewrite Eg.
  set (o := gets h s). set (o' := mkO (o_kind o) p (o_end o) (o_rel o) (o_smooth o)).
  assert (Wo : forall q, In q (opts o) -> (q < length (h_pts h))%nat) by (intros; eapply wf_pt; eauto).
  destruct (put_ok h (put h1 s o') L s o' ext X) as (A & B & C); auto.
  - cbn. rewrite E2; auto.
  - unfold o'. pose proof (wf_own _ _ _ W _ I) as K. unfold pids in K. fold o in K. destruct o as [k a b rel sm].
    cbn [o_kind o_start o_end o_rel o_smooth] in *. eapply NoDup_opts_start; [apply K|].
    intros q Hq. destruct (E4 q Hq) as [-> _]. split.
    + intro HX. apply (in_opts_kind (mkO k a b rel sm)) in HX. apply Wo in HX. lia.
    + intro HX. apply (in_opts_end (mkO k a b rel sm)) in HX. apply Wo in HX. lia.
  - intros q Hq. apply opts_inv in Hq. cbn in Hq. destruct Hq as [Hq|[Hq|Hq]].
    + right. cbn. destruct (E4 q Hq). lia.
    + left. apply in_opts_kind; auto.
    + left. apply in_opts_end; auto.
  - split; [auto|split; [auto|split; [|split; [|split]]]].
    + rewrite (read_of _ _ _ C). unfold o'. cbn. unfold set_start.
      assert (VX : forall q, val (put h1 s o') q = val h1 q) by reflexivity.
      rewrite VX, E3. unfold read. fold o. cbn. f_equal.
      * apply (kind_val_in h _ ext); auto. intros; apply Wo, in_opts_kind; auto.
      * apply (val_in h _ ext); auto. intros; apply Wo, in_opts_end; auto.
    + exists ext; auto.
    + intro t. unfold gets at 1. cbn. rewrite E2, nth_upd by (eapply wf_seg; eauto). destruct (Nat.eqb_spec t s); [subst|]; auto.
    + intro t. unfold gets at 1. cbn. rewrite E2, nth_upd by (eapply wf_seg; eauto). destruct (Nat.eqb_spec t s); [subst|]; auto.
Qed.
Lemma assign_end_at h L s v X : wf h L X -> In s L ->
  let h' := assign_end h s v in
  wf h' L X /\ (forall t, In t L -> t <> s -> read h' t = read h t) /\ read h' s = set_end (read h s) v
  /\ (exists ext, h_pts h' = h_pts h ++ ext) /\ (forall t, o_kind (gets h' t) = o_kind (gets h t)).
Proof.
  intros W I. unfold assign_end. destruct (new_point h v) as [p h1] eqn:N.
  destruct (new_point_spec _ _ _ _ N) as (ext & E1 & E2 & E3 & E4).
  assert (Eg : gets h1 s = gets h s) by (unfold gets; rewrite E2; auto). cbn zeta. rewrite Eg.
  set (o := gets h s). set (o' := mkO (o_kind o) (o_start o) p (o_rel o) (o_smooth o)).
  assert (Wo : forall q, In q (opts o) -> (q < length (h_pts h))%nat) by (intros; eapply wf_pt; eauto).
  destruct (put_ok h (put h1 s o') L s o' ext X) as (A & B & C); auto.
  - cbn. rewrite E2; auto.
  - unfold o'. pose proof (wf_own _ _ _ W _ I) as K. unfold pids in K. fold o in K. destruct o as [k a b rel sm].
    cbn [o_kind o_start o_end o_rel o_smooth] in *. eapply NoDup_opts_end; [apply K|].
    intros q Hq. destruct (E4 q Hq) as [-> _]. split.
    + intro HX. apply (in_opts_kind (mkO k a b rel sm)) in HX. apply Wo in HX. lia.
    + intro HX. apply (in_opts_start (mkO k a b rel sm)) in HX. apply Wo in HX. lia.
  - intros q Hq. apply opts_inv in Hq. cbn in Hq. destruct Hq as [Hq|[Hq|Hq]].
    + left. apply in_opts_start; auto.
    + left. apply in_opts_kind; auto.
    + right. cbn. destruct (E4 q Hq). lia.
  - split; [auto|split; [auto|split; [|split]]].
    + rewrite (read_of _ _ _ C). unfold o'. cbn [o_kind o_start o_end o_rel o_smooth]. unfold set_end. fold o'.
      assert (VX : forall q, val (put h1 s o') q = val h1 q) by reflexivity.
      rewrite (VX p), E3. unfold read. fold o. cbn. f_equal.
      * apply (kind_val_in h _ ext); auto. intros; apply Wo, in_opts_kind; auto.
      * apply (val_in h _ ext); auto. intros; apply Wo, in_opts_start; auto.
    + exists ext; auto.
    + intro t. unfold gets at 1. cbn. rewrite E2, nth_upd by (eapply wf_seg; eauto). destruct (Nat.eqb_spec t s); [subst|]; auto.
Qed.

(** Assigning to one segment of a path. *)
Lemma only_read h h' l s v X : wf h l X -> In s l ->
  (forall t, In t l -> t <> s -> read h' t = read h t) -> read h' s = v ->
  forall k, nth_error l k = Some s -> reads h' l = upd (reads h l) k v.
Proof.
  intros W I R E k Hk. unfold reads. rewrite (map_change (read h) (read h') l k s); auto; [congruence|apply (wf_nd _ _ _ W)].
Qed.
Lemma safe_of h h' l s : In s l ->
  (forall L X, wf h L X -> In s L ->
     wf h' L X /\ (forall t, In t L -> t <> s -> read h' t = read h t) /\ (forall p, In p X -> getp h' p = getp h p)) ->
  safe h h' l l.
Proof.
  intros I H r X W. destruct (H (l ++ r) X W) as (A & B & C); [apply in_or_app; auto|]. split; auto. split; auto.
  intros t Ht. apply B; [apply in_or_app; auto|]. intros ->. exact (NoDup_app_dis l r s (wf_nd _ _ _ W) I Ht).
Qed.
Lemma assign_start_ok h l k s v X : wf h l X -> nth_error l k = Some s ->
  reads (assign_start h s v) l = upd (reads h l) k (set_start (read h s) v) /\ safe h (assign_start h s v) l l.
Proof.
  intros W Hk. assert (I : In s l) by (eapply nth_error_In; eauto). split.
  - destruct (assign_start_at h l s v X W I) as (A & B & C & _). eapply only_read; eauto.
  - eapply safe_of; eauto. intros L Y WL IL. destruct (assign_start_at h L s v Y WL IL) as (A & B & _ & D & _).
    split; auto. split; auto. eapply loose_ext; eauto.
Qed.
Lemma assign_end_ok h l k s v X : wf h l X -> nth_error l k = Some s ->
  reads (assign_end h s v) l = upd (reads h l) k (set_end (read h s) v) /\ safe h (assign_end h s v) l l.
Proof.
  intros W Hk. assert (I : In s l) by (eapply nth_error_In; eauto). split.
  - destruct (assign_end_at h l s v X W I) as (A & B & C & _). eapply only_read; eauto.
  - eapply safe_of; eauto. intros L Y WL IL. destruct (assign_end_at h L s v Y WL IL) as (A & B & _ & D & _).
    split; auto. split; auto. eapply loose_ext; eauto.
Qed.
Lemma safe_wf h h' l l' X : safe h h' l l' -> wf h l X -> wf h' l' X.
Proof. intros S W. destruct (S [] X) as [A _]; rewrite ?app_nil_r in *; auto. Qed.

(** ** Classes *)
Lemma is_move_read h s : is_move (read h s) = o_is_move h s.
Proof. unfold is_move, o_is_move, read. cbn. destruct (o_kind (gets h s)); auto. Qed.
Lemma is_close_read h s : is_close (read h s) = o_is_close h s.
Proof. unfold is_close, o_is_close, read. cbn. destruct (o_kind (gets h s)); auto. Qed.
Lemma len_reads h l : length (reads h l) = length l.
Proof. apply map_length. Qed.
Lemma nth_error_reads h l k : nth_error (reads h l) k = option_map (read h) (nth_error l k).
Proof. revert k; induction l; destruct k; cbn; auto. Qed.
Lemma pyget_reads h l i : pyget (reads h l) i = rmap (read h) (pyget l i).
Proof.
  unfold pyget. rewrite len_reads. destruct (pyidx (length l) i) as [k|]; cbn; auto.
  rewrite nth_error_reads. destruct (nth_error l k); auto.
Qed.
Lemma pyget_at {A} (l : list A) i s : pyget l i = Ok s -> exists k, pyidx (length l) i = Some k /\ nth_error l k = Some s.
Proof.
  unfold pyget. destruct (pyidx (length l) i) as [k|] eqn:E; [|discriminate].
  destruct (nth_error l k) eqn:F; [|discriminate]. intro H; injection H as <-. eauto.
Qed.

(** ** The validators *)
Definition kinds (h h' : heap) : Prop := forall t, o_kind (gets h' t) = o_kind (gets h t).
Lemma kinds_trans h1 h2 h3 : kinds h1 h2 -> kinds h2 h3 -> kinds h1 h3.
Proof. intros A B t. rewrite B, A; auto. Qed.
Lemma kinds_move h h' s : kinds h h' -> o_is_move h' s = o_is_move h s.
Proof. intros K. unfold o_is_move. rewrite K; auto. Qed.
Lemma kinds_close h h' s : kinds h h' -> o_is_close h' s = o_is_close h s.
Proof. intros K. unfold o_is_close. rewrite K; auto. Qed.

Lemma h_link_at pr h L f s X : wf h L X -> In f L -> In s L -> f <> s ->
  let h' := h_link pr h f s in
  wf h' L X /\ (forall t, In t L -> t <> f -> t <> s -> read h' t = read h t)
  /\ (read h' f, read h' s) = link pr (read h f) (read h s) /\ ext_pts h h' /\ kinds h h'.
Proof.
  intros W If Is N. unfold h_link, link.
  change (s_end (read h f)) with (val h (o_end (gets h f))).
  change (s_start (read h s)) with (val h (o_start (gets h s))).
  assert (REF : wf h L X /\ (forall t, In t L -> t <> f -> t <> s -> read h t = read h t)
                /\ (read h f, read h s) = (read h f, read h s) /\ ext_pts h h /\ kinds h h)
    by (split; [auto|split; [auto|split; [auto|split; [apply ext_refl|intro; auto]]]]).
  assert (A : forall v, let h' := assign_start h s v in
    wf h' L X /\ (forall t, In t L -> t <> f -> t <> s -> read h' t = read h t)
    /\ (read h' f, read h' s) = (read h f, set_start (read h s) v) /\ ext_pts h h' /\ kinds h h').
  { intro v. destruct (assign_start_at h L s v X W Is) as (A1 & A2 & A3 & A4 & A5 & _).
    split; [auto|split; [auto|split; [|auto]]]. cbn zeta. rewrite A3, A2; auto. }
  assert (B : forall v, let h' := assign_end h f v in
    wf h' L X /\ (forall t, In t L -> t <> f -> t <> s -> read h' t = read h t)
    /\ (read h' f, read h' s) = (set_end (read h f) v, read h s) /\ ext_pts h h' /\ kinds h h').
  { intro v. destruct (assign_end_at h L f v X W If) as (A1 & A2 & A3 & A4 & A5).
    split; [auto|split; [auto|split; [|auto]]]. cbn zeta. rewrite A3, A2; auto. }
  destruct (val h (o_end (gets h f))) as [e|], (val h (o_start (gets h s))) as [b|]; auto; try apply A; try apply B.
  destruct (near e b); auto. destruct pr; [apply B|apply A].
Qed.

(** What an operation on the path [l] does: [q] is what the path reads afterwards. *)
Definition does (h : heap) (l : list nat) (h' : heap) (l' : list nat) (q : path) : Prop :=
  reads h' l' = q /\ safe h h' l l'.
Lemma does_refl h l : does h l h l (reads h l).
Proof. split; auto. apply safe_refl. Qed.
Lemma does_trans h1 l1 h2 l2 q2 h3 l3 q3 : does h1 l1 h2 l2 q2 -> does h2 l2 h3 l3 q3 -> does h1 l1 h3 l3 q3.
Proof. intros [A B] [C D]. split; auto. eapply safe_trans; eauto. Qed.
Lemma does_wf h l h' l' q X : does h l h' l' q -> wf h l X -> wf h' l' X.
Proof. intros [_ S]. apply safe_wf; auto. Qed.
Lemma assign_end_does h l k s v X : wf h l X -> nth_error l k = Some s ->
  does h l (assign_end h s v) l (upd (reads h l) k (set_end (read h s) v)).
Proof. apply assign_end_ok. Qed.
Lemma assign_start_does h l k s v X : wf h l X -> nth_error l k = Some s ->
  does h l (assign_start h s v) l (upd (reads h l) k (set_start (read h s) v)).
Proof. apply assign_start_ok. Qed.

Lemma nth_error_upd_ne {A} (l : list A) n m x : n <> m -> nth_error (upd l n x) m = nth_error l m.
Proof. revert n m; induction l; destruct n, m; cbn; intro; auto; try congruence. Qed.
Lemma map_change2 {A B} (f g : A -> B) l a b x y :
  NoDup l -> nth_error l a = Some x -> nth_error l b = Some y -> a <> b ->
  (forall z, In z l -> z <> x -> z <> y -> g z = f z) -> map g l = upd (upd (map f l) a (g x)) b (g y).
Proof.
  intros ND Ha Hb N H.
  revert a b Ha Hb N. induction l as [|c l IH]; intros a b Ha Hb N; [destruct a; discriminate|].
  inversion ND as [|? ? Nc ND']; subst. destruct a as [|a], b as [|b]; cbn in *; try congruence.
  - injection Ha as ->. f_equal. apply map_change; auto.
    intros z Hz Nz. apply H; auto. intros ->; auto.
  - injection Hb as ->. f_equal. apply map_change; auto.
    intros z Hz Nz. apply H; auto. intros ->; auto.
  - f_equal; [|apply IH; auto]. apply H; auto; intros ->; apply Nc; eapply nth_error_In; eauto.
Qed.

Lemma h_link_does pr h l a b f s X : wf h l X -> nth_error l a = Some f -> nth_error l b = Some s -> a <> b ->
  does h l (h_link pr h f s) l
    (let '(f', s') := link pr (read h f) (read h s) in upd (upd (reads h l) a f') b s').
Proof.
  intros W Ha Hb N.
  assert (If : In f l) by (eapply nth_error_In; eauto). assert (Is : In s l) by (eapply nth_error_In; eauto).
  assert (Nfs : f <> s). { intros ->. apply N. eapply NoDup_nth_error; eauto; [apply (wf_nd _ _ _ W)| |congruence].
    apply nth_error_Some. congruence. }
  split.
  - destruct (h_link_at pr h l f s X W If Is Nfs) as (A & B & C & _). rewrite <- C.
    unfold reads. apply map_change2; auto. apply (wf_nd _ _ _ W).
  - intros r Y Wr. destruct (h_link_at pr h (l ++ r) f s Y Wr) as (A & B & C & D & _); auto; try (apply in_or_app; auto).
    split; auto. split; [|eapply loose_ext; eauto]. intros t Ht. apply B; [apply in_or_app; auto| |]; intros ->;
      [exact (NoDup_app_dis l r f (wf_nd _ _ _ Wr) If Ht)|exact (NoDup_app_dis l r s (wf_nd _ _ _ Wr) Is Ht)].
Qed.

Lemma h_connection_does pr h l i X : wf h l X ->
  does h l (h_connection pr h l i) l (validate_connection2 pr (reads h l) i) /\ kinds h (h_connection pr h l i).
Proof.
  intro W. unfold h_connection, validate_connection2. rewrite len_reads.
  destruct ((i <? 0) || (Z.of_nat (length l) <=? i + 1)) eqn:E; [split; [apply does_refl|intro; auto]|].
  rewrite !nth_error_reads.
  destruct (nth_error l (Z.to_nat i)) as [f|] eqn:A; cbn [option_map]; [|split; [apply does_refl|intro; auto]].
  destruct (nth_error l (S (Z.to_nat i))) as [s|] eqn:B; cbn [option_map]; [|split; [apply does_refl|intro; auto]].
  split; [eapply h_link_does; eauto|].
  assert (If : In f l) by (eapply nth_error_In; eauto). assert (Is : In s l) by (eapply nth_error_In; eauto).
  apply (h_link_at pr h l f s X W If Is). intros ->.
  enough (Z.to_nat i = S (Z.to_nat i)) by lia. eapply NoDup_nth_error; eauto; [apply (wf_nd _ _ _ W)| |congruence].
  apply nth_error_Some. congruence.
Qed.

Lemma last_move_reads h l : last_move (reads h l) = option_map (read h) (h_last_move h l).
Proof.
  induction l as [|s l IH]; cbn; auto. fold (reads h l). rewrite IH. destruct (h_last_move h l); cbn; auto.
  rewrite is_move_read. destruct (o_is_move h s); auto.
Qed.
Lemma firstn_reads h n l : firstn n (reads h l) = reads h (firstn n l).
Proof. apply firstn_map. Qed.
Lemma skipn_reads h n l : skipn n (reads h l) = reads h (skipn n l).
Proof. apply skipn_map. Qed.
Lemma close_to_reads h l i :
  match last_move (firstn (S i) (reads h l)) with
  | Some m => s_end m
  | None => match reads h l with f :: _ => s_end f | [] => None end
  end = h_close_to h l i.
Proof.
  unfold h_close_to. rewrite firstn_reads, last_move_reads. destruct (h_last_move h (firstn (S i) l)); cbn; auto.
  destruct l; auto.
Qed.
Lemma nth_error_pyget {A} (l : list A) i s : 0 <= i -> pyget l i = Ok s -> nth_error l (Z.to_nat i) = Some s.
Proof.
  intros H G. apply pyget_at in G. destruct G as (k & K & E). unfold pyidx in K.
  destruct (i <? 0) eqn:X; [lia|]. destruct ((0 <=? i) && (i <? Z.of_nat (length l))); [|discriminate]. congruence.
Qed.
Lemma pyget_in {A} (l : list A) i : 0 <= i < Z.of_nat (length l) -> exists s, pyget l i = Ok s.
Proof.
  intro H. unfold pyget, pyidx. destruct (i <? 0) eqn:X; [lia|].
  destruct ((0 <=? i) && (i <? Z.of_nat (length l))) eqn:Y; [|lia].
  destruct (nth_error l (Z.to_nat i)) eqn:Z; eauto. apply nth_error_None in Z. lia.
Qed.
Lemma assign_end_kinds h L s v X : wf h L X -> In s L -> kinds h (assign_end h s v).
Proof. intros W I. destruct (assign_end_at h L s v X W I) as (_ & _ & _ & _ & K). exact K. Qed.

(** The answer of an operation that may raise. *)
Definition does_r (h : heap) (l : list nat) (x : Res st) (q : Res path) : Prop :=
  match x with
  | Err e => q = Err e
  | Ok (h', l') => exists p, q = Ok p /\ does h l h' l' p
  end.
Definition on (l : list nat) (x : Res heap) : Res st := rmap (fun h => (h, l)) x.
Lemma h_close_does h l i X : wf h l X ->
  does_r h l (on l (h_close h l i)) (validate_closeZ (reads h l) i).
Proof.
  intro W. unfold h_close, validate_closeZ. rewrite len_reads, pyget_reads. unfold pyset. rewrite len_reads.
  destruct (i <? 0) eqn:Neg.
  - destruct (pyget l i) as [z|e] eqn:G; cbn; auto. apply pyget_at in G. destruct G as (k & K & E). rewrite K.
    eexists; split; [reflexivity|]. destruct l as [|f l']; [destruct k; discriminate|].
    eapply assign_end_does; eauto.
  - destruct (i <? Z.of_nat (length l)) eqn:Lt; [|reflexivity].
    destruct (pyget_in l i) as [z G]; [lia|]. rewrite G. cbn.
    assert (E : nth_error l (Z.to_nat i) = Some z) by (apply nth_error_pyget; auto; lia).
    eexists; split; [reflexivity|]. unfold validate_close. rewrite nth_error_reads, E. cbn [option_map].
    rewrite close_to_reads. eapply assign_end_does; eauto.
Qed.
Lemma h_close_kinds h l i h' X : wf h l X -> h_close h l i = Ok h' -> kinds h h'.
Proof.
  intro W. unfold h_close. destruct (i <? 0); [|destruct (i <? Z.of_nat (length l)); [|discriminate]];
    destruct (pyget l i) as [z|] eqn:G; cbn; try discriminate; intro H; injection H as <-;
    apply pyget_at in G; destruct G as (k & _ & E); eapply assign_end_kinds; eauto; eapply nth_error_In; eauto.
Qed.

Lemma next_break_reads h l n :
  match next_break (reads h l) n with
  | None => h_next_break h l n = None
  | Some (j, z) => exists s, h_next_break h l n = Some s /\ nth_error l j = Some s /\ z = read h s
  end.
Proof.
  revert n; induction l as [|s l IH]; intro n; cbn; auto. fold (reads h l).
  destruct n as [|n].
  - rewrite is_move_read, is_close_read. destruct (o_is_move h s || o_is_close h s); [eauto|].
    specialize (IH O). destruct (next_break (reads h l) 0) as [[j z]|]; cbn; auto.
  - specialize (IH n). destruct (next_break (reads h l) n) as [[j z]|]; cbn; auto.
Qed.
Lemma h_subpath_does h l i X : wf h l X -> does h l (h_subpath h l i) l (validate_subpath (reads h l) i).
Proof.
  intro W. unfold h_subpath, validate_subpath. rewrite len_reads.
  destruct ((i <? 0) || (Z.of_nat (length l) <=? i + 1)); [apply does_refl|].
  pose proof (next_break_reads h l (Z.to_nat i)) as N. destruct (next_break (reads h l) (Z.to_nat i)) as [[j z]|].
  - destruct N as (s & -> & E & ->). rewrite is_move_read. destruct (o_is_move h s); [apply does_refl|].
    cbn zeta. rewrite close_to_reads. eapply assign_end_does; eauto.
  - rewrite N. apply does_refl.
Qed.

(** _validate_move at a position counted from the front is the scan too. *)
Lemma scan_next (p : path) i n m : 0 <= i -> (m = length p - n)%nat -> (n <= length p)%nat ->
  scan_move p i (map (fun k => Z.of_nat n + Z.of_nat k) (seq 0 m)) =
  match next_break p n with
  | None => Ok p
  | Some (j, z) => if is_move z then Ok p else do x <- pyget p i; pyset p (Z.of_nat j) (set_end z (s_end x))
  end.
Proof.
  intros Hi. revert n. induction m as [|m IH]; intros n Hm Hn.
  - cbn. assert (n = length p) by lia. subst. 
    assert (X : next_break p (length p) = None). { clear. induction p; cbn; auto. rewrite IHp; auto. }
    rewrite X; auto.
  - assert (Lt : (n < length p)%nat) by lia.
    cbn [seq map scan_move]. destruct (pyget_in p (Z.of_nat n + Z.of_nat 0)) as [s G]; [lia|]. rewrite G. cbn [rbind].
    assert (E : nth_error p n = Some s). { apply nth_error_pyget in G; [|lia]. rewrite <- G. f_equal. lia. }
    assert (X : next_break p n = if is_move s || is_close s then Some (n, s) else next_break p (S n)).
    { clear - E. revert n E. induction p as [|a p IHp]; intros n E; [destruct n; discriminate|].
      destruct n as [|n]; cbn in *.
      - injection E as ->. destruct (is_move s || is_close s); auto.
      - rewrite (IHp n E). destruct (is_move s || is_close s); auto. }
    rewrite X. destruct (is_move s) eqn:M; cbn [orb]; [rewrite M; auto|].
    destruct (is_close s) eqn:C.
    + rewrite M. destruct (pyget p i); cbn; auto. replace (Z.of_nat n + 0) with (Z.of_nat n) by lia. auto.
    + rewrite <- seq_shift, map_map. rewrite <- IH by lia. f_equal. apply map_ext. intro. lia.
Qed.
Lemma pyset_nat {A} (p : list A) j x : (j < length p)%nat -> pyset p (Z.of_nat j) x = Ok (upd p j x).
Proof.
  intro H. unfold pyset, pyidx. destruct (Z.of_nat j <? 0) eqn:E; [lia|].
  destruct ((0 <=? Z.of_nat j) && (Z.of_nat j <? Z.of_nat (length p))) eqn:F; [|lia]. rewrite Nat2Z.id. auto.
Qed.
Lemma next_break_at (p : path) n j z : next_break p n = Some (j, z) -> nth_error p j = Some z /\ (n <= j)%nat.
Proof.
  revert n j; induction p as [|a p IH]; intros n j; cbn; [discriminate|].
  destruct n as [|n].
  - destruct (is_move a || is_close a); [intro H; injection H as <- <-; cbn; split; auto; lia|].
    destruct (next_break p 0) as [[j' z']|] eqn:E; cbn; [|discriminate]. intro H; injection H as <- <-.
    apply IH in E. cbn. split; [tauto|lia].
  - destruct (next_break p n) as [[j' z']|] eqn:E; cbn; [|discriminate]. intro H; injection H as <- <-.
    apply IH in E. cbn. split; [tauto|lia].
Qed.
Lemma validate_move_scan (p : path) i :
  validate_moveZ p i = scan_move p i (map (fun k => i + 1 + Z.of_nat k) (seq 0 (Z.to_nat (Z.of_nat (length p) - (i + 1))))).
Proof.
  unfold validate_moveZ. destruct (i <? 0) eqn:E; auto.
  destruct (Z_lt_le_dec (i + 1) (Z.of_nat (length p) + 1)) as [Lt|Ge].
  - pose proof (scan_next p i (Z.to_nat (i + 1)) (length p - Z.to_nat (i + 1))%nat) as SN.
    replace (Z.to_nat (Z.of_nat (length p) - (i + 1))) with (length p - Z.to_nat (i + 1))%nat by lia.
    rewrite (map_ext _ (fun k => Z.of_nat (Z.to_nat (i + 1)) + Z.of_nat k)) by (intro; lia). rewrite SN by lia. clear SN.
    unfold validate_move. replace (Z.to_nat (i + 1)) with (S (Z.to_nat i)) by lia.
    destruct (next_break p (S (Z.to_nat i))) as [[j z]|] eqn:N; auto.
    apply next_break_at in N. destruct N as [N1 N2].
    assert (Lj : (j < length p)%nat) by (apply nth_error_Some; congruence).
    destruct (pyget_in p i) as [m G]; [lia|]. rewrite G.
    assert (Hi : 0 <= i) by lia. rewrite (nth_error_pyget _ _ _ Hi G).
    destruct (is_move z); auto. cbn. rewrite pyset_nat; auto.
  - replace (Z.to_nat (Z.of_nat (length p) - (i + 1))) with O by lia. cbn. unfold validate_move.
    assert (X : next_break p (S (Z.to_nat i)) = None).
    { destruct (next_break p (S (Z.to_nat i))) as [[j z]|] eqn:N; auto. apply next_break_at in N.
      assert (j < length p)%nat by (apply nth_error_Some; destruct N; congruence). lia. }
    rewrite X; auto.
Qed.
Lemma h_move_does h l i X : wf h l X -> does_r h l (on l (h_move h l i)) (validate_moveZ (reads h l) i).
Proof.
  intro W. rewrite validate_move_scan. unfold h_move. rewrite len_reads.
  generalize (map (fun k => i + 1 + Z.of_nat k) (seq 0 (Z.to_nat (Z.of_nat (length l) - (i + 1))))). intro js.
  induction js as [|j js IH]; cbn; [eexists; split; [reflexivity|apply does_refl]|].
  rewrite !pyget_reads. destruct (pyget l j) as [s|e] eqn:G; cbn; auto.
  rewrite is_move_read, is_close_read.
  destruct (o_is_move h s); cbn; [eexists; split; [reflexivity|apply does_refl]|].
  destruct (o_is_close h s); [|apply IH].
  destruct (pyget l i) as [m|e]; cbn; auto.
  apply pyget_at in G. destruct G as (k & K & E). unfold pyset. rewrite len_reads, K.
  eexists; split; [reflexivity|]. eapply assign_end_does; eauto.
Qed.
Lemma h_move_kinds h l i h' X : wf h l X -> h_move h l i = Ok h' -> kinds h h'.
Proof.
  intro W. unfold h_move. generalize (map (fun k => i + 1 + Z.of_nat k) (seq 0 (Z.to_nat (Z.of_nat (length l) - (i + 1))))).
  intro js. induction js as [|j js IH]; cbn; [intro H; injection H as <-; intro; auto|].
  destruct (pyget l j) as [s|e] eqn:G; cbn; [|discriminate].
  destruct (o_is_move h s); cbn; [intro H; injection H as <-; intro; auto|].
  destruct (o_is_close h s); [|apply IH].
  destruct (pyget l i) as [m|e]; cbn; [|discriminate]. intro H; injection H as <-.
  apply pyget_at in G; destruct G as (k & _ & E). eapply assign_end_kinds; eauto. eapply nth_error_In; eauto.
Qed.

(** validate_connections *)
Lemma h_connect_at X l : forall h z prev L, wf h L X -> incl (prev :: l) L -> NoDup (prev :: l) ->
  (forall q, z = Some q -> (q < length (h_pts h))%nat) ->
  let h' := h_connect h z prev l in
  wf h' L X /\ (forall t, In t L -> ~ In t (prev :: l) -> read h' t = read h t) /\ ext_pts h h'
  /\ reads h' (prev :: l) = connect (val h z) (read h prev) (reads h l).
Proof.
  induction l as [|s l IH]; intros h z prev L W Inc ND Hz; [cbn; auto using ext_refl|].
  inversion ND as [|? ? Np ND']; subst. inversion ND' as [|? ? Ns ND'']; subst.
  assert (Ip : In prev L) by (apply Inc; cbn; auto). assert (Is : In s L) by (apply Inc; cbn; auto).
  assert (N : prev <> s) by (intros ->; apply Np; cbn; auto).
  cbn [h_connect]. cbn zeta.
  set (z1 := match z with None => o_end (gets h s) | Some _ => if o_is_move h s then o_end (gets h s) else z end).
  assert (Hz1 : forall q, z1 = Some q -> (q < length (h_pts h))%nat).
  { assert (He : forall q, o_end (gets h s) = Some q -> (q < length (h_pts h))%nat).
    { intros q Hq. eapply (wf_pt _ _ _ W s); auto. apply in_opts_end; auto. }
    unfold z1. destruct z; [destruct (o_is_move h s); auto|auto]. }
  destruct (h_link_at false h L prev s X W Ip Is N) as (W1 & R1 & K1 & X1 & C1).
  set (h1 := h_link false h prev s) in *.
  assert (G1 : forall q, z1 = Some q -> getp h1 q = getp h q).
  { intros q Hq. destruct X1 as [e1 X1]. eapply getp_ext; eauto. }
  set (h2 := match z1 with
             | Some q => if o_is_close h1 s && negb (onear (val h1 (o_end (gets h1 s))) (Some (getp h1 q)))
                         then assign_end h1 s (Some (getp h1 q)) else h1
             | None => h1 end).
  assert (S2 : wf h2 L X /\ (forall t, In t L -> t <> s -> read h2 t = read h1 t)
    /\ read h2 s = (match val h z1 with
                    | Some q => if is_close (read h1 s) && negb (onear (s_end (read h1 s)) (Some q)) then set_end (read h1 s) (Some q) else read h1 s
                    | None => read h1 s end)
    /\ ext_pts h1 h2 /\ kinds h1 h2).
  { unfold h2. destruct z1 as [q|]; cbn [val option_map].
    - rewrite is_close_read. change (s_end (read h1 s)) with (val h1 (o_end (gets h1 s))). rewrite (G1 q eq_refl).
      destruct (o_is_close h1 s && negb (onear (val h1 (o_end (gets h1 s))) (Some (getp h q)))).
      + destruct (assign_end_at h1 L s (Some (getp h q)) X W1 Is) as (A & B & C & D & E). auto.
      + split; [auto|]. split; [auto|]. split; [auto|]. split; [apply ext_refl|intro; auto].
    - split; [auto|]. split; [auto|]. split; [auto|]. split; [apply ext_refl|intro; auto]. }
  destruct S2 as (W2 & R2 & E2 & X2 & C2).
  assert (X12 : ext_pts h h2) by (eapply ext_trans; eauto). destruct X12 as [e12 X12].
  destruct (IH h2 z1 s L W2) as (W3 & R3 & X3 & E3).
  { intros t Ht. apply Inc. cbn in *. tauto. }
  { auto. }
  { intros q Hq. rewrite X12, app_length. specialize (Hz1 q Hq). lia. }
  split; [auto|]. split.
  - intros t Ht Nt. rewrite R3; auto.
    + cbn in Nt. rewrite R2, R1; auto.
    + intro Y; apply Nt; cbn in *; tauto.
  - split; [eapply ext_trans; [exists e12; eauto|auto]|]. cbn [reads map]. fold (reads (h_connect h2 z1 s l) (s :: l)).
    change (read (h_connect h2 z1 s l) s :: map (read (h_connect h2 z1 s l)) l) with (reads (h_connect h2 z1 s l) (s :: l)).
    rewrite E3.
    assert (V1 : match val h z with None => s_end (read h s) | Some _ => if is_move (read h s) then s_end (read h s) else val h z end = val h z1).
    { unfold z1. rewrite is_move_read. destruct z; cbn; [destruct (o_is_move h s); auto|auto]. }
    assert (V2 : val h2 z1 = val h z1). { eapply val_in; eauto. }
    rewrite V2.
    rewrite (R3 prev) by auto.
    rewrite (R2 prev) by auto.
    cbn [connect reads map].
    rewrite V1, <- K1. cbn [fst snd].
    f_equal. f_equal.
    + rewrite E2. auto.
    + apply map_ext_in. intros t Ht. rewrite R2, R1; auto.
      * apply Inc; cbn; auto.
      * intros ->; apply Np; cbn; auto.
      * intros ->; auto.
      * apply Inc; cbn; auto.
      * intros ->; auto.
Qed.
Lemma h_connections_does h l X : wf h l X -> does h l (h_connections h l) l (validate_connections (reads h l)).
Proof.
  intro W. destruct l as [|s l]; [apply does_refl|]. unfold h_connections. cbn [validate_connections reads map].
  assert (Hz : forall L X, wf h L X -> In s L -> forall q, o_end (gets h s) = Some q -> (q < length (h_pts h))%nat).
  { intros L Y WL I q Hq. eapply (wf_pt _ _ _ WL s); auto. apply in_opts_end; auto. }
  split.
  - destruct (h_connect_at X l h (o_end (gets h s)) s (s :: l) W) as (_ & _ & _ & E); auto.
    + apply incl_refl.
    + apply (wf_nd _ _ _ W).
    + apply (Hz _ _ W); cbn; auto.
  - intros r Y Wr. destruct (h_connect_at Y l h (o_end (gets h s)) s ((s :: l) ++ r) Wr) as (A & B & C & _).
    + apply incl_appl, incl_refl.
    + apply (wf_nd _ _ _ W).
    + apply (Hz _ _ Wr); cbn; auto.
    + split; auto. split; [|eapply loose_ext; eauto]. intros t Ht. apply B; [apply in_or_app; auto|].
      intro Z. exact (NoDup_app_dis _ r t (wf_nd _ _ _ Wr) Z Ht).
Qed.
