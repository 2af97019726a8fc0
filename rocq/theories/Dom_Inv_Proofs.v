(** Proofs about the document tree: links, values, siblings, writing, shadow trees. *)
Require Import ZArith QArith List Ascii String Bool Lia Arith.
Require Import Verif.Base Verif.Text_Proofs Verif.Dom_Model Verif.Dom_Spec Verif.Dom_Proofs Verif.Dom_Tree_Proofs.
Import ListNotations.
Open Scope nat_scope.

Definition ordered (d : dom) : Prop := forall i n p, get d i = Some n -> n_parent n = Some p -> p < i.
Definition inv (d : dom) : Prop := linked d /\ ordered d.
Lemma inv_new : inv new_document.
Proof.
  assert (G : forall i n, get new_document i = Some n -> i = 0 /\ n = mkNode CDocument (Some []) None (Some 0) []).
  { intros [|[|i]] n H; cbn in H; try discriminate. injection H as <-. auto. }
  repeat split.
  - eexists. split; reflexivity.
  - intros i n H. destruct (G i n H) as [_ ->]. reflexivity.
  - intros i n H Z. destruct (G i n H) as [-> _]. contradiction.
  - destruct (G p m H) as [_ ->]. constructor.
  - destruct (G p m H) as [_ ->]. intros i [].
  - intros i n p H. destruct (G i n H) as [_ ->]. discriminate.
Qed.
Lemma kids_lt : forall d, linked d -> forall p m i, get d p = Some m -> In i (n_kids m) -> i < List.length (heap d).
Proof. intros d (_ & _ & _ & K) p m i G I. destruct (K p m G) as [_ K']. destruct (K' i I) as (n & H & _). eapply get_lt; eauto. Qed.
Lemma inv_append : forall d p n d', inv d -> append_new d p n = Ok d' -> n_parent n = Some p -> n_doc n = Some 0 -> n_kids n = [] -> inv d'.
Proof.
  intros d p n d' [L O] A P D K. destruct (append_inv _ _ _ _ A) as (m & G & I). destruct (append_ok d p m n G I) as (d2 & A2 & LN & _ & J). assert (d2 = d') by congruence. subst d2. clear A2.
  pose proof (get_lt _ _ _ G) as PL. pose proof (kids_lt d L) as KL. destruct L as (R & DD & U & W).
  assert (FRESH : forall q x, get d q = Some x -> ~ In (List.length (heap d)) (n_kids x)) by (intros q x H1 H2; pose proof (KL q x _ H1 H2); lia).
  assert (NEW : get d' (List.length (heap d)) = Some n) by (rewrite J; destruct (Nat.eqb_spec (List.length (heap d)) p); [lia|now rewrite Nat.eqb_refl]).
  assert (PP : get d' p = Some (with_kid m (List.length (heap d)))) by (rewrite J, Nat.eqb_refl; reflexivity).
  assert (OLD : forall j, j <> p -> j < List.length (heap d) -> get d' j = get d j) by (intros j N1 N2; rewrite J; destruct (Nat.eqb_spec j p); [contradiction|]; destruct (Nat.eqb_spec j (List.length (heap d))); [lia|reflexivity]).
  assert (CASE : forall j x, get d' j = Some x -> (j = p /\ x = with_kid m (List.length (heap d))) \/ (j = List.length (heap d) /\ x = n) \/ (j <> p /\ j < List.length (heap d) /\ get d j = Some x)).
  { intros j x H. rewrite J in H. destruct (Nat.eqb_spec j p); [left; split; congruence|]. destruct (Nat.eqb_spec j (List.length (heap d))); [right; left; split; congruence|right; right]. repeat split; auto. eapply get_lt; eauto. }
  assert (KEEP : forall j x, get d j = Some x -> exists y, get d' j = Some y /\ n_parent y = n_parent x /\ (forall i, In i (n_kids x) -> In i (n_kids y))).
  { intros j x H. destruct (Nat.eq_dec j p) as [->|N]. - exists (with_kid m (List.length (heap d))). assert (x = m) by congruence. subst x. repeat split; auto. intros i Hi. cbn. apply in_or_app. now left. - exists x. rewrite OLD; auto. eapply get_lt; eauto. }
  split; [split; [|split; [|split]]|].
  - destruct R as (x & H & N). destruct (KEEP 0 x H) as (y & Y & E & _). exists y. split; congruence.
  - intros i x H. destruct (CASE i x H) as [[-> ->]|[[-> ->]|(_ & _ & H')]]; [exact (DD p m G)|exact D|eauto].
  - intros i x H Z. destruct (CASE i x H) as [[-> ->]|[[-> ->]|(_ & _ & H')]].
    + destruct (U p m G Z) as (q & y & E & Y & Hi). destruct (KEEP q y Y) as (z & Z1 & _ & Z2). exists q, z. cbn. auto.
    + exists p, (with_kid m (List.length (heap d))). split; [exact P|]. split; [exact PP|]. cbn. apply in_or_app. right. now left.
    + destruct (U i x H' Z) as (q & y & E & Y & Hi). destruct (KEEP q y Y) as (z & Z1 & _ & Z2). exists q, z. auto.
  - intros q x H.
    assert (OLDK : forall y, get d q = Some y -> forall i, In i (n_kids y) -> exists z, get d' i = Some z /\ n_parent z = Some q).
    { intros y Y i Hi. destruct (W q y Y) as [_ W']. destruct (W' i Hi) as (z & Z1 & Z2). destruct (KEEP i z Z1) as (w & W1 & W2 & _). exists w. split; congruence. }
    destruct (CASE q x H) as [[-> ->]|[[-> ->]|(_ & _ & H')]].
    + cbn [with_kid n_kids]. split.
      * apply (NoDup_Add (a := List.length (heap d)) (l := n_kids m)); [rewrite <- (app_nil_r (n_kids m)) at 1; apply Add_app|split; [apply (W p m G)|apply (FRESH p m G)]].
      * intros i Hi. apply in_app_or in Hi. destruct Hi as [Hi|[<-|[]]]; [eauto|]. exists n. auto.
    + rewrite K. split; [constructor|intros i []].
    + split; [apply (W q x H')|eauto].
  - intros i x q H E. destruct (CASE i x H) as [[-> ->]|[[-> ->]|(_ & _ & H')]]; [eapply O; eauto|congruence|eapply O; eauto].
Qed.
Lemma inv_objects : forall h o o', inv (mkDom h o) -> inv (mkDom h o').
Proof. intros h o o' H. exact H. Qed.
Lemma inv_step : forall d cur e d' r, inv d -> parse_step (Some 0) d cur e = (d', r) -> inv d'.
Proof.
  intros d cur e d' r I H. destruct e as [tag a| |]; cbn [parse_step] in H.
  - fold (made tag) in H. destruct (made tag) as [c|x]; [|inversion H; subst; auto]. destruct cur as [p|]; [|inversion H; subst; auto].
    destruct (append_new d p _) as [d1|x] eqn:A; [|inversion H; subst; auto]. assert (I1 : inv d1) by (eapply inv_append; eauto; reflexivity).
    destruct (dget (T "id") a); inversion H; subst; auto.
  - destruct cur as [i|]; [|inversion H; subst; auto]. destruct (get d i); inversion H; subst; auto.
  - inversion H; subst; auto.
Qed.
Lemma inv_loop : forall evs d cur d' r, inv d -> parse_loop (Some 0) evs d cur = (d', r) -> inv d'.
Proof.
  induction evs as [|e l IH]; intros d cur d' r I H; cbn [parse_loop] in H; [inversion H; subst; auto|]. destruct (parse_step (Some 0) d cur e) as [d1 [c|x]] eqn:S; [|inversion H; subst; eapply inv_step; eauto]. eapply IH; [|eauto]. eapply inv_step; eauto.
Qed.
Lemma inv_act : forall d a, inv d -> inv (act d a).
Proof.
  intros d a I. destruct a as [i evs|i name args kwargs]; cbn [act].
  - unfold parse. destruct (get d i) as [n|] eqn:G; [|exact I]. destruct (is_node (n_cls n)); [|exact I]. destruct I as [L O]. rewrite (proj1 (proj2 L) i n G). destruct (parse_loop (Some 0) evs d (Some i)) as [d' r] eqn:P. cbn [fst]. eapply inv_loop; [|eauto]. split; auto.
  - unfold build. destruct (get d i) as [n|] eqn:G; [|exact I]. destruct (dget (dash name) bootstrap) as [c|]; [|exact I]. destruct (is_node (n_cls n)); [|exact I]. destruct (construct c args kwargs) as [a|x]; [|exact I].
    destruct (append_new d i _) as [d1|x] eqn:A; [|exact I]. cbn [fst]. eapply inv_append; eauto; try reflexivity. cbn. destruct I as [L _]. exact (proj1 (proj2 L) i n G).
Qed.
Lemma inv_history : forall l, inv (history l).
Proof.
  intros l. unfold history. assert (H : forall m d, inv d -> inv (fold_left act m d)). { induction m as [|a r IH]; intros d I; cbn; auto. apply IH, inv_act, I. } apply H, inv_new.
Qed.
Lemma inv_below : forall d, inv d -> forall i n, get d i = Some n -> below d i.
Proof.
  intros d [L O] i. induction i as [i IH] using lt_wf_ind. intros n G. destruct (Nat.eq_dec i 0) as [->|N]; [constructor|]. destruct L as (_ & _ & U & _). destruct (U i n G N) as (p & m & P & M & _). eapply below_kid; eauto.
Qed.

(** Keys. *)
Lemma dset_keys : forall A k (v : A) d x, In x (map fst (dset k v d)) <-> x = k \/ In x (map fst d).
Proof.
  intros A k v d x. induction d as [|[y w] r IH]; cbn [dset map fst]; [cbn; split; [intros [H|[]]; auto|intros [H|[]]; auto]|]. destruct (teqb k y) eqn:E; cbn [map fst In].
  - apply teqb_true in E. subst y. split; [tauto|intros [->|H]; auto].
  - rewrite IH. tauto.
Qed.
Lemma dset_keyed : forall A k (v : A) d, keyed d -> keyed (dset k v d).
Proof.
  intros A k v d. unfold keyed. induction d as [|[y w] r IH]; cbn [dset map fst]; intros N; [constructor; auto; constructor|]. inversion N as [|? ? N1 N2]; subst. destruct (teqb k y) eqn:E; cbn [map fst]; [constructor; auto|]. constructor; auto. rewrite dset_keys. intros [->|H]; [rewrite teqb_refl in E; discriminate|contradiction].
Qed.
Lemma dupdate_keyed : forall A (e d : dict A), keyed d -> keyed (dupdate d e).
Proof. intros A e. unfold dupdate. induction e as [|p r IH]; intros d K; cbn; auto. apply IH, dset_keyed, K. Qed.
Lemma dget_none : forall A k (d : dict A), dget k d = None <-> ~ In k (map fst d).
Proof.
  intros A k d. induction d as [|[y w] r IH]; cbn [dget map fst In]; [tauto|]. destruct (teqb k y) eqn:E.
  - apply teqb_true in E. subst y. split; [discriminate|tauto].
  - rewrite IH. apply teqb_false in E. split; [intros H [->|H2]; auto|tauto].
Qed.
Lemma dget_dupdate : forall A k (e d : dict A), keyed e -> dget k (dupdate d e) = match dget k e with Some v => Some v | None => dget k d end.
Proof.
  intros A k e. unfold dupdate. induction e as [|[y w] r IH]; intros d K; [reflexivity|]. inversion K as [|? ? K1 K2]; subst. cbn [fold_left fst snd dget]. rewrite (IH _ K2), dget_dset. destruct (teqb k y) eqn:E; [|reflexivity]. apply teqb_true in E. subst y. cbn [fst] in K1. apply dget_none in K1. now rewrite K1.
Qed.
Lemma keyed_map : forall (a : dict text), keyed a -> keyed (map (fun x => (fst x, VText (snd x))) a).
Proof. intros a. unfold keyed. rewrite map_map. cbn [fst]. auto. Qed.
Definition all_keyed (d : dom) : Prop := forall i n a, get d i = Some n -> n_attrs n = Some a -> keyed a.
Lemma keyed_append : forall d p n d', all_keyed d -> append_new d p n = Ok d' -> (forall a, n_attrs n = Some a -> keyed a) -> all_keyed d'.
Proof.
  intros d p n d' K A N. destruct (append_inv _ _ _ _ A) as (m & G & I). destruct (append_ok d p m n G I) as (d2 & A2 & _ & _ & J). assert (d2 = d') by congruence. subst d2.
  intros i x a H. rewrite J in H. destruct (Nat.eqb i p); [injection H as <-; cbn; eapply K; eauto|]. destruct (Nat.eqb i _); [injection H as <-; auto|eapply K; eauto].
Qed.
Lemma keyed_loop : forall evs doc d cur d' r, (forall tag a, In (Start tag a) evs -> keyed a) -> all_keyed d -> parse_loop doc evs d cur = (d', r) -> all_keyed d'.
Proof.
  induction evs as [|e l IH]; intros doc d cur d' r S K H; cbn [parse_loop] in H; [inversion H; subst; auto|].
  assert (K1 : forall d1 r1, parse_step doc d cur e = (d1, r1) -> all_keyed d1).
  { intros d1 r1 P. destruct e as [tag a| |]; cbn [parse_step] in P.
    - fold (made tag) in P. destruct (made tag) as [c|x]; [|inversion P; subst; auto]. destruct cur as [p|]; [|inversion P; subst; auto].
      destruct (append_new d p _) as [d2|x] eqn:A; [|inversion P; subst; auto]. assert (I1 : all_keyed d2). { eapply keyed_append; eauto. cbn. intros a' E. injection E as <-. apply keyed_map. apply (S tag). now left. }
      destruct (dget (T "id") a); [destruct doc|]; inversion P; subst; auto.
    - destruct cur as [i|]; [|inversion P; subst; auto]. destruct (get d i); inversion P; subst; auto.
    - inversion P; subst; auto. }
  destruct (parse_step doc d cur e) as [d1 [c|x]] eqn:P; [|inversion H; subst; eapply K1; eauto]. eapply IH; [| |eauto]; [intros tag a Hi; apply (S tag); now right|eapply K1; eauto].
Qed.
Lemma construct_keyed : forall c args kwargs a, keyed kwargs -> construct c args kwargs = Ok (Some a) -> keyed a.
Proof.
  intros c args kwargs a K H. unfold construct in H. destruct (wants_three c). { destruct (_ && _); [injection H as <-; constructor|discriminate]. }
  assert (E : keyed (dupdate kwargs (combine (positional c) args))) by now apply dupdate_keyed.
  destruct c; try (injection H as <-; exact E); destruct args, kwargs; discriminate.
Qed.
Lemma keyed_act : forall d a, sane a -> all_keyed d -> all_keyed (act d a).
Proof.
  intros d a S K. destruct a as [i evs|i name args kwargs]; cbn [act].
  - unfold parse. destruct (get d i) as [n|] eqn:G; [|exact K]. destruct (is_node (n_cls n)); [|exact K]. destruct (parse_loop (n_doc n) evs d (Some i)) as [d' r] eqn:P. cbn [fst]. exact (keyed_loop evs (n_doc n) d (Some i) d' r S K P).
  - unfold build. destruct (get d i) as [n|] eqn:G; [|exact K]. destruct (dget (dash name) bootstrap) as [c|]; [|exact K]. destruct (is_node (n_cls n)); [|exact K]. destruct (construct c args kwargs) as [a|x] eqn:C; [|exact K].
    destruct (append_new d i _) as [d1|x] eqn:A; [|exact K]. cbn [fst]. eapply keyed_append; eauto. cbn. intros b ->. eapply construct_keyed; eauto.
Qed.
Lemma keyed_history : forall l, Forall sane l -> all_keyed (history l).
Proof.
  intros l. unfold history. assert (H : forall m d, Forall sane m -> all_keyed d -> all_keyed (fold_left act m d)). { induction m as [|a r IH]; intros d S I; cbn; auto. inversion S; subst. apply IH; auto. now apply keyed_act. }
  intros S. apply H; auto. intros [|[|i]] n a G; cbn in G; try discriminate. injection G as <-. cbn. intros E. injection E as <-. constructor.
Qed.

(** Values. *)
Lemma ancestors_all : forall d, inv d -> forall i fuel n, get d i = Some n -> i < fuel -> exists l, ancestors fuel d i = Some l.
Proof.
  intros d [L O] i. induction i as [i IH] using lt_wf_ind. intros fuel n G F. destruct fuel as [|fuel]; [lia|]. cbn [ancestors]. rewrite G. destruct (n_parent n) as [p|] eqn:P; [|eauto]. pose proof (O i n p G P) as LT.
  destruct L as (_ & _ & U & _). assert (N : i <> 0) by lia. destruct (U i n G N) as (p' & m & P' & M & _). rewrite P in P'. injection P' as <-. destruct (IH p LT fuel m M ltac:(lia)) as [l ->]. cbn. eauto.
Qed.
Lemma collect_app : forall d l m v, collect d (l ++ m) v = rbind (collect d l v) (fun v => collect d m v).
Proof. intros d. induction l as [|i r IH]; intros m v; cbn [collect app rbind]; [reflexivity|]. destruct (get d i) as [n|]; [|reflexivity]. destruct (n_attrs n); [apply IH|reflexivity]. Qed.
Lemma values_near : forall d, inv d -> all_keyed d -> forall i fuel l, ancestors fuel d i = Some l -> (forall j n, up d i j -> get d j = Some n -> n_attrs n <> None) ->
  exists v, collect d (rev l) [] = Ok v /\ forall k x, dget k v = Some x <-> nearest d k i x.
Proof.
  intros d I K i fuel. revert i. induction fuel as [|fuel IH]; intros i l A N; [discriminate|]. cbn [ancestors] in A. destruct (get d i) as [n|] eqn:G; [|discriminate].
  destruct (n_attrs n) as [a|] eqn:NA; [|exfalso; eapply (N i n); eauto; constructor]. pose proof (K i n a G NA) as KA.
  destruct (n_parent n) as [p|] eqn:P.
  - destruct (ancestors fuel d p) as [m|] eqn:AP; [|discriminate]. cbn in A. injection A as <-. destruct (IH p m AP) as (v & C & V). { intros j x U. apply N. eapply up_more; eauto. }
    exists (dupdate v a). cbn [rev]. rewrite collect_app, C. cbn [rbind collect]. rewrite G, NA. split; [reflexivity|]. intros k x. rewrite (dget_dupdate _ k a v KA). destruct (dget k a) as [y|] eqn:D.
    + split; [intros H; injection H as <-; eapply near_own; eauto|]. intros H. inversion H; subst; congruence.
    + rewrite V. split; [intros H; eapply near_up; eauto|]. intros H. inversion H; subst; congruence.
  - injection A as <-. exists (dupdate [] a). cbn [rev app collect]. rewrite G, NA. split; [reflexivity|]. intros k x. rewrite (dget_dupdate _ k a [] KA). destruct (dget k a) as [y|] eqn:D.
    + split; [intros H; injection H as <-; eapply near_own; eauto|]. intros H. inversion H; subst; congruence.
    + split; [discriminate|]. intros H. inversion H; subst; congruence.
Qed.
Lemma values_lost : forall d i fuel l, ancestors fuel d i = Some l -> (exists j n, up d i j /\ get d j = Some n /\ n_attrs n = None) -> forall v, collect d (rev l) v = Err AttributeError.
Proof.
  intros d i fuel. revert i. induction fuel as [|fuel IH]; intros i l A (j & x & U & GJ & NJ) v; [discriminate|]. cbn [ancestors] in A. destruct (get d i) as [n|] eqn:G; [|discriminate].
  destruct (n_parent n) as [p|] eqn:P.
  - destruct (ancestors fuel d p) as [m|] eqn:AP; [|discriminate]. cbn in A. injection A as <-. cbn [rev]. rewrite collect_app. inversion U as [|? ? q ? G2 P2 U2]; subst.
    + assert (B : (exists w, collect d (rev m) v = Ok w) \/ collect d (rev m) v = Err AttributeError).
      { clear - AP. assert (H : forall i, In i (rev m) -> exists n, get d i = Some n).
        { intros y Y. apply in_rev in Y. revert p m AP Y. induction fuel as [|f IHf]; intros p m AP Y; [discriminate|]. cbn in AP. destruct (get d p) as [n|] eqn:G; [|discriminate]. destruct (n_parent n) as [q|]; [|injection AP as <-; destruct Y as [<-|[]]; eauto]. destruct (ancestors f d q) as [w|] eqn:E; [|discriminate]. cbn in AP. injection AP as <-. destruct Y as [<-|Y]; eauto. }
        revert v H. generalize (rev m). induction l as [|y r IHl]; intros v H; cbn; [left; eauto|]. destruct (H y (or_introl eq_refl)) as [n ->]. destruct (n_attrs n); [|now right]. apply IHl. intros z Z. apply H. now right. }
      destruct B as [[w ->] | ->]; cbn [rbind collect]; [|reflexivity]. rewrite GJ, NJ. reflexivity.
    + assert (q = p) by congruence. subst q. rewrite (IH p m AP) by eauto. reflexivity.
  - injection A as <-. cbn [rev app collect]. rewrite G. inversion U as [|? ? q ? G2 P2 U2]; subst; [|congruence]. replace x with n in NJ by congruence. now rewrite NJ.
Qed.

(** Siblings. *)
Lemma all2_forall2 : forall f (R : nat -> nat -> Prop) l m, (forall i j, In i l -> f i j = true <-> R i j) -> all2 f l m = true <-> Forall2 R l m.
Proof.
  intros f R. induction l as [|i l IH]; intros [|j m] H; cbn [all2]; [split; constructor|split; [discriminate|intros X; inversion X]|split; [discriminate|intros X; inversion X]|]. rewrite andb_true_iff, H, IH by (try (intros; apply H; now right); now left). split; [intros [A B]; constructor; auto|intros X; inversion X; auto].
Qed.
Lemma node_mask : forall c, is_node c = true <-> c <> CMask.
Proof. intros c. destruct c; cbn; split; intros; congruence. Qed.
Lemma same_alike : forall d, inv d -> forall fuel i j, List.length (heap d) - i <= fuel -> same fuel d i j = true <-> alike d i j.
Proof.
  intros d [L O] fuel. induction fuel as [|fuel IH]; intros i j F; cbn [same]; destruct (Nat.eqb_spec i j) as [->|N]; try (split; [intros _; apply alike_same|reflexivity]).
  - split; [discriminate|]. intros A. inversion A as [|? ? m n G1]; subst; [contradiction|]. apply get_lt in G1. lia.
  - destruct (get d i) as [m|] eqn:G1. 2: { split; [discriminate|]. intros A. inversion A; subst; congruence. }
    destruct (get d j) as [n|] eqn:G2. 2: { split; [discriminate|]. intros A. inversion A; subst; congruence. }
    assert (K : all2 (same fuel d) (n_kids m) (n_kids n) = true <-> Forall2 (alike d) (n_kids m) (n_kids n)).
    { apply all2_forall2. intros a b Ha. apply IH. destruct L as (_ & _ & _ & W). destruct (W i m G1) as [_ W']. destruct (W' a Ha) as (x & X1 & X2). pose proof (O a x i X1 X2). pose proof (get_lt _ _ _ G1). lia. }
    rewrite !andb_true_iff, K, !node_mask. split; [intros [[A B] C]; eapply alike_kids; eauto|]. intros A. inversion A; subst; [contradiction|]. repeat split; congruence.
Qed.
Lemma index_first : forall f pre j post, (forall i, In i pre -> f i = false) -> f j = true -> index_of f (pre ++ j :: post) = Some (List.length pre).
Proof. intros f. induction pre as [|i r IH]; intros j post A B; cbn [app index_of List.length]; [now rewrite B|]. rewrite (A i (or_introl eq_refl)), IH; auto. intros k K. apply A. now right. Qed.
Lemma sibling_at : forall d i n p m pre j post, inv d -> get d i = Some n -> n_cls n <> CMask -> n_parent n = Some p -> get d p = Some m -> n_kids m = pre ++ j :: post ->
  (forall k, In k pre -> ~ alike d k i) -> alike d j i -> sibling_index d i = Ok (Some (n_kids m, List.length pre)).
Proof.
  intros d i n p m pre j post I G NM P M K A B. unfold sibling_index. rewrite G, (proj2 (node_mask _) NM), P, M, K. cbn [negb]. rewrite index_first; auto.
  - intros k Hk. destruct (same _ d k i) eqn:E; [|reflexivity]. exfalso. apply (A k Hk). apply (same_alike d I) in E; [auto|lia].
  - apply (same_alike d I); auto. lia.
Qed.
Lemma next_at : forall d i n p m pre j post, inv d -> get d i = Some n -> n_cls n <> CMask -> n_parent n = Some p -> get d p = Some m -> n_kids m = pre ++ j :: post ->
  (forall k, In k pre -> ~ alike d k i) -> alike d j i -> next_sibling d i = Ok (hd_error post).
Proof.
  intros d i n p m pre j post I G NM P M K A B. unfold next_sibling. rewrite (sibling_at d i n p m pre j post) by auto. cbn [rbind]. rewrite K, nth_error_app2 by lia. replace (S (List.length pre) - List.length pre) with 1 by lia. destruct post; reflexivity.
Qed.
Lemma previous_at : forall d i n p m pre j post, inv d -> get d i = Some n -> n_cls n <> CMask -> n_parent n = Some p -> get d p = Some m -> n_kids m = pre ++ j :: post ->
  (forall k, In k pre -> ~ alike d k i) -> alike d j i -> previous_sibling d i = Ok (hd_error (rev pre)).
Proof.
  intros d i n p m pre j post I G NM P M K A B. unfold previous_sibling. rewrite (sibling_at d i n p m pre j post) by auto. cbn [rbind]. rewrite K. destruct (rev pre) as [|x r] eqn:R.
  - apply (f_equal (@rev nat)) in R. rewrite rev_involutive in R. subst pre. reflexivity.
  - apply (f_equal (@rev nat)) in R. rewrite rev_involutive in R. subst pre. cbn [rev]. rewrite app_length. cbn [List.length]. rewrite Nat.add_1_r, <- app_assoc. rewrite nth_error_app2 by lia. rewrite Nat.sub_diag. reflexivity.
Qed.
Lemma split_first : forall d i, inv d -> forall l, In i l -> exists pre j post, l = pre ++ j :: post /\ (forall k, In k pre -> ~ alike d k i) /\ alike d j i.
Proof.
  intros d i I l. induction l as [|x r IH]; intros H; [contradiction|]. destruct (same (List.length (heap d)) d x i) eqn:E.
  - exists [], x, r. split; [reflexivity|]. split; [intros k []|]. apply (same_alike d I) in E; [auto|lia].
  - destruct H as [->|H]. { exfalso. destruct (heap d); cbn [List.length same] in E; rewrite Nat.eqb_refl in E; discriminate. }
    destruct (IH H) as (pre & j & post & -> & A & B). exists (x :: pre), j, post. split; [reflexivity|]. split; [|auto]. intros k [<-|K]; [|auto]. intros AL. apply (same_alike d I (List.length (heap d))) in AL; [congruence|lia].
Qed.

(** Writing. *)
Lemma kept_tag : forall n, In n kept -> exists c, find (fun p => teqb (T (fst p)) n) element_classes = Some c /\ tag_of (snd c) = n /\ is_node (snd c) = true.
Proof. intros n H. cbn in H. repeat (destruct H as [<-|H]; [eexists; split; [vm_compute; reflexivity|split; reflexivity]|]). contradiction. Qed.
Lemma xml_tree : forall str d t i, represents svg_class d t i -> (forall e, element t e -> In (svg_name (tag_name e)) kept) -> forall fuel, size t <= fuel -> xml str fuel d i = Ok (unqualified t).
Proof.
  intros str d t. induction t as [tag a b kids IH] using xtree_induction. intros i R K fuel F. destruct fuel as [|fuel]; [cbn in F; lia|]. cbn [represents] in R. destruct R as (n & G & C & A & RR). cbn [xml]. rewrite G, C, A.
  pose proof (K _ (element_self _)) as KT. cbn [tag_name] in KT. destruct (kept_tag _ KT) as (c & E1 & E2 & E3). unfold svg_class. rewrite E1, E3, E2.
  assert (EA : each (xml str fuel d) (n_kids n) = Ok (map unqualified kids)).
  { assert (K' : forall k, In k kids -> forall e, element k e -> In (svg_name (tag_name e)) kept) by (intros k I e E; apply K; eapply element_kid; eauto). assert (F' : sizes kids <= fuel) by (cbn in F; unfold sizes; lia).
    clear - IH K' RR F'. revert RR. generalize (n_kids n). induction kids as [|k r IHr]; intros [|j l] RR; try contradiction; [reflexivity|]. inversion IH as [|? ? I1 I2]; subst. destruct RR as [R1 R2]. cbn [sizes fold_right] in F'. fold (sizes r) in F'. cbn [each map]. rewrite (I1 j R1); [|apply K'; now left|lia]. cbn [rbind]. rewrite (IHr I2) by (try (intros k0 Hk; apply K'; now right); try lia; auto). reflexivity. }
  rewrite EA. cbn [rbind unqualified]. f_equal. f_equal. rewrite map_map. rewrite <- (map_id a) at 2. apply map_ext. intros [x y]. reflexivity.
Qed.

(** Shadow trees. *)
Lemma shadow_induction : forall P : shadow -> Prop, (forall tag e l, Forall (fun o => match o with Some s => P s | None => True end) l -> P (Shadow tag e l)) -> forall s, P s.
Proof. intros P H. fix IH 1. intros [tag e l]. apply H. induction l as [|[s|] r R]; constructor; auto. Qed.
Fixpoint shadows (l : list (option shadow)) : list (text * bool * nat) :=
  match l with [] => [] | None :: _ => [] | Some c :: r => shadow_iter c ++ shadows r end.
Lemma shadow_eq : forall tag e l, shadow_iter (Shadow tag e l) = (tag, true, e) :: shadows l ++ [(tag, false, e)].
Proof. intros. reflexivity. Qed.
Lemma nested_app : forall a b, nested a -> nested b -> nested (a ++ b).
Proof. intros a b A B. induction A as [|tag i r s R IR S IS]; cbn; auto. rewrite <- app_assoc. cbn. constructor; auto. Qed.
Lemma shadow_nested : forall s, nested (shadow_iter s).
Proof.
  induction s as [tag e l IH] using shadow_induction. rewrite shadow_eq. constructor; [|constructor]. induction IH as [|o r H F IHF]; cbn; [constructor|]. destruct o as [s|]; [|constructor]. apply nested_app; auto.
Qed.
Lemma picked_app : forall b l m, picked b (l ++ m) = picked b l ++ picked b m.
Proof. intros. unfold picked. now rewrite filter_app, map_app. Qed.
Lemma shadow_picked : forall s, whole s -> picked true (shadow_iter s) = preorder s /\ picked false (shadow_iter s) = postorder s.
Proof.
  induction s as [tag e l IH] using shadow_induction. intros W. inversion W as [? ? ? WL]; subst. rewrite shadow_eq.
  assert (K : picked true (shadows l) = flat_map (fun o => match o with Some s => preorder s | None => [] end) l /\ picked false (shadows l) = flat_map (fun o => match o with Some s => postorder s | None => [] end) l).
  { clear W. induction WL as [|o r (s & -> & W) WR IHr]; [split; reflexivity|]. inversion IH as [|? ? I1 I2]; subst. destruct (I1 W) as [P1 P2]. destruct (IHr I2) as [Q1 Q2]. cbn [shadows flat_map]. rewrite !picked_app, P1, P2, Q1, Q2. auto. }
  destruct K as [K1 K2]. split.
  - change ((tag, e) :: picked true (shadows l ++ [(tag, false, e)]) = preorder (Shadow tag e l)). rewrite picked_app, K1. cbn [preorder]. f_equal. apply app_nil_r.
  - change (picked false (shadows l ++ [(tag, false, e)]) = postorder (Shadow tag e l)). rewrite picked_app, K2. reflexivity.
Qed.

(** Lookup in histories. *)
Definition registered (d : dom) : Prop := forall id j, dget id (objects d) = Some j -> exists n a, get d j = Some n /\ n_attrs n = Some a /\ dget (T "id"%string) a = Some (VText id).
Definition complete (d : dom) : Prop := forall j n a v, get d j = Some n -> n_attrs n = Some a -> dget (T "id"%string) a = Some v -> exists id k, v = VText id /\ dget id (objects d) = Some k.
Lemma dget_text : forall k (a : dict text), dget k (map (fun x => (fst x, VText (snd x))) a) = option_map VText (dget k a).
Proof. intros k a. induction a as [|[x y] r IH]; cbn; [reflexivity|]. destruct (teqb k x); [reflexivity|exact IH]. Qed.
Lemma registered_append : forall d p n d', registered d -> append_new d p n = Ok d' -> registered d'.
Proof.
  intros d p n d' K A. destruct (append_inv _ _ _ _ A) as (m & G & I). destruct (append_ok d p m n G I) as (d2 & A2 & L & O & J). assert (d2 = d') by congruence. subst d2.
  intros id j H. rewrite O in H. destruct (K id j H) as (x & a & G1 & N1 & D1). pose proof (get_lt _ _ _ G1) as LT. rewrite J. destruct (Nat.eqb_spec j p) as [->|N].
  - assert (x = m) by congruence. subst x. exists (with_kid m (List.length (heap d))), a. auto.
  - destruct (Nat.eqb_spec j (List.length (heap d))); [lia|]. exists x, a. auto.
Qed.
Lemma complete_append : forall d p n d', complete d -> append_new d p n = Ok d' -> (forall a, n_attrs n = Some a -> dget (T "id"%string) a = None) -> complete d'.
Proof.
  intros d p n d' K A N. destruct (append_inv _ _ _ _ A) as (m & G & I). destruct (append_ok d p m n G I) as (d2 & A2 & L & O & J). assert (d2 = d') by congruence. subst d2.
  intros j x a v H. rewrite O. rewrite J in H. destruct (Nat.eqb j p). { injection H as <-. cbn. apply K with (j := p). exact G. } destruct (Nat.eqb j _). { injection H as <-. intros E D. specialize (N a E). congruence. } apply (K j x a v H).
Qed.
Lemma lookup_step : forall d cur e d' r, parse_step (Some 0) d cur e = (d', r) -> (registered d -> registered d') /\ (complete d -> complete d').
Proof.
  intros d cur e d' r P. destruct e as [tag a| |]; cbn [parse_step] in P.
  - fold (made tag) in P. destruct (made tag) as [c|x]; [|inversion P; subst; auto]. destruct cur as [p|]; [|inversion P; subst; auto].
    destruct (append_new d p _) as [d2|x] eqn:A; [|inversion P; subst; auto]. destruct (append_inv _ _ _ _ A) as (m & G & I). destruct (append_ok d p m (mkNode c (Some (map (fun x => (fst x, VText (snd x))) a)) (Some p) (Some 0) []) G I) as (d3 & A2 & L & O & J). rewrite A in A2. injection A2 as <-. pose proof (get_lt _ _ _ G) as LT.
    destruct (dget (T "id") a) as [id|] eqn:D; inversion P; subst; clear P.
    + split.
      * intros K. pose proof (registered_append _ _ _ _ K A) as K2. intros x j H. cbn [objects] in H. rewrite dget_dset in H. destruct (teqb x id) eqn:E; [|exact (K2 x j H)]. apply teqb_true in E. subst x. injection H as <-.
        change (exists n b, get d2 (List.length (heap d)) = Some n /\ n_attrs n = Some b /\ dget (T "id") b = Some (VText id)). rewrite J. destruct (Nat.eqb_spec (List.length (heap d)) p); [lia|]. rewrite Nat.eqb_refl. eexists. eexists. split; [reflexivity|]. split; [reflexivity|]. rewrite dget_text, D. reflexivity.
      * intros K j x b v H E F. change (get d2 j = Some x) in H. cbn [objects]. rewrite J in H. destruct (Nat.eqb_spec j p).
        { injection H as <-. cbn in E. destruct (K p m b v G E F) as (y & k & -> & Y). exists y. rewrite O, dget_dset. destruct (teqb y id); eauto. }
        destruct (Nat.eqb_spec j (List.length (heap d))).
        { injection H as <-. cbn in E. injection E as <-. rewrite dget_text, D in F. cbn in F. injection F as <-. exists id. rewrite dget_dset, teqb_refl. eauto. }
        destruct (K j x b v H E F) as (y & k & -> & Y). exists y. rewrite O, dget_dset. destruct (teqb y id); eauto.
    + split; [intros K; eapply registered_append; eauto|]. intros K. eapply complete_append; eauto. cbn [n_attrs]. intros b E. injection E as <-. rewrite dget_text, D. reflexivity.
  - destruct cur as [i|]; [|inversion P; subst; auto]. destruct (get d i); inversion P; subst; auto.
  - inversion P; subst; auto.
Qed.
Lemma lookup_loop : forall evs d cur d' r, parse_loop (Some 0) evs d cur = (d', r) -> (registered d -> registered d') /\ (complete d -> complete d').
Proof.
  induction evs as [|e l IH]; intros d cur d' r H; cbn [parse_loop] in H; [inversion H; subst; auto|]. destruct (parse_step (Some 0) d cur e) as [d1 [c|x]] eqn:S.
  - destruct (lookup_step _ _ _ _ _ S). destruct (IH _ _ _ _ H). auto.
  - inversion H; subst. eapply lookup_step; eauto.
Qed.
Definition is_read (a : action) : Prop := match a with Read _ _ => True | Build _ _ _ _ => False end.
Lemma lookup_act : forall d a, inv d -> (registered d -> registered (act d a)) /\ (is_read a -> complete d -> complete (act d a)).
Proof.
  intros d a I. destruct a as [i evs|i name args kwargs]; cbn [act is_read].
  - unfold parse. destruct (get d i) as [n|] eqn:G; [|auto]. destruct (is_node (n_cls n)); [|auto]. destruct I as [L O]. rewrite (proj1 (proj2 L) i n G). destruct (parse_loop (Some 0) evs d (Some i)) as [d' r] eqn:P. cbn [fst]. destruct (lookup_loop _ _ _ _ _ P). auto.
  - split; [|contradiction]. intros K. unfold build. destruct (get d i) as [n|] eqn:G; [|exact K]. destruct (dget (dash name) bootstrap) as [c|]; [|exact K]. destruct (is_node (n_cls n)); [|exact K]. destruct (construct c args kwargs) as [a|x]; [|exact K].
    destruct (append_new d i _) as [d1|x] eqn:A; [|exact K]. cbn [fst]. eapply registered_append; eauto.
Qed.
Lemma registered_history : forall l, registered (history l).
Proof.
  intros l. unfold history. assert (H : forall m d, inv d -> registered d -> registered (fold_left act m d)). { induction m as [|a r IH]; intros d I K; cbn; auto. apply IH; [now apply inv_act|now apply lookup_act]. }
  apply H; [apply inv_new|]. intros id j E. discriminate.
Qed.
Lemma complete_history : forall l, Forall is_read l -> complete (history l).
Proof.
  intros l. unfold history. assert (H : forall m d, Forall is_read m -> inv d -> complete d -> complete (fold_left act m d)). { induction m as [|a r IH]; intros d F I K; cbn; auto. inversion F; subst. apply IH; [auto|now apply inv_act|now apply lookup_act]. }
  intros F. apply H; [auto|apply inv_new|]. intros [|[|j]] n a v G E D; cbn in G; try discriminate. injection G as <-. cbn in E. injection E as <-. discriminate.
Qed.
(** url(#id) *)
Lemma last_paren_id : forall id, ~ In "010"%char id -> last_paren (id ++ [")"%char]) = Some id.
Proof.
  induction id as [|c r IH]; intros N; [reflexivity|]. cbn [app last_paren]. destruct (aeqb c "010") eqn:E; [apply aeqb_eq in E; subst c; exfalso; apply N; now left|]. rewrite IH; [reflexivity|]. intros H. apply N. now right.
Qed.
Lemma iri_url : forall id, ~ In "010"%char id -> iri (T "url(#"%string ++ id ++ [")"%char]) = Some id.
Proof.
  intros id N. assert (H : iri_here (T "url(#"%string ++ id ++ [")"%char]) = Some id). { unfold iri_here. cbn. now apply last_paren_id. }
  cbn [T list_ascii_of_string app] in *. cbn [iri]. rewrite H. reflexivity.
Qed.
(** Values after building. *)
Lemma values_ok : forall d i n, inv d -> all_keyed d -> get d i = Some n -> (forall j m, up d i j -> get d j = Some m -> n_attrs m <> None) ->
  exists v, get_values d i = Ok v /\ forall k x, dget k v = Some x <-> nearest d k i x.
Proof.
  intros d i n I K G A. destruct (ancestors_all d I i (List.length (heap d)) n G (get_lt _ _ _ G)) as [l L]. unfold get_values. rewrite L. eapply values_near; eauto.
Qed.
