(** Proofs about the document tree: classes, lookup, writing. *)
Require Import ZArith QArith List Ascii String Bool Lia Arith.
Require Import Verif.Base Verif.Text_Proofs Verif.Dom_Model Verif.Dom_Spec Verif.Dom_Proofs.
Import ListNotations.
Open Scope nat_scope.

(** Names. *)
Lemma aeqb_eq : forall a b, aeqb a b = true <-> a = b.
Proof. intros a b. unfold aeqb. apply Ascii.eqb_eq. Qed.
Lemma starts_app : forall p s, starts_with p s = true -> exists r, s = p ++ r.
Proof.
  induction p as [|a p IH]; intros s H; [now exists s|]. destruct s as [|b s]; [discriminate|]. cbn [starts_with] in H. apply andb_prop in H. destruct H as [E H]. apply aeqb_eq in E. subst b. destruct (IH s H) as [r ->]. now exists r.
Qed.
Lemma app_starts : forall p r, starts_with p (p ++ r) = true.
Proof. induction p as [|a p IH]; intros r; [reflexivity|]. cbn [starts_with app]. rewrite IH. replace (aeqb a a) with true; [reflexivity|]. symmetry. now apply aeqb_eq. Qed.
Lemma strip_prefix_some : forall p s r, strip_prefix p s = Some r <-> s = p ++ r.
Proof.
  induction p as [|a p IH]; intros s r; cbn [strip_prefix app]; [split; congruence|]. destruct s as [|b s]; [split; discriminate|]. destruct (aeqb a b) eqn:E.
  - apply aeqb_eq in E. subst b. rewrite IH. split; [intros ->; reflexivity|intros H; now inversion H].
  - split; [discriminate|]. intros H. inversion H; subst. assert (aeqb a a = true) by now apply aeqb_eq. congruence.
Qed.
Lemma bootstrap_plain : forall k c, dget k bootstrap = Some c -> ~ In "}"%char k /\ ~ In "{"%char k.
Proof.
  intros k c. unfold bootstrap. cbn [dget]. repeat (destruct (teqb k _) eqn:E; [apply teqb_true in E; subst k; intros _; split; cbn; intros H; repeat (destruct H as [H|H]; [discriminate|]); exact H|clear E]). discriminate.
Qed.
Lemma ns_split : T "{http://www.w3.org/2000/svg}"%string = T "{http://www.w3.org/2000/svg"%string ++ ["}"%char].
Proof. reflexivity. Qed.
Lemma split_at : forall (x : ascii) w r uri name, ~ In x uri -> ~ In x w -> w ++ r = uri ++ x :: name ->
  (uri = w /\ r = x :: name) \/ exists c u, uri = w ++ c :: u /\ r = c :: u ++ x :: name.
Proof.
  intros x w r uri name. revert w. induction uri as [|c u IH]; intros w U NW E.
  - destruct w as [|b w]; [left; cbn in E; auto|]. cbn in E. injection E as E1 E2. exfalso. apply NW. now left.
  - destruct w as [|b w]; [right; exists c, u; cbn in E; auto|]. cbn [app] in E. injection E as E1 E2. subst b. destruct (IH w (fun H => U (or_intror H)) (fun H => NW (or_intror H)) E2) as [[Q1 Q2]|(c' & u' & Q1 & Q2)].
    + left. now rewrite Q1.
    + right. exists c', u'. now rewrite Q1.
Qed.
Lemma class_name : forall tag, et_name tag -> dget (strip_ns tag) bootstrap = dget (svg_name tag) bootstrap.
Proof.
  intros tag N. unfold strip_ns, svg_name. destruct (starts_with _ tag) eqn:S.
  2: { destruct (strip_prefix _ tag) as [r|] eqn:P; [|reflexivity]. apply strip_prefix_some in P. subst tag. rewrite ns_split, <- app_assoc, app_starts in S. discriminate. }
  apply starts_app in S. destruct S as [r ->]. destruct N as [N|(uri & name & E & U)]. { exfalso. apply N. left. reflexivity. }
  change (T "{http://www.w3.org/2000/svg"%string ++ r) with ("{"%char :: T "http://www.w3.org/2000/svg"%string ++ r) in E. assert (E' : T "http://www.w3.org/2000/svg"%string ++ r = uri ++ "}"%char :: name) by congruence. clear E.
  assert (K : (uri = T "http://www.w3.org/2000/svg"%string /\ r = "}"%char :: name) \/ exists c u, uri = T "http://www.w3.org/2000/svg"%string ++ c :: u /\ r = c :: u ++ "}"%char :: name).
  { apply split_at; auto. cbn. intros H. repeat (destruct H as [H|H]; [discriminate|]). exact H. }
  destruct K as [[-> ->]|(c & u & -> & ->)].
  - reflexivity.
  - change (skipn 28 (T "{http://www.w3.org/2000/svg"%string ++ c :: u ++ "}"%char :: name)) with (u ++ "}"%char :: name).
    destruct (dget (u ++ "}"%char :: name) bootstrap) as [k|] eqn:B. { exfalso. apply (proj1 (bootstrap_plain _ _ B)), in_or_app. right. now left. }
    destruct (strip_prefix (T "{http://www.w3.org/2000/svg}") (T "{http://www.w3.org/2000/svg" ++ c :: u ++ "}"%char :: name)) as [r|] eqn:P.
    + exfalso. apply strip_prefix_some in P. rewrite ns_split, <- app_assoc in P. apply app_inv_head in P. cbn in P. inversion P; subst. apply U. apply in_or_app. right. now left.
    + destruct (dget (T "{http://www.w3.org/2000/svg" ++ c :: u ++ "}"%char :: name) bootstrap) as [k|] eqn:B2; [|reflexivity]. exfalso. apply (proj2 (bootstrap_plain _ _ B2)). now left.
Qed.
Lemma class_svg : forall tag, et_name tag -> ~ In (svg_name tag) unreadable -> class tag = svg_class tag.
Proof.
  intros tag N U. unfold class, svg_class. rewrite (class_name tag N). unfold bootstrap, element_classes. cbn [dget find fst snd].
  assert (S : forall a b, teqb a b = teqb b a). { intros a b. destruct (teqb a b) eqn:E. - apply teqb_true in E. subst. now rewrite teqb_refl. - symmetry. apply teqb_false. apply teqb_false in E. congruence. }
  assert (F : forall s, In (T s) unreadable -> teqb (svg_name tag) (T s) = false). { intros s I. apply teqb_false. intros E. apply U. now rewrite E. }
  rewrite (F "defs"%string) by (cbn; tauto).
  rewrite (F "symbol"%string) by (cbn; tauto).
  rewrite (F "marker"%string) by (cbn; tauto).
  rewrite (F "style"%string) by (cbn; tauto).
  rewrite (F "metadata"%string) by (cbn; tauto).
  rewrite (F "lineargradient"%string) by (cbn; tauto).
  rewrite (F "radialgradient"%string) by (cbn; tauto).
  rewrite !(S _ (svg_name tag)). generalize (svg_name tag). intros n. clear. repeat (destruct (teqb n (T _)) eqn:?E at 1; [match goal with H : teqb n _ = true |- _ => apply teqb_true in H; subst n; vm_compute; reflexivity end|]). repeat match goal with H : teqb n _ = false |- _ => rewrite H; clear H end. reflexivity.
Qed.

(** What can be read. *)
Lemma element_kid_intro : forall t k e, In k (tag_kids t) -> element k e -> element t e.
Proof. intros [tag a b kids] k e I E. exact (element_kid tag a b kids k e I E). Qed.
Lemma dget_in : forall A k (d : dict A) v, dget k d = Some v -> In (k, v) d.
Proof. intros A k d v. induction d as [|[x w] r IH]; cbn [dget]; [discriminate|]. destruct (teqb k x) eqn:E; [apply teqb_true in E; subst x; intros H; left; congruence|right; auto]. Qed.
Lemma three_unreadable : forall n c, dget n bootstrap = Some c -> wants_three c = true <-> In n unreadable.
Proof.
  intros n c H. apply dget_in in H. assert (E : forallb (fun p => Bool.eqb (wants_three (snd p)) (existsb (teqb (fst p)) unreadable)) bootstrap = true) by (vm_compute; reflexivity).
  rewrite forallb_forall in E. specialize (E _ H). cbn [fst snd] in E. apply Bool.eqb_prop in E. rewrite E, existsb_exists. split.
  - intros (x & I & X). apply teqb_true in X. now subst x.
  - intros I. exists n. split; [auto|apply teqb_refl].
Qed.
Lemma unreadable_known : forall n, In n unreadable -> exists c, dget n bootstrap = Some c /\ wants_three c = true.
Proof. intros n H. cbn in H. repeat (destruct H as [<-|H]; [eexists; split; [vm_compute; reflexivity|reflexivity]|]). contradiction. Qed.
Lemma wants_class : forall tag, et_name tag -> wants_three (class tag) = true <-> In (svg_name tag) unreadable.
Proof.
  intros tag N. unfold class. rewrite (class_name tag N). destruct (dget (svg_name tag) bootstrap) as [c|] eqn:E.
  - now apply three_unreadable.
  - split; [discriminate|]. intros I. apply unreadable_known in I. destruct I as (c & I & _). congruence.
Qed.
Lemma mask_class : forall tag, et_name tag -> is_node (class tag) = false <-> svg_name tag = T "mask"%string.
Proof.
  intros tag N. unfold class. rewrite (class_name tag N). generalize (svg_name tag). intros n. destruct (dget n bootstrap) as [c|] eqn:D.
  - apply dget_in in D. assert (E : forallb (fun p => Bool.eqb (negb (is_node (snd p))) (teqb (fst p) (T "mask"))) bootstrap = true) by (vm_compute; reflexivity).
    rewrite forallb_forall in E. specialize (E _ D). cbn [fst snd] in E. apply Bool.eqb_prop in E. rewrite <- teqb_true, <- E. destruct (is_node c); cbn; split; congruence.
  - split; [discriminate|]. intros ->. discriminate D.
Qed.
Lemma legible_readable : forall t, legible t -> readable t = true.
Proof.
  induction t as [tag a b kids IH] using xtree_induction. intros L. cbn [readable]. destruct (L _ (element_self _)) as (N & U & M). cbn [tag_name tag_kids] in *.
  apply andb_true_intro. split; [apply andb_true_intro; split|].
  - apply negb_true_iff. destruct (wants_three (class tag)) eqn:W; [|reflexivity]. exfalso. apply U. now apply wants_class.
  - destruct (is_node (class tag)) eqn:I; [reflexivity|]. rewrite (M (proj1 (mask_class tag N) I)). reflexivity.
  - apply forallb_forall. intros k K. rewrite Forall_forall in IH. apply IH; auto. intros e E. apply L. eapply element_kid; eauto.
Qed.
Lemma illegible : forall t, (forall e, element t e -> et_name (tag_name e)) -> ~ legible t -> readable t = false.
Proof.
  intros t N NL. destruct (readable t) eqn:R; [|reflexivity]. exfalso. apply NL. clear NL. revert N R. induction t as [tag a b kids IH] using xtree_induction. intros N R e E. split; [auto|].
  cbn [readable] in R. apply andb_prop in R. destruct R as [R RK]. apply andb_prop in R. destruct R as [W M]. inversion E as [|? ? ? ? k ? K EK]; subst.
  - pose proof (N _ (element_self _)) as NT. cbn [tag_name tag_kids] in *. split.
    + intros U. apply (wants_class tag NT) in U. rewrite U in W. discriminate.
    + intros S. apply (mask_class tag NT) in S. rewrite S in M. destruct kids; [reflexivity|discriminate].
  - rewrite Forall_forall in IH. rewrite forallb_forall in RK. refine (proj2 (IH k K _ (RK k K) e EK)). intros e' E'. apply N. eapply element_kid; eauto.
Qed.
Lemma rep_represents : forall lo hi d t i, (forall e, element t e -> class (tag_name e) = svg_class (tag_name e)) -> rep_in lo hi d t i -> represents svg_class d t i.
Proof.
  intros lo hi d t. induction t as [tag a b kids IH] using xtree_induction. intros i C. rewrite rep_in_eq. intros (_ & n & G & K & A & _ & R). cbn [represents]. exists n. split; [auto|]. split; [rewrite K; apply (C _ (element_self _))|]. split; [auto|].
  assert (C' : forall k, In k kids -> forall e, element k e -> class (tag_name e) = svg_class (tag_name e)) by (intros k I e E; apply C; eapply element_kid; eauto). clear - IH C' R.
  revert R. generalize (n_kids n). induction kids as [|k r IHr]; intros [|j l] R; cbn [reps_in] in *; auto. inversion IH as [|? ? K1 K2]; subst. destruct R as [R1 R2]. split; [apply K1; auto; apply C'; now left|apply IHr; auto; intros k' I'; apply C'; now right].
Qed.

(** Reading. *)
Lemma parse_events : forall d i n evs t, get d i = Some n -> is_node (n_cls n) = true -> reports evs t -> parse d i evs = (let '(d, r) := parse_loop (n_doc n) (events t) d (Some i) in (d, rmap (fun _ => tt) r)).
Proof. intros d i n evs t G N R. unfold parse. rewrite G, N, <- loop_ns, R. reflexivity. Qed.
Lemma parse_reads : forall d i n z evs t, get d i = Some n -> n_cls n <> CMask -> n_doc n = Some z -> reports evs t -> legible t ->
  exists d', parse d i evs = (d', Ok tt) /\ grown d d' i n [List.length (heap d)] /\ objects d' = dupdate (objects d) (ids (List.length (heap d)) t) /\
    rep_in (List.length (heap d)) (List.length (heap d')) d' t (List.length (heap d)).
Proof.
  intros d i n z evs t G M D R L. assert (I : is_node (n_cls n) = true) by (destruct (n_cls n); try reflexivity; contradiction).
  destruct (reads_tree t (legible_readable t L) z d i n G I) as (d' & P & GR & _ & O & RP). exists d'. rewrite (parse_events d i n evs t G I R), D, P. auto.
Qed.
Lemma legible_class : forall t, legible t -> forall e, element t e -> class (tag_name e) = svg_class (tag_name e).
Proof. intros t L e E. destruct (L e E) as (N & U & _). now apply class_svg. Qed.

(** Lookup. *)
Lemma dget_dset : forall A k k' (v : A) d, dget k (dset k' v d) = if teqb k k' then Some v else dget k d.
Proof.
  intros A k k' v d. induction d as [|[x w] r IH]; cbn [dset dget]; [reflexivity|]. destruct (teqb k' x) eqn:E; cbn [dget].
  - apply teqb_true in E. subst x. destruct (teqb k k'); reflexivity.
  - rewrite IH. destruct (teqb k x) eqn:E2; [|reflexivity]. apply teqb_true in E2. subst x. destruct (teqb k k') eqn:E3; [|reflexivity]. apply teqb_true in E3. subst k'. rewrite teqb_refl in E. discriminate.
Qed.
Definition free (id : text) (t : xtree) : Prop := forall path e, sub t path = Some e -> ~ has_id id e.
Lemma ids_free : forall id t, free id t -> forall i o, dget id (dupdate o (ids i t)) = dget id o.
Proof.
  intros id t. induction t as [tag a b kids IH] using xtree_induction. intros F i o. rewrite ids_eq, dupdate_app.
  assert (K : forall l, Forall (fun t => free id t -> forall i o, dget id (dupdate o (ids i t)) = dget id o) l -> (forall k t, nth_error l k = Some t -> free id t) -> forall i o, dget id (dupdate o (ids_all i l)) = dget id o).
  { induction l as [|k r IHr]; intros FA FR j o'; [reflexivity|]. inversion FA as [|? ? F1 F2]; subst. cbn [ids_all]. rewrite dupdate_app, IHr; auto. 2: { intros x t' X. apply (FR (S x)). exact X. } apply F1. apply (FR 0). reflexivity. }
  rewrite K; auto. 2: { intros k t' N path e S. apply (F (k :: path)). cbn [sub tag_kids]. now rewrite N. }
  unfold own_id. destruct (dget (T "id") a) as [x|] eqn:E; [|reflexivity]. cbn [dupdate fold_left fst snd]. rewrite dget_dset. destruct (teqb id x) eqn:E2; [|reflexivity]. apply teqb_true in E2. subst x. exfalso. apply (F [] (X tag a b kids)); [reflexivity|exact E].
Qed.
Lemma ids_all_app : forall l m i, ids_all i (l ++ m) = ids_all i l ++ ids_all (i + sizes l) m.
Proof. induction l as [|t r IH]; intros m i; cbn [ids_all app sizes fold_right]; [now rewrite Nat.add_0_r|]. fold (sizes r). rewrite IH, <- app_assoc. f_equal. f_equal. f_equal. lia. Qed.
Lemma offsets_nth : forall l k t i, nth_error l k = Some t -> nth_error (offsets i l) k = Some (i + sizes (firstn k l)).
Proof.
  induction l as [|t r IH]; intros k t' i N; destruct k as [|k]; cbn [nth_error] in N; try discriminate; cbn [offsets nth_error firstn sizes fold_right]; [now rewrite Nat.add_0_r|]. fold (sizes (firstn k r)). rewrite (IH k t' _ N). f_equal. lia.
Qed.
Lemma reps_nth : forall lo hi d l k t i, nth_error l k = Some t -> reps_in lo hi d l (offsets i l) -> rep_in lo hi d t (i + sizes (firstn k l)).
Proof.
  intros lo hi d. induction l as [|t r IH]; intros k t' i N R; destruct k as [|k]; cbn [nth_error] in N; try discriminate; cbn [offsets reps_in] in R; destruct R as [R1 R2].
  - inversion N; subst. cbn. now rewrite Nat.add_0_r.
  - cbn [firstn sizes fold_right]. fold (sizes (firstn k r)). rewrite Nat.add_assoc. exact (IH k t' _ N R2).
Qed.
Lemma ids_last : forall id path t e, sub t path = Some e -> has_id id e -> (forall q f, sub t q = Some f -> has_id id f -> q = path \/ before q path) ->
  forall lo hi d i o, rep_in lo hi d t i -> exists j, walk d i path = Some j /\ dget id (dupdate o (ids i t)) = Some j.
Proof.
  intros id path. induction path as [|k path IH]; intros [tag a b kids] e SB H L lo hi d i o R; rewrite ids_eq, dupdate_app; pose proof R as R0; apply rep_in_eq in R0; destruct R0 as (_ & n & G & _ & _ & K & RR).
  - exists i. split; [reflexivity|]. cbn [sub] in SB. injection SB as <-. unfold has_id in H. cbn [tag_attrs] in H. unfold own_id. rewrite H.
    assert (F : forall l i o, (forall k t, nth_error l k = Some t -> free id t) -> dget id (dupdate o (ids_all i l)) = dget id o).
    { induction l as [|t r IHr]; intros j o' FR; [reflexivity|]. cbn [ids_all]. rewrite dupdate_app, IHr. 2: { intros x t' X. apply (FR (S x)). exact X. } apply ids_free. apply (FR 0). reflexivity. }
    rewrite F. { cbn [dupdate fold_left fst snd]. now rewrite dget_dset, teqb_refl. }
    intros k t N q f Q HF. destruct (L (k :: q) f) as [E|E]; auto; [cbn [sub tag_kids]; now rewrite N|discriminate|inversion E].
  - cbn [sub tag_kids] in SB. destruct (nth_error kids k) as [c|] eqn:N; [|discriminate]. cbn [walk]. rewrite G, K in *. rewrite (offsets_nth _ _ _ (S i) N).
    pose proof (reps_nth _ _ _ _ _ _ _ N RR) as RC. assert (SK : skipn k kids = c :: skipn (S k) kids).
    { clear - N. revert k N. induction kids as [|x r IH]; intros [|k] N; cbn in *; try discriminate; [congruence|]. now apply IH. }
    assert (EA : ids_all (S i) kids = ids_all (S i) (firstn k kids) ++ ids (S i + sizes (firstn k kids)) c ++ ids_all (S i + sizes (firstn k kids) + size c) (skipn (S k) kids)).
    { rewrite <- (firstn_skipn k kids) at 1. rewrite SK, ids_all_app. reflexivity. }
    rewrite EA, !dupdate_app.
    assert (F : forall l i o, (forall k t, nth_error l k = Some t -> free id t) -> dget id (dupdate o (ids_all i l)) = dget id o).
    { induction l as [|t r IHr]; intros j o' FR; [reflexivity|]. cbn [ids_all]. rewrite dupdate_app, IHr. 2: { intros x t' X. apply (FR (S x)). exact X. } apply ids_free. apply (FR 0). reflexivity. }
    rewrite F.
    + apply (IH c e SB H) with (lo := lo) (hi := hi); [|exact RC]. intros q f Q HF. destruct (L (k :: q) f) as [E|E]; auto; [cbn [sub tag_kids]; now rewrite N|left; congruence|right]. inversion E; subst; [lia|auto].
    + intros x t NX q f Q HF. assert (NX' : nth_error kids (S k + x) = Some t). { rewrite <- NX. clear. revert kids. generalize (S k). induction n as [|n IH]; intros [|y r]; cbn; auto. now destruct x. }
      destruct (L (S k + x :: q) f) as [E|E]; auto; [change (match nth_error kids (S k + x) with Some c => sub c q | None => None end = Some f); now rewrite NX'|injection E as E1 _; lia|inversion E; subst; lia].
Qed.
