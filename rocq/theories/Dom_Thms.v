(** Theorems about the document tree of nodes.py: reading, lookup, inherited values, siblings, builders, writing. *)
Require Import ZArith QArith List Ascii String Bool Lia Arith.
Require Import Verif.Base Verif.Text_Proofs Verif.Dom_Model Verif.Dom_Spec Verif.Dom_Proofs Verif.Dom_Tree_Proofs Verif.Dom_Inv_Proofs.
Import ListNotations.
Open Scope nat_scope.

(** A small source for the examples. *)
Definition leaf (tag : string) (a : list (string * string)) : xtree := X (T tag) (map (fun x => (T (fst x), T (snd x))) a) [] [].
Definition sample : xtree :=
  X (T "{http://www.w3.org/2000/svg}svg") [(T "id", T "top"); (T "fill", T "red")] []
    [X (T "g") [(T "id", T "x")] [] [leaf "rect" [("id", "x"); ("fill", "blue")]; leaf "path" [("d", "M0,0")]]; leaf "foreign" []]%string.
Definition sample_events : list ev := StartNs [] (T "http://www.w3.org/2000/svg"%string) :: events sample.
Definition sample_history : list action := [Read 0 sample_events].
(** Every element of a tree, for checking a condition on the examples. *)
Fixpoint all_elements (t : xtree) : list xtree := match t with X _ _ _ kids => t :: flat_map all_elements kids end.
Lemma element_all : forall t e, element t e -> In e (all_elements t).
Proof. intros t e E. induction E as [[tag a b kids]|tag a b kids k t I E IH]; [now left|]. right. apply in_flat_map. eauto. Qed.
Lemma sample_reports : reports sample_events sample.
Proof. reflexivity. Qed.
Lemma sample_names : forall e, element sample e -> et_name (tag_name e).
Proof.
  intros e E. apply element_all in E. cbn [all_elements sample leaf flat_map map app] in E.
  destruct E as [<-|[<-|[<-|[<-|[<-|[]]]]]]; cbn [tag_name].
  - right. exists (T "http://www.w3.org/2000/svg"%string), (T "svg"%string). split; [reflexivity|]. cbn. intros H. repeat (destruct H as [H|H]; [discriminate|]). exact H.
  - left. cbn. intros H. repeat (destruct H as [H|H]; [discriminate|]). exact H.
  - left. cbn. intros H. repeat (destruct H as [H|H]; [discriminate|]). exact H.
  - left. cbn. intros H. repeat (destruct H as [H|H]; [discriminate|]). exact H.
  - left. cbn. intros H. repeat (destruct H as [H|H]; [discriminate|]). exact H.
Qed.
Lemma sample_legible : legible sample.
Proof.
  intros e E. split; [now apply sample_names|]. apply element_all in E. cbn [all_elements sample leaf flat_map map app] in E.
  assert (B : forall e, In e (all_elements sample) -> existsb (teqb (svg_name (tag_name e))) unreadable = false /\ teqb (svg_name (tag_name e)) (T "mask"%string) = false).
  { assert (H : forallb (fun e => negb (existsb (teqb (svg_name (tag_name e))) unreadable) && negb (teqb (svg_name (tag_name e)) (T "mask"%string))) (all_elements sample) = true) by (vm_compute; reflexivity).
    intros f F. rewrite forallb_forall in H. specialize (H f F). apply andb_prop in H. destruct H as [H1 H2]. apply negb_true_iff in H1, H2. auto. }
  destruct (B e E) as [B1 B2]. split.
  - intros I. assert (existsb (teqb (svg_name (tag_name e))) unreadable = true) by (apply existsb_exists; exists (svg_name (tag_name e)); split; [auto|apply teqb_refl]). congruence.
  - intros M. apply teqb_false in B2. contradiction.
Qed.

(** C60: reading XML below any object of any document adds one tree with the classes, attributes and shape of the source, and
    changes nothing else. Partial: sources without the elements listed in [unreadable] and with empty masks. *)
Theorem parse_rebuilds_partial : forall l i n evs t, get (history l) i = Some n -> n_cls n <> CMask -> reports evs t -> legible t ->
  exists d' n' r, parse (history l) i evs = (d', Ok tt) /\ get d' i = Some n' /\ n_kids n' = n_kids n ++ [r] /\ n_cls n' = n_cls n /\ n_attrs n' = n_attrs n /\
    represents svg_class d' t r /\ (forall j m, get (history l) j = Some m -> j <> i -> get d' j = Some m).
Proof.
  intros l i n evs t G M R L. destruct (inv_history l) as [LK _]. destruct (parse_reads (history l) i n 0 evs t G M (proj1 (proj2 LK) i n G) R L) as (d' & P & (G' & S) & _ & RP).
  eexists d', _, _. split; [exact P|]. split; [exact G'|]. cbn [n_kids n_cls n_attrs]. repeat split; auto; [eapply rep_represents; [apply legible_class; auto|exact RP]|]. intros j m GJ N. rewrite S; auto. eapply get_lt; eauto.
Qed.
Example parse_rebuilds_ex : legible sample /\ reports sample_events sample /\
  snd (parse new_document 0 sample_events) = Ok tt /\ map n_cls (heap (history sample_history)) = [CDocument; CSVG; CGroup; CRect; CPath; CNode].
Proof. split; [exact sample_legible|]. split; [exact sample_reports|]. split; vm_compute; reflexivity. Qed.
Print Assumptions parse_rebuilds_partial.

(** All other trees raise. *)
Theorem parse_raises : forall l i n evs t, get (history l) i = Some n -> reports evs t -> (forall e, element t e -> et_name (tag_name e)) -> ~ legible t ->
  exists d' x, parse (history l) i evs = (d', Err x).
Proof.
  intros l i n evs t G R N NL. destruct (inv_history l) as [LK _]. destruct (raises_tree t (illegible t N NL) 0 (history l) i n G) as (d' & x & P).
  destruct (is_node (n_cls n)) eqn:IN; [|exists (history l), AttributeError; unfold parse; rewrite G, IN; reflexivity].
  exists d', x. rewrite (parse_events _ i n evs t G IN R), (proj1 (proj2 LK) i n G), P. reflexivity.
Qed.
Example parse_raises_ex : ~ legible (X (T "svg"%string) [] [] [leaf "defs"%string []]).
Proof. intros L. destruct (L (leaf "defs"%string [])) as (_ & U & _). { eapply element_kid; [now left|constructor]. } apply U. cbn. tauto. Qed.
Print Assumptions parse_raises.
Theorem parse_defs_refuted : exists evs t, reports evs t /\ snd (parse new_document 0 evs) = Err TypeError.
Proof. exists (events (X (T "svg"%string) [] [] [leaf "defs"%string []])), (X (T "svg"%string) [] [] [leaf "defs"%string []]). split; [reflexivity|vm_compute; reflexivity]. Qed.
Print Assumptions parse_defs_refuted.
Theorem parse_mask_refuted : exists evs t, reports evs t /\ snd (parse new_document 0 evs) = Err AttributeError.
Proof. exists (events (X (T "svg"%string) [] [] [X (T "mask"%string) [] [] [leaf "rect"%string []]])), (X (T "svg"%string) [] [] [X (T "mask"%string) [] [] [leaf "rect"%string []]]). split; [reflexivity|vm_compute; reflexivity]. Qed.
Print Assumptions parse_mask_refuted.

(** C61: what is read and written again is the same tree. Partial: the elements listed in [kept]; text is lost. *)
Theorem write_back_partial : forall str l i n evs t, get (history l) i = Some n -> n_cls n <> CMask -> reports evs t -> legible t ->
  (forall e, element t e -> In (svg_name (tag_name e)) kept) ->
  exists d' n' r, parse (history l) i evs = (d', Ok tt) /\ get d' i = Some n' /\ n_kids n' = n_kids n ++ [r] /\
    exists fuel, forall f, fuel <= f -> xml str f d' r = Ok (unqualified t).
Proof.
  intros str l i n evs t G M R L K. destruct (parse_rebuilds_partial l i n evs t G M R L) as (d' & n' & r & P & G' & KD & _ & _ & RP & _). exists d', n', r. repeat split; auto. exists (size t). intros f F. now apply xml_tree.
Qed.
Definition plain_sample : xtree := X (T "svg") [(T "fill", T "red")] [] [X (T "g") [] [] [leaf "rect" [("x", "1")]; leaf "path" [("d", "M0,0")]]; leaf "text" []]%string.
Example write_back_ex : (forall e, element plain_sample e -> In (svg_name (tag_name e)) kept) /\ unqualified plain_sample = plain_sample /\
  xml (fun _ => []) 10 (history [Read 0 (events plain_sample)]) 1 = Ok plain_sample.
Proof.
  split; [|split; vm_compute; reflexivity]. intros e E. apply element_all in E.
  assert (H : forallb (fun e => existsb (teqb (svg_name (tag_name e))) kept) (all_elements plain_sample) = true) by (vm_compute; reflexivity).
  rewrite forallb_forall in H. specialize (H e E). apply existsb_exists in H. destruct H as (x & I & X). apply teqb_true in X. now rewrite X.
Qed.
Print Assumptions write_back_partial.
Theorem write_text_refuted : exists t d' r u, legible t /\ parse new_document 0 (events t) = (d', Ok tt) /\ xml (fun _ => []) 10 d' r = Ok u /\ represents svg_class d' t r /\ u <> t.
Proof.
  exists (X (T "title"%string) [] (T "hello"%string) []). eexists. exists 1. eexists. split; [|split; [vm_compute; reflexivity|]].
  - intros e E. apply element_all in E. destruct E as [<-|[]]. split; [left; cbn; intros H; repeat (destruct H as [H|H]; [discriminate|]); exact H|]. split; [|reflexivity]. intros H. vm_compute in H. repeat (destruct H as [H|H]; [discriminate|]). exact H.
  - split; [vm_compute; reflexivity|]. split; [|discriminate]. cbn [represents]. eexists. split; [reflexivity|]. split; [vm_compute; reflexivity|]. split; [reflexivity|exact I].
Qed.
Print Assumptions write_text_refuted.
Theorem write_name_refuted : exists t u, xml (fun _ => []) 10 (fst (parse new_document 0 (events t))) 1 = Ok u /\ snd (parse new_document 0 (events t)) = Ok tt /\ tag_name t = T "a"%string /\ tag_name u = T "hyperlink"%string /\ svg_class (tag_name u) = CNode.
Proof. exists (leaf "a"%string []). eexists. split; [vm_compute; reflexivity|]. split; [vm_compute; reflexivity|]. split; [reflexivity|]. split; reflexivity. Qed.
Print Assumptions write_name_refuted.

(** C62: after reading a tree, looking up an id gives the last element that carries it, and ids that are not in the tree are
    found as before. *)
Theorem lookup_last : forall l i n evs t id path e, get (history l) i = Some n -> n_cls n <> CMask -> reports evs t -> legible t ->
  sub t path = Some e -> has_id id e -> (forall q f, sub t q = Some f -> has_id id f -> q = path \/ before q path) ->
  exists d' n' r j, parse (history l) i evs = (d', Ok tt) /\ get d' i = Some n' /\ n_kids n' = n_kids n ++ [r] /\
    walk d' r path = Some j /\ get_element_by_id d' id = Some j.
Proof.
  intros l i n evs t id path e G M R L S H B. destruct (inv_history l) as [LK _]. destruct (parse_reads (history l) i n 0 evs t G M (proj1 (proj2 LK) i n G) R L) as (d' & P & (G' & _) & O & RP).
  destruct (ids_last id path t e S H B _ _ d' _ (objects (history l)) RP) as (j & W & D). eexists d', _, _, j. split; [exact P|]. split; [exact G'|]. split; [reflexivity|]. split; [exact W|]. unfold get_element_by_id. now rewrite O.
Qed.
Example lookup_last_ex : sub sample [0; 0] = Some (leaf "rect" [("id", "x"); ("fill", "blue")])%string /\ has_id (T "x"%string) (leaf "rect" [("id", "x"); ("fill", "blue")])%string /\
  (forall q f, sub sample q = Some f -> has_id (T "x"%string) f -> q = [0; 0] \/ before q [0; 0]) /\ get_element_by_id (history sample_history) (T "x"%string) = Some 3.
Proof.
  split; [reflexivity|]. split; [reflexivity|]. split; [|vm_compute; reflexivity]. intros q f S H. destruct q as [|[|[|k]] q].
  - right. constructor.
  - destruct q as [|[|[|k]] q]; [right; apply before_deep; constructor| | |destruct k; discriminate S].
    + destruct q as [|[|k] q]; [now left|discriminate S|discriminate S].
    + destruct q as [|[|k] q]; [|discriminate|discriminate]. injection S as <-. discriminate.
  - destruct q as [|[|k] q]; [|discriminate|discriminate]. injection S as <-. discriminate.
  - destruct k; discriminate.
Qed.
Print Assumptions lookup_last.
Theorem lookup_other : forall l i n evs t id, get (history l) i = Some n -> n_cls n <> CMask -> reports evs t -> legible t ->
  (forall q f, sub t q = Some f -> ~ has_id id f) -> get_element_by_id (fst (parse (history l) i evs)) id = get_element_by_id (history l) id.
Proof.
  intros l i n evs t id G M R L F. destruct (inv_history l) as [LK _]. destruct (parse_reads (history l) i n 0 evs t G M (proj1 (proj2 LK) i n G) R L) as (d' & P & _ & O & _). rewrite P. cbn [fst]. unfold get_element_by_id. rewrite O. now apply ids_free.
Qed.
Example lookup_other_ex : (forall q f, sub plain_sample q = Some f -> ~ has_id (T "x"%string) f) /\ get_element_by_id (history (sample_history ++ [Read 0 (events plain_sample)])) (T "x"%string) = Some 3.
Proof.
  split; [|vm_compute; reflexivity]. intros q f S H. destruct q as [|[|[|k]] q]; [injection S as <-; discriminate| | |destruct k; discriminate].
  - destruct q as [|[|[|k]] q]; [injection S as <-; discriminate| | |destruct k; discriminate]; (destruct q as [|[|k] q]; [injection S as <-; discriminate|discriminate|discriminate]).
  - destruct q as [|[|k] q]; [injection S as <-; discriminate|discriminate|discriminate].
Qed.
Print Assumptions lookup_other.
(** In any history, what is found carries the id; where only sources were read, every id is found. *)
Theorem lookup_sound : forall l id j, get_element_by_id (history l) id = Some j ->
  exists n a, get (history l) j = Some n /\ n_attrs n = Some a /\ dget (T "id"%string) a = Some (VText id).
Proof. intros l id j H. exact (registered_history l id j H). Qed.
Example lookup_sound_ex : get_element_by_id (history sample_history) (T "top"%string) = Some 1.
Proof. vm_compute. reflexivity. Qed.
Print Assumptions lookup_sound.
Theorem lookup_complete : forall l, (forall a, In a l -> exists i evs, a = Read i evs) -> forall j n a v, get (history l) j = Some n -> n_attrs n = Some a ->
  dget (T "id"%string) a = Some v -> exists id k, v = VText id /\ get_element_by_id (history l) id = Some k.
Proof.
  intros l R j n a v G A D. apply (complete_history l) with (j := j) (n := n) (a := a); auto. apply Forall_forall. intros x X. destruct (R x X) as (i & evs & ->). exact I.
Qed.
Example lookup_complete_ex : exists n a, get (history sample_history) 2 = Some n /\ n_attrs n = Some a /\ dget (T "id"%string) a = Some (VText (T "x"%string)).
Proof. eexists. eexists. split; [vm_compute; reflexivity|]. split; [reflexivity|]. vm_compute. reflexivity. Qed.
Print Assumptions lookup_complete.
Theorem lookup_builder_refuted : exists l j n a, get (history l) j = Some n /\ n_attrs n = Some a /\ dget (T "id"%string) a = Some (VText (T "x"%string)) /\ get_element_by_id (history l) (T "x"%string) = None.
Proof. exists [Build 0 (T "rect"%string) [] [(T "id"%string, VText (T "x"%string))]], 1. eexists. eexists. split; [vm_compute; reflexivity|]. split; [reflexivity|]. split; vm_compute; reflexivity. Qed.
Print Assumptions lookup_builder_refuted.
Theorem lookup_url : forall d id, ~ In "010"%char id -> get_element_by_url d (T "url(#"%string ++ id ++ [")"%char]) = get_element_by_id d id.
Proof. intros d id N. unfold get_element_by_url. rewrite (iri_url id N). reflexivity. Qed.
Example lookup_url_ex : get_element_by_url (history sample_history) (T "url(#top)"%string) = Some 1.
Proof. vm_compute. reflexivity. Qed.
Print Assumptions lookup_url.
Theorem lookup_hash_refuted : exists d id, get_element_by_id d id <> None /\ get_element_by_url d ("#"%char :: id) = None.
Proof. exists (history sample_history), (T "top"%string). split; [vm_compute; discriminate|vm_compute; reflexivity]. Qed.
Print Assumptions lookup_hash_refuted.
Theorem lookup_two_urls_refuted : exists d id rest, get_element_by_id d id <> None /\ get_element_by_url d (T "url(#"%string ++ id ++ [")"%char] ++ rest) = None.
Proof. exists (history sample_history), (T "top"%string), (T " url(#x)"%string). split; [vm_compute; discriminate|vm_compute; reflexivity]. Qed.
Print Assumptions lookup_two_urls_refuted.

(** C63: the value of a key on an element is its own or that of the nearest ancestor, in any history. *)
Theorem values_nearest : forall l i n, Forall sane l -> get (history l) i = Some n -> (forall j m, up (history l) i j -> get (history l) j = Some m -> n_attrs m <> None) ->
  exists v, get_values (history l) i = Ok v /\ forall k x, dget k v = Some x <-> nearest (history l) k i x.
Proof. intros l i n S G A. eapply values_ok; eauto; [apply inv_history|now apply keyed_history]. Qed.
Example values_nearest_ex : Forall sane sample_history /\ prop (history sample_history) 3 (T "fill"%string) = Ok (Some (VText (T "blue"%string))) /\
  prop (history sample_history) 4 (T "fill"%string) = Ok (Some (VText (T "red"%string))) /\ prop (history sample_history) 4 (T "stroke"%string) = Ok None.
Proof.
  split; [|repeat split; vm_compute; reflexivity]. constructor; [|constructor]. intros tag a H. cbn [sample_events events sample flat_map app leaf map In] in H.
  repeat (destruct H as [H|H]; [try discriminate H; injection H as <- <-; unfold keyed; cbn; repeat constructor; cbn; intuition discriminate|]). contradiction.
Qed.
Print Assumptions values_nearest.
(** Otherwise AttributeError: where an ancestor was made by the builder of image or mask. *)
Theorem values_raise : forall l i n, get (history l) i = Some n -> (exists j m, up (history l) i j /\ get (history l) j = Some m /\ n_attrs m = None) -> get_values (history l) i = Err AttributeError.
Proof.
  intros l i n G A. pose proof (inv_history l) as I. destruct (ancestors_all _ I i (List.length (heap (history l))) n G (get_lt _ _ _ G)) as [a L]. unfold get_values. rewrite L. eapply values_lost; eauto.
Qed.
Example values_raise_ex : exists n, get (history [Build 0 (T "image"%string) [] []]) 1 = Some n /\ n_attrs n = None.
Proof. eexists. split; [vm_compute; reflexivity|reflexivity]. Qed.
Print Assumptions values_raise.

(** C64: siblings. The step is from the first child of the same shape: partial where no earlier sibling is alike. *)
Theorem siblings_partial : forall l i n p m pre post, get (history l) i = Some n -> n_cls n <> CMask -> n_parent n = Some p -> get (history l) p = Some m -> n_kids m = pre ++ i :: post ->
  (forall k, In k pre -> ~ alike (history l) k i) -> next_sibling (history l) i = Ok (hd_error post) /\ previous_sibling (history l) i = Ok (hd_error (rev pre)).
Proof.
  intros l i n p m pre post G NM P M K A. pose proof (inv_history l) as I. split; [eapply next_at|eapply previous_at]; eauto; constructor.
Qed.
Example siblings_ex : let d := history sample_history in next_sibling d 2 = Ok (Some 5) /\ previous_sibling d 5 = Ok (Some 2) /\ next_sibling d 5 = Ok None /\ previous_sibling d 2 = Ok None /\
  exists n, get d 5 = Some n /\ n_cls n <> CMask /\ n_parent n = Some 1 /\ exists m, get d 1 = Some m /\ n_kids m = [2] ++ [5] /\ ~ alike d 2 5.
Proof.
  cbn zeta. split; [vm_compute; reflexivity|]. split; [vm_compute; reflexivity|]. split; [vm_compute; reflexivity|]. split; [vm_compute; reflexivity|]. eexists. split; [vm_compute; reflexivity|]. split; [discriminate|]. split; [reflexivity|]. eexists. split; [vm_compute; reflexivity|]. split; [reflexivity|].
  intros A. apply (same_alike _ (inv_history sample_history) 10) in A; [vm_compute in A; discriminate|]. change (List.length (heap (history sample_history))) with 6. lia.
Qed.
Print Assumptions siblings_partial.
(** For every object: the step from the first alike; never an exception. *)
Theorem siblings_first : forall l i n p m, get (history l) i = Some n -> n_cls n <> CMask -> n_parent n = Some p -> get (history l) p = Some m ->
  exists pre j post, n_kids m = pre ++ j :: post /\ (forall k, In k pre -> ~ alike (history l) k i) /\ alike (history l) j i /\
    next_sibling (history l) i = Ok (hd_error post) /\ previous_sibling (history l) i = Ok (hd_error (rev pre)).
Proof.
  intros l i n p m G NM P M. pose proof (inv_history l) as I. destruct I as [LK O]. assert (N : i <> 0) by (pose proof (O i n p G P); lia). destruct (proj1 (proj2 (proj2 LK)) i n G N) as (p' & m' & P' & M' & IN). rewrite P in P'. injection P' as <-. rewrite M in M'. injection M' as <-.
  destruct (split_first _ i (conj LK O) _ IN) as (pre & j & post & E & A & B). exists pre, j, post. repeat split; auto; [eapply next_at|eapply previous_at]; eauto; split; auto.
Qed.
Example siblings_first_ex : exists n m, get (history sample_history) 4 = Some n /\ n_cls n <> CMask /\ n_parent n = Some 2 /\ get (history sample_history) 2 = Some m /\ n_kids m = [3; 4].
Proof. eexists. eexists. split; [vm_compute; reflexivity|]. split; [discriminate|]. split; [reflexivity|]. split; [vm_compute; reflexivity|reflexivity]. Qed.
Print Assumptions siblings_first.
Theorem siblings_leaf_refuted : exists l p m, get (history l) p = Some m /\ n_kids m = [3; 4] /\ next_sibling (history l) 4 = Ok (Some 4) /\ previous_sibling (history l) 4 = Ok None.
Proof. exists sample_history, 2. eexists. split; [vm_compute; reflexivity|]. split; [reflexivity|]. split; vm_compute; reflexivity. Qed.
Print Assumptions siblings_leaf_refuted.
Theorem previous_element_refuted : exists l p m, get (history l) p = Some m /\ n_kids m = [2; 5] /\ previous_element_sibling (history l) 2 = Ok (Some 5) /\ previous_element_sibling (history l) 5 = Ok None.
Proof. exists sample_history, 1. eexists. split; [vm_compute; reflexivity|]. split; [reflexivity|]. split; vm_compute; reflexivity. Qed.
Print Assumptions previous_element_refuted.
(** A Mask is no Node and has no siblings to ask for; without a parent there are none. *)
Theorem siblings_missing : forall d i n, get d i = Some n ->
  (n_cls n = CMask -> next_sibling d i = Err AttributeError /\ previous_sibling d i = Err AttributeError) /\
  (n_cls n <> CMask -> n_parent n = None -> next_sibling d i = Ok None /\ previous_sibling d i = Ok None).
Proof.
  intros d i n G. unfold next_sibling, previous_sibling, sibling_index. rewrite G. split.
  - intros ->. auto.
  - intros N P. rewrite P. destruct (n_cls n); try congruence; auto.
Qed.
Example siblings_missing_ex : exists n, get (history sample_history) 0 = Some n /\ n_cls n <> CMask /\ n_parent n = None.
Proof. eexists. split; [vm_compute; reflexivity|]. split; [discriminate|reflexivity]. Qed.
Print Assumptions siblings_missing.

(** C66: the builder of an element keeps its positional arguments. Partial: the elements of [geometry]; circle is refuted. *)
Lemma combine_nth : forall (ks : list text) (args : list value) k key v, NoDup ks -> nth_error ks k = Some key -> nth_error args k = Some v -> dget key (combine ks args) = Some v.
Proof.
  induction ks as [|x r IH]; intros args k key v N K A; [destruct k; discriminate|]. inversion N as [|? ? N1 N2]; subst. destruct args as [|a args]; [destruct k; discriminate|]. destruct k as [|k]; cbn [nth_error] in *; cbn [combine dget].
  - injection K as <-. injection A as <-. now rewrite teqb_refl.
  - destruct (teqb key x) eqn:E; [apply teqb_true in E; subst x; exfalso; apply N1; eapply nth_error_In; eauto|]. eapply IH; eauto.
Qed.
Lemma combine_keyed : forall (ks : list text) (args : list value), NoDup ks -> keyed (combine ks args).
Proof.
  unfold keyed. induction ks as [|x r IH]; intros args N; cbn; [constructor|]. destruct args as [|a args]; [constructor|]. inversion N as [|? ? N1 N2]; subst. cbn. constructor; [|auto]. intros H. apply N1. apply in_map_iff in H. destruct H as ([y z] & E & H). cbn in E. subst y. eapply in_combine_l; eauto.
Qed.
Theorem builder_keeps_partial : forall l i n name keys args kwargs, Forall sane l -> keyed kwargs -> get (history l) i = Some n -> n_cls n <> CMask ->
  (forall j m, up (history l) i j -> get (history l) j = Some m -> n_attrs m <> None) -> In (name, keys) geometry ->
  exists d' n' r, build (history l) i (T name) args kwargs = (d', Ok tt) /\ get d' i = Some n' /\ n_kids n' = n_kids n ++ [r] /\
    forall k key v, nth_error keys k = Some key -> nth_error args k = Some v -> prop d' r (T key) = Ok (Some v).
Proof.
  intros l i n name keys args kwargs S KK G M A IN.
  assert (C : exists c, dget (dash (T name)) bootstrap = Some c /\ wants_three c = false /\ (forall x y, construct c x y = Ok (Some (dupdate y (combine (map T keys) x)))) /\ NoDup (map T keys)).
  { cbn [geometry In] in IN. repeat (destruct IN as [IN|IN]; [injection IN as <- <-; eexists; split; [vm_compute; reflexivity|]; split; [reflexivity|]; split; [intros x y; reflexivity|]; cbn [map]; repeat constructor; cbn [In]; intros H; repeat (destruct H as [H|H]; [discriminate H|]); exact H|]). contradiction. }
  destruct C as (c & B & W & CO & ND). assert (IS : is_node (n_cls n) = true) by now apply node_mask.
  destruct (append_ok (history l) i n (mkNode c (Some (dupdate kwargs (combine (map T keys) args))) (Some i) (n_doc n) []) G IS) as (d' & AP & LN & _ & J).
  exists d', (with_kid n (List.length (heap (history l)))), (List.length (heap (history l))).
  assert (BE : build (history l) i (T name) args kwargs = (d', Ok tt)) by (unfold build; rewrite G, B, IS, CO, AP; reflexivity).
  split; [exact BE|]. split; [rewrite J, Nat.eqb_refl; reflexivity|]. split; [reflexivity|]. intros k key v K V.
  pose proof (get_lt _ _ _ G) as LT. assert (GR : get d' (List.length (heap (history l))) = Some (mkNode c (Some (dupdate kwargs (combine (map T keys) args))) (Some i) (n_doc n) [])) by (rewrite J; destruct (Nat.eqb_spec (List.length (heap (history l))) i); [lia|now rewrite Nat.eqb_refl]).
  assert (I' : inv d'). { replace d' with (act (history l) (Build i (T name) args kwargs)) by (cbn [act]; now rewrite BE). apply inv_act, inv_history. }
  assert (K' : all_keyed d'). { replace d' with (act (history l) (Build i (T name) args kwargs)) by (cbn [act]; now rewrite BE). apply keyed_act; [exact KK|now apply keyed_history]. }
  assert (OLD : forall j m, get d' j = Some m -> j < List.length (heap (history l)) -> exists m0, get (history l) j = Some m0 /\ n_attrs m0 = n_attrs m /\ n_parent m0 = n_parent m).
  { intros j m GJ LJ. rewrite J in GJ. destruct (Nat.eqb_spec j i) as [->|]; [injection GJ as <-; exists n; auto|]. destruct (Nat.eqb_spec j (List.length (heap (history l)))); [lia|]. exists m. auto. }
  assert (UP : forall x y, up d' x y -> x < List.length (heap (history l)) -> up (history l) x y).
  { intros x y U. induction U as [x|x m p y GX PX U IH]; intros LX; [constructor|]. destruct (OLD x m GX LX) as (m0 & G0 & _ & P0). apply (up_more _ x m0 p y); [exact G0|congruence|]. apply IH. pose proof (proj2 (inv_history l) x m0 p G0). rewrite P0 in H. specialize (H PX). lia. }
  destruct (values_ok d' _ _ I' K' GR) as (vs & GV & NV).
  - intros j m U GJ. inversion U as [|? q p ? GX PX U2]; subst; [rewrite GR in GJ; injection GJ as <-; discriminate|]. rewrite GR in GX. injection GX as <-. cbn in PX. injection PX as <-. specialize (UP i j U2 LT).
    assert (LJ : j < List.length (heap (history l))). { clear - UP LT. induction UP as [|x q p y GX PX U IH]; [auto|]. apply IH. pose proof (proj2 (inv_history l) x q p GX PX). lia. }
    destruct (OLD j m GJ LJ) as (m0 & G0 & A0 & _). rewrite <- A0. eapply A; eauto.
  - unfold prop. rewrite GV. cbn [rmap]. f_equal. apply NV. eapply near_own; [exact GR|reflexivity|]. rewrite dget_dupdate by now apply combine_keyed. erewrite combine_nth; eauto. now apply map_nth_error.
Qed.
Example builder_keeps_ex : let d := history [Build 0 (T "g"%string) [] []; Build 1 (T "rect"%string) [VNum 1; VNum 2; VNum 30; VNum 40] []] in
  prop d 2 (T "width"%string) = Ok (Some (VNum 30)) /\ prop d 2 (T "y"%string) = Ok (Some (VNum 2)) /\ In ("rect", ["x"; "y"; "width"; "height"; "rx"; "ry"])%string geometry.
Proof. cbn zeta. split; [vm_compute; reflexivity|]. split; [vm_compute; reflexivity|]. cbn. tauto. Qed.
Print Assumptions builder_keeps_partial.
Theorem builder_circle_refuted : exists d r, build new_document 0 (T "circle"%string) [VNum 1; VNum 2; VNum 3] [] = (d, Ok tt) /\ prop d r (T "cx"%string) = Ok None /\ prop d r (T "x"%string) = Ok (Some (VNum 1)).
Proof. eexists. exists 1. split; [vm_compute; reflexivity|]. split; vm_compute; reflexivity. Qed.
Print Assumptions builder_circle_refuted.
(** Keyword arguments are kept under their Python names: underscores are not replaced as they are in the names of builders. *)
Theorem builder_keyword_refuted : exists d r, build new_document 0 (T "rect"%string) [] [(T "stroke_width"%string, VNum 3)] = (d, Ok tt) /\ prop d r (T "stroke-width"%string) = Ok None /\ dash (T "stroke_width"%string) = T "stroke-width"%string.
Proof. eexists. exists 1. split; [vm_compute; reflexivity|]. split; vm_compute; reflexivity. Qed.
Print Assumptions builder_keyword_refuted.
(** The builders of defs, symbol, marker, metadata, style and the gradients want exactly the three arguments that the constructor declares, by
    position or by name, and raise for any others; those of image and mask want none. *)
Definition three : list text := [T "document"; T "parent"; T "attributes"]%string.
Definition strict (name : string) : Prop := In name ["defs"; "symbol"; "marker"; "metadata"; "style"; "lineargradient"; "radialgradient"]%string.
Theorem builder_strict : forall l i n name args kwargs, get (history l) i = Some n -> n_cls n <> CMask -> keyed kwargs ->
  (strict name -> (snd (build (history l) i (T name) args kwargs) = Ok tt <-> List.length args + List.length kwargs = 3 /\ forall k, In k (skipn (List.length args) three) -> In k (map fst kwargs))) /\
  (name = "image"%string \/ name = "mask"%string -> (snd (build (history l) i (T name) args kwargs) = Ok tt <-> args = [] /\ kwargs = [])) /\
  (strict name \/ name = "image"%string \/ name = "mask"%string -> snd (build (history l) i (T name) args kwargs) = Ok tt \/ build (history l) i (T name) args kwargs = (history l, Err TypeError)).
Proof.
  intros l i n name args kwargs G M KK. assert (IS : is_node (n_cls n) = true) by now apply node_mask.
  assert (BU : forall c, dget (dash (T name)) bootstrap = Some c -> (forall a, construct c args kwargs = Ok a -> snd (build (history l) i (T name) args kwargs) = Ok tt) /\ (forall x, construct c args kwargs = Err x -> build (history l) i (T name) args kwargs = (history l, Err x))).
  { intros c B. unfold build. rewrite G, B, IS. split; intros a E; rewrite E; [|reflexivity]. destruct (append_ok (history l) i n (mkNode c a (Some i) (n_doc n) []) G IS) as (d' & AP & _). rewrite AP. reflexivity. }
  assert (FB : forallb (fun k => match dget k kwargs with Some _ => true | None => false end) (skipn (List.length args) three) = true <-> forall k, In k (skipn (List.length args) three) -> In k (map fst kwargs)).
  { rewrite forallb_forall. split; intros H k I; specialize (H k I).
    - destruct (dget k kwargs) eqn:E; [|discriminate]. apply dget_in in E. apply (in_map fst) in E. exact E.
    - destruct (dget k kwargs) eqn:E; [reflexivity|]. exfalso. apply dget_none in E. contradiction. }
  assert (S3 : strict name -> exists c, dget (dash (T name)) bootstrap = Some c /\ wants_three c = true).
  { unfold strict. cbn [In]. intros H. repeat (destruct H as [<-|H]; [eexists; split; vm_compute; reflexivity|]). contradiction. }
  assert (S0 : name = "image"%string \/ name = "mask"%string -> exists c, dget (dash (T name)) bootstrap = Some c /\ (c = CImage \/ c = CMask)).
  { intros [->| ->]; eexists; (split; [vm_compute; reflexivity|auto]). }
  assert (LS : List.length (skipn (List.length args) three) = 3 - List.length args) by (rewrite skipn_length; reflexivity).
  assert (R3 : forall c, wants_three c = true -> construct c args kwargs = Ok (Some []) /\ (List.length args + List.length kwargs = 3 /\ forall k, In k (skipn (List.length args) three) -> In k (map fst kwargs)) \/
     construct c args kwargs = Err TypeError /\ ~ (List.length args + List.length kwargs = 3 /\ forall k, In k (skipn (List.length args) three) -> In k (map fst kwargs))).
  { intros c W. unfold construct. rewrite W. fold three. rewrite LS.
    destruct (Nat.leb_spec (List.length args) 3) as [L|L]; cbn [andb]; [|right; split; [reflexivity|lia]].
    destruct (Nat.eqb_spec (List.length kwargs) (3 - List.length args)) as [E|E]; cbn [andb]; [|right; split; [reflexivity|lia]].
    match goal with |- context [forallb ?f ?x] => destruct (forallb f x) eqn:F end; [left; split; [reflexivity|split; [lia|now apply FB]]|right; split; [reflexivity|]].
    intros [_ H]. apply FB in H. congruence. }
  split; [|split].
  - intros N. destruct (S3 N) as (c & B & W). destruct (BU c B) as [B1 B2]. destruct (R3 c W) as [[E H]|[E H]]; [rewrite (B1 _ E); tauto|]. rewrite (B2 _ E). cbn [snd]. split; [discriminate|tauto].
  - intros N. destruct (S0 N) as (c & B & W). destruct (BU c B) as [B1 B2]. destruct W as [-> | ->]; destruct args, kwargs; try (rewrite (B1 None eq_refl); tauto); rewrite (B2 TypeError eq_refl); cbn [snd]; split; try discriminate; intros []; discriminate.
  - intros [N|N].
    + destruct (S3 N) as (c & B & W). destruct (BU c B) as [B1 B2]. destruct (R3 c W) as [[E H]|[E H]]; [left; eapply B1; eauto|right; auto].
    + destruct (S0 N) as (c & B & W). destruct (BU c B) as [B1 B2]. destruct W as [-> | ->]; destruct args, kwargs; try (left; apply (B1 None eq_refl)); right; apply B2; reflexivity.
Qed.
Example builder_strict_ex : strict "defs" /\ snd (build new_document 0 (T "defs"%string) [VNone; VNone; VNone] []) = Ok tt /\ snd (build new_document 0 (T "defs"%string) [VNone; VNone; VNone; VNone] []) = Err TypeError.
Proof. split; [left; reflexivity|]. split; vm_compute; reflexivity. Qed.
Print Assumptions builder_strict.

(** C67: shadow trees are replayed as properly nested events; where all children are triples, every element is started once in
    document order and ended once. *)
Theorem shadow_balanced : forall s, nested (shadow_iter s).
Proof. exact shadow_nested. Qed.
Theorem shadow_order : forall s, whole s -> picked true (shadow_iter s) = preorder s /\ picked false (shadow_iter s) = postorder s.
Proof. exact shadow_picked. Qed.
Definition shadow_sample : shadow := Shadow (T "g"%string) 7 [Some (Shadow (T "rect"%string) 8 []); Some (Shadow (T "g"%string) 9 [Some (Shadow (T "path"%string) 10 [])])].
Example shadow_ex : whole shadow_sample /\ map snd (preorder shadow_sample) = [7; 8; 9; 10] /\ map snd (shadow_iter shadow_sample) = [7; 8; 8; 9; 10; 10; 9; 7].
Proof. split; [|split; reflexivity]. repeat (constructor; try (eexists; split; [reflexivity|])). Qed.
Print Assumptions shadow_balanced. Print Assumptions shadow_order.
Theorem shadow_malformed_refuted : exists tag e c l, picked true (shadow_iter (Shadow tag e (None :: Some c :: l))) = [(tag, e)].
Proof. exists [], 0, (Shadow [] 1 []), []. reflexivity. Qed.
Print Assumptions shadow_malformed_refuted.

(** C68: in any history of reading (also where it raises, also from unbalanced events) and building, parents and children agree,
    every object knows the document, and following parents ends at the document. *)
Theorem links_agree : forall l, linked (history l) /\ (forall i n, get (history l) i = Some n -> below (history l) i) /\
  (forall i n p, get (history l) i = Some n -> n_parent n = Some p -> p < i).
Proof. intros l. pose proof (inv_history l) as I. split; [apply I|]. split; [intros i n; now apply inv_below|apply I]. Qed.
Example links_ex : let d := history [Read 0 sample_events; Build 2 (T "circle"%string) [VNum 1] []; Read 6 [End; Start (T "g"%string) []; End; End]; Build 1 (T "defs"%string) [] []] in
  map n_parent (heap d) = [None; Some 0; Some 1; Some 2; Some 2; Some 1; Some 2; Some 2] /\ map n_kids (heap d) = [[1]; [2; 5]; [3; 4; 6; 7]; []; []; []; []; []].
Proof. split; vm_compute; reflexivity. Qed.
Print Assumptions links_agree.
