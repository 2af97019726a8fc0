(** C90: moving about the tree. C91: the properties of elements. *)
Require Import ZArith QArith List Ascii String Bool Lia Arith.
Require Import Verif.Base Verif.Text_Proofs Verif.Dom_Model Verif.Dom_Spec Verif.Dom_Proofs Verif.Dom_Tree_Proofs Verif.Dom_Inv_Proofs Verif.Dom_Thms.
Require Import Verif.DomApi_Model Verif.DomApi_Spec.
Import ListNotations.
Open Scope nat_scope.

Lemma of_node_ok {A} d i n (f : node -> A) : get d i = Some n -> n_cls n <> CMask -> of_node d i f = Ok (f n).
Proof. intros G N. unfold of_node. rewrite G. rewrite (proj2 (node_mask _) N). reflexivity. Qed.
Lemma of_node_inv {A} d i (f : node -> A) v : of_node d i f = Ok v -> exists n, get d i = Some n /\ n_cls n <> CMask /\ v = f n.
Proof.
  unfold of_node. destruct (get d i) as [n|]; [|discriminate]. destruct (is_node (n_cls n)) eqn:E; [|discriminate].
  intros H. injection H as <-. exists n. split; [reflexivity|]. split; [now apply node_mask|reflexivity].
Qed.
Lemma first_child_hd d i n : get d i = Some n -> n_cls n <> CMask -> first_child d i = Ok (hd_error (n_kids n)).
Proof. intros G N. unfold first_child. rewrite (of_node_ok d i n _ G N). destruct (n_kids n); reflexivity. Qed.
Lemma last_child_hd d i n : get d i = Some n -> n_cls n <> CMask -> last_child d i = Ok (hd_error (rev (n_kids n))).
Proof.
  intros G N. unfold last_child. rewrite (of_node_ok d i n _ G N). f_equal. destruct (rev (n_kids n)) as [|x r] eqn:R; apply (f_equal (@rev nat)) in R; rewrite rev_involutive in R; rewrite R; [reflexivity|].
  cbn [rev hd_error]. rewrite app_length. cbn [List.length]. rewrite Nat.add_1_r. cbn [Nat.eqb]. replace (S (List.length (rev r)) - 1) with (List.length (rev r)) by lia. rewrite nth_error_app2 by lia. now rewrite Nat.sub_diag.
Qed.

(** The next sibling of the object at position q is at most one further, and at most one behind any that looks like it. *)
Lemma next_position l p m q x n : get (history l) p = Some m -> nth_error (n_kids m) q = Some x -> get (history l) x = Some n -> n_cls n <> CMask ->
  exists r, next_sibling (history l) x = Ok (nth_error (n_kids m) (S r)) /\
    forall q' z, nth_error (n_kids m) q' = Some z -> alike (history l) z x -> r <= q'.
Proof.
  intros M Q G N. pose proof (inv_history l) as I. destruct I as [LK O]. destruct LK as (L1 & L2 & L3 & L4).
  destruct (L4 p m M) as [_ K]. destruct (K x (nth_error_In _ _ Q)) as (n' & G' & P). rewrite G in G'. injection G' as <-.
  destruct (split_first (history l) x (inv_history l) (n_kids m) (nth_error_In _ _ Q)) as (pre & j & post & E & A & B).
  exists (List.length pre). split.
  - rewrite (next_at (history l) x n p m pre j post (inv_history l) G N P M E A B). rewrite E. rewrite nth_error_app2 by lia.
    replace (S (List.length pre) - List.length pre) with 1 by lia. destruct post; reflexivity.
  - intros q' z Z AL. destruct (le_lt_dec (List.length pre) q') as [H|H]; [exact H|]. exfalso. rewrite E, nth_error_app1 in Z by exact H. exact (A z (nth_error_In _ _ Z) AL).
Qed.

(** Going from first_child along next_sibling meets the children in order and ends, where no two of them have the same shape ... *)
Theorem children_walk_partial : forall l p m, get (history l) p = Some m -> n_cls m <> CMask ->
  (forall k n, In k (n_kids m) -> get (history l) k = Some n -> n_cls n <> CMask) -> unlike (history l) (n_kids m) ->
  exists c, first_child (history l) p = Ok c /\ visits (history l) c (n_kids m).
Proof.
  intros l p m M NM NK U. exists (hd_error (n_kids m)). split; [now apply first_child_hd|].
  assert (H : forall post pre, n_kids m = pre ++ post -> visits (history l) (hd_error post) post).
  { induction post as [|i post IH]; intros pre E; [constructor|]. cbn [hd_error]. econstructor; [|apply (IH (pre ++ [i])); rewrite <- app_assoc; exact E].
    pose proof (inv_history l) as I. destruct I as [(L1 & L2 & L3 & L4) O]. destruct (L4 p m M) as [_ K].
    assert (IN : In i (n_kids m)) by (rewrite E; apply in_or_app; right; now left). destruct (K i IN) as (n & G & P).
    apply (next_at (history l) i n p m pre i post (inv_history l) G (NK i n IN G) P M E); [|constructor].
    intros k HK. apply in_split in HK. destruct HK as (a & b & ->). apply (U a k b i post). rewrite E, <- app_assoc. reflexivity. }
  exact (H (n_kids m) [] eq_refl).
Qed.
Lemma sample_unlike : unlike (history sample_history) [2; 5].
Proof.
  intros a i b j c E. destruct a as [|x a]; [|destruct a as [|y a]].
  - injection E as <- E. destruct b as [|y b]; [injection E as <- _|destruct b; discriminate E].
    intros A. apply (same_alike _ (inv_history sample_history) 10) in A; [vm_compute in A; discriminate|]. change (List.length (heap (history sample_history))) with 6. lia.
  - injection E as _ _ E. destruct b; discriminate E.
  - destruct a; discriminate E.
Qed.
Example children_walk_ex : exists m, get (history sample_history) 1 = Some m /\ n_kids m = [2; 5] /\ n_cls m <> CMask /\ unlike (history sample_history) (n_kids m) /\
  next_sibling (history sample_history) 2 = Ok (Some 5).
Proof. eexists. split; [vm_compute; reflexivity|]. split; [reflexivity|]. split; [discriminate|]. split; [exact sample_unlike|vm_compute; reflexivity]. Qed.
Print Assumptions children_walk_partial.
(** ... and only there: where two children have the same shape, two rectangles for example, the walk never ends. *)
Theorem children_walk_ends : forall l p m c seen, get (history l) p = Some m -> first_child (history l) p = Ok c -> visits (history l) c seen ->
  (forall k n, In k (n_kids m) -> get (history l) k = Some n -> n_cls n <> CMask) -> unlike (history l) (n_kids m).
Proof.
  intros l p m c seen M F V NK a i b j e E AL.
  set (d := history l) in *. set (J := List.length a + S (List.length b)).
  assert (HJ : nth_error (n_kids m) J = Some j). { rewrite E. unfold J. rewrite nth_error_app2 by lia. replace (List.length a + S (List.length b) - List.length a) with (S (List.length b)) by lia. cbn [nth_error]. rewrite nth_error_app2 by lia. now rewrite Nat.sub_diag. }
  assert (HI : nth_error (n_kids m) (List.length a) = Some i). { rewrite E. rewrite nth_error_app2 by lia. now rewrite Nat.sub_diag. }
  assert (S1 : forall q, q <= J -> nth_error (n_kids m) q <> None). { intros q Q H. apply nth_error_None in H. assert (J < List.length (n_kids m)) by (apply nth_error_Some; congruence). lia. }
  assert (H : forall c seen, visits d c seen -> forall q, q <= J -> c = nth_error (n_kids m) q -> False).
  { clear c seen F V. intros c seen V. induction V as [|x nx r NX V IH]; intros q Q C; [exact (S1 q Q (eq_sym C))|]. symmetry in C.
    pose proof (inv_history l) as I. destruct I as [(L1 & L2 & L3 & L4) O]. destruct (L4 p m M) as [_ K]. destruct (K x (nth_error_In _ _ C)) as (n & G & _).
    destruct (next_position l p m q x n M C G (NK x n (nth_error_In _ _ C) G)) as (r0 & N1 & N2). fold d in N1, N2. rewrite NX in N1. injection N1 as N1.
    assert (R : S r0 <= J). { destruct (Nat.eq_dec q J) as [->|Q']. - rewrite HJ in C. injection C as <-. pose proof (N2 _ _ HI AL). unfold J. lia. - pose proof (N2 q x C (alike_same _ _)). lia. }
    exact (IH (S r0) R N1). }
  assert (NM : n_cls m <> CMask) by (unfold first_child, of_node in F; fold d in M; rewrite M in F; destruct (is_node (n_cls m)) eqn:X; [now apply node_mask|discriminate]).
  rewrite (first_child_hd d p m M NM) in F. injection F as <-. apply (H _ _ V 0); [lia|]. destruct (n_kids m); reflexivity.
Qed.
Example children_walk_ends_ex : exists m, get (history sample_history) 1 = Some m /\ visits (history sample_history) (Some 2) [2; 5] /\ first_child (history sample_history) 1 = Ok (Some 2).
Proof.
  eexists. split; [vm_compute; reflexivity|]. split; [|vm_compute; reflexivity].
  eapply visits_step; [vm_compute; reflexivity|]. eapply visits_step; [vm_compute; reflexivity|constructor].
Qed.
Print Assumptions children_walk_ends.
Theorem children_walk_refuted : exists l p c, first_child (history l) p = Ok (Some c) /\ forall seen, ~ visits (history l) (Some c) seen.
Proof.
  exists sample_history, 2, 3. split; [vm_compute; reflexivity|].
  assert (H : forall c seen, visits (history sample_history) c seen -> c = Some 3 \/ c = Some 4 -> False).
  { intros c seen V. induction V as [|x nx r NX V IH]; intros [H|H]; try discriminate H; injection H as ->; vm_compute in NX; injection NX as <-; apply IH; auto. }
  intros seen V. exact (H _ _ V (or_introl eq_refl)).
Qed.
Print Assumptions children_walk_refuted.

(** The first and last child are children, the first has nothing before it and the second behind it; has_child_nodes tells whether there is any. *)
Theorem children_ends : forall l p m, get (history l) p = Some m -> n_cls m <> CMask ->
  first_child (history l) p = Ok (hd_error (n_kids m)) /\ last_child (history l) p = Ok (hd_error (rev (n_kids m))) /\
  has_child_nodes (history l) p = Ok (match n_kids m with [] => false | _ => true end) /\
  forall k n, In k (n_kids m) -> get (history l) k = Some n -> n_cls n <> CMask -> parent_node (history l) k = Ok (Some p) /\
    owner_document (history l) k = Ok (Some 0) /\
    (hd_error (n_kids m) = Some k -> previous_sibling (history l) k = Ok None /\ next_sibling (history l) k = Ok (nth_error (n_kids m) 1)).
Proof.
  intros l p m M NM. split; [now apply first_child_hd|]. split; [now apply last_child_hd|]. split.
  { unfold has_child_nodes. rewrite (of_node_ok _ p m _ M NM). destruct (n_kids m); reflexivity. }
  intros k n IN G N. pose proof (inv_history l) as I. destruct I as [(L1 & L2 & L3 & L4) O]. destruct (L4 p m M) as [_ K]. destruct (K k IN) as (n' & G' & P). rewrite G in G'. injection G' as <-.
  split; [unfold parent_node; rewrite (of_node_ok _ k n _ G N), P; reflexivity|]. split; [unfold owner_document; rewrite (of_node_ok _ k n _ G N), (L2 k n G); reflexivity|].
  intros H. destruct (n_kids m) as [|x r] eqn:E; [discriminate|]. injection H as ->. split.
  - exact (previous_at (history l) k n p m [] k r (inv_history l) G N P M E (fun _ f => match f with end) (alike_same _ _)).
  - rewrite (next_at (history l) k n p m [] k r (inv_history l) G N P M E (fun _ f => match f with end) (alike_same _ _)). destruct r; reflexivity.
Qed.
Example children_ends_ex : first_child (history sample_history) 1 = Ok (Some 2) /\ last_child (history sample_history) 1 = Ok (Some 5) /\ first_child (history sample_history) 5 = Ok None.
Proof. vm_compute. auto. Qed.
Print Assumptions children_ends.

(** children lists the children of an element, in order, and child_element_count, first_element_child and last_element_child
    agree with it. The document and plain nodes have none of these. *)
Theorem element_children : forall l p m, get (history l) p = Some m -> n_cls m <> CMask ->
  match n_cls m with
  | CDocument | CNode => children (history l) p = Err AttributeError /\ child_element_count (history l) p = Err AttributeError /\ first_element_child (history l) p = Err AttributeError /\ last_element_child (history l) p = Err AttributeError
  | _ => exists c, children (history l) p = Ok c /\ child_element_count (history l) p = Ok (Z.of_nat (List.length c)) /\ first_element_child (history l) p = Ok (hd_error c) /\ last_element_child (history l) p = Ok (hd_error (rev c)) /\
         NoDup c /\ (forall k n, get (history l) k = Some n -> In k c <-> n_parent n = Some p)
  end.
Proof.
  intros l p m M NM. unfold children, child_element_count, first_element_child, last_element_child, of_element. rewrite M, (first_child_hd _ p m M NM), (last_child_hd _ p m M NM).
  destruct (inv_history l) as [(L1 & L2 & L3 & L4) O].
  assert (K : NoDup (n_kids m) /\ (forall k n, get (history l) k = Some n -> In k (n_kids m) <-> n_parent n = Some p)).
  { destruct (L4 p m M) as [ND H]. split; [exact ND|]. intros k n G. split.
    - intros IN. destruct (H k IN) as (n' & G' & P). rewrite G in G'. injection G' as <-. exact P.
    - intros P. destruct (Nat.eq_dec k 0) as [-> |Z].
      + destruct L1 as (n0 & G0 & P0). rewrite G in G0. injection G0 as <-. rewrite P in P0. discriminate.
      + destruct (L3 k n G Z) as (p' & m' & P' & M' & IN). rewrite P in P'. injection P' as <-. rewrite M in M'. injection M' as <-. exact IN. }
  destruct (n_cls m); cbn [is_element rbind]; try (split; [reflexivity|]; split; [reflexivity|]; split; reflexivity); try (exists (n_kids m); split; [reflexivity|]; split; [reflexivity|]; split; [reflexivity|]; split; [reflexivity|exact K]).
  contradiction NM. reflexivity.
Qed.
Example element_children_ex : (exists m, get (history sample_history) 1 = Some m /\ n_cls m <> CMask /\ is_element (n_cls m) = true) /\ child_element_count (history sample_history) 1 = Ok 2%Z.
Proof. split; [eexists; split; [vm_compute; reflexivity|split; [discriminate|reflexivity]]|vm_compute; reflexivity]. Qed.
Print Assumptions element_children.

(** Every object but the document itself is connected, and following parent_node from it ends at the document. *)
Theorem connected : forall l i n, get (history l) i = Some n -> n_cls n <> CMask ->
  below (history l) i /\ (is_connected (history l) i = Ok true <-> i <> 0) /\ (is_connected (history l) i = Ok false <-> i = 0).
Proof.
  intros l i n G N. pose proof (inv_history l) as I. split; [eapply inv_below; eauto|]. destruct I as [(L1 & L2 & L3 & L4) O].
  unfold is_connected. rewrite (of_node_ok _ i n _ G N). destruct (Nat.eq_dec i 0) as [->|Z].
  - destruct L1 as (n' & G' & P). rewrite G in G'. injection G' as <-. rewrite P. split; split; congruence.
  - destruct (L3 i n G Z) as (p & m & P & _). rewrite P. split; split; congruence.
Qed.
Example connected_ex : is_connected (history sample_history) 5 = Ok true /\ is_connected (history sample_history) 0 = Ok false.
Proof. vm_compute. auto. Qed.
Print Assumptions connected.

(** is_equal_node compares the shape only; it is an equivalence. *)
Theorem equal_node_shape : forall l i n, get (history l) i = Some n -> n_cls n <> CMask ->
  forall j, (is_equal_node (history l) i j = Ok true <-> alike (history l) i j) /\ (is_same_node (history l) i j = Ok true <-> i = j).
Proof.
  intros l i n G N j. unfold is_equal_node, is_same_node. rewrite !(of_node_ok _ i n _ G N). split.
  - rewrite <- (same_alike (history l) (inv_history l) (List.length (heap (history l))) i j) by lia. split; [intros H; now injection H|now intros ->].
  - split; [intros H; injection H as H; now apply Nat.eqb_eq|]. intros ->. now rewrite Nat.eqb_refl.
Qed.
Example equal_node_ex : is_equal_node (history sample_history) 1 5 = Ok false.
Proof. vm_compute. auto. Qed.
Print Assumptions equal_node_shape.
(** A rect with an id and a fill is equal to a path. *)
Theorem equal_node_refuted : exists l i j m n, get (history l) i = Some m /\ get (history l) j = Some n /\ n_cls m = CRect /\ n_cls n = CPath /\ n_attrs m <> n_attrs n /\
  is_equal_node (history l) i j = Ok true.
Proof. exists sample_history, 3, 4. eexists. eexists. split; [vm_compute; reflexivity|]. split; [vm_compute; reflexivity|]. repeat split; [discriminate]. Qed.
Print Assumptions equal_node_refuted.

(** * C91 *)
Lemma nowhere_none d k i v : (forall x, dget k v = Some x <-> nearest d k i x) -> nowhere d k i -> dget k v = None.
Proof. intros H N. destruct (dget k v) as [x|] eqn:E; [|reflexivity]. exfalso. exact (N x (proj1 (H x) eq_refl)). Qed.
Lemma property_table : forallb (fun cp => forallb (fun p =>
   match (if is_node (fst cp) then dget (dash (T (fst p))) bootstrap else None), dget (T (fst p)) (accessors (fst cp)), absent (fst cp) (snd p) with
   | None, Some (Any k None), None => teqb k (T (snd p))
   | None, Some (Any k (Some (VNum a))), Some (VNum b) => teqb k (T (snd p)) && Z.eqb (Qnum a) (Qnum b) && Pos.eqb (Qden a) (Qden b)
   | None, Some (Any k (Some (VText a))), Some (VText b) => teqb k (T (snd p)) && teqb a b
   | _, _, _ => false
   end) (snd cp)) svg_properties = true.
Proof. vm_compute. reflexivity. Qed.
Lemma property_entry c ps name key : In (c, ps) svg_properties -> In (name, key) ps ->
  (if is_node c then dget (dash (T name)) bootstrap else None) = None /\ dget (T name) (accessors c) = Some (Any (T key) (absent c key)).
Proof.
  intros I1 I2. pose proof property_table as H. rewrite forallb_forall in H. specialize (H _ I1). cbn [fst snd] in H. rewrite forallb_forall in H. specialize (H _ I2). cbn [fst snd] in H.
  destruct (if is_node c then dget (dash (T name)) bootstrap else None); [discriminate|]. split; [reflexivity|].
  destruct (dget (T name) (accessors c)) as [[k|k [[t|q|]|]| |]|]; try discriminate; destruct (absent c key) as [[t'|q'|]|]; try discriminate.
  - apply andb_prop in H. destruct H as [A B]. apply teqb_true in A. apply teqb_true in B. subst. reflexivity.
  - apply andb_prop in H. destruct H as [H C]. apply andb_prop in H. destruct H as [A B]. apply teqb_true in A. apply Z.eqb_eq in B. apply Pos.eqb_eq in C. destruct q, q'. cbn in B, C. subst. reflexivity.
  - apply teqb_true in H. subst. reflexivity.
Qed.
(** Each property reads the attribute of its name, of the element or the nearest ancestor that has it. *)
Theorem property_nearest : forall l i n c ps name key, Forall sane l -> get (history l) i = Some n -> n_cls n = c ->
  (forall j m, up (history l) i j -> get (history l) j = Some m -> n_attrs m <> None) -> In (c, ps) svg_properties -> In (name, key) ps ->
  (forall v, nearest (history l) (T key) i v -> read_property (history l) i (T name) = Ok (FVal (Some v))) /\
  (nowhere (history l) (T key) i -> read_property (history l) i (T name) = Ok (FVal (absent c key))).
Proof.
  intros l i n c ps name key S G C A I1 I2. destruct (values_nearest l i n S G A) as (vals & GV & VN). destruct (property_entry c ps name key I1 I2) as [E1 E2].
  assert (R : read_property (history l) i (T name) = Ok (FVal (match dget (T key) vals with Some x => Some x | None => absent c key end))).
  { unfold read_property. rewrite G, C, E1, E2. cbn [read]. rewrite GV. reflexivity. }
  split.
  - intros v NV. apply VN in NV. rewrite R, NV. reflexivity.
  - intros NV. rewrite R, (nowhere_none _ _ _ vals (VN (T key)) NV). reflexivity.
Qed.
Example property_nearest_ex : read_property (history sample_history) 4 (T "d"%string) = Ok (FVal (Some (VText (T "M0,0"%string)))) /\
  read_property (history sample_history) 3 (T "width"%string) = Ok (FVal (Some (VNum 1))) /\ In ("stroke_width", "stroke-width")%string paint.
Proof. split; [vm_compute; reflexivity|]. split; [vm_compute; reflexivity|]. cbn. tauto. Qed.
Print Assumptions property_nearest.
(** id, viewBox and preserveAspectRatio are read from the element alone. *)
Theorem property_own : forall l i n a name, get (history l) i = Some n -> n_attrs n = Some a ->
  (name = "id"%string /\ is_element (n_cls n) = true \/ (name = "viewBox" \/ name = "preserveAspectRatio")%string /\ (n_cls n = CSVG \/ n_cls n = CImage)) ->
  read_property (history l) i (T name) = Ok (FVal (dget (T name) a)).
Proof.
  intros l i n a name G A H. unfold read_property. rewrite G.
  assert (E : (if is_node (n_cls n) then dget (dash (T name)) bootstrap else None) = None /\ dget (T name) (accessors (n_cls n)) = Some (Own (T name))).
  { destruct H as [[-> E]|[[-> | ->] [E|E]]]; [destruct (n_cls n); try discriminate E; split; vm_compute; reflexivity| | | |]; rewrite E; split; vm_compute; reflexivity. }
  rewrite (proj1 E), (proj2 E). cbn [read]. rewrite G, A. reflexivity.
Qed.
Example property_own_ex : read_property (history sample_history) 1 (T "id"%string) = Ok (FVal (Some (VText (T "top"%string)))) /\ read_property (history sample_history) 4 (T "id"%string) = Ok (FVal None).
Proof. split; vm_compute; reflexivity. Qed.
Print Assumptions property_own.
(** href: that of the namespace xlink comes first, wherever above it is. *)
Theorem property_href : forall l i n, Forall sane l -> get (history l) i = Some n -> In (n_cls n) [CPattern; CImage; CScript; CHyperlink] ->
  (forall j m, up (history l) i j -> get (history l) j = Some m -> n_attrs m <> None) ->
  (forall v, nearest (history l) (T "{http://www.w3.org/1999/xlink}href"%string) i v -> read_property (history l) i (T "href"%string) = Ok (FVal (Some v))) /\
  (nowhere (history l) (T "{http://www.w3.org/1999/xlink}href"%string) i -> (forall v, nearest (history l) (T "href"%string) i v -> read_property (history l) i (T "href"%string) = Ok (FVal (Some v))) /\
     (nowhere (history l) (T "href"%string) i -> read_property (history l) i (T "href"%string) = Ok (FVal None))).
Proof.
  change (T "{http://www.w3.org/1999/xlink}href"%string) with xlink_href. intros l i n S G C A. destruct (values_nearest l i n S G A) as (vals & GV & VN).
  assert (R : read_property (history l) i (T "href"%string) = Ok (FVal (match dget xlink_href vals with Some x => Some x | None => dget (T "href"%string) vals end))).
  { unfold read_property. rewrite G. assert (E : (if is_node (n_cls n) then dget (dash (T "href"%string)) bootstrap else None) = None /\ dget (T "href"%string) (accessors (n_cls n)) = Some Href).
    { cbn [In] in C. destruct C as [C|[C|[C|[C|[]]]]]; rewrite <- C; split; vm_compute; reflexivity. }
    rewrite (proj1 E), (proj2 E). cbn [read]. rewrite GV. reflexivity. }
  split.
  - intros v NV. apply VN in NV. rewrite R, NV. reflexivity.
  - intros NX. rewrite R, (nowhere_none _ _ _ vals (VN _) NX). split; [intros v NV; apply VN in NV; now rewrite NV|]. intros NV. now rewrite (nowhere_none _ _ _ vals (VN _) NV).
Qed.
Definition link_history : list action :=
  [Read 0 (events (X (T "a") [(xlink_href, T "#far")] [] [leaf "image" [("href", "near.png")]])%string)].
Example property_href_ex : Forall sane link_history /\ read_property (history link_history) 1 (T "href"%string) = Ok (FVal (Some (VText (T "#far"%string)))).
Proof.
  split; [|vm_compute; reflexivity]. constructor; [|constructor]. intros tag a H. cbn [events flat_map app leaf map In] in H.
  repeat (destruct H as [H|H]; [try discriminate H; injection H as <- <-; unfold keyed; cbn; repeat constructor; cbn; intuition discriminate|]). contradiction.
Qed.
Print Assumptions property_href.
(** So the link of an element may be overruled by that of one around it. *)
Theorem property_href_refuted : exists l i n a v, get (history l) i = Some n /\ n_cls n = CImage /\ n_attrs n = Some a /\ dget (T "href"%string) a = Some v /\
  exists w, read_property (history l) i (T "href"%string) = Ok (FVal (Some w)) /\ w <> v.
Proof.
  exists link_history, 2. eexists. eexists. eexists. split; [vm_compute; reflexivity|]. split; [reflexivity|]. split; [reflexivity|]. split; [vm_compute; reflexivity|].
  eexists. split; [vm_compute; reflexivity|]. discriminate.
Qed.
Print Assumptions property_href_refuted.
(** Geometry is inherited: a rect without x is placed at the x of the svg around it. *)
Theorem property_geometry_refuted : exists l i n a, get (history l) i = Some n /\ n_cls n = CRect /\ n_attrs n = Some a /\ dget (T "x"%string) a = None /\
  exists v, read_property (history l) i (T "x"%string) = Ok (FVal (Some (VText v))).
Proof.
  exists [Read 0 (events (X (T "svg") [(T "x", T "30")] [] [leaf "rect" []])%string)], 2. eexists. eexists. split; [vm_compute; reflexivity|]. split; [reflexivity|]. split; [reflexivity|]. split; [reflexivity|].
  eexists. vm_compute. reflexivity.
Qed.
Print Assumptions property_geometry_refuted.
(** title and desc cannot be read: the names make elements. *)
Theorem property_hidden : forall l i n, get (history l) i = Some n -> n_cls n <> CMask ->
  read_property (history l) i (T "title"%string) = Ok (FBuilder CTitle) /\ read_property (history l) i (T "desc"%string) = Ok (FBuilder CDesc).
Proof.
  intros l i n G N. unfold read_property. rewrite G, (proj2 (node_mask _) N). split; reflexivity.
Qed.
Example property_hidden_ex : read_property (history sample_history) 1 (T "title"%string) = Ok (FBuilder CTitle).
Proof. vm_compute. reflexivity. Qed.
Print Assumptions property_hidden.
(** A property that a class has not, and that is not the name of an element, is an AttributeError. *)
Theorem property_missing : forall l i n name, get (history l) i = Some n -> dget (dash name) bootstrap = None -> dget name (accessors (n_cls n)) = None ->
  read_property (history l) i name = Err AttributeError.
Proof. intros l i n name G B A. unfold read_property. rewrite G, A, B. destruct (is_node (n_cls n)); reflexivity. Qed.
Example property_missing_ex : read_property (history sample_history) 1 (T "radius"%string) = Err AttributeError.
Proof. vm_compute. reflexivity. Qed.
Print Assumptions property_missing.
(** viewbox_transform of an svg element: empty without a viewBox, an exception with one. *)
Theorem property_viewbox : forall l i n a, get (history l) i = Some n -> n_cls n = CSVG -> n_attrs n = Some a ->
  (dget (T "viewBox"%string) a = None -> read_property (history l) i (T "viewbox_transform"%string) = Ok (FText [])) /\
  (forall t, dget (T "viewBox"%string) a = Some (VText t) -> read_property (history l) i (T "viewbox_transform"%string) = Err AttributeError).
Proof.
  intros l i n a G C A. unfold read_property. rewrite G, C.
  change (if is_node CSVG then dget (dash (T "viewbox_transform"%string)) bootstrap else None) with (@None cls).
  change (dget (T "viewbox_transform"%string) (accessors CSVG)) with (Some Fit). cbn iota. cbn [read]. rewrite G, A. split; [intros -> |intros t ->]; reflexivity.
Qed.
Example property_viewbox_ex : exists n a, get (history sample_history) 1 = Some n /\ n_cls n = CSVG /\ n_attrs n = Some a /\ dget (T "viewBox"%string) a = None.
Proof. eexists. eexists. split; [vm_compute; reflexivity|]. split; [reflexivity|]. split; reflexivity. Qed.
Print Assumptions property_viewbox.
