(** Proofs about the document tree: reading. *)
Require Import ZArith QArith List Ascii String Bool Lia Arith.
Require Import Verif.Base Verif.Text_Proofs Verif.Dom_Model Verif.Dom_Spec.
Import ListNotations.
Open Scope nat_scope.

Lemma get_put : forall d i n j, i < List.length (heap d) -> get (put d i n) j = if Nat.eqb j i then Some n else get d j.
Proof.
  intros d i n j I. unfold get, put. cbn [heap]. assert (L : List.length (firstn i (heap d)) = i) by (apply firstn_length_le; lia). destruct (Nat.eqb_spec j i) as [->|N].
  - rewrite nth_error_app2 by lia. rewrite L, Nat.sub_diag. reflexivity.
  - destruct (Nat.lt_ge_cases j i) as [J|J].
    + rewrite nth_error_app1 by lia. rewrite <- (firstn_skipn i (heap d)) at 2. rewrite nth_error_app1 by lia. reflexivity.
    + rewrite nth_error_app2 by lia. rewrite L. replace (j - i) with (S (j - S i)) by lia. cbn [nth_error]. rewrite <- (firstn_skipn (S i) (heap d)) at 2.
      assert (L2 : List.length (firstn (S i) (heap d)) = S i) by (apply firstn_length_le; lia). rewrite nth_error_app2 by lia. rewrite L2. reflexivity.
Qed.
Lemma put_length : forall d i n, i < List.length (heap d) -> List.length (heap (put d i n)) = List.length (heap d).
Proof. intros d i n I. unfold put. cbn [heap]. rewrite app_length. cbn [List.length]. rewrite firstn_length_le, skipn_length by lia. lia. Qed.
Lemma get_lt : forall d i n, get d i = Some n -> i < List.length (heap d).
Proof. intros d i n H. apply nth_error_Some. unfold get in H. congruence. Qed.

(** One object more, the last child of [p]. *)
Definition with_kid (m : node) (k : nat) : node := mkNode (n_cls m) (n_attrs m) (n_parent m) (n_doc m) (n_kids m ++ [k]).
Lemma append_ok : forall d p m n, get d p = Some m -> is_node (n_cls m) = true -> exists d', append_new d p n = Ok d' /\
  List.length (heap d') = S (List.length (heap d)) /\ objects d' = objects d /\
  (forall j, get d' j = if Nat.eqb j p then Some (with_kid m (List.length (heap d))) else if Nat.eqb j (List.length (heap d)) then Some n else get d j).
Proof.
  intros d p m n G I. unfold append_new. rewrite G, I. eexists. split; [reflexivity|]. pose proof (get_lt _ _ _ G) as L. cbn [heap objects]. rewrite app_length, put_length by auto. cbn [List.length]. split; [lia|]. split; [reflexivity|]. intros j.
  unfold get at 1. cbn [heap]. destruct (Nat.lt_ge_cases j (List.length (heap d))) as [J|J].
  - rewrite nth_error_app1 by (rewrite put_length; auto). change (nth_error (heap ?x) j) with (get x j). rewrite get_put by auto. destruct (Nat.eqb_spec j p); [reflexivity|]. destruct (Nat.eqb_spec j (List.length (heap d))); [lia|reflexivity].
  - rewrite nth_error_app2 by (rewrite put_length; auto). rewrite put_length by auto. destruct (Nat.eqb_spec j p); [lia|]. destruct (Nat.eqb_spec j (List.length (heap d))) as [->|N].
    + rewrite Nat.sub_diag. reflexivity.
    + replace (j - List.length (heap d)) with (S (j - S (List.length (heap d)))) by lia. cbn [nth_error]. replace (get d j) with (@None node) by (symmetry; apply nth_error_None; lia). destruct (j - S (List.length (heap d))); reflexivity.
Qed.
Lemma append_inv : forall d p n d', append_new d p n = Ok d' -> exists m, get d p = Some m /\ is_node (n_cls m) = true.
Proof. intros d p n d' H. unfold append_new in H. destruct (get d p) as [m|]; [|discriminate]. destruct (is_node (n_cls m)) eqn:E; [|discriminate]. eauto. Qed.

(** Trees. *)
Lemma xtree_induction : forall P : xtree -> Prop, (forall tag a b kids, Forall P kids -> P (X tag a b kids)) -> forall t, P t.
Proof.
  intros P H. fix IH 1. intros [tag a b kids]. apply H. induction kids as [|k r R]; constructor; auto.
Qed.
Fixpoint size (t : xtree) : nat := match t with X _ _ _ kids => S (fold_right (fun k n => size k + n) 0 kids) end.
Definition sizes (l : list xtree) : nat := fold_right (fun k n => size k + n) 0 l.
Definition own_id (a : dict text) (i : nat) : dict nat := match dget (T "id"%string) a with Some id => [(id, i)] | None => [] end.
(** The ids of a tree whose objects are counted from [i], in document order. *)
Fixpoint ids (i : nat) (t : xtree) : dict nat :=
  match t with X _ a _ kids => own_id a i ++ (fix go (i : nat) (l : list xtree) := match l with [] => [] | k :: r => ids i k ++ go (i + size k) r end) (S i) kids end.
Fixpoint ids_all (i : nat) (l : list xtree) : dict nat := match l with [] => [] | k :: r => ids i k ++ ids_all (i + size k) r end.
Lemma ids_eq : forall i tag a b kids, ids i (X tag a b kids) = own_id a i ++ ids_all (S i) kids.
Proof. reflexivity. Qed.
Fixpoint offsets (i : nat) (l : list xtree) : list nat := match l with [] => [] | k :: r => i :: offsets (i + size k) r end.

(** The class the code makes. *)
Definition made (tag : text) : Res cls :=
  match dget (strip_ns tag) bootstrap with Some c => rmap (fun _ => c) (construct c [] []) | None => Ok CNode end.
Definition class (tag : text) : cls := match dget (strip_ns tag) bootstrap with Some c => c | None => CNode end.
Lemma made_class : forall tag, made tag = if wants_three (class tag) then Err TypeError else Ok (class tag).
Proof. intros tag. unfold made, class. destruct (dget _ _) as [c|]; [|reflexivity]. unfold construct. destruct c; reflexivity. Qed.
Fixpoint readable (t : xtree) : bool :=
  match t with X tag _ _ kids => negb (wants_three (class tag)) && (is_node (class tag) || match kids with [] => true | _ => false end) && forallb readable kids end.

(** [represents] for objects within bounds. *)
Section RepIn.
  Variables (lo hi : nat).
  Fixpoint rep_in (d : dom) (t : xtree) (i : nat) : Prop :=
    match t with X tag attrs _ kids =>
      lo <= i < hi /\ exists n, get d i = Some n /\ n_cls n = class tag /\ n_attrs n = Some (map (fun x => (fst x, VText (snd x))) attrs) /\ n_kids n = offsets (S i) kids /\
        (fix all (ts : list xtree) (is : list nat) : Prop :=
           match ts, is with
           | [], [] => True
           | t :: ts, i :: is => rep_in d t i /\ all ts is
           | _, _ => False
           end) kids (n_kids n)
    end.
  Fixpoint reps_in (d : dom) (ts : list xtree) (is : list nat) : Prop :=
    match ts, is with [], [] => True | t :: ts, i :: is => rep_in d t i /\ reps_in d ts is | _, _ => False end.
  Lemma rep_in_eq : forall d tag a b kids i, rep_in d (X tag a b kids) i <-> lo <= i < hi /\ exists n, get d i = Some n /\ n_cls n = class tag /\ n_attrs n = Some (map (fun x => (fst x, VText (snd x))) a) /\ n_kids n = offsets (S i) kids /\ reps_in d kids (n_kids n).
  Proof.
    intros. cbn [rep_in]. assert (E : forall ts is, (fix all (ts : list xtree) (is : list nat) : Prop := match ts, is with [], [] => True | t :: ts, i :: is => rep_in d t i /\ all ts is | _, _ => False end) ts is <-> reps_in d ts is).
    { induction ts as [|t ts IH]; intros [|j is]; cbn [reps_in]; try tauto. now rewrite IH. }
    split; intros (B & n & G & C & A & K & R); (split; [auto|]); exists n; repeat split; auto; now apply E.
  Qed.
End RepIn.
Lemma rep_mono : forall d d' lo hi lo' hi' t i, lo' <= lo -> hi <= hi' -> (forall j, lo <= j < hi -> get d' j = get d j) -> rep_in lo hi d t i -> rep_in lo' hi' d' t i.
Proof.
  intros d d' lo hi lo' hi' t. induction t as [tag a b kids IH] using xtree_induction. intros i L H S. rewrite !rep_in_eq. intros (B & n & G & C & A & K & R). split; [lia|]. exists n. rewrite S by auto. repeat split; auto.
  clear - IH L H S R. revert R. generalize (n_kids n). induction kids as [|k r IHr]; intros [|j l] R; cbn [reps_in] in *; auto. inversion IH as [|? ? K1 K2]; subst. destruct R as [R1 R2]. split; [apply K1; auto|apply IHr; auto].
Qed.
Lemma reps_mono : forall d d' lo hi lo' hi' ts is, lo' <= lo -> hi <= hi' -> (forall j, lo <= j < hi -> get d' j = get d j) -> reps_in lo hi d ts is -> reps_in lo' hi' d' ts is.
Proof.
  intros d d' lo hi lo' hi' ts. induction ts as [|t ts IH]; intros [|i is] L H S R; cbn [reps_in] in *; auto. destruct R as [R1 R2]. split; [eapply rep_mono; eauto|apply IH; auto].
Qed.

Lemma loop_app : forall doc a b d cur, parse_loop doc (a ++ b) d cur = match parse_loop doc a d cur with (d', Ok c) => parse_loop doc b d' c | (d', Err x) => (d', Err x) end.
Proof. intros doc a. induction a as [|e r IH]; intros b d cur; cbn [parse_loop app]; [reflexivity|]. destruct (parse_step doc d cur e) as [d' [c|x]]; auto. Qed.
Lemma loop_ns : forall doc evs d cur, parse_loop doc (filter no_ns evs) d cur = parse_loop doc evs d cur.
Proof.
  intros doc evs. induction evs as [|e r IH]; intros d cur; cbn [parse_loop filter]; [reflexivity|]. destruct e; cbn [no_ns parse_loop].
  - destruct (parse_step doc d cur (Start tag attrs)) as [d' [c|x]]; auto.
  - destruct (parse_step doc d cur End) as [d' [c|x]]; auto.
  - cbn [parse_step]. apply IH.
Qed.
Definition remember (l : dict nat) (o : dict nat) : dict nat := dupdate o l.
Lemma dupdate_app : forall A (d e f : dict A), dupdate d (e ++ f) = dupdate (dupdate d e) f.
Proof. intros. apply fold_left_app. Qed.

(** The start of an element. *)
Lemma start_ok : forall tag a z d p m, wants_three (class tag) = false -> get d p = Some m -> is_node (n_cls m) = true ->
  exists d', parse_step (Some z) d (Some p) (Start tag a) = (d', Ok (Some (List.length (heap d)))) /\
    List.length (heap d') = S (List.length (heap d)) /\ objects d' = dupdate (objects d) (own_id a (List.length (heap d))) /\
    (forall j, get d' j = if Nat.eqb j p then Some (with_kid m (List.length (heap d)))
       else if Nat.eqb j (List.length (heap d)) then Some (mkNode (class tag) (Some (map (fun x => (fst x, VText (snd x))) a)) (Some p) (Some z) []) else get d j).
Proof.
  intros tag a z d p m W G I. cbn [parse_step]. fold (made tag). rewrite made_class, W.
  destruct (append_ok d p m (mkNode (class tag) (Some (map (fun x => (fst x, VText (snd x))) a)) (Some p) (Some z) []) G I) as (d1 & A & L & O & J). rewrite A. unfold own_id.
  destruct (dget (T "id") a) as [id|]; eexists; (split; [reflexivity|]); cbn [heap objects]; (split; [exact L|]); (split; [rewrite O; reflexivity|exact J]).
Qed.

(** After reading below [p]: nothing else changed, and [p] has more children. *)
Definition grown (d d' : dom) (p : nat) (m : node) (ks : list nat) : Prop :=
  get d' p = Some (mkNode (n_cls m) (n_attrs m) (n_parent m) (n_doc m) (n_kids m ++ ks)) /\
  forall j, j < List.length (heap d) -> j <> p -> get d' j = get d j.
Definition reads (t : xtree) : Prop := readable t = true -> forall z d p m, get d p = Some m -> is_node (n_cls m) = true ->
  exists d', parse_loop (Some z) (events t) d (Some p) = (d', Ok (Some p)) /\ grown d d' p m [List.length (heap d)] /\
    List.length (heap d') = List.length (heap d) + size t /\ objects d' = dupdate (objects d) (ids (List.length (heap d)) t) /\
    rep_in (List.length (heap d)) (List.length (heap d')) d' t (List.length (heap d)).
Lemma reads_all : forall ts, Forall reads ts -> forallb readable ts = true -> forall z d p m, get d p = Some m -> (is_node (n_cls m) = true \/ ts = []) ->
  exists d', parse_loop (Some z) (flat_map events ts) d (Some p) = (d', Ok (Some p)) /\ grown d d' p m (offsets (List.length (heap d)) ts) /\
    List.length (heap d') = List.length (heap d) + sizes ts /\ objects d' = dupdate (objects d) (ids_all (List.length (heap d)) ts) /\
    reps_in (List.length (heap d)) (List.length (heap d')) d' ts (offsets (List.length (heap d)) ts).
Proof.
  intros ts F. induction F as [|t ts R F IH]; intros RD z d p m G I.
  - exists d. cbn. split; [reflexivity|]. unfold grown. rewrite app_nil_r. split; [split; auto; rewrite G; destruct m; reflexivity|]. repeat split; auto; lia.
  - destruct I as [I|I]; [|discriminate]. cbn [forallb] in RD. apply andb_prop in RD. destruct RD as [R1 R2].
    destruct (R R1 z d p m G I) as (d1 & P1 & (G1 & S1) & L1 & O1 & RP1).
    destruct (IH R2 z d1 p _ G1 (or_introl I)) as (d2 & P2 & (G2 & S2) & L2 & O2 & RP2).
    exists d2. cbn [flat_map]. rewrite loop_app, P1. split; [exact P2|]. pose proof (get_lt _ _ _ G) as PL. cbn [n_cls n_attrs n_parent n_doc n_kids] in G2.
    split; [split|split; [|split]].
    + rewrite G2. cbn [offsets]. rewrite <- app_assoc. cbn [app]. now rewrite L1.
    + intros j J N. rewrite S2 by lia. now apply S1.
    + cbn [sizes fold_right]. fold (sizes ts). lia.
    + cbn [ids_all]. rewrite dupdate_app, <- O1, <- L1. exact O2.
    + cbn [offsets reps_in]. split.
      * apply (rep_mono d1 d2 (List.length (heap d)) (List.length (heap d1))); [lia|lia|intros j J; apply S2; lia|exact RP1].
      * rewrite <- L1. apply (reps_mono d2 d2 (List.length (heap d1)) (List.length (heap d2))); [lia|lia|auto|exact RP2].
Qed.
Lemma reads_tree : forall t, reads t.
Proof.
  induction t as [tag a b kids IH] using xtree_induction. intros RD z d p m G I. cbn [readable] in RD. apply andb_prop in RD. destruct RD as [RD RK]. apply andb_prop in RD. destruct RD as [W MK]. apply negb_true_iff in W.
  destruct (start_ok tag a z d p m W G I) as (d1 & P1 & L1 & O1 & J1). pose proof (get_lt _ _ _ G) as PL.
  assert (G1 : get d1 (List.length (heap d)) = Some (mkNode (class tag) (Some (map (fun x => (fst x, VText (snd x))) a)) (Some p) (Some z) [])).
  { rewrite J1. destruct (Nat.eqb_spec (List.length (heap d)) p); [lia|]. now rewrite Nat.eqb_refl. }
  assert (MK' : is_node (n_cls (mkNode (class tag) (Some (map (fun x => (fst x, VText (snd x))) a)) (Some p) (Some z) [])) = true \/ kids = []).
  { cbn [n_cls]. apply orb_prop in MK. destruct MK as [MK|MK]; [left; auto|right]. destruct kids; [auto|discriminate]. }
  destruct (reads_all kids IH RK z d1 _ _ G1 MK') as (d2 & P2 & (G2 & S2) & L2 & O2 & R2). cbn [n_cls n_attrs n_parent n_doc n_kids app] in G2.
  exists d2. cbn [events parse_loop]. rewrite P1, loop_app, P2. cbn [parse_loop parse_step]. rewrite G2. cbn [n_parent].
  split; [reflexivity|]. split; [split|split; [|split]].
  - rewrite S2 by lia. rewrite J1, Nat.eqb_refl. reflexivity.
  - intros j J N. rewrite S2 by lia. rewrite J1. destruct (Nat.eqb_spec j p); [contradiction|]. destruct (Nat.eqb_spec j (List.length (heap d))); [lia|reflexivity].
  - cbn [size]. fold (sizes kids). lia.
  - rewrite ids_eq, dupdate_app, <- O1, O2. now rewrite L1.
  - apply rep_in_eq. split; [lia|]. rewrite G2. eexists. split; [reflexivity|]. cbn [n_cls n_attrs n_kids]. repeat split; auto; [now rewrite L1|]. apply (reps_mono d2 d2 (List.length (heap d1)) (List.length (heap d2))); [lia|lia|auto|exact R2].
Qed.

(** Trees that cannot be read raise. *)
Lemma raises_all : forall ts, Forall (fun t => readable t = false -> forall z d p m, get d p = Some m -> exists d' x, parse_loop (Some z) (events t) d (Some p) = (d', Err x)) ts ->
  forallb readable ts = false -> forall z d p m, get d p = Some m -> exists d' x, parse_loop (Some z) (flat_map events ts) d (Some p) = (d', Err x).
Proof.
  intros ts F. induction F as [|t ts R F IH]; intros RD z d p m G; cbn [forallb] in RD; [discriminate|]. cbn [flat_map]. rewrite loop_app. destruct (readable t) eqn:RT.
  - destruct (is_node (n_cls m)) eqn:I.
    + destruct (reads_tree t RT z d p m G I) as (d1 & P1 & (G1 & _) & _). rewrite P1. eapply IH; eauto.
    + destruct t as [tag a b kids]. cbn [readable] in RT. apply andb_prop in RT. destruct RT as [RT _]. apply andb_prop in RT. destruct RT as [W _]. apply negb_true_iff in W. cbn [events parse_loop parse_step]. fold (made tag). rewrite made_class, W. unfold append_new. rewrite G, I. eauto.
  - destruct (R eq_refl z d p m G) as (d1 & x & ->). eauto.
Qed.
Lemma raises_tree : forall t, readable t = false -> forall z d p m, get d p = Some m -> exists d' x, parse_loop (Some z) (events t) d (Some p) = (d', Err x).
Proof.
  induction t as [tag a b kids IH] using xtree_induction. intros RD z d p m G. cbn [events parse_loop].
  destruct (wants_three (class tag)) eqn:W. { cbn [parse_step]. fold (made tag). rewrite made_class, W. eauto. }
  destruct (is_node (n_cls m)) eqn:I.
  2: { cbn [parse_step]. fold (made tag). rewrite made_class, W. unfold append_new. rewrite G, I. eauto. }
  destruct (start_ok tag a z d p m W G I) as (d1 & P1 & L1 & O1 & J1). pose proof (get_lt _ _ _ G) as PL. rewrite P1.
  assert (G1 : get d1 (List.length (heap d)) = Some (mkNode (class tag) (Some (map (fun x => (fst x, VText (snd x))) a)) (Some p) (Some z) [])).
  { rewrite J1. destruct (Nat.eqb_spec (List.length (heap d)) p); [lia|]. now rewrite Nat.eqb_refl. }
  cbn [readable] in RD. rewrite W in RD. cbn [negb andb] in RD. rewrite loop_app. apply andb_false_iff in RD. destruct RD as [RD|RD].
  - apply orb_false_iff in RD. destruct RD as [NI KN]. destruct kids as [|[tag2 a2 b2 kids2] r]; [discriminate|]. cbn [flat_map events parse_loop app parse_step]. fold (made tag2). rewrite made_class. destruct (wants_three (class tag2)); [eauto|]. unfold append_new. rewrite G1. cbn [n_cls]. rewrite NI. eauto.
  - destruct (raises_all kids IH RD z d1 _ _ G1) as (d2 & x & ->). eauto.
Qed.
