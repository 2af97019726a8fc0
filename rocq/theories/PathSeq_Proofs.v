Require Import ZArith QArith Qcanon Qabs Ascii String List Bool Lia.
Require Import Verif.Base Verif.Text_Spec Verif.Path_Model Verif.PathText_Model Verif.PathText_Spec Verif.PathDraw_Spec Verif.PathEdit_Model Verif.PathEdit_Spec Verif.PathD_Model Verif.PathD_Spec Verif.PathD_Proofs
  Verif.PathEdit_Proofs Verif.PathSeq_Model Verif.PathSeq_Spec.
Import ListNotations.
Open Scope Z_scope.

Section P.
Variable solve : seg -> arcnum.
Notation points := (points solve).
Notation seg_getitem := (seg_getitem solve).

Lemma len_points : forall s, seg_len s = Z.of_nat (List.length (points s)).
Proof. intros [[| | |c|c d|a] b e r m]; reflexivity. Qed.
Lemma getitem_points : forall s i,
  seg_getitem s i = if (i <? 0) || (seg_len s <=? i) then Err IndexError else match nth_error (points s) (Z.to_nat i) with Some o => Ok o | None => Err IndexError end.
Proof.
  intros s i. assert (C : i < 0 \/ i = 0 \/ i = 1 \/ i = 2 \/ i = 3 \/ i = 4 \/ 5 <= i) by lia.
  destruct s as [[| | |c|c d|a] b e r m]; unfold seg_len, PathSeq_Model.seg_getitem; cbn [s_kind s_start s_end];
  destruct C as [C|[->|[->|[->|[->|[->|C]]]]]]; try reflexivity;
  repeat match goal with |- context [?x =? ?y] => destruct (Z.eqb_spec x y); try lia end;
  repeat match goal with |- context [?x <? ?y] => destruct (Z.ltb_spec x y); try lia end;
  repeat match goal with |- context [?x <=? ?y] => destruct (Z.leb_spec x y); try lia end; reflexivity.
Qed.
(** Reading from a list the way __next__ does. *)
Fixpoint skimmed (l : list (option pt)) : list (option pt) :=
  match l with
  | [] => []
  | Some p :: r => Some p :: skimmed r
  | [None] => []
  | None :: o :: r => o :: skimmed r
  end.
Lemma seg_list_skimmed : forall s, seg_list solve s = skimmed (points s).
Proof.
  intros s. unfold seg_list. destruct s as [[| | |c|c d|a] b e r m]; unfold PathSeq_Spec.points; cbn [s_kind];
  try (destruct b, e; reflexivity); try (destruct b, c, e; reflexivity); try (destruct b, c, d, e; reflexivity).
  destruct (solve {| s_kind := KArc a; s_start := b; s_end := e; s_rel := r; s_smooth := m |}) as [ct x y w] eqn:E.
  cbn [s_start s_end n_center n_prx n_pry].
  destruct b, e, ct, x, y; cbn [drain seg_next PathSeq_Model.seg_getitem s_kind Z.add Z.opp Pos.add Z.eqb Pos.eqb Pos.succ Z.pos_sub s_start s_end];
  unfold seg_next, PathSeq_Model.seg_getitem; cbn; rewrite ?E; cbn; rewrite ?E; cbn; rewrite ?E; cbn; rewrite ?E; cbn; rewrite ?E; cbn; reflexivity.
Qed.
Lemma no_gap_tail : forall o l, no_gap (o :: l) -> no_gap l.
Proof. intros o l H a b K. apply (H (o :: a) b). cbn. congruence. Qed.
Lemma skimmed_present : forall n l, (List.length l <= n)%nat -> no_gap l -> skimmed l = map Some (present l).
Proof.
  induction n as [|n IH]; intros [|o l] L H; cbn in L; try lia; auto.
  destruct o as [p|].
  - cbn. f_equal. apply IH; [lia|]. eapply no_gap_tail; eauto.
  - destruct l as [|[q|] l]; auto.
    + cbn. f_equal. apply IH; [cbn in L; lia|]. eapply no_gap_tail, no_gap_tail; eauto.
    + exfalso. apply (H [] l). reflexivity.
Qed.
Lemma seg_list_present : forall s, no_gap (points s) -> seg_list solve s = map Some (present (points s)).
Proof. intros s H. rewrite seg_list_skimmed. eapply skimmed_present; eauto. Qed.
Lemma somes_present : forall l, somes l = present l.
Proof. induction l as [|[p|] l IH]; cbn; [auto|f_equal; auto|auto]. Qed.
Lemma present_skimmed : forall n l, (List.length l <= n)%nat -> present (skimmed l) = present l.
Proof.
  induction n as [|n IH]; intros [|o l] L; cbn in L; try lia; auto.
  destruct o as [p|].
  - cbn. f_equal. apply IH. lia.
  - destruct l as [|[q|] l]; auto.
    + cbn. f_equal. apply IH. cbn in L; lia.
    + cbn. apply IH. cbn in L; lia.
Qed.
Lemma somes_list : forall s, somes (seg_list solve s) = present (points s).
Proof. intros s. rewrite somes_present, seg_list_skimmed. eapply present_skimmed; eauto. Qed.

Lemma qcmin_le : forall a b, (qcmin a b <= a)%Qc /\ (qcmin a b <= b)%Qc /\ (qcmin a b = a \/ qcmin a b = b).
Proof.
  intros a b. unfold qcmin. destruct (Qle_bool a b) eqn:E.
  - apply Qle_bool_iff in E. repeat split; auto. apply Qcle_refl.
  - assert (H : ~ (a <= b)%Q) by (intros K; apply Qle_bool_iff in K; congruence).
    apply Qnot_le_lt in H. repeat split; auto. unfold Qcle. apply Qlt_le_weak; auto. apply Qcle_refl.
Qed.
Lemma qcmax_le : forall a b, (a <= qcmax a b)%Qc /\ (b <= qcmax a b)%Qc /\ (qcmax a b = a \/ qcmax a b = b).
Proof.
  intros a b. unfold qcmax. destruct (Qle_bool a b) eqn:E.
  - apply Qle_bool_iff in E. repeat split; auto. apply Qcle_refl.
  - assert (H : ~ (a <= b)%Q) by (intros K; apply Qle_bool_iff in K; congruence).
    apply Qnot_le_lt in H. repeat split; auto. apply Qcle_refl. unfold Qcle. apply Qlt_le_weak; auto.
Qed.
Lemma fold_min : forall l x, let m := fold_left qcmin l x in (forall y, In y (x :: l) -> (m <= y)%Qc) /\ In m (x :: l).
Proof.
  induction l as [|z l IH]; intros x; cbn zeta; cbn [fold_left].
  - split; [intros y [<-|[]]; apply Qcle_refl|left; auto].
  - destruct (qcmin_le x z) as (A & B & C). destruct (IH (qcmin x z)) as [D E]. split.
    + assert (F := D _ (or_introl eq_refl)). intros y [<-|[<-|Y]]; [eapply Qcle_trans; eauto|eapply Qcle_trans; eauto|apply D; right; auto].
    + destruct E as [E|E]; [|right; right; auto]. rewrite <- E. destruct C as [->| ->]; [left|right; left]; auto.
Qed.
Lemma fold_max : forall l x, let m := fold_left qcmax l x in (forall y, In y (x :: l) -> (y <= m)%Qc) /\ In m (x :: l).
Proof.
  induction l as [|z l IH]; intros x; cbn zeta; cbn [fold_left].
  - split; [intros y [<-|[]]; apply Qcle_refl|left; auto].
  - destruct (qcmax_le x z) as (A & B & C). destruct (IH (qcmax x z)) as [D E]. split.
    + assert (F := D _ (or_introl eq_refl)). intros y [<-|[<-|Y]]; [eapply Qcle_trans; eauto|eapply Qcle_trans; eauto|apply D; right; auto].
    + destruct E as [E|E]; [|right; right; auto]. rewrite <- E. destruct C as [->| ->]; [left|right; left]; auto.
Qed.
Lemma bbox_tight : forall s,
  match present (points s) with
  | [] => seg_bbox solve s = Err ValueError
  | _ => exists x0 y0 x1 y1, seg_bbox solve s = Ok (x0, y0, x1, y1) /\ tight_box (present (points s)) x0 y0 x1 y1
  end.
Proof.
  intros s. unfold seg_bbox. rewrite somes_list. destruct (present (points s)) as [|p l] eqn:E; [reflexivity|].
  cbn [map minimum maximum rbind]. do 4 eexists. split; [reflexivity|].
  destruct (fold_min (map fst l) (fst p)) as [A B]. destruct (fold_max (map fst l) (fst p)) as [C D].
  destruct (fold_min (map snd l) (snd p)) as [F G]. destruct (fold_max (map snd l) (snd p)) as [H I].
  assert (K : forall (f : pt -> Qc) m, In m (f p :: map f l) -> exists q, In q (p :: l) /\ f q = m).
  { intros f m M. change (f p :: map f l) with (map f (p :: l)) in M. apply in_map_iff in M. destruct M as (q & Q & M). eauto. }
  repeat split; try (apply K; assumption); try (match goal with X : In _ (p :: l) |- _ => apply (in_map fst) in X end; auto; fail); 
    match goal with X : In ?q (p :: l) |- _ => pose proof (in_map fst _ _ X); pose proof (in_map snd _ _ X); auto end.
Qed.

(** Nested loops *)
Definition full (s : seg) : Prop := ~ In None (points s).
Lemma nested_full : forall s, full s ->
  seg_nested solve s = match present (points s) with [] => [] | p :: _ => map (fun q => (Some p, Some q)) (present (points s)) end.
Proof.
  intros s F. unfold full in F. destruct s as [[| | |c|c d|a] b e r m]; unfold PathSeq_Spec.points in *; cbn [s_kind s_start s_end] in *.
  1-3: destruct b, e; try (exfalso; apply F; cbn; tauto); reflexivity.
  - destruct b, c, e; try (exfalso; apply F; cbn; tauto); reflexivity.
  - destruct b, c, d, e; try (exfalso; apply F; cbn; tauto); reflexivity.
  - remember (solve {| s_kind := KArc a; s_start := b; s_end := e; s_rel := r; s_smooth := m |}) as w eqn:E. symmetry in E.
    destruct w as [ct x y w]. cbn [n_center n_prx n_pry] in F.
    destruct b, e, ct, x, y; try (exfalso; apply F; cbn; tauto).
    unfold seg_nested; cbn [nested_from]; unfold seg_next, PathSeq_Model.seg_getitem; cbn [s_kind Z.add Z.opp Pos.add Z.eqb Pos.eqb Pos.succ Z.pos_sub s_start s_end].
    do 6 (cbn; rewrite ?E). reflexivity.
Qed.

(** Equality *)
Lemma onear_iff : forall a b, onear a b = true <-> alike_point a b.
Proof.
  intros [p|] [q|]; unfold alike_point, meets; cbn; split; intros H; try discriminate; auto.
  - right. exists p, q. rewrite <- near_iff. auto.
  - destruct H as [[H _]|(x & y & A & B & C)]; [discriminate|]. injection A as ->. injection B as ->. apply near_iff; auto.
  - destruct H as [[H _]|(x & y & A & B & C)]; discriminate.
  - destruct H as [[_ H]|(x & y & A & B & C)]; discriminate.
Qed.
Lemma osame_iff : forall a b, osame a b = true <-> a = b.
Proof. intros [x|] [y|]; cbn; try (split; congruence). destruct (Qc_eq_dec x y); split; congruence. Qed.
Lemma Forall2_cons_iff' : forall A B (R : A -> B -> Prop) x y l m, Forall2 R (x :: l) (y :: m) <-> R x y /\ Forall2 R l m.
Proof. intros. split; [intros H; inversion H; auto|intros [H K]; constructor; auto]. Qed.
Lemma Forall2_nil_iff' : forall A B (R : A -> B -> Prop), Forall2 R [] [] <-> True.
Proof. intros. split; auto. Qed.
Lemma seg_eq_iff : forall s t, seg_eq solve s t = true <-> same_segment solve s t.
Proof.
  intros s t. unfold same_segment, seg_eq, sort_of, PathSeq_Spec.points.
  destruct (s_kind s) as [| | |c|c d|a], (s_kind t) as [| | |c'|c' d'|a'];
    try (split; [discriminate|intros (A & _); discriminate]);
    rewrite ?andb_true_iff, ?onear_iff, ?osame_iff, ?Forall2_cons_iff', ?Forall2_nil_iff'; intuition congruence.
Qed.
Lemma alike_refl : forall a, alike_point a a.
Proof.
  intros [p|]; [right|left; auto]. exists p, p. repeat split; auto; unfold same_place;
  match goal with |- (Qabs (?x - ?x) <= _)%Q => setoid_replace (x - x)%Q with 0%Q by ring; discriminate end.
Qed.
Lemma alike_sym : forall a b, alike_point a b -> alike_point b a.
Proof. intros a b H. apply onear_iff in H. apply onear_iff. destruct a, b; cbn in *; auto. rewrite near_sym; auto. Qed.
Lemma same_segment_refl : forall s, same_segment solve s s.
Proof. intros s. repeat split; auto. induction (points s); constructor; auto. apply alike_refl. Qed.
Lemma Forall2_flip' : forall A B (R : A -> B -> Prop) (S : B -> A -> Prop), (forall a b, R a b -> S b a) -> forall l m, Forall2 R l m -> Forall2 S m l.
Proof. intros A B R S H l m K. induction K; constructor; auto. Qed.
Lemma same_segment_sym : forall s t, same_segment solve s t -> same_segment solve t s.
Proof.
  intros s t (A & B & C). split; [auto|]. split; [eapply Forall2_flip'; [|exact B]; apply alike_sym|].
  intros K. symmetry. apply C. congruence.
Qed.
Lemma seg_eq_sym : forall s t, seg_eq solve s t = seg_eq solve t s.
Proof.
  intros s t. destruct (seg_eq solve s t) eqn:E, (seg_eq solve t s) eqn:F; auto; exfalso.
  - apply seg_eq_iff, same_segment_sym, seg_eq_iff in E. congruence.
  - apply seg_eq_iff, same_segment_sym, seg_eq_iff in F. congruence.
Qed.
Lemma zip_eq_iff : forall p q, List.length p = List.length q -> (zip_eq solve p q = true <-> same_path solve p q).
Proof.
  unfold same_path. induction p as [|s p IH]; intros [|t q] L; cbn in L; try discriminate.
  - split; auto.
  - cbn. rewrite andb_true_iff, Forall2_cons_iff', seg_eq_iff, IH by lia. tauto.
Qed.
Lemma same_path_sym : forall p q, same_path solve p q -> same_path solve q p.
Proof. intros p q. unfold same_path. apply Forall2_flip'. apply same_segment_sym. Qed.
Lemma Forall2_len : forall A B (R : A -> B -> Prop) l m, Forall2 R l m -> List.length l = List.length m.
Proof. intros A B R l m H. induction H; cbn; auto. Qed.
Lemma path_eq_iff : forall p q, path_eq solve p q = true <-> same_path solve p q.
Proof.
  intros p q. unfold path_eq. destruct (Nat.eqb_spec (List.length p) (List.length q)) as [E|E].
  - rewrite zip_eq_iff by auto. split; apply same_path_sym.
  - split; [discriminate|]. intros H. apply Forall2_len in H. congruence.
Qed.
Lemma same_path_refl : forall p, same_path solve p p.
Proof. intros p. unfold same_path. induction p; constructor; auto. apply same_segment_refl. Qed.

(** Same drawings are equal *)
Lemma view_same : forall s t d, view s = Some d -> view t = Some d -> sort_of s <> SortArc -> same_segment solve s t.
Proof.
  intros s t d V W N.
  assert (K : sort_of s = sort_of t /\ points s = points t).
  { unfold view, sort_of, PathSeq_Spec.points in *. destruct (s_kind s) as [| | |[c|]|[c|] [e|]|a]; try congruence;
    destruct (s_kind t) as [| | |[c'|]|[c'|] [e'|]|a'];
    repeat match goal with H : context [match ?x with Some _ => _ | None => _ end] |- _ => destruct x end; try congruence; split; congruence. }
  destruct K as [K1 K2]. split; auto. split; [|intros; congruence].
  rewrite K2. clear. induction (points t); constructor; auto. apply alike_refl.
Qed.
Definition not_arc (d : drawn) : Prop := match d with SArc _ _ _ _ _ _ _ => False | _ => True end.
Lemma views_same : forall ds p q, map view p = map Some ds -> map view q = map Some ds -> Forall not_arc ds -> same_path solve p q.
Proof.
  induction ds as [|d ds IH]; intros [|s p] [|t q] V W N; try discriminate; [constructor|].
  cbn in V, W. injection V as V1 V2. injection W as W1 W2. inversion N; subst. constructor; [|apply IH; auto].
  eapply view_same; eauto. intros A. unfold view, sort_of in *. destruct (s_kind s); try discriminate. destruct (s_start s), (s_end s); try discriminate.
  injection V1 as <-. cbn in *. auto.
Qed.
Lemma chained_no_arc : forall ds a b, chained a b ds -> Forall not_arc ds.
Proof. induction ds as [|d ds IH]; intros a b H; constructor; destruct d; cbn in *; try tauto; try (destruct H as [_ H]; eauto); try (destruct H as [_ H]; eauto). Qed.

(** List methods *)
Lemma contains_iff : forall p v, contains solve p v = true <-> exists s, In s p /\ same_segment solve s v.
Proof.
  intros p v. unfold contains. rewrite existsb_exists. split; intros (s & A & B); exists s; split; auto; apply seg_eq_iff; auto.
Qed.
Lemma index_from_first : forall p i v k, index_from solve i p v = Ok k -> exists j, k = i + Z.of_nat j /\ first_at (fun s => same_segment solve s v) p j.
Proof.
  induction p as [|s p IH]; intros i v k H; cbn in H; [discriminate|]. destruct (seg_eq solve s v) eqn:E.
  - injection H as <-. exists 0%nat. split; [lia|]. exists [], s, p. split; [reflexivity|]. split; [reflexivity|]. split; [apply seg_eq_iff; auto|constructor].
  - apply IH in H. destruct H as (j & -> & a & x & b & -> & L & S & F). exists (Datatypes.S j). split; [lia|].
    exists (s :: a), x, b. split; [reflexivity|]. split; [cbn; lia|]. split; auto. constructor; auto. rewrite <- seg_eq_iff. congruence.
Qed.
Lemma index_from_none : forall p i v, (exists k, index_from solve i p v = Ok k) \/ (index_from solve i p v = Err ValueError /\ contains solve p v = false).
Proof.
  induction p as [|s p IH]; intros i v; cbn; [right; auto|]. destruct (seg_eq solve s v) eqn:E; [left; eauto|]. apply (IH (i + 1) v).
Qed.
Lemma first_index : forall p i v j, first_at (fun s => same_segment solve s v) p j -> index_from solve i p v = Ok (i + Z.of_nat j).
Proof.
  intros p i v j (a & x & b & -> & L & S & F). revert i j L. induction F as [|y a Y F IH]; intros i j L; cbn in *.
  - subst j. apply seg_eq_iff in S. rewrite S. f_equal. lia.
  - destruct (seg_eq solve y v) eqn:E; [apply seg_eq_iff in E; contradiction|]. destruct j as [|j]; [discriminate|]. rewrite (IH (i + 1) j) by lia. f_equal. lia.
Qed.
Lemma count_pos : forall p v, (0 < count solve p v)%nat <-> contains solve p v = true.
Proof.
  intros p v. unfold count, contains. induction p as [|s p IH]; cbn; [split; [lia|discriminate]|].
  destruct (seg_eq solve s v); cbn; [split; auto; lia|auto].
Qed.
End P.


Lemma pyidx_last : forall A (l : list A) x, pyidx (List.length (l ++ [x])) (-1) = Some (List.length l).
Proof.
  intros. rewrite app_length. unfold pyidx. cbn [List.length]. cbn [Z.ltb Z.compare]. rewrite Nat2Z.inj_add. cbn [Z.of_nat Pos.of_succ_nat].
  replace (-1 + (Z.of_nat (List.length l) + 1)) with (Z.of_nat (List.length l)) by lia.
  destruct (Z.leb_spec 0 (Z.of_nat (List.length l))); [|lia]. destruct (Z.ltb_spec (Z.of_nat (List.length l)) (Z.of_nat (List.length l) + 1)); [|lia].
  cbn [andb]. rewrite Nat2Z.id. auto.
Qed.
Lemma pop_last : forall p s, pop (p ++ [s]) (-1) = Ok (s, p).
Proof.
  intros p s. unfold pop, delitem. unfold pyget at 1 2. rewrite pyidx_last.
  rewrite nth_error_app2, Nat.sub_diag by lia. cbn [nth_error rbind].
  rewrite pydel_at, app_nil_r. unfold validate_connection, validate_connection2, validate_subpath. cbn [Z.sub Z.add Z.opp Pos.add Z.ltb Z.compare orb].
  destruct (is_close s || is_move s); reflexivity.
Qed.
Lemma pop_empty : forall i, pop [] i = Err IndexError.
Proof. intros i. unfold pop, pyget, pyidx. cbn. destruct (i <? 0) eqn:E; destruct (0 <=? _) eqn:F; cbn; auto; destruct (_ <? 0) eqn:G; auto; lia. Qed.
Lemma clear_loop_empties : forall n p, (List.length p < n)%nat -> clear_loop n p = Ok [].
Proof.
  induction n as [|n IH]; intros p L; [lia|]. destruct p as [|s p _] using rev_ind.
  - cbn [clear_loop]. rewrite pop_empty. reflexivity.
  - cbn [clear_loop]. rewrite pop_last. apply IH. rewrite app_length in L. cbn in L. lia.
Qed.
Lemma clear_empties : forall p, clear p = Ok [].
Proof. intros p. apply clear_loop_empties. lia. Qed.
Lemma pop_at : forall a s b, pop (a ++ s :: b) (Z.of_nat (List.length a)) = rmap (pair s) (delitem (a ++ s :: b) (Z.of_nat (List.length a))).
Proof. intros. unfold pop. rewrite pyget_at. cbn [rbind]. destruct (delitem _ _); reflexivity. Qed.

(** Subpath text *)
Lemma svg_d_move_start : forall m p relative smooth cur prev, s_kind m = KMove ->
  svg_d_from prev cur relative smooth (set_start m None :: p) = svg_d_from prev cur relative smooth (m :: p).
Proof.
  intros [k b e r sm] p relative smooth cur prev K. cbn in K. subst k. cbn [svg_d_from s_kind s_start s_end s_rel s_smooth set_start is_smooth_from seg_d].
  destruct p as [|t p]; [reflexivity|]. cbn [svg_d_from is_smooth_from s_kind s_end]. reflexivity.
Qed.
Lemma svg_d_reads_alone : forall g relative smooth m p o e ds, 0 <= g <= 9 -> map view (m :: p) = map Some (SMove o e :: ds) -> pt_on_grid g e -> all_on_grid g ds -> chained (Some e) e ds ->
  (smooth <> Some false -> unmixed ds) ->
  exists s q, svg_d (m :: p) relative smooth = Ok s /\ parse s [] = (q, None) /\ map view q = map Some (SMove None e :: ds).
Proof.
  intros g relative smooth m p o e ds G V GE GD C U. cbn [map] in V. injection V as V1 V2.
  assert (K : s_kind m = KMove /\ s_end m = Some e).
  { unfold view in V1. destruct (s_kind m) as [| | |[c|]|[c|] [c'|]|a], (s_start m), (s_end m); try discriminate V1; injection V1; split; congruence. }
  destruct K as [K1 K2].
  assert (W : map view (set_start m None :: p) = map Some (SMove None e :: ds)).
  { cbn [map]. rewrite V2. f_equal. unfold view. cbn [set_start s_kind s_start s_end]. rewrite K1, K2. reflexivity. }
  destruct (path_text_roundtrip g relative smooth (set_start m None :: p) (SMove None e :: ds) G W) as (s & q & A & B & D).
  - constructor; auto. cbn. auto.
  - cbn. auto.
  - exact I.
  - intros S. destruct ds as [|d ds]; cbn; auto. split; [tauto|]. apply U; auto.
  - exists s, q. split; [|split; [exact B|congruence]]. rewrite <- A. unfold svg_d. rewrite svg_d_move_start; auto.
Qed.
