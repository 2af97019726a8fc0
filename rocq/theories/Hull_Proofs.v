Require Import ZArith QArith List Bool Lia Lqa Permutation.
Require Import Verif.Base Verif.Color_Proofs Verif.Hull_Model Verif.Hull_Spec.
Import ListNotations.
Open Scope Q_scope.

Lemma orient2 : forall p q r, Z.eqb (orientation p q r) 2 = true <-> 0 < area2 p q r.
Proof.
  intros p q r. unfold orientation, area2.
  set (v := (snd q - snd p) * (fst r - fst q) - (fst q - fst p) * (snd r - snd q)).
  setoid_replace ((fst q - fst p) * (snd r - snd p) - (snd q - snd p) * (fst r - fst p)) with (- v) by (unfold v; ring).
  clearbody v. destruct (Qeq_bool v 0) eqn:E.
  - apply Qeq_bool_iff in E. split; [discriminate|]. intros. lra.
  - assert (~ v == 0). { intros K. apply Qeq_bool_iff in K. congruence. }
    destruct (Qltb 0 v) eqn:L; [apply Qltb_true in L | apply Qltb_false in L].
    + split; [discriminate|]. intros. lra.
    + split; auto. intros _. destruct (Qlt_le_dec v 0); [lra|]. exfalso. apply H. lra.
Qed.

Lemma same_iff : forall a b, same a b = true <-> fst a == fst b /\ snd a == snd b.
Proof. intros. unfold same. rewrite andb_true_iff, !Qeq_bool_iff. reflexivity. Qed.
Lemma same_in : forall s a b, pdistinct s -> In a s -> In b s -> (same a b = true <-> a = b).
Proof.
  intros s a b [_ D] A B. rewrite same_iff. split; [intros [X Y]; apply D; auto|]. intros ->. split; reflexivity.
Qed.

Lemma area_anti : forall p a b, area2 p a b == - area2 p b a.
Proof. intros. unfold area2. ring. Qed.
Lemma area_pp : forall p a, area2 p p a == 0. Proof. intros. unfold area2. ring. Qed.
Lemma area_aa : forall p a, area2 p a a == 0. Proof. intros. unfold area2. ring. Qed.
Lemma area_rot : forall a b c, area2 a b c == area2 b c a. Proof. intros. unfold area2. ring. Qed.

(** A point on the boundary: everything else on one side of a line through it, at most one point on the line. *)
Definition D (d p t : qpt) : Q := fst d * (snd t - snd p) - snd d * (fst t - fst p).
Definition extreme (s : list qpt) (p : qpt) : Prop :=
  exists d, (forall t, In t s -> t <> p -> 0 <= D d p t) /\
  forall a b, In a s -> In b s -> a <> p -> b <> p -> D d p a == 0 -> D d p b == 0 -> a = b.

Lemma plucker : forall d p a b c, area2 p a c * D d p b == area2 p a b * D d p c + area2 p b c * D d p a.
Proof. intros. unfold area2, D. ring. Qed.

Lemma extreme_trans : forall s p, extreme s p -> forall a b c, In a s -> In b s -> In c s -> a <> p -> b <> p -> c <> p ->
  0 < area2 p a b -> 0 < area2 p b c -> 0 < area2 p a c.
Proof.
  intros s p (d & E1 & E2) a b c A B C Na Nb Nc H1 H2.
  pose proof (E1 a A Na) as Da. pose proof (E1 b B Nb) as Db. pose proof (E1 c C Nc) as Dc.
  pose proof (plucker d p a b c) as PL.
  assert (NE1 : a <> b). { intros ->. rewrite area_aa in H1. lra. }
  assert (NE2 : b <> c). { intros ->. rewrite area_aa in H2. lra. }
  assert (ZA := E2 a b A B Na Nb). assert (ZC := E2 b c B C Nb Nc). assert (ZAC := E2 a c A C Na Nc).
  assert (X1 : 0 <= area2 p a b * D d p c) by (apply Qmult_le_0_compat; lra).
  assert (X2 : 0 <= area2 p b c * D d p a) by (apply Qmult_le_0_compat; lra).
  destruct (Qeq_dec (D d p b) 0) as [Zb|Zb].
  - exfalso. assert (Pa : 0 < D d p a). { destruct (Qeq_dec (D d p a) 0); [exfalso; apply NE1; auto|]. lra. }
    assert (0 < area2 p b c * D d p a). { setoid_replace 0 with (0 * D d p a) by ring. apply Qmult_lt_compat_r; auto. }
    rewrite Zb in PL. lra.
  - assert (Pb : 0 < D d p b). { destruct (Qlt_le_dec 0 (D d p b)); auto. exfalso. apply Zb. lra. }
    destruct (Qlt_le_dec 0 (area2 p a c)) as [|N]; auto. exfalso.
    assert (LE : area2 p a c * D d p b <= 0).
    { assert (0 <= (- area2 p a c) * D d p b) by (apply Qmult_le_0_compat; lra). lra. }
    assert (S0 : area2 p a b * D d p c == 0) by lra. assert (S1 : area2 p b c * D d p a == 0) by lra.
    apply Qmult_integral in S0 as [S0|S0]; [lra|]. apply Qmult_integral in S1 as [S1|S1]; [lra|].
    assert (a = c) by auto. subst c. rewrite area_anti in H2. lra.
Qed.

(** The inner loop finds the point with everything else on the left. *)
Definition edge (s : list qpt) (p q : qpt) : Prop := In q s /\ q <> p /\ forall t, In t s -> t = p \/ t = q \/ 0 < area2 p q t.

Lemma next_inv : forall s p, general_position s -> In p s -> extreme s p -> forall l, incl l s ->
  forall e pre, incl pre s ->
  ((e = p /\ forall t, In t pre -> t = p) \/ (In e pre /\ e <> p /\ forall t, In t pre -> t = p \/ t = e \/ 0 < area2 p e t)) ->
  let e' := fold_left (fun e t => if same p e || Z.eqb (orientation p t e) 2 then t else e) l e in
  ((e' = p /\ forall t, In t (pre ++ l) -> t = p) \/ (In e' (pre ++ l) /\ e' <> p /\ forall t, In t (pre ++ l) -> t = p \/ t = e' \/ 0 < area2 p e' t)).
Proof.
  intros s p GP P EX. induction l as [|t l IH]; intros IL e pre IP H.
  - rewrite app_nil_r. exact H.
  - simpl. assert (T : In t s) by (apply IL; left; auto).
    assert (IL' : incl l s) by (intros x Hx; apply IL; right; auto).
    replace (pre ++ t :: l) with ((pre ++ [t]) ++ l) by (rewrite <- app_assoc; reflexivity).
    apply IH; auto. { apply incl_app; auto. intros x [->|[]]; auto. }
    destruct GP as [DS NC].
    assert (decp : forall x, In x s -> {x = p} + {x <> p}).
    { intros x Hx. destruct (same x p) eqn:E. left. apply (same_in s x p DS); auto. right. intros K. apply (same_in s x p DS) in K; auto. congruence. }
    destruct H as [[-> AP]|(E1 & E2 & E3)].
    + replace (same p p) with true by (symmetry; apply same_iff; split; reflexivity). simpl.
      destruct (decp t T) as [->|N].
      * left. split; auto. intros x Hx. apply in_app_or in Hx as [Hx|[Hx|[]]]; auto.
      * right. split; [apply in_or_app; simpl; auto|]. split; auto. intros x Hx. apply in_app_or in Hx as [Hx|[Hx|[]]]; auto.
    + assert (ES : In e s) by (apply IP; auto).
      replace (same p e) with false. 2:{ symmetry. apply not_true_iff_false. rewrite (same_in s p e DS) by auto. auto. }
      simpl. right. destruct (Z.eqb (orientation p t e) 2) eqn:O.
      * apply orient2 in O. assert (NT : t <> p). { intros ->. rewrite area_pp in O. lra. }
        split; [apply in_or_app; simpl; auto|]. split; auto. intros x Hx. apply in_app_or in Hx as [Hx|[Hx|[]]]; auto.
        destruct (E3 x Hx) as [X|[X|X]]; auto. { subst x. auto. }
        destruct (decp x (IP _ Hx)); auto. right. right.
        apply (extreme_trans s p EX t e x); auto.
      * split; [apply in_or_app; auto|]. split; auto. intros x Hx. apply in_app_or in Hx as [Hx|[<-|[]]]; auto.
        destruct (decp t T) as [X|X]; auto.
        destruct (same t e) eqn:SE. { apply (same_in s t e DS) in SE; auto. }
        assert (NE : t <> e). { intros K. apply (same_in s t e DS) in K; auto. congruence. }
        right. right. assert (~ 0 < area2 p t e). { intros K. apply orient2 in K. congruence. }
        assert (~ area2 p t e == 0). { apply NC; auto. }
        rewrite area_anti. destruct (Qlt_le_dec (area2 p t e) 0); [lra|]. exfalso. apply H0. lra.
Qed.

Lemma next_edge : forall s p, general_position s -> In p s -> extreme s p -> (exists q, In q s /\ q <> p) ->
  edge s p (hull_next s p).
Proof.
  intros s p GP P EX (q & Q1 & Q2).
  destruct (next_inv s p GP P EX s (incl_refl _) p [] (incl_nil_l _)) as [[E A]|(A & B & C)].
  { left. split; auto. intros t []. }
  - exfalso. apply Q2. apply A. exact Q1.
  - split; auto.
Qed.

Lemma edge_extreme : forall s p q, edge s p q -> In p s -> extreme s q.
Proof.
  intros s p q (Q & N & L) P. exists (fst q - fst p, snd q - snd p).
  assert (E : forall t, D (fst q - fst p, snd q - snd p) q t == area2 p q t) by (intros; unfold D, area2; simpl; ring).
  split.
  - intros t T NT. rewrite E. destruct (L t T) as [->|[->|K]]; [|congruence|lra].
    rewrite area_rot, area_rot, area_pp. lra.
  - intros a b A B NA NB. rewrite !E. intros ZA ZB.
    destruct (L a A) as [->|[->|K]]; [|congruence|lra].
    destruct (L b B) as [->|[->|K]]; [auto|congruence|lra].
Qed.

Lemma edge_inj : forall s p p' q, edge s p q -> edge s p' q -> In p s -> In p' s -> p = p'.
Proof.
  intros s p p' q (Q & N & L) (_ & N' & L') P P'.
  destruct (L p' P') as [K|[K|K]]; auto; [congruence|].
  destruct (L' p P) as [K'|[K'|K']]; auto; [congruence|].
  exfalso. rewrite area_rot, area_anti, area_rot in K'. rewrite (area_rot p' p q), (area_rot p q p') in K'. rewrite area_rot in K. lra.
Qed.

(** The walk. *)
Definition links (f : qpt -> qpt) (l : list qpt) : Prop := forall a b, In (a, b) (combine l (tl l)) -> b = f a.

Lemma combine_snoc : forall (l : list qpt) x y, combine (l ++ [x; y]) (tl (l ++ [x; y])) = combine (l ++ [x]) (tl (l ++ [x])) ++ [(x, y)].
Proof.
  induction l as [|a l IH]; intros; auto. simpl. destruct l; simpl in *; auto. f_equal. apply IH.
Qed.
Lemma pred_in : forall (l : list qpt) x v f, links f (l ++ [x]) -> In v (l ++ [x]) -> v = hd x (l ++ [x]) \/ exists u, In u l /\ v = f u.
Proof.
  induction l as [|y l IH] using rev_ind; intros x v f L V.
  - left. simpl in V. destruct V as [V|[]]; auto.
  - rewrite <- app_assoc in L, V. simpl in L, V.
    apply in_app_or in V as [V|[V|[V|[]]]].
    + destruct (IH y v f) as [K|(u & U & K)].
      * intros a b H. apply L. rewrite combine_snoc. apply in_or_app; auto.
      * apply in_or_app; auto.
      * left. rewrite K. rewrite <- app_assoc. simpl. destruct l; reflexivity.
      * right. exists u. split; auto. apply in_or_app; auto.
    + subst v. destruct (IH y y f) as [K|(u & U & K)].
      * intros a b H. apply L. rewrite combine_snoc. apply in_or_app; auto.
      * apply in_or_app; simpl; auto.
      * left. rewrite K at 1. rewrite <- app_assoc. simpl. destruct l; reflexivity.
      * right. exists u. split; auto. apply in_or_app; auto.
    + subst v. right. exists y. split; [apply in_or_app; simpl; auto|]. apply L. rewrite combine_snoc. apply in_or_app. simpl; auto.
Qed.

Lemma loop_ok : forall s first, general_position s -> In first s -> (exists q, In q s /\ q <> first) ->
  forall k vis cur, 
  NoDup (vis ++ [cur]) -> incl (vis ++ [cur]) s -> hd cur (vis ++ [cur]) = first -> links (hull_next s) (vis ++ [cur]) ->
  (forall p, In p (vis ++ [cur]) -> edge s p (hull_next s p)) ->
  (List.length s <= k + List.length vis)%nat ->
  exists h, hull_loop k s first cur = Some h /\ NoDup (vis ++ h) /\ incl (vis ++ h) s /\ hd_error (vis ++ h) = Some first /\
    links (hull_next s) (vis ++ h) /\ (exists l z, vis ++ h = l ++ [z] /\ hull_next s z = first) /\
    (forall p, In p (vis ++ h) -> edge s p (hull_next s p)).
Proof.
  intros s first GP F0 TWO. induction k; intros vis cur ND INC HD LK ED LEN.
  - exfalso. assert (L := NoDup_incl_length ND INC). rewrite app_length in L. simpl in L. lia.
  - simpl. set (nxt := hull_next s cur).
    assert (CS : In cur s). { apply INC. apply in_or_app. simpl; auto. }
    assert (EN : edge s cur nxt). { apply ED. apply in_or_app. simpl; auto. }
    assert (NS : In nxt s) by apply EN.
    destruct (same first nxt) eqn:S.
    + apply (same_in s first nxt (proj1 GP)) in S; auto. exists [cur]. split; auto. split; auto. split; auto.
      split. { destruct vis; simpl in *; congruence. } split; auto. split; auto. exists vis, cur. split; auto.
    + assert (NF : nxt <> first). { intros K. symmetry in K. apply (same_in s first nxt (proj1 GP)) in K; auto. congruence. }
      assert (NI : ~ In nxt (vis ++ [cur])).
      { intros K. destruct (pred_in vis cur nxt (hull_next s) LK K) as [K1|(u & U & K1)].
        - exact (NF (eq_trans K1 HD)).
        - assert (u = cur).
          { apply (edge_inj s u cur nxt); auto.
            - rewrite K1. apply ED. apply in_or_app; auto.
            - apply INC. apply in_or_app; auto. }
          subst u. apply NoDup_remove_2 in ND. apply ND. rewrite app_nil_r. auto. }
      destruct (IHk (vis ++ [cur]) nxt) as (h & H1 & H2 & H3 & H4 & H5 & H6 & H7).
      * apply NoDup_rev in ND. rewrite <- (rev_involutive ((vis ++ [cur]) ++ [nxt])). apply NoDup_rev. rewrite rev_app_distr. simpl. constructor; auto.
        intros K. apply in_rev in K. auto.
      * apply incl_app; auto. intros x [<-|[]]; auto.
      * destruct vis; simpl in *; auto.
      * intros a b H. rewrite <- app_assoc in H. simpl in H. rewrite combine_snoc in H. apply in_app_or in H as [H|[H|[]]]; auto.
        inversion H; subst. reflexivity.
      * intros p Hp. apply in_app_or in Hp as [Hp|[<-|[]]]; auto.
        apply next_edge; auto. { apply (edge_extreme s cur); auto. } exists first. auto.
      * rewrite app_length. simpl. lia.
      * exists (cur :: h). rewrite H1. split; auto. rewrite <- app_assoc in *. simpl in *. auto 10.
Qed.

(** Sorting. *)
Lemma insert_perm : forall p l, Permutation (p :: l) (insert_x p l).
Proof.
  induction l; simpl; auto. destruct (Qle_bool (fst p) (fst a)); auto.
  eapply perm_trans; [apply perm_swap|]. apply perm_skip. auto.
Qed.
Lemma sort_perm : forall l, Permutation l (sort_x l).
Proof. induction l; simpl; auto. eapply perm_trans; [apply perm_skip; exact IHl | apply insert_perm]. Qed.
Lemma insert_in : forall p l t, In t (insert_x p l) -> t = p \/ In t l.
Proof. intros. apply (Permutation_in _ (Permutation_sym (insert_perm p l))) in H. destruct H; auto. Qed.
Definition min_hd (l : list qpt) : Prop := match l with [] => True | f :: _ => forall t, In t l -> fst f <= fst t end.
Lemma insert_min : forall p l, min_hd l -> min_hd (insert_x p l).
Proof.
  intros p l H. destruct l as [|q l]; simpl. { intros t [->|[]]. lra. }
  simpl in H. destruct (Qle_bool (fst p) (fst q)) eqn:E.
  - apply Qle_bool_iff in E. intros t [->|[->|K]]; [lra|auto|]. specialize (H t (or_intror K)). lra.
  - assert (fst q <= fst p). { apply Qlt_le_weak. apply Qnot_le_lt. intros K. apply Qle_bool_iff in K. congruence. }
    intros t [->|K]; [lra|]. apply insert_in in K as [->|K]; auto.
Qed.
Lemma sort_min : forall l, min_hd (sort_x l).
Proof. induction l; simpl; auto. apply insert_min. auto. Qed.

Lemma gp_perm : forall s s', Permutation s s' -> general_position s -> general_position s'.
Proof.
  intros s s' Pm [[ND D] NC].
  assert (I : forall x, In x s' -> In x s) by (intros; eapply Permutation_in; [apply Permutation_sym; eauto | auto]).
  split; [split|].
  - eapply Permutation_NoDup; eauto.
  - intros. apply D; auto.
  - intros. apply NC; auto.
Qed.

Lemma first_extreme : forall s f r, general_position s -> s = f :: r -> min_hd s -> extreme s f.
Proof.
  intros s f r [DS NC] E M. subst s. exists (0, -1 # 1).
  assert (ED : forall t, D (0, -1 # 1) f t == fst t - fst f) by (intros; unfold D; simpl; ring).
  split.
  - intros t T N. rewrite ED. specialize (M t T). lra.
  - intros a b A B NA NB. rewrite !ED. intros ZA ZB.
    destruct (same a b) eqn:S. { apply (same_in _ a b DS) in S; auto. }
    exfalso. assert (a <> b). { intros K. apply (same_in _ a b DS) in K; auto. congruence. }
    apply (NC f a b); auto. { left; auto. }
    unfold area2. setoid_replace (fst a - fst f) with 0 by auto. setoid_replace (fst b - fst f) with 0 by auto. ring.
Qed.

Lemma sides_links : forall h f first l z, hd_error h = Some first -> h = l ++ [z] -> links f h -> f z = first ->
  forall a b, In (a, b) (sides h) -> b = f a.
Proof.
  intros h f first l z HD E LK FZ a b H. unfold sides in H. destruct h as [|x h']; [discriminate|]. simpl in HD. inversion HD; subst x.
  simpl firstn in H. cbn [tl] in H.
  assert (SP : combine (first :: h') (h' ++ [first]) = combine (first :: h') h' ++ [(z, first)]).
  { assert (G : forall (h0 : list qpt) x w l, x :: h0 = l ++ [z] -> combine (x :: h0) (h0 ++ [w]) = combine (x :: h0) h0 ++ [(z, w)]).
    { induction h0 as [|y h0 IH]; intros x w l0 E0.
      - destruct l0 as [|q l0]; simpl in E0. inversion E0; subst; reflexivity. destruct l0; discriminate.
      - destruct l0 as [|q l0]; [discriminate|]. simpl in E0. inversion E0. subst.
        change (combine (q :: y :: h0) ((y :: h0) ++ [w])) with ((q, y) :: combine (y :: h0) (h0 ++ [w])).
        rewrite (IH y w l0) by auto. reflexivity. }
    intros. eapply G; eauto. }
  rewrite SP in H. apply in_app_or in H as [H|[H|[]]].
  - apply LK. exact H.
  - inversion H; subst. auto.
Qed.

Lemma hull_lemma : forall s, s <> [] -> general_position s -> exists h, convex_enclosing h s /\
  forall k, (List.length s <= k)%nat -> convex_hull k s = Some h.
Proof.
  intros s NE GP. pose proof (sort_perm s) as PM. pose proof (gp_perm _ _ PM GP) as GP'. pose proof (sort_min s) as MN.
  assert (INS : forall x, In x (sort_x s) <-> In x s).
  { intros x. split; intros H. eapply Permutation_in; [apply Permutation_sym|]; eauto. eapply Permutation_in; eauto. }
  assert (LN : List.length (sort_x s) = List.length s) by (apply Permutation_length, Permutation_sym; auto).
  destruct (sort_x s) as [|f r] eqn:E. { exfalso. apply NE. apply Permutation_sym, Permutation_nil in PM. auto. }
  assert (F0 : In f (f :: r)) by (left; auto).
  pose proof (first_extreme _ f r GP' eq_refl MN) as EX.
  destruct r as [|g r].
  - (* a single point *)
    exists [f]. split.
    + split; [|split; [|split]].
      * intros x [<-|[]]. apply INS. auto.
      * constructor; auto. constructor.
      * discriminate.
      * intros a b [H|[]] t T. inversion H; subst. apply INS in T. destruct T as [<-|[]]. auto.
    + intros k K. unfold convex_hull. rewrite E. destruct k. { simpl in LN. lia. }
      simpl. unfold hull_next. simpl. replace (same f f) with true by (symmetry; apply same_iff; split; reflexivity). simpl.
      replace (same f f) with true by (symmetry; apply same_iff; split; reflexivity). reflexivity.
  - set (pts := f :: g :: r) in *.
    assert (NG : g <> f). { intros ->. destruct GP' as [[ND _] _]. inversion ND. apply H1. left; auto. }
    assert (TWO : exists q, In q pts /\ q <> f) by (exists g; split; [right; left; auto | auto]).
    assert (L : forall k, (List.length s <= k)%nat -> exists h, hull_loop k pts f f = Some h /\ NoDup h /\ incl h pts /\ hd_error h = Some f /\
      links (hull_next pts) h /\ (exists l z, h = l ++ [z] /\ hull_next pts z = f) /\ (forall p, In p h -> edge pts p (hull_next pts p))).
    { intros k K. destruct (loop_ok pts f GP' F0 TWO k [] f) as (h & H); auto.
      - constructor; auto. constructor.
      - intros x [<-|[]]; auto.
      - intros a b H. simpl in H. contradiction.
      - intros p [<-|[]]. apply next_edge; auto.
      - rewrite LN. simpl. lia.
      - exists h. exact H. }
    destruct (L (List.length s) (le_n _)) as (h & H1 & H2 & H3 & H4 & H5 & (l & z & H6 & H7) & H8).
    exists h. split.
    + split; [|split; [|split]]; auto.
      * intros x Hx. apply INS. auto.
      * destruct h; discriminate.
      * intros a b AB t T. pose proof (sides_links h (hull_next pts) f l z H4 H6 H5 H7 a b AB) as ->.
        assert (A : In a h). { unfold sides in AB. eapply in_combine_l; eauto. }
        destruct (H8 a A) as (_ & _ & K). apply K. apply INS. auto.
    + intros k K. unfold convex_hull. rewrite E. fold pts.
      assert (MONO : forall m j first cur h, (m <= j)%nat -> hull_loop m pts first cur = Some h -> hull_loop j pts first cur = Some h).
      { clear. induction m; intros j first cur h M H; [discriminate|]. destruct j; [lia|]. simpl in *.
        destruct (same first (hull_next pts cur)); auto.
        destruct (hull_loop m pts first (hull_next pts cur)) eqn:E; [|discriminate].
        rewrite (IHm j first _ l); auto. lia. }
      exact (MONO _ _ _ _ _ K H1).
Qed.
