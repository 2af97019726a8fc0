(** Proofs about remembered lengths and points along a path. *)
Require Import Reals ZArith List Bool Lra Lia.
Require Import Verif.Base Verif.Path_Model Verif.PathText_Model Verif.PathEdit_Model Verif.PathCache_Model Verif.PathCache_Spec.
Import ListNotations.
Open Scope R_scope.

Section P.
  Context {PT : Type}.
  Variable len : cfg -> seg -> R.
  Variable pnt : seg -> R -> Res PT.
  Notation calc := (calc_lengths len).

  (** What is remembered is right for the settings [c]. *)
  Definition right (c : cfg) (s : cpath) : Prop :=
    c_length s = None \/
    (c_length s = c_length (calc c (fresh (c_segs s))) /\ c_lengths s = c_lengths (calc c (fresh (c_segs s)))).
  Lemma right_fresh : forall c p, right c (fresh p). Proof. intros. left. reflexivity. Qed.
  Lemma right_forget : forall c p s, right c (forget p s). Proof. intros. left. reflexivity. Qed.
  Lemma calc_segs : forall c s, c_segs (calc c s) = c_segs s.
  Proof. intros c s. unfold calc_lengths. destruct (c_length s); reflexivity. Qed.
  Lemma right_calc : forall c s, right c s -> calc c s = calc c (fresh (c_segs s)).
  Proof.
    intros c [p l ls] [H|[H1 H2]].
    - cbn in H. subst. reflexivity.
    - cbn [c_segs c_length c_lengths] in *. subst. reflexivity.
  Qed.
  Lemma calc_right : forall c s, right c s -> right c (calc c s).
  Proof. intros c s H. rewrite (right_calc c s H). right. rewrite calc_segs. cbn [c_segs fresh]. auto. Qed.
  Lemma length_right : forall c s, right c s -> snd (path_length len c s) = snd (path_length len c (fresh (c_segs s))).
  Proof. intros c s H. unfold path_length. cbn [snd]. now rewrite (right_calc c s H). Qed.
  Lemma point_right : forall e t s, right (e, MIN_DEPTH) s ->
    snd (path_point len pnt t e s) = snd (path_point len pnt t e (fresh (c_segs s))) /\ right (e, MIN_DEPTH) (fst (path_point len pnt t e s)).
  Proof.
    intros e t s H. unfold path_point. cbn [c_segs fresh]. destruct (c_segs s) as [|g r] eqn:E.
    - split; auto.
    - destruct (Rle_dec t 0); [split; auto|]. destruct (Rle_dec 1 t); [split; auto|].
      pose proof (calc_right _ _ H) as K. rewrite (right_calc _ _ H) in K |- *. rewrite E in K |- *.
      destruct (c_length (calc (e, MIN_DEPTH) (fresh (g :: r)))); [|split; auto].
      destruct (Req_EM_T _ 0); split; auto.
  Qed.
  (** Histories whose edits forget and whose queries agree on the settings. *)
  Definition fair (e : R) (o : op) : Prop :=
    match o with
    | OReverse | OSubReverse _ | OValidate | OSubMul _ _ => False
    | OLength c => c = (e, MIN_DEPTH)
    | OPoint _ e' => e' = e
    | _ => True
    end.
  Lemma step_right : forall e o s s', fair e o -> right (e, MIN_DEPTH) s -> step len pnt o s = Ok s' -> right (e, MIN_DEPTH) s'.
  Proof.
    intros e o s s' F H E.
    assert (BND : forall (A : Type) (x : Res A) (f : A -> cpath) r, rbind x (fun q => Ok (f q)) = Ok r -> exists q, x = Ok q /\ r = f q).
    { intros A [q|] f r; cbn; intros K; inversion K; eauto. }
    assert (GR : forall q, right (e, MIN_DEPTH) (grown q s)).
    { intros q. unfold grown. destruct (Nat.eqb _ _); auto. apply right_forget. }
    destruct o; cbn [step fair] in *; try easy;
      try (apply BND in E as (res & _ & ->)); try (inversion E; subst; clear E); try (apply right_forget); try (left; reflexivity); auto.
    - destruct a; apply BND in H1 as (res & _ & ->); auto; apply right_forget.
    - destruct (existsb is_arc (c_segs s)); inversion H1; subst; auto. left. reflexivity.
    - apply calc_right; auto.
    - now apply point_right.
  Qed.
  Lemma steps_right : forall e os s s', Forall (fair e) os -> right (e, MIN_DEPTH) s -> PathCache_Model.steps len pnt os s = Ok s' -> right (e, MIN_DEPTH) s'.
  Proof.
    intros e os. induction os as [|o r IH]; intros s s' F H E.
    - cbn in E. inversion E; subst; auto.
    - cbn [PathCache_Model.steps] in E. pose proof (Forall_inv F) as F1. pose proof (Forall_inv_tail F) as F2.
      destruct (step len pnt o s) as [s1|] eqn:S1; [|easy]. cbn in E. apply (IH s1); auto. eapply step_right; eauto.
  Qed.

  (** * Walking *)
  Variable c : cfg.
  Notation L := (len c).
  Lemma along_rsum : forall p, along L p = rsum (map L p).
  Proof. induction p as [|s r IH]; cbn; auto. now rewrite IH. Qed.
  Lemma along_app : forall p q, along L (p ++ q) = along L p + along L q.
  Proof. induction p as [|s r IH]; intros q; cbn; [ring|]. rewrite IH. ring. Qed.
  Lemma along_nn : forall p, (forall s, In s p -> 0 <= L s) -> 0 <= along L p.
  Proof. induction p as [|s r IH]; intros H; cbn; [lra|]. pose proof (H s (or_introl eq_refl)). pose proof (IH (fun x I => H x (or_intror I))). lra. Qed.
  Lemma walk_spec : forall T t q a g p, 0 < T -> p = a ++ q -> along L a / T < t -> t * T <= along L p ->
    exists s x, reached L p (t * T) s x /\ walk pnt q (map (fun y => y / T) (map L q)) (along L a / T) t g = pnt s x /\ 0 < x <= 1.
  Proof.
    intros T t q. induction q as [|s r IH]; intros a g p T0 P A B.
    - exfalso. rewrite app_nil_r in P. subst. apply (Rmult_lt_compat_r T) in A; auto. unfold Rdiv in A. rewrite Rmult_assoc, Rinv_l, Rmult_1_r in A; lra.
    - assert (A' : along L a < t * T). { apply (Rmult_lt_compat_r T) in A; auto. unfold Rdiv in A. rewrite Rmult_assoc, Rinv_l, Rmult_1_r in A; lra. }
      cbn [walk map]. destruct (Rle_dec t _) as [H|H].
      + assert (H' : t * T <= along L a + L s).
        { apply (Rmult_le_compat_r T) in H; [|lra]. replace ((along L a / T + L s / T) * T) with (along L a + L s) in H by (field; lra). auto. }
        assert (LS : 0 < L s) by lra.
        assert (D : L s / T <> 0). { apply Rgt_not_eq. apply Rdiv_lt_0_compat; auto. }
        destruct (Req_EM_T _ 0) as [Z|_]. { exfalso. apply D. lra. }
        replace ((t - along L a / T) / (along L a / T + L s / T - along L a / T)) with ((t * T - along L a) / L s) by (field; repeat split; lra).
        exists s, ((t * T - along L a) / L s). split; [|split; [auto|]].
        * exists a, r. split; auto. split; auto. field. lra.
        * split. apply Rdiv_lt_0_compat; lra. apply (Rmult_le_reg_r (L s)); auto. unfold Rdiv. rewrite Rmult_assoc, Rinv_l; lra.
      + assert (AP : along L a / T + L s / T = along L (a ++ [s]) / T) by (rewrite along_app; cbn; field; lra).
        rewrite AP. apply IH; auto.
        * rewrite P, <- app_assoc. reflexivity.
        * rewrite <- AP. lra.
  Qed.
  Lemma point_walk : forall e t p, c = (e, MIN_DEPTH) -> 0 < t < 1 -> 0 < along L p -> 
    exists s x, reached L p (t * along L p) s x /\ snd (path_point len pnt t e (fresh p)) = rmap Some (pnt s x) /\ 0 < x <= 1.
  Proof.
    intros e t p Hc T A. unfold path_point. rewrite <- Hc. cbn [c_segs fresh]. destruct p as [|g r]; [cbn in A; lra|].
    destruct (Rle_dec t 0) as [|_]; [lra|]. destruct (Rle_dec 1 t) as [|_]; [lra|]. unfold calc_lengths. cbn [c_length fresh c_segs].
    rewrite <- along_rsum. destruct (Req_EM_T _ 0) as [Z|NZ]; [lra|]. cbn [c_lengths snd].
    set (T0 := along _ _) in *.
    destruct (walk_spec T0 t (g :: r) [] g (g :: r) A eq_refl) as (s & x & H1 & H2 & H3).
    - cbn. unfold Rdiv. rewrite Rmult_0_l. lra.
    - fold T0. rewrite <- (Rmult_1_l T0) at 2. apply Rmult_le_compat_r; lra.
    - cbn [along] in H2. unfold Rdiv at 2 in H2. rewrite Rmult_0_l in H2. exists s, x. split; auto. split; auto. now rewrite H2.
  Qed.
  Lemma py_round_near : forall x, Rabs (x - IZR (py_round x)) <= 1 / 2.
  Proof.
    intros x. unfold py_round. destruct (base_Int_part x) as [B1 B2].
    destruct (Rlt_dec _ _); [apply Rabs_le; lra|]. destruct (Rlt_dec _ _); [rewrite plus_IZR; apply Rabs_le; lra|].
    destruct (Z.even _); rewrite ?plus_IZR; apply Rabs_le; lra.
  Qed.
  Lemma py_round_even : forall x, Rabs (x - IZR (py_round x)) = 1 / 2 -> Z.even (py_round x) = true.
  Proof.
    intros x. unfold py_round. destruct (base_Int_part x) as [B1 B2].
    destruct (Rlt_dec _ _) as [H|H]; [rewrite Rabs_right; lra|]. destruct (Rlt_dec _ _) as [G|G]; [rewrite plus_IZR, Rabs_left; lra|].
    destruct (Z.even _) eqn:E; [intros _; exact E|]. intros _. rewrite Z.even_add, E. reflexivity.
  Qed.
  Lemma even_of_nat : forall k, Z.even (Z.of_nat k) = Nat.even k.
  Proof.
    intros k. destruct (Nat.Even_or_Odd k) as [[j ->]|[j ->]].
    - rewrite Nat.even_mul, Nat2Z.inj_mul, Z.even_mul. reflexivity.
    - rewrite Nat.even_add, Nat.even_mul, Nat2Z.inj_add, Nat2Z.inj_mul, Z.even_add, Z.even_mul. reflexivity.
  Qed.
  Lemma point_none : forall e t p, c = (e, MIN_DEPTH) -> 0 < t < 1 -> p <> [] -> along L p = 0 ->
    exists i s, nth_error p i = Some s /\ Rabs (t * INR (length p - 1) - INR i) <= 1 / 2 /\ (Rabs (t * INR (length p - 1) - INR i) = 1 / 2 -> Nat.even i = true) /\ snd (path_point len pnt t e (fresh p)) = rmap Some (pnt s 0).
  Proof.
    intros e t p Hc T N A. unfold path_point. rewrite <- Hc. cbn [c_segs fresh]. destruct p as [|g r]; [easy|].
    destruct (Rle_dec t 0) as [|_]; [lra|]. destruct (Rle_dec 1 t) as [|_]; [lra|]. unfold calc_lengths. cbn [c_length fresh c_segs].
    rewrite <- along_rsum, A. destruct (Req_EM_T 0 0) as [_|Z]; [|easy]. cbn [c_segs snd].
    set (p := g :: r) in *. set (n := length p). assert (N1 : (1 <= n)%nat) by (unfold n, p; simpl; lia).
    set (x := t * INR (n - 1)).
    assert (X : 0 <= x <= INR (n - 1)).
    { pose proof (pos_INR (n - 1)). unfold x. split. apply Rmult_le_pos; lra. rewrite <- (Rmult_1_l (INR (n - 1))) at 2. apply Rmult_le_compat_r; lra. }
    assert (R : (0 <= py_round x <= Z.of_nat (n - 1))%Z).
    { unfold py_round. destruct (base_Int_part x) as [B1 B2]. rewrite INR_IZR_INZ in X.
      assert (F0 : (0 <= Int_part x)%Z). { assert ((-1 < Int_part x)%Z); [|lia]. apply lt_IZR. lra. }
      assert (F1 : (Int_part x <= Z.of_nat (n - 1))%Z). { apply le_IZR. lra. }
      assert (F2 : 0 < x - IZR (Int_part x) -> (Int_part x + 1 <= Z.of_nat (n - 1))%Z).
      { intros Q. assert ((Int_part x < Z.of_nat (n - 1))%Z); [|lia]. apply lt_IZR. lra. }
      destruct (Rlt_dec _ _); [lia|]. assert (0 < x - IZR (Int_part x)) by lra. specialize (F2 H).
      destruct (Rlt_dec _ _); [lia|]. destruct (Z.even _); lia. }
    unfold pyget. fold n. unfold pyidx. destruct (Z.ltb_spec (py_round x) 0); [lia|].
    destruct (Z.leb_spec 0 (py_round x)); [|lia]. destruct (Z.ltb_spec (py_round x) (Z.of_nat n)); [|lia]. cbn [andb].
    destruct (nth_error p (Z.to_nat (py_round x))) as [s|] eqn:E.
    - exists (Z.to_nat (py_round x)), s. split; [exact E|]. rewrite INR_IZR_INZ, Z2Nat.id by lia. fold n. fold x. split; [apply py_round_near|].
      split; [|reflexivity]. intros HH. rewrite <- (py_round_even x HH). rewrite <- (Z2Nat.id (py_round x)) at 2 by lia. symmetry. apply even_of_nat.
    - exfalso. apply nth_error_None in E. fold n in E. lia.
  Qed.

  (** * npoint *)
  Lemma combine_split_len : forall (A B : Type) (l : list A) (m : list B), length l = length m -> length (combine l m) = length l.
  Proof. intros. rewrite combine_length. lia. Qed.
  (** Each entry of the array is right, or its position is outside of what was looked at. *)
  Definition filled (T : R) (p a : path) (ps : list R) (acc : list (option (Res PT))) : Prop :=
    Forall2 (fun x o => x < along L a / T -> 0 <= x -> exists s y, reached_from L p (x * T) s y /\ o = Some (pnt s y)) ps acc.
  Lemma Forall2_map_combine : forall (A B : Type) (f : A * B -> B) (Q Q' : A -> B -> Prop) l m, Forall2 Q l m ->
    (forall a b, Q a b -> Q' a (f (a, b))) -> Forall2 Q' l (map f (combine l m)).
  Proof. intros A B f Q Q' l m H K. induction H; cbn; constructor; auto. Qed.
  (** Segments of positive length are all hit. *)
  Fixpoint all_hit (start : R) (ls : list R) (ps : list R) : Prop :=
    match ls with [] => True | l :: r => (0 < l -> exists p, In p ps /\ start <= p < start + l) /\ all_hit (start + l) r ps end.
  Lemma nwalk_spec : forall T p q a ps acc, 0 < T -> p = a ++ q -> (forall s, In s p -> 0 <= L s) ->
    all_hit (along L a / T) (map (fun y => y / T) (map L q)) ps -> filled T p a ps acc ->
    exists xy, nwalk pnt q (map (fun y => y / T) (map L q)) (along L a / T) ps acc = Ok xy /\ filled T p p ps xy.
  Proof.
    intros T p q. induction q as [|s r IH]; intros a ps acc T0 P NN AH F.
    - rewrite app_nil_r in P. subst. exists acc. split; auto.
    - cbn [nwalk map all_hit] in *. destruct AH as [A1 A2].
      assert (AP : along L a / T + L s / T = along L (a ++ [s]) / T) by (rewrite along_app; cbn; field; lra).
      assert (LS : 0 <= L s). { apply NN. rewrite P. apply in_or_app. right. now left. }
      assert (P' : p = (a ++ [s]) ++ r) by (rewrite P, <- app_assoc; reflexivity).
      set (hit := fun p0 => if Rle_dec _ p0 then _ else false).
      destruct (existsb hit ps) eqn:EX.
      + rewrite AP in A2 |- *. apply IH; auto. eapply Forall2_map_combine; [exact F|].
        intros x o H X X0. cbn [fst snd]. unfold hit in *. clear EX hit.
        destruct (Rle_dec (along L a / T) x) as [Q1|Q1].
        * destruct (Rlt_dec x (along L (a ++ [s]) / T)) as [Q2|Q2]; [|lra].
          rewrite <- AP in Q2 |- *. assert (LP : 0 < L s).
          { destruct (Rle_lt_or_eq_dec _ _ LS) as [|Z]; auto. exfalso. rewrite <- Z in Q2. unfold Rdiv in Q2. lra. }
          assert (D : 0 < L s / T) by (apply Rdiv_lt_0_compat; auto).
          destruct (Req_EM_T _ 0) as [Z|_]; [exfalso; lra|].
          exists s, ((x * T - along L a) / L s). split.
          -- exists a, r. split; auto. split; [split|].
             ++ apply (Rmult_le_compat_r T) in Q1; [|lra]. unfold Rdiv in Q1. rewrite Rmult_assoc, Rinv_l in Q1; lra.
             ++ apply (Rmult_lt_compat_r T) in Q2; auto. replace ((along L a / T + L s / T) * T) with (along L a + L s) in Q2 by (field; lra). auto.
             ++ field. lra.
          -- do 2 f_equal. field. repeat split; lra.
        * apply H; lra.
      + assert (Z : L s = 0).
        { destruct (Rle_lt_or_eq_dec _ _ LS) as [LP|]; auto. exfalso. destruct A1 as (x & I & X). apply Rdiv_lt_0_compat; auto.
          assert (TR : existsb hit ps = true); [|congruence]. apply existsb_exists. exists x. split; auto. unfold hit.
          destruct (Rle_dec _ x); [|lra]. destruct (Rlt_dec x _); [auto|lra]. }
        assert (AE : along L a / T = along L (a ++ [s]) / T) by (rewrite <- AP, Z; unfold Rdiv; ring).
        rewrite AP in A2. rewrite AE. apply IH; auto. unfold filled in *. rewrite <- AE. exact F.
  Qed.
  Lemma all_hit_of : forall T p ps q a, 0 < T -> p = a ++ q ->
    (forall b s d, p = b ++ s :: d -> 0 < L s -> exists x, In x ps /\ along L b <= x * T < along L b + L s) ->
    all_hit (along L a / T) (map (fun y => y / T) (map L q)) ps.
  Proof.
    intros T p ps q. induction q as [|s r IH]; intros a T0 P H; cbn [map all_hit]; auto. split.
    - intros Z. assert (LS : 0 < L s). { apply (Rmult_lt_compat_r T) in Z; auto. unfold Rdiv in Z. rewrite Rmult_assoc, Rinv_l in Z; lra. }
      destruct (H a s r P LS) as (x & I & X1 & X2). exists x. split; auto. split.
      + apply (Rmult_le_reg_r T); auto. unfold Rdiv. rewrite Rmult_assoc, Rinv_l; lra.
      + apply (Rmult_lt_reg_r T); auto. replace ((along L a / T + L s / T) * T) with (along L a + L s) by (field; lra). auto.
    - assert (AP : along L a / T + L s / T = along L (a ++ [s]) / T) by (rewrite along_app; cbn; field; lra).
      rewrite AP. apply IH; auto. now rewrite <- app_assoc.
  Qed.
  Lemma npoint_spec' : forall e ps g r ept, c = (e, MIN_DEPTH) -> let p := g :: r in let T := along L p in
    0 < T -> (forall s, In s p -> 0 <= L s) ->
    (forall a s b, p = a ++ s :: b -> 0 < L s -> exists x, In x ps /\ along L a <= x * T < along L a + L s) ->
    exists xy, snd (path_npoint len pnt ept ps e (fresh p)) = Ok (Some xy) /\
      Forall2 (fun x o => (0 <= x < 1 -> exists s y, reached_from L p (x * T) s y /\ o = Some (pnt s y)) /\ (x = 1 -> o = Some (ept (last p g)))) ps xy.
  Proof.
    intros e ps g r ept Hc p T T0 NN H. unfold path_npoint. rewrite <- Hc. cbn [c_segs fresh]. unfold p at 1. unfold calc_lengths. cbn [c_length fresh c_segs].
    rewrite <- along_rsum. fold T. destruct (Req_EM_T T 0) as [|_]; [lra|]. cbn [snd c_lengths c_segs].
    destruct (nwalk_spec T p p [] ps (map (fun _ => None) ps) T0 eq_refl NN) as (xy & N & F).
    - apply (all_hit_of T p ps p []); auto.
    - unfold filled. clear. induction ps; cbn; constructor; auto. intros X X0. exfalso. cbn in X. unfold Rdiv in X. lra.
    - cbn [along] in N. replace (0 / T) with 0 in N by (unfold Rdiv; ring). rewrite N. cbn [rbind]. eexists. split; [reflexivity|].
      eapply Forall2_map_combine; [exact F|]. intros x o FO. cbn [fst snd].
      unfold T in FO. replace (along L p / along L p) with 1 in FO by (field; unfold T in T0; lra). split.
      + intros X. destruct (Req_EM_T x 1); [lra|]. apply FO; lra.
      + intros X. destruct (Req_EM_T x 1); [auto|lra].
  Qed.
End P.
Lemma npoint_spec : forall PT len (pnt : seg -> R -> Res PT) ept e ps g r, let p := g :: r in let L := len (e, MIN_DEPTH) in let T := along L p in
  0 < T -> (forall s, In s p -> 0 <= L s) ->
  (forall a s b, p = a ++ s :: b -> 0 < L s -> exists x, In x ps /\ along L a <= x * T < along L a + L s) ->
  exists xy, snd (path_npoint len pnt ept ps e (fresh p)) = Ok (Some xy) /\
    Forall2 (fun x o => (0 <= x < 1 -> exists s y, reached_from L p (x * T) s y /\ o = Some (pnt s y)) /\ (x = 1 -> o = Some (ept (last p g)))) ps xy.
Proof. intros. eapply npoint_spec'; eauto. Qed.

(** * Reversal keeps the length *)
Require Import QArith Qcanon Qreals.
Require Import Verif.PathText_Spec Verif.PathDraw_Spec Verif.PathEdit_Spec Verif.PathEdit_Thms.
Open Scope R_scope.
Lemma along_split : forall L p, (forall s, s_kind s = KMove -> L s = 0) ->
  along L p = along L (filter is_draw p) + along L (filter (fun s => match s_kind s with KClose => true | _ => false end) p).
Proof.
  intros L p M. unfold is_draw. induction p as [|s r IH]; cbn [along filter]; [lra|]. rewrite IH. pose proof (M s) as MS. destruct (s_kind s) eqn:K; cbn [along]; try lra.
  rewrite MS by reflexivity. lra.
Qed.
Lemma along_view : forall L v p, (forall s, L s = v (view s)) -> along L p = rsum (map v (map view p)).
Proof. intros L v p H. induction p as [|s r IH]; cbn; auto. now rewrite IH, H. Qed.
Lemma rsum_app : forall a b, rsum (a ++ b) = rsum a + rsum b.
Proof. induction a as [|x a IH]; intros b; unfold rsum in *; cbn [app fold_right]; [ring|]. rewrite IH. ring. Qed.
Lemma rsum_rev : forall a, rsum (rev a) = rsum a.
Proof. induction a as [|x a IH]; cbn [rev]; auto. rewrite rsum_app, IH. unfold rsum. cbn [fold_right]. ring. Qed.
Lemma reverse_along : forall L v p q, (forall s, L s = v (view s)) -> (forall d, v (option_map flip d) = v d) ->
  (forall s, s_kind s = KMove -> L s = 0) -> wholes p -> joined p -> path_reverse p = Ok q -> along L q = along L p.
Proof.
  intros L v p q V F M W J E. destruct p as [|g r].
  - cbn in E. inversion E; subst; reflexivity.
  - destruct (path_reverse_partial _ W J) as (q' & E' & _ & _ & S & C); [easy|]. rewrite E in E'. inversion E'; subst q'.
    rewrite (along_split L q M), (along_split L (g :: r) M), !(along_view L v _ V). unfold strokes, closings in *. rewrite S, C.
    assert (G : forall l : list (option drawn), rsum (map v (map (option_map flip) (rev l))) = rsum (map v l)).
    { intros l. rewrite map_map, map_rev, rsum_rev. f_equal. apply map_ext. auto. }
    now rewrite !G.
Qed.

(** * Concrete numbers *)
Lemma rp_at : forall x y, rp (at_ x y) = Point_Model.P (IZR x) (IZR y).
Proof.
  intros x y. unfold rp, at_. cbn [fst snd this Q2Qc].
  assert (G : forall z, Q2R (Qred (inject_Z z)) = IZR z).
  { intros z. rewrite (Qeq_eqR _ _ (Qred_correct _)). unfold Q2R, inject_Z. cbn. field. }
  now rewrite !G.
Qed.
Lemma geo_ln : forall a b x y, geo (ln a b x y) = Some (Curve_Model.GLine (Point_Model.P (IZR a) (IZR b)) (Point_Model.P (IZR x) (IZR y))).
Proof. intros. unfold geo, ln. cbn [s_kind s_start s_end]. now rewrite !rp_at. Qed.
Lemma len_ln : forall o c a b x y, seg_len o c (ln a b x y) = sqrt ((IZR x - IZR a) * (IZR x - IZR a) + (IZR y - IZR b) * (IZR y - IZR b)).
Proof. intros. unfold seg_len. rewrite geo_ln. reflexivity. Qed.
Lemma sqrt_is : forall x k, 0 <= k -> x = k * k -> sqrt x = k. Proof. intros. subst. now apply sqrt_square. Qed.
