(** Lemmas about editing paths. *)
Require Import ZArith QArith Qcanon Qabs List Bool Lia.
Require Import Verif.Base Verif.Path_Model Verif.PathText_Model Verif.PathText_Spec Verif.PathDraw_Spec Verif.PathDraw_Proofs.
Require Import Verif.PathEdit_Model Verif.PathEdit_Spec.
Import ListNotations.
Open Scope nat_scope.

(** * Points *)
Lemma near_iff : forall p q, near p q = true <-> same_place p q.
Proof. intros p q. unfold near, near1, same_place. rewrite andb_true_iff, !Qle_bool_iff. tauto. Qed.
Lemma near_sym : forall p q, near p q = near q p.
Proof.
  intros p q. assert (H : forall x y, same_place x y -> same_place y x).
  { unfold same_place. intros x y [A B]. rewrite Qabs_Qminus in A. rewrite Qabs_Qminus in B. auto. }
  destruct (near p q) eqn:E, (near q p) eqn:F; auto; exfalso.
  - apply near_iff, H, near_iff in E. congruence.
  - apply near_iff, H, near_iff in F. congruence.
Qed.
Definition ms (a b : option pt) : Prop := match a, b with Some p, Some q => near p q = true | _, _ => False end.
Lemma ms_iff : forall a b, meets a b <-> ms a b.
Proof.
  intros [p|] [q|]; cbn; unfold meets; split; try tauto; try (intros (x & y & A & B & C); discriminate).
  - intros (x & y & A & B & C). inversion A; inversion B; subst. apply near_iff; auto.
  - intros H. exists p, q. rewrite near_iff in H. auto.
Qed.
Lemma ms_sym : forall a b, ms a b -> ms b a.
Proof. intros [p|] [q|]; cbn; auto. rewrite near_sym; auto. Qed.
Lemma ms_refl : forall a, a <> None -> ms a a.
Proof. intros [p|] H; cbn; [apply near_refl | congruence]. Qed.
Lemma ms_some_l : forall a b, ms a b -> a <> None. Proof. intros [p|] b; cbn; [discriminate|tauto]. Qed.
Lemma ms_some_r : forall a b, ms a b -> b <> None. Proof. intros [p|] [q|]; cbn; try tauto; discriminate. Qed.

(** * Joined paths, computed along the path *)
Fixpoint J (z e : option pt) (p : path) : Prop :=
  match p with
  | [] => True
  | s :: p' => ms e (s_start s) /\ (is_close s = true -> ms (s_end s) z) /\ J (if is_move s then s_end s else z) (s_end s) p'
  end.
Definition zof (z : option pt) (p : path) : option pt := fold_left (fun z s => if is_move s then s_end s else z) p z.
Definition eof (e : option pt) (p : path) : option pt := fold_left (fun _ s => s_end s) p e.
Lemma J_app : forall a b z e, J z e (a ++ b) <-> J z e a /\ J (zof z a) (eof e a) b.
Proof. induction a as [|s a IH]; intros b z e; cbn [app J zof eof fold_left]; [tauto|]. fold (zof (if is_move s then s_end s else z) a). fold (eof (s_end s) a). rewrite IH. tauto. Qed.
Lemma zof_app : forall a b z, zof z (a ++ b) = zof (zof z a) b. Proof. intros. apply fold_left_app. Qed.
Lemma eof_app : forall a b e, eof e (a ++ b) = eof (eof e a) b. Proof. intros. apply fold_left_app. Qed.
Definition JJ (p : path) : Prop := match p with [] => True | s :: p' => J (s_end s) (s_end s) p' end.
Lemma is_move_kind : forall s, is_move s = true <-> s_kind s = KMove.
Proof. intros [k a b r m]. unfold is_move. cbn. destruct k; split; auto; discriminate. Qed.
Lemma draws_iff : forall s, draws s <-> is_move s = false /\ is_close s = false.
Proof. intros [k a b r m]. unfold draws, is_move, is_close. cbn. destruct k; split; intros [A B]; split; auto; try discriminate; congruence. Qed.
Lemma zof_last : forall p z, zof z p = match last_move p with Some m => s_end m | None => z end.
Proof.
  induction p as [|s p IH]; intros z; cbn [zof fold_left last_move]; auto. fold (zof (if is_move s then s_end s else z) p). rewrite IH.
  destruct (last_move p); auto. destruct (is_move s); auto.
Qed.
Lemma subpath_start_zof : forall f p, subpath_start (f :: p) (zof (s_end f) p).
Proof.
  intros f p. rewrite zof_last. pose proof (last_move_spec (f :: p)) as H. cbn [last_move] in H. 
  destruct (last_move p) as [m|] eqn:E.
  - left. destruct H as (a & b & E1 & K & F). exists a, m, b. auto.
  - destruct (is_move f) eqn:M.
    + left. destruct H as (a & b & E1 & K & F). exists a, f, b. auto.
    + right. split; auto.
Qed.
Lemma zof_first : forall f p, zof (s_end f) p = match last_move (f :: p) with Some m => s_end m | None => s_end f end.
Proof. intros f p. rewrite zof_last. cbn [last_move]. destruct (last_move p); auto. destruct (is_move f); auto. Qed.
Lemma subpath_start_unique : forall f p o, subpath_start (f :: p) o -> o = zof (s_end f) p.
Proof.
  intros f p o H. rewrite zof_first. destruct H as [(a & m & b & E & K & F & ->)|[F E]].
  - rewrite E, last_move_app; auto.
  - pose proof (last_move_spec (f :: p)) as L. destruct (last_move (f :: p)) as [m|]; auto.
    destruct L as (a & b & E1 & K & _). rewrite E1 in F. apply Forall_app in F. destruct F as [_ F]. inversion F; congruence.
Qed.
Lemma eof_last : forall a f, exists l s, f :: a = l ++ [s] /\ eof (s_end f) a = s_end s.
Proof.
  intros a f. destruct (snoc_cases _ a) as [->|(l & s & ->)].
  - exists [], f. auto.
  - exists (f :: l), s. split; auto. rewrite eof_app. reflexivity.
Qed.
Lemma joined_J : forall b a f, joined (f :: a ++ b) -> J (zof (s_end f) a) (eof (s_end f) a) b.
Proof.
  induction b as [|s b IH]; intros a f H; [exact I|]. cbn [J]. split; [|split].
  - destruct (eof_last a f) as (l & t & E & ->). apply ms_iff. apply (proj1 H l t s b).
    change (f :: a ++ s :: b) with ((f :: a) ++ s :: b). rewrite E, <- app_assoc. reflexivity.
  - intros C. destruct (proj2 H (f :: a) s b eq_refl) as (o & S1 & M); [discriminate | apply is_close_kind; auto |].
    apply subpath_start_unique in S1. subst o. apply ms_iff; auto.
  - pose proof (IH (a ++ [s]) f) as X. rewrite <- app_assoc in X. specialize (X H). rewrite zof_app, eof_app in X. exact X.
Qed.
Lemma joined_iff : forall p, joined p <-> JJ p.
Proof.
  intros [|f r]; cbn [JJ].
  - split; auto. intros _. split; intros; destruct a; discriminate.
  - split; [apply (joined_J r [] f)|]. intros H. split.
    + intros a g s b E. destruct a as [|x a]; cbn in E; injection E as -> E; subst r.
      * cbn [J] in H. apply ms_iff. tauto.
      * apply J_app in H. destruct H as [_ H]. cbn [J] in H. apply ms_iff. tauto.
    + intros a s b E NE K. destruct a as [|x a]; [congruence|]. cbn in E; injection E as -> E; subst r.
      apply J_app in H. destruct H as [_ H]. cbn [J] in H. exists (zof (s_end x) a). split; [apply subpath_start_zof|].
      apply ms_iff. apply H. apply is_close_kind; auto.
Qed.

(** * is_valid *)
Lemma valid_from_J : forall p z f, z <> None -> s_end f <> None \/ p = [] -> valid_from z (Some f) p = true <-> J z (s_end f) p.
Proof.
  induction p as [|s p IH]; intros z f Z E; cbn [valid_from J]; [tauto|].
  destruct z as [z|]; [|congruence]. destruct (s_end f) as [e|] eqn:EF; [|destruct E; congruence].
  rewrite !andb_true_iff. 
  assert (C : negb (is_close s && match (if is_move s then s_end s else Some z) with Some q => negb (onear (s_end s) (Some q)) | None => false end) = true
              <-> (is_close s = true -> ms (s_end s) (Some z))).
  { destruct (is_close s) eqn:C; [|cbn; split; auto; discriminate].
    assert (M : is_move s = false) by (unfold is_move, is_close in *; destruct (s_kind s); congruence). rewrite M. cbn [andb negb].
    rewrite negb_involutive. unfold onear, ms. destruct (s_end s); split; auto; try discriminate; intros H; exfalso; auto. }
  rewrite C. clear C.
  assert (P : match s_start s with Some a => near e a | None => false end = true <-> ms (Some e) (s_start s)).
  { destruct (s_start s); cbn; split; auto; try discriminate; tauto. }
  rewrite P. clear P. destruct p as [|t p].
  { cbn. tauto. }
  split.
  - intros [[A B] C]. split; auto. split; auto.
    destruct (s_end s) as [e'|] eqn:ES.
    + rewrite <- ES. apply IH; auto. { destruct (is_move s); discriminate || congruence. } { left; congruence. }
      rewrite ES. exact C.
    + exfalso. cbn [valid_from] in C. rewrite ES in C. destruct (s_start t); cbn in C; rewrite ?andb_false_r in C; discriminate.
  - intros (A & B & C). split; auto. assert (ES : s_end s <> None). { cbn [J] in C. destruct C as [C _]. apply ms_some_l in C. auto. }
    apply IH; auto. destruct (is_move s); auto; congruence.
Qed.
Lemma is_valid_iff : forall p, is_valid p = true <-> joined p.
Proof.
  intros p. rewrite joined_iff. unfold is_valid. destruct p as [|f r]; cbn [valid_from JJ]; [tauto|].
  replace (negb (is_close f && match s_end f with Some q => negb (onear (s_end f) (Some q)) | None => false end)) with true
    by (destruct (s_end f); cbn; rewrite ?near_refl; cbn; rewrite ?andb_false_r; reflexivity).
  cbn [andb]. destruct r as [|s r]; [cbn; tauto|]. destruct (s_end f) as [e|] eqn:E.
  - rewrite <- E. apply valid_from_J; try congruence. left; congruence.
  - cbn [valid_from J]. rewrite E. split; [|cbn; tauto]. destruct (s_start s); cbn; rewrite ?andb_false_l; discriminate.
Qed.

(** * Positions *)
Lemma upd_at : forall A (a : list A) x b y, upd (a ++ x :: b) (length a) y = a ++ y :: b.
Proof. induction a; intros; cbn; [auto|rewrite IHa; auto]. Qed.
Lemma nth_at : forall A (a : list A) x b, nth_error (a ++ x :: b) (length a) = Some x.
Proof. induction a; intros; cbn; auto. Qed.
Lemma firstn_at : forall A (a b : list A), firstn (length a) (a ++ b) = a.
Proof. induction a; intros; cbn; [reflexivity|rewrite IHa; auto]. Qed.
Lemma skipn_at : forall A (a b : list A), skipn (length a) (a ++ b) = b.
Proof. induction a; intros; cbn; auto. Qed.
Lemma pyidx_at : forall A (a : list A) x b, pyidx (length (a ++ x :: b)) (Z.of_nat (length a)) = Some (length a).
Proof.
  intros. unfold pyidx. rewrite app_length. cbn [length].
  rewrite (proj2 (Z.ltb_ge (Z.of_nat (length a)) 0)) by lia. rewrite (proj2 (Z.leb_le 0 (Z.of_nat (length a)))) by lia.
  rewrite (proj2 (Z.ltb_lt (Z.of_nat (length a)) _)) by lia. cbn [andb]. rewrite Nat2Z.id. reflexivity.
Qed.
Lemma pyget_at : forall A (a : list A) x b, pyget (a ++ x :: b) (Z.of_nat (length a)) = Ok x.
Proof. intros. unfold pyget. rewrite pyidx_at, nth_at. reflexivity. Qed.
Lemma pyset_at : forall A (a : list A) x b y, pyset (a ++ x :: b) (Z.of_nat (length a)) y = Ok (a ++ y :: b).
Proof. intros. unfold pyset. rewrite pyidx_at, upd_at. reflexivity. Qed.
Lemma pyclamp_in : forall n i, (0 <= i <= Z.of_nat n)%Z -> pyclamp n i = Z.to_nat i.
Proof. intros n i H. unfold pyclamp. destruct (i <? 0)%Z eqn:E; [apply Z.ltb_lt in E; lia|]. f_equal. lia. Qed.
Lemma pyinsert_at : forall A (a b : list A) x, pyinsert (a ++ b) (Z.of_nat (length a)) x = a ++ x :: b.
Proof. intros. unfold pyinsert. rewrite pyclamp_in by (rewrite app_length; lia). rewrite Nat2Z.id, firstn_at, skipn_at. reflexivity. Qed.

(** * Links *)
Lemma set_start_same : forall s o, s_start s = o -> set_start s o = s. Proof. intros [k a b r m] o <-. reflexivity. Qed.
Lemma link_false : forall f s, s_end f <> None -> exists o, link false f s = (f, set_start s o) /\ ms (s_end f) o.
Proof.
  intros f s H. unfold link. destruct (s_end f) as [e|]; [|congruence]. destruct (s_start s) as [b|] eqn:E.
  - destruct (near e b) eqn:N; [exists (Some b); split; [rewrite set_start_same; auto | exact N] | exists (Some e); split; [auto | apply near_refl]].
  - exists (Some e); split; [auto | apply near_refl].
Qed.
Lemma link_none : forall f s b, s_end f = None -> s_start s = Some b -> link false f s = (set_end f (Some b), s).
Proof. intros f s b E1 E2. unfold link. rewrite E1, E2. reflexivity. Qed.
Lemma link_none2 : forall f s, s_end f = None -> s_start s = None -> link false f s = (f, s).
Proof. intros f s E1 E2. unfold link. rewrite E1, E2. reflexivity. Qed.
Lemma vc_at : forall pr a f s c, validate_connection2 pr (a ++ f :: s :: c) (Z.of_nat (length a)) = a ++ fst (link pr f s) :: snd (link pr f s) :: c.
Proof.
  intros. unfold validate_connection2. rewrite app_length. cbn [length].
  destruct (Z.of_nat (length a) <? 0)%Z eqn:E; [apply Z.ltb_lt in E; lia|].
  destruct (_ <=? _)%Z eqn:E1; [apply Z.leb_le in E1; lia|]. cbn [orb]. rewrite Nat2Z.id, nth_at.
  replace (nth_error (a ++ f :: s :: c) (S (length a))) with (Some s).
  2:{ change (f :: s :: c) with ([f] ++ s :: c). rewrite app_assoc. replace (S (length a)) with (length (a ++ [f])) by (rewrite app_length; cbn; lia). rewrite nth_at. auto. }
  destruct (link pr f s) as [f' s']. cbn [fst snd]. rewrite upd_at.
  change (f' :: s :: c) with ([f'] ++ s :: c). change (f' :: s' :: c) with ([f'] ++ s' :: c). rewrite !app_assoc.
  replace (S (length a)) with (length (a ++ [f'])) by (rewrite app_length; cbn; lia). rewrite upd_at. reflexivity.
Qed.
Lemma vc_neg : forall pr p i, (i < 0)%Z -> validate_connection2 pr p i = p.
Proof. intros. unfold validate_connection2. destruct (i <? 0)%Z eqn:E; auto. apply Z.ltb_ge in E; lia. Qed.
Lemma vc_big : forall pr p i, (Z.of_nat (length p) <= i + 1)%Z -> validate_connection2 pr p i = p.
Proof. intros. unfold validate_connection2. destruct (_ <=? _)%Z eqn:E; [rewrite orb_true_r; auto|]. apply Z.leb_gt in E; lia. Qed.

(** [b] with a new start of its first segment *)
Definition restart (b b2 : path) : Prop :=
  match b, b2 with
  | [], [] => True
  | n :: b', m :: b'' => b'' = b' /\ m = set_start n (s_start m)
  | _, _ => False
  end.
Definition starts (o : option pt) (b : path) : Prop := match b with [] => True | n :: _ => ms o (s_start n) end.
Lemma restart_refl : forall b, restart b b.
Proof. intros [|[k a b r m] t]; cbn; auto. Qed.
Lemma restart_ends : forall b b2, restart b b2 -> ends b2 = ends b /\ map s_kind b2 = map s_kind b.
Proof. intros [|n b] [|m b2]; cbn; try tauto. intros [-> ->]. auto. Qed.
Lemma restart_J : forall z e e2 b b2, J z e b -> restart b b2 -> starts e2 b2 -> J z e2 b2.
Proof.
  intros z e e2 [|n b] [|m b2]; cbn [restart starts J]; try tauto. intros (A & B & C) [-> E] M. rewrite E.
  unfold is_move, is_close in *. cbn [set_start s_start s_kind s_end] in *. rewrite E in M. cbn in M. tauto.
Qed.
Definition eo (a : path) : option pt := eof None a.
Lemma eo_snoc : forall a s, eo (a ++ [s]) = s_end s. Proof. intros. unfold eo. rewrite eof_app. reflexivity. Qed.
Lemma eof_eo : forall f a, eof (s_end f) a = eo (f :: a). Proof. reflexivity. Qed.
(** the link behind [a] when [a] has an end *)
Lemma link_behind : forall a b, a <> [] -> eo a <> None ->
  exists b2, validate_connection (a ++ b) (Z.of_nat (length a) - 1) = a ++ b2 /\ restart b b2 /\ starts (eo a) b2.
Proof.
  intros a b NE H. destruct (snoc_cases _ a) as [->|(l & f & ->)]; [congruence|]. rewrite eo_snoc in H.
  rewrite app_length. cbn [length]. replace (Z.of_nat (length l + 1) - 1)%Z with (Z.of_nat (length l)) by lia. destruct b as [|n b].
  - exists []. split; [|split; exact I]. apply vc_big. rewrite app_nil_r, app_length. cbn. lia.
  - destruct (link_false f n H) as (o & E & M). exists (set_start n o :: b). rewrite <- !app_assoc. cbn [app].
    unfold validate_connection. rewrite vc_at, E. split; [auto|]. split; [cbn; auto|]. rewrite eo_snoc. exact M.
Qed.
(** the links in front of and behind [v] *)
Lemma link_front : forall v b,
  exists v2 b2, validate_connection (v :: b) 0 = v2 :: b2 /\ restart b b2 /\ v2 = set_end v (s_end v2) /\
    (s_end v <> None -> s_end v2 = s_end v) /\
    (s_end v = None -> s_end v2 = match b with n :: _ => s_start n | [] => None end) /\
    (s_end v2 <> None -> starts (s_end v2) b2).
Proof.
  intros v b. destruct b as [|n b].
  - exists v, []. split; [reflexivity|]. split; [exact I|]. split; [destruct v; reflexivity|]. cbn. auto.
  - change (v :: n :: b) with ([] ++ v :: n :: b). change 0%Z with (Z.of_nat (length (@nil seg))). unfold validate_connection. rewrite vc_at. cbn [app].
    destruct (s_end v) as [e|] eqn:E.
    + destruct (link_false v n) as (o & L & M); [congruence|]. rewrite L. cbn [fst snd]. exists v, (set_start n o :: b).
      split; auto. split; [cbn; auto|]. split; [destruct v; reflexivity|]. split; auto. split; [congruence|]. rewrite E in M. rewrite E. auto.
    + destruct (s_start n) as [q|] eqn:Q.
      * rewrite (link_none _ _ q); auto. cbn [fst snd]. exists (set_end v (Some q)), (n :: b). split; auto. split; [apply restart_refl|].
        split; [destruct v; reflexivity|]. split; [congruence|]. split; [auto|]. intros _. cbn. rewrite Q. apply near_refl.
      * rewrite link_none2; auto. cbn [fst snd]. exists v, (n :: b). split; auto. split; [apply restart_refl|].
        split; [destruct v; reflexivity|]. split; [auto|]. split; [auto|]. congruence.
Qed.
Lemma vc_shift : forall pr a p i, validate_connection2 pr (a ++ p) (Z.of_nat (length a) + Z.of_nat i) = a ++ validate_connection2 pr p (Z.of_nat i).
Proof.
  intros. destruct (Nat.leb (length p) (i + 1)) eqn:E.
  - apply Nat.leb_le in E. rewrite !vc_big; auto; rewrite ?app_length; lia.
  - apply Nat.leb_gt in E. assert (H : i < length p) by lia. destruct (nth_split p (mkSeg KMove None None true true) H) as (l1 & l2 & E1 & L1).
    set (f := nth i p _) in *. clearbody f. destruct l2 as [|s c]; [subst p; rewrite app_length in E; cbn in E; lia|]. subst p. rewrite <- L1, vc_at.
    rewrite app_assoc. replace (Z.of_nat (length a) + Z.of_nat (length l1))%Z with (Z.of_nat (length (a ++ l1))) by (rewrite app_length; lia).
    rewrite vc_at, <- app_assoc. reflexivity.
Qed.
Lemma links_around : forall a v b, a <> [] -> eo a <> None ->
  exists v2 b2, validate_connection (validate_connection (a ++ v :: b) (Z.of_nat (length a) - 1)) (Z.of_nat (length a)) = a ++ v2 :: b2 /\
    restart b b2 /\ s_kind v2 = s_kind v /\ ms (eo a) (s_start v2) /\
    (s_end v <> None -> s_end v2 = s_end v) /\
    (s_end v = None -> s_end v2 = match b with n :: _ => s_start n | [] => None end) /\
    (s_end v2 <> None -> starts (s_end v2) b2).
Proof.
  intros a v b NE H. destruct (link_behind a (v :: b) NE H) as (b1 & E & R & S1). rewrite E. destruct b1 as [|v1 b1]; [contradiction|].
  cbn in R. destruct R as [-> ->]. set (o := s_start v1) in *. replace (Z.of_nat (length a)) with (Z.of_nat (length a) + Z.of_nat 0)%Z by lia.
  unfold validate_connection. rewrite vc_shift. destruct (link_front (set_start v o) b) as (v2 & b2 & E2 & R2 & W & A & B & C).
  unfold validate_connection in E2. change (Z.of_nat 0) with 0%Z. rewrite E2. exists v2, b2. split; auto. split; auto.
  cbn [set_start s_end] in *. rewrite W at 1 2. cbn. split; auto. 
Qed.

(** * Breaks *)
Definition shiftn (k : nat) (x : nat * seg) := (k + fst x, snd x).
Lemma next_break_app : forall a b, next_break (a ++ b) (length a) = option_map (shiftn (length a)) (next_break b 0).
Proof.
  induction a as [|s a IH]; intros b; cbn [app length next_break].
  - destruct (next_break b 0) as [[j z]|]; reflexivity.
  - rewrite IH. destruct (next_break b 0) as [[j z]|]; reflexivity.
Qed.
Lemma next_break_cases : forall b,
  (next_break b 0 = None /\ Forall draws b) \/
  (exists c z d, b = c ++ z :: d /\ Forall draws c /\ next_break b 0 = Some (length c, z) /\ (is_move z = true \/ (is_move z = false /\ is_close z = true))).
Proof.
  induction b as [|s b IH]; cbn [next_break]; [left; auto|]. destruct (is_move s) eqn:M; cbn [orb].
  - right. exists [], s, b. auto.
  - destruct (is_close s) eqn:C; [right; exists [], s, b; auto 10|]. destruct IH as [[E F]|(c & z & d & Eb & F & E & K)]; rewrite E; [|subst b].
    + left. split; auto. constructor; auto. apply draws_iff; auto.
    + right. exists (s :: c), z, d. split; auto. split; [constructor; auto; apply draws_iff; auto|]. split; auto.
Qed.
(** a path whose first close, if it comes before any move, gets the end [o] *)
Inductive reclosed (o : option pt) : path -> path -> Prop :=
| rc_draws : forall c, Forall draws c -> reclosed o c c
| rc_move : forall c m d, Forall draws c -> is_move m = true -> reclosed o (c ++ m :: d) (c ++ m :: d)
| rc_close : forall c z d, Forall draws c -> is_close z = true -> reclosed o (c ++ z :: d) (c ++ set_end z o :: d).
Lemma validate_move_at : forall a m b, exists b2, validate_move (a ++ m :: b) (length a) = a ++ m :: b2 /\ reclosed (s_end m) b b2.
Proof.
  intros a m b. unfold validate_move. rewrite nth_at. replace (S (length a)) with (length (a ++ [m])) by (rewrite app_length; cbn; lia).
  change (m :: b) with ([m] ++ b). rewrite app_assoc, next_break_app.
  destruct (next_break_cases b) as [[E F]|(c & z & d & Eb & F & E & K)]; rewrite E; cbn [option_map shiftn fst snd]; [|subst b].
  - exists b. rewrite <- app_assoc. split; auto. constructor; auto.
  - destruct K as [K|[K C]]; rewrite K.
    + exists (c ++ z :: d). rewrite <- app_assoc. split; auto. apply rc_move; auto.
    + exists (c ++ set_end z (s_end m) :: d). split; [|apply rc_close; auto].
      rewrite app_assoc, <- app_length, upd_at, <- !app_assoc. reflexivity.
Qed.
Lemma is_close_not_move : forall s, is_close s = true -> is_move s = false.
Proof. intros s. unfold is_close, is_move. destruct (s_kind s); auto; discriminate. Qed.
Lemma validate_close_at : forall a v b, is_close v = true ->
  validate_close (a ++ v :: b) (length a) = a ++ set_end v (match a with [] => s_end v | f :: a' => zof (s_end f) a' end) :: b.
Proof.
  intros a v b C. unfold validate_close. rewrite nth_at, upd_at. do 3 f_equal.
  replace (firstn (S (length a)) (a ++ v :: b)) with (a ++ [v]).
  2:{ change (v :: b) with ([v] ++ b). rewrite app_assoc. replace (S (length a)) with (length (a ++ [v])) by (rewrite app_length; cbn; lia). rewrite firstn_at. auto. }
  rewrite last_move_snoc, is_close_not_move by auto. destruct a as [|f a]; cbn [app]; [reflexivity|]. rewrite zof_first. reflexivity.
Qed.
Lemma zof_draws : forall c z, Forall draws c -> zof z c = z.
Proof. induction c as [|s c IH]; intros z F; auto. inversion F; subst. cbn [zof fold_left]. apply draws_iff in H1. destruct H1 as [-> _]. apply IH; auto. Qed.
Lemma J_draws : forall c z z2 e, Forall draws c -> J z e c -> J z2 e c.
Proof.
  induction c as [|s c IH]; intros z z2 e F; auto. inversion F; subst. apply draws_iff in H1. destruct H1 as [M C]. cbn [J]. rewrite M, C. intros (A & B & D).
  split; auto. split; [discriminate|]. apply (IH z); auto.
Qed.
(** changing the subpath start in front of [b] *)
Lemma J_reclosed : forall z z2 e b b2, J z e b -> reclosed z2 b b2 -> z2 <> None -> open_or_last b -> J z2 e b2.
Proof.
  intros z z2 e b b2 H R N O. destruct R as [c F|c m d F M|c w d F C].
  - apply (J_draws c z); auto.
  - apply J_app in H. rewrite J_app. destruct H as [H1 H2]. split; [apply (J_draws c z); auto|].
    rewrite zof_draws in * by auto. cbn [J] in *. rewrite M in *. destruct H2 as (A & B & D). split; auto. split; auto.
    intros C. apply is_close_not_move in C. congruence.
  - assert (d = []) by (apply (O c w d); auto; apply is_close_kind; auto). subst d. apply J_app in H. rewrite J_app. destruct H as [H1 H2].
    split; [apply (J_draws c z); auto|]. rewrite zof_draws in * by auto. cbn [J] in *. destruct H2 as (A & B & D). cbn [set_end s_start s_end].
    split; auto. split; auto. intros _. apply ms_refl; auto.
Qed.
Lemma open_restart : forall b b2, restart b b2 -> open_or_last b -> open_or_last b2.
Proof.
  intros [|n b] [|m b2]; cbn; try tauto. intros [-> E] O c z d Eq F K. destruct c as [|x c]; cbn in Eq; injection Eq as -> ->.
  - apply (O [] n d); auto. rewrite E in K. exact K.
  - inversion F; subst. apply (O (n :: c) z d); auto. constructor; auto. rewrite E in H1. exact H1.
Qed.
Lemma reclosed_kinds : forall o b b2, reclosed o b b2 -> map s_kind b2 = map s_kind b.
Proof. intros o b b2 [c F|c m d F M|c z d F C]; auto. rewrite !map_app. reflexivity. Qed.
Lemma JJ_app : forall a b, a <> [] -> JJ (a ++ b) <-> JJ a /\ J (match a with [] => None | f :: a' => zof (s_end f) a' end) (eo a) b.
Proof. intros [|f a] b NE; [congruence|]. cbn [app JJ]. rewrite J_app. reflexivity. Qed.
Lemma ended_eo : forall a, a <> [] -> ended a -> eo a <> None.
Proof. intros a NE E. destruct (snoc_cases _ a) as [->|(l & s & ->)]; [congruence|]. rewrite eo_snoc. apply Forall_app in E. destruct E as [_ E]. inversion E; auto. Qed.
Lemma ended_app : forall a b, ended (a ++ b) -> ended a /\ ended b. Proof. intros a b. apply Forall_app. Qed.

(** * Edits *)
Definition zp (a : path) : option pt := match a with [] => None | f :: a' => zof (s_end f) a' end.
Lemma draws_split : forall s, draws s -> is_move s = false /\ is_close s = false. Proof. intros s. apply draws_iff. Qed.
Lemma kind_move : forall s t, s_kind s = s_kind t -> is_move s = is_move t /\ is_close s = is_close t.
Proof. intros s t E. unfold is_move, is_close. rewrite E. auto. Qed.
Lemma zof_some : forall a z, z <> None -> ended a -> zof z a <> None.
Proof. induction a as [|s a IH]; intros z Z E; auto. inversion E; subst. cbn [zof fold_left]. apply IH; auto. destruct (is_move s); auto. Qed.
Lemma zp_some : forall a, a <> [] -> ended a -> zp a <> None.
Proof. intros [|f a] NE E; [congruence|]. inversion E; subst. apply zof_some; auto. Qed.
Definition new_end (v : seg) (b : path) : option pt :=
  match s_end v with Some e => Some e | None => match b with n :: _ => s_start n | [] => None end end.
Definition put (a : path) (v : seg) (b : path) : path :=
  validate_connection (validate_connection (a ++ v :: b) (Z.of_nat (length a) - 1)) (Z.of_nat (length a)).
(** what [put] does when [b] followed something ending at [e] *)
Lemma put_cases : forall a v b z e, a <> [] -> ended a -> J z e b ->
  exists v2 b2, put a v b = a ++ v2 :: b2 /\ restart b b2 /\ s_kind v2 = s_kind v /\ s_end v2 = new_end v b /\
    ms (eo a) (s_start v2) /\ J z (s_end v2) b2 /\ starts (s_end v2) b2.
Proof.
  intros a v b z e NE E H. destruct (links_around a v b NE (ended_eo a NE E)) as (v2 & b2 & P & R & K & M & A & B & C).
  exists v2, b2. split; [exact P|]. split; [exact R|]. split; [exact K|].
  assert (N : s_end v2 = new_end v b). { unfold new_end. destruct (s_end v); [apply A; discriminate | apply B; auto]. }
  split; [exact N|]. split; [exact M|].
  assert (S1 : starts (s_end v2) b2).
  { destruct b as [|n b]; [destruct b2; [exact I|contradiction]|]. apply C. rewrite N. unfold new_end. destruct (s_end v); [discriminate|].
    cbn [J] in H. destruct H as [H _]. apply ms_some_r in H. exact H. }
  split; [apply (restart_J z e _ b); auto | exact S1].
Qed.
Lemma insert_draws : forall a v b, a <> [] -> joined (a ++ b) -> ended (a ++ b) -> draws v ->
  exists q, insert (a ++ b) (Z.of_nat (length a)) v = Ok q /\ joined q /\
    map s_kind q = map s_kind a ++ s_kind v :: map s_kind b /\ ends q = ends a ++ new_end v b :: ends b.
Proof.
  intros a v b NE H E D. apply joined_iff, JJ_app in H; auto. destruct H as [H1 H2]. apply ended_app in E. destruct E as [E1 E2].
  destruct (put_cases a v b _ _ NE E1 H2) as (v2 & b2 & P & R & K & N & M & H3 & _).
  unfold insert. rewrite pyinsert_at. fold (put a v b). rewrite P. destruct (draws_split v D) as [Mv Cv]. rewrite Mv, Cv. cbn [rbind].
  destruct (kind_move _ _ K) as [M2 C2]. destruct (restart_ends _ _ R) as [R1 R2]. exists (a ++ v2 :: b2). split; [auto|]. split.
  - apply joined_iff. apply JJ_app; auto. split; auto. cbn [J]. rewrite M2, C2, Mv, Cv. split; auto. split; [discriminate|]. exact H3.
  - unfold ends. rewrite !map_app. cbn [map]. rewrite R2, K. fold (ends b2). rewrite R1, N. auto.
Qed.
Lemma setitem_draws : forall a o v b, a <> [] -> joined (a ++ o :: b) -> ended (a ++ o :: b) -> draws v -> s_kind o <> KMove ->
  exists q, setitem (a ++ o :: b) (Z.of_nat (length a)) v = Ok q /\ joined q /\
    map s_kind q = map s_kind a ++ s_kind v :: map s_kind b /\ ends q = ends a ++ new_end v b :: ends b.
Proof.
  intros a o v b NE H E D NM. apply joined_iff, JJ_app in H; auto. destruct H as [H1 H2]. apply ended_app in E. destruct E as [E1 E2].
  cbn [J] in H2. destruct H2 as (A & B & H2). assert (Mo : is_move o = false). { destruct (is_move o) eqn:X; auto. apply is_move_kind in X. congruence. } rewrite Mo in H2.
  destruct (put_cases a v b _ _ NE E1 H2) as (v2 & b2 & P & R & K & N & M & H3 & _).
  unfold setitem. rewrite pyset_at. cbn [rbind]. fold (put a v b). rewrite P. destruct (draws_split v D) as [Mv Cv]. rewrite Mv, Cv. cbn [rbind].
  destruct (kind_move _ _ K) as [M2 C2]. destruct (restart_ends _ _ R) as [R1 R2]. exists (a ++ v2 :: b2). split; [auto|]. split.
  - apply joined_iff. apply JJ_app; auto. split; auto. cbn [J]. rewrite M2, C2, Mv, Cv. split; auto. split; [discriminate|]. exact H3.
  - unfold ends. rewrite !map_app. cbn [map]. rewrite R2, K. fold (ends b2). rewrite R1, N. auto.
Qed.
Lemma validate_moveZ_at : forall a m b, validate_moveZ (a ++ m :: b) (Z.of_nat (length a)) = Ok (validate_move (a ++ m :: b) (length a)).
Proof. intros. unfold validate_moveZ. rewrite (proj2 (Z.ltb_ge (Z.of_nat (length a)) 0)) by lia. rewrite Nat2Z.id. reflexivity. Qed.
Lemma validate_closeZ_at : forall a v b, validate_closeZ (a ++ v :: b) (Z.of_nat (length a)) = Ok (validate_close (a ++ v :: b) (length a)).
Proof.
  intros. unfold validate_closeZ. rewrite (proj2 (Z.ltb_ge (Z.of_nat (length a)) 0)) by lia.
  rewrite (proj2 (Z.ltb_lt (Z.of_nat (length a)) _)) by (rewrite app_length; cbn; lia). rewrite Nat2Z.id. reflexivity.
Qed.
Lemma move_not_close : forall s, is_move s = true -> is_close s = false.
Proof. intros s. unfold is_close, is_move. destruct (s_kind s); auto; discriminate. Qed.
(** a move put between [a] and [b] *)
Lemma put_move : forall a v b z e, a <> [] -> ended a -> JJ a -> J z e b -> is_move v = true -> s_end v <> None -> open_or_last b ->
  exists q, (do p3 <- validate_moveZ (put a v b) (Z.of_nat (length a)); Ok p3) = Ok q /\ joined q /\
    map s_kind q = map s_kind a ++ s_kind v :: map s_kind b.
Proof.
  intros a v b z e NE E H1 H2 Mv Ev O. destruct (put_cases a v b _ _ NE E H2) as (v2 & b2 & P & R & K & N & M & H3 & S1).
  rewrite P, validate_moveZ_at. destruct (validate_move_at a v2 b2) as (b3 & P3 & R3). rewrite P3. cbn [rbind].
  destruct (kind_move _ _ K) as [M2 C2]. rewrite Mv in M2. rewrite (move_not_close v Mv) in C2.
  assert (Ev2 : s_end v2 <> None) by (rewrite N; unfold new_end; destruct (s_end v); congruence).
  exists (a ++ v2 :: b3). split; auto. split.
  - apply joined_iff. apply JJ_app; auto. split; auto. cbn [J]. rewrite M2, C2. split; auto. split; [discriminate|].
    apply (J_reclosed z _ _ b2); auto. apply (open_restart b); auto.
  - rewrite map_app. cbn [map]. rewrite (reclosed_kinds _ _ _ R3), K. destruct (restart_ends _ _ R) as [_ ->]. auto.
Qed.
Lemma insert_move : forall a v b, a <> [] -> joined (a ++ b) -> ended (a ++ b) -> s_kind v = KMove -> s_end v <> None -> open_or_last b ->
  exists q, insert (a ++ b) (Z.of_nat (length a)) v = Ok q /\ joined q /\ map s_kind q = map s_kind a ++ s_kind v :: map s_kind b.
Proof.
  intros a v b NE H E Mv Ev O. apply is_move_kind in Mv. apply joined_iff, JJ_app in H; auto. destruct H as [H1 H2]. apply ended_app in E. destruct E as [E1 E2].
  destruct (put_move a v b _ _ NE E1 H1 H2 Mv Ev O) as (q & P & Q). exists q. split; [|exact Q].
  unfold insert. rewrite pyinsert_at. fold (put a v b). rewrite Mv, (move_not_close v Mv). exact P.
Qed.
Lemma setitem_move : forall a o v b, a <> [] -> joined (a ++ o :: b) -> ended (a ++ o :: b) -> s_kind v = KMove -> s_end v <> None -> open_or_last b ->
  exists q, setitem (a ++ o :: b) (Z.of_nat (length a)) v = Ok q /\ joined q /\ map s_kind q = map s_kind a ++ s_kind v :: map s_kind b.
Proof.
  intros a o v b NE H E Mv Ev O. apply is_move_kind in Mv. apply joined_iff, JJ_app in H; auto. destruct H as [H1 H2]. apply ended_app in E. destruct E as [E1 E2].
  cbn [J] in H2. destruct H2 as (A & B & H2).
  destruct (put_move a v b _ _ NE E1 H1 H2 Mv Ev O) as (q & P & Q). exists q. split; [|exact Q].
  unfold setitem. rewrite pyset_at. cbn [rbind]. fold (put a v b). rewrite Mv, (move_not_close v Mv). exact P.
Qed.
Lemma validate_close_in : forall a v b, a <> [] -> is_close v = true -> validate_close (a ++ v :: b) (length a) = a ++ set_end v (zp a) :: b.
Proof. intros a v b NE C. rewrite validate_close_at by auto. destruct a; [congruence|reflexivity]. Qed.
Lemma setitem_close : forall a o v, a <> [] -> joined (a ++ [o]) -> ended (a ++ [o]) -> s_kind v = KClose ->
  exists q, setitem (a ++ [o]) (Z.of_nat (length a)) v = Ok q /\ joined q /\ map s_kind q = map s_kind a ++ [s_kind v].
Proof.
  intros a o v NE H E Cv. apply is_close_kind in Cv. apply joined_iff, JJ_app in H; auto. destruct H as [H1 H2]. apply ended_app in E. destruct E as [E1 E2].
  assert (Z := zp_some a NE E1).
  destruct (put_cases a v [] (zp a) None NE E1 I) as (v2 & b2 & P & R & K & N & M & H3 & S1). destruct b2; [|contradiction].
  destruct (kind_move _ _ K) as [M2 C2]. rewrite Cv in C2. rewrite (is_close_not_move v Cv) in M2.
  exists (a ++ [set_end v2 (zp a)]). split; [|split].
  - unfold setitem. rewrite pyset_at. cbn [rbind]. fold (put a v []). rewrite P, (is_close_not_move v Cv), Cv. cbn [rbind].
    rewrite validate_closeZ_at, validate_close_in; auto.
  - apply joined_iff. apply JJ_app; auto. split; auto. cbn [J]. unfold is_close. cbn [set_end s_kind s_start s_end]. fold (zp a).
    split; auto. split; [intros _; apply ms_refl; auto|exact I].
  - rewrite map_app. cbn. rewrite K. reflexivity.
Qed.
Lemma insert_close : forall a v, a <> [] -> joined a -> ended a -> s_kind v = KClose ->
  exists q, insert a (Z.of_nat (length a)) v = Ok q /\ joined q /\ map s_kind q = map s_kind a ++ [s_kind v].
Proof.
  intros a v NE H E1 Cv. apply is_close_kind in Cv. apply joined_iff in H.
  assert (Z := zp_some a NE E1).
  destruct (put_cases a v [] (zp a) None NE E1 I) as (v2 & b2 & P & R & K & N & M & H3 & S1). destruct b2; [|contradiction].
  destruct (kind_move _ _ K) as [M2 C2]. rewrite Cv in C2. rewrite (is_close_not_move v Cv) in M2.
  exists (a ++ [set_end v2 (zp a)]). split; [|split].
  - assert (PI : pyinsert a (Z.of_nat (length a)) v = a ++ [v]) by (pose proof (pyinsert_at _ a [] v) as X; rewrite app_nil_r in X; exact X).
    unfold insert. rewrite PI. fold (put a v []). rewrite P, (is_close_not_move v Cv), Cv. cbn [rbind].
    rewrite validate_closeZ_at, validate_close_in; auto.
  - apply joined_iff. apply JJ_app; auto. split; auto. cbn [J]. unfold is_close. cbn [set_end s_kind s_start s_end]. fold (zp a).
    split; auto. split; [intros _; apply ms_refl; auto|exact I].
  - rewrite map_app. cbn. rewrite K. reflexivity.
Qed.
Lemma append_joined : forall p s, joined p -> ended p -> joined (append p s) /\ map s_kind (append p s) = map s_kind p ++ [s_kind s] /\
  ends (append p s) = ends p ++ [if is_close s then match p with [] => s_end s | _ => zp p end else s_end s].
Proof.
  intros p s H E. apply joined_iff in H. unfold append. destruct p as [|f p].
  - cbn [app length]. unfold validate_connection. rewrite vc_neg by (cbn; lia). destruct (is_close s) eqn:C.
    + change [s] with ([] ++ s :: []). change 0 with (length (@nil seg)). rewrite validate_close_at; auto. cbn. split; [apply joined_iff; exact I|]. auto.
    + split; [apply joined_iff; exact I|]. auto.
  - set (a := f :: p) in *. assert (NE : a <> []) by discriminate. destruct (link_behind a [s] NE (ended_eo a NE E)) as (b2 & P & R & S1). rewrite P.
    destruct b2 as [|m [|? ?]]; cbn in R; try tauto. 2:{ destruct R as [R _]; discriminate R. } destruct R as [_ R]. cbn in S1.
    assert (K : s_kind m = s_kind s) by (rewrite R; reflexivity). assert (Ee : s_end m = s_end s) by (rewrite R; reflexivity). destruct (kind_move _ _ K) as [M2 C2].
    destruct (is_close s) eqn:C.
    + rewrite validate_close_in by auto. unfold ends. rewrite !map_app. cbn [map set_end s_kind s_end]. rewrite K. split; [|auto].
      apply joined_iff. apply JJ_app; auto. split; auto. cbn [J]. unfold is_close. cbn [set_end s_kind s_start s_end]. fold (zp a).
      split; auto. split; [intros _; apply ms_refl; apply zp_some; auto|exact I].
    + unfold ends. rewrite !map_app. cbn [map]. rewrite K, Ee. split; [|auto].
      apply joined_iff. apply JJ_app; auto. split; auto. cbn [J]. rewrite C2. split; auto. split; [discriminate|exact I].
Qed.
(** inserting in front of a path that begins with a move *)
Lemma insert_front : forall b v, joined b -> match b with [] => True | m :: _ => s_kind m = KMove end -> s_end v <> None ->
  exists q, insert b 0 v = Ok q /\ joined q /\ map s_kind q = s_kind v :: map s_kind b /\ ends q = s_end v :: ends b.
Proof.
  intros b v H B E. apply joined_iff in H. destruct (link_front v b) as (v2 & b2 & P & R & W & A & _ & S1). specialize (A E).
  unfold insert. change (pyinsert b 0 v) with (pyinsert ([] ++ b) (Z.of_nat (length (@nil seg))) v). rewrite pyinsert_at. cbn [app].
  assert (PP : validate_connection (validate_connection (v :: b) (0 - 1)) 0 = v2 :: b2).
  { replace (validate_connection (v :: b) (0 - 1)) with (v :: b) by (symmetry; apply vc_neg; lia). exact P. }
  rewrite PP.
  assert (K : s_kind v2 = s_kind v) by (rewrite W; reflexivity). destruct (kind_move _ _ K) as [M2 C2]. destruct (restart_ends _ _ R) as [R1 R2].
  assert (Jq : JJ (v2 :: b2)).
  { cbn [JJ]. destruct b as [|m b]; [destruct b2; [exact I|contradiction]|]. destruct b2 as [|n b2]; [contradiction|]. cbn in R. destruct R as [-> R].
    apply is_move_kind in B. assert (Kn : s_kind n = s_kind m) by (rewrite R; reflexivity). destruct (kind_move _ _ Kn) as [Mn Cn].
    assert (En : s_end n = s_end m) by (rewrite R; reflexivity).
    cbn [J JJ] in *. rewrite Mn, B, En. split; [apply S1; congruence|]. split; [|exact H]. rewrite Cn, (move_not_close m B). discriminate. }
  assert (VM : validate_move (v2 :: b2) 0 = v2 :: b2).
  { unfold validate_move. cbn [next_break nth_error]. destruct b as [|m b]; [destruct b2; [reflexivity|contradiction]|]. destruct b2 as [|n b2]; [contradiction|].
    cbn in R. destruct R as [-> R]. apply is_move_kind in B. assert (Kn : s_kind n = s_kind m) by (rewrite R; reflexivity). destruct (kind_move _ _ Kn) as [Mn Cn].
    cbn [next_break]. rewrite Mn, B. cbn [orb option_map fst snd]. rewrite Mn, B. reflexivity. }
  exists (v2 :: b2). split; [|split; [apply joined_iff; exact Jq|]].
  - destruct (is_move v) eqn:Mv.
    + rewrite (move_not_close v Mv). unfold validate_moveZ. cbn. cbn in VM. rewrite VM. reflexivity.
    + cbn [rbind]. destruct (is_close v) eqn:Cv; [|reflexivity].
      change (v2 :: b2) with ([] ++ v2 :: b2). change 0%Z with (Z.of_nat (length (@nil seg))). rewrite validate_closeZ_at, validate_close_at by (rewrite C2; auto).
      cbn [app]. f_equal. f_equal. destruct v2; reflexivity.
  - unfold ends. cbn [map]. fold (ends b2). rewrite K, R2, R1, A. auto.
Qed.

(** * Deletion *)
Lemma pydel_at : forall A (a : list A) x b, pydel (a ++ x :: b) (length a) = a ++ b.
Proof.
  intros. unfold pydel. rewrite firstn_at. f_equal. change (x :: b) with ([x] ++ b). rewrite app_assoc.
  replace (S (length a)) with (length (a ++ [x])) by (rewrite app_length; cbn; lia). apply skipn_at.
Qed.
Lemma delitem_at : forall a o b, delitem (a ++ o :: b) (Z.of_nat (length a)) =
  Ok (let p1 := validate_connection (a ++ b) (Z.of_nat (length a) - 1) in if is_close o || is_move o then validate_subpath p1 (Z.of_nat (length a)) else p1).
Proof. intros. unfold delitem. rewrite pyidx_at, pyget_at, pydel_at. reflexivity. Qed.
Lemma delitem_draws : forall a o b, a <> [] -> joined (a ++ o :: b) -> ended (a ++ o :: b) -> draws o ->
  exists q, delitem (a ++ o :: b) (Z.of_nat (length a)) = Ok q /\ joined q /\ map s_kind q = map s_kind (a ++ b) /\ ends q = ends (a ++ b).
Proof.
  intros a o b NE H E D. apply joined_iff, JJ_app in H; auto. destruct H as [H1 H2]. apply ended_app in E. destruct E as [E1 E2].
  destruct (draws_split o D) as [Mo Co]. cbn [J] in H2. rewrite Mo in H2. destruct H2 as (A & B & H2).
  rewrite delitem_at, Mo, Co. cbn [orb]. destruct (link_behind a b NE (ended_eo a NE E1)) as (b2 & P & R & S1). rewrite P.
  destruct (restart_ends _ _ R) as [R1 R2]. exists (a ++ b2). split; auto. split.
  - apply joined_iff, JJ_app; auto. split; auto. apply (restart_J _ (s_end o) _ b); auto.
  - unfold ends. rewrite !map_app. fold (ends b2). rewrite R1, R2. auto.
Qed.
Lemma validate_subpath_at : forall a b, 
  exists b2, validate_subpath (a ++ b) (Z.of_nat (length a)) = a ++ b2 /\
    (length b <= 1 /\ b2 = b \/ 1 < length b /\ reclosed (match a, b with f :: a', _ => zof (s_end f) a' | [], n :: _ => s_end n | [], [] => None end) b b2).
Proof.
  intros a b. unfold validate_subpath. rewrite (proj2 (Z.ltb_ge (Z.of_nat (length a)) 0)) by lia. cbn [orb]. rewrite app_length.
  destruct (Z.of_nat (length a + length b) <=? Z.of_nat (length a) + 1)%Z eqn:E.
  - apply Z.leb_le in E. exists b. split; auto. left. split; [lia|auto].
  - apply Z.leb_gt in E. rewrite Nat2Z.id, next_break_app.
    destruct (next_break_cases b) as [[E1 F]|(c & z & d & Eb & F & E1 & K)]; rewrite E1; cbn [option_map shiftn fst snd]; [|subst b].
    + exists b. split; auto. right. split; [lia|]. constructor; auto.
    + destruct K as [K|[K C]]; rewrite K.
      * exists (c ++ z :: d). split; auto. right. split; [lia|]. apply rc_move; auto.
      * set (o := match a with f :: a' => zof (s_end f) a' | [] => match c ++ z :: d with n :: _ => s_end n | [] => None end end).
        exists (c ++ set_end z o :: d). split; [|right; split; [lia|]].
        2:{ replace (match a with [] => match c ++ z :: d with [] => None | n :: _ => s_end n end | f :: a' => zof (s_end f) a' end) with o by reflexivity. apply rc_close; auto. }
        rewrite app_assoc, <- app_length, upd_at, <- !app_assoc. do 4 f_equal.
        destruct (c ++ z :: d) as [|n b'] eqn:Eb; [destruct c; discriminate|].
        replace (firstn (S (length a)) (a ++ n :: b')) with (a ++ [n]).
        2:{ change (n :: b') with ([n] ++ b'). rewrite app_assoc. replace (S (length a)) with (length (a ++ [n])) by (rewrite app_length; cbn; lia). rewrite firstn_at. auto. }
        rewrite last_move_snoc. assert (Mn : is_move n = false).
        { destruct c as [|x c]; cbn in Eb; injection Eb as Ex _; subst n; auto. pose proof (Forall_inv F) as D. apply draws_iff in D. tauto. }
        rewrite Mn. unfold o. destruct a as [|f a]; cbn [app]; [reflexivity|]. rewrite zof_first. reflexivity.
Qed.
Lemma restart_length : forall b b2, restart b b2 -> length b2 = length b.
Proof. intros [|n b] [|m b2]; cbn; try tauto. intros [-> _]. auto. Qed.
Lemma delitem_close : forall a o b, a <> [] -> joined (a ++ o :: b) -> ended (a ++ o :: b) -> s_kind o = KClose -> open_or_last b ->
  exists q, delitem (a ++ o :: b) (Z.of_nat (length a)) = Ok q /\ joined q /\ map s_kind q = map s_kind (a ++ b).
Proof.
  intros a o b NE H E D O. apply is_close_kind in D. apply joined_iff, JJ_app in H; auto. destruct H as [H1 H2]. apply ended_app in E. destruct E as [E1 E2].
  fold (zp a) in H2. cbn [J] in H2. rewrite (is_close_not_move o D) in H2. destruct H2 as (A & B & H2).
  rewrite delitem_at, D. cbn [orb]. destruct (link_behind a b NE (ended_eo a NE E1)) as (b2 & P & R & S1). rewrite P. cbv zeta.
  destruct (validate_subpath_at a b2) as (b3 & P3 & C). rewrite P3. exists (a ++ b3). split; auto. assert (Z := zp_some a NE E1).
  replace (match a, b2 with f :: a', _ => zof (s_end f) a' | [], n :: _ => s_end n | [], [] => None end) with (zp a) in C by (destruct a; [congruence|reflexivity]).
  assert (Hb2 : J (zp a) (eo a) b2) by (apply (restart_J _ (s_end o) _ b); auto).
  destruct (restart_ends _ _ R) as [_ R2]. destruct C as [[_ ->]|[_ C]].
  - split; [apply joined_iff, JJ_app; auto|]. rewrite !map_app, R2. auto.
  - split; [apply joined_iff, JJ_app; auto; split; auto; apply (J_reclosed (zp a) _ _ b2); auto; apply (open_restart b); auto|].
    rewrite !map_app, (reclosed_kinds _ _ _ C), R2. auto.
Qed.
Lemma delitem_move : forall a o b, a <> [] -> joined (a ++ o :: b) -> ended (a ++ o :: b) -> s_kind o = KMove -> open_or_last b ->
  (forall z, b = [z] -> s_kind z <> KClose) ->
  exists q, delitem (a ++ o :: b) (Z.of_nat (length a)) = Ok q /\ joined q /\ map s_kind q = map s_kind (a ++ b).
Proof.
  intros a o b NE H E D O L. apply is_move_kind in D. apply joined_iff, JJ_app in H; auto. destruct H as [H1 H2]. apply ended_app in E. destruct E as [E1 E2].
  fold (zp a) in H2. cbn [J] in H2. rewrite D in H2. destruct H2 as (A & B & H2).
  rewrite delitem_at, D, orb_true_r. destruct (link_behind a b NE (ended_eo a NE E1)) as (b2 & P & R & S1). rewrite P. cbv zeta.
  destruct (validate_subpath_at a b2) as (b3 & P3 & C). rewrite P3. exists (a ++ b3). split; auto. assert (Z := zp_some a NE E1).
  replace (match a, b2 with f :: a', _ => zof (s_end f) a' | [], n :: _ => s_end n | [], [] => None end) with (zp a) in C by (destruct a; [congruence|reflexivity]).
  assert (Hb2 : J (s_end o) (eo a) b2) by (apply (restart_J _ (s_end o) _ b); auto).
  destruct (restart_ends _ _ R) as [_ R2]. destruct C as [[Len ->]|[_ C]].
  - split; [|rewrite !map_app, R2; auto]. apply joined_iff, JJ_app; auto. split; auto. fold (zp a).
    destruct b2 as [|n [|? ?]]; [exact I| |cbn in Len; lia]. destruct b as [|n0 [|? ?]]; cbn in R; try tauto. 2:{ destruct R as [R _]; discriminate R. }
    cbn [J] in *. destruct Hb2 as (X & Y & _). split; auto. split; [|exact I]. intros Cn. exfalso. apply (L n0); auto. apply is_close_kind.
    destruct R as [_ R]. rewrite R in Cn. exact Cn.
  - split; [apply joined_iff, JJ_app; auto; split; auto; apply (J_reclosed (s_end o) _ _ b2); auto; apply (open_restart b); auto|].
    rewrite !map_app, (reclosed_kinds _ _ _ C), R2. auto.
Qed.
Lemma reclosed_cons : forall o n b b3, reclosed o (n :: b) b3 ->
  (is_move n = true /\ b3 = n :: b) \/ (is_close n = true /\ b3 = set_end n o :: b) \/ (draws n /\ exists b', b3 = n :: b' /\ reclosed o b b').
Proof.
  intros o n b b3 R. remember (n :: b) as w eqn:E. destruct R as [c F|c m d F M|c z d F C].
  - subst c. right; right. split; [apply (Forall_inv F)|]. exists b. split; auto. constructor. apply (Forall_inv_tail F).
  - destruct c as [|x c]; cbn [app] in *; injection E as Ex Eb; subst.
    + left; auto.
    + right; right. split; [apply (Forall_inv F)|]. exists (c ++ m :: d). split; auto. apply rc_move; auto. apply (Forall_inv_tail F).
  - destruct c as [|x c]; cbn [app] in *; injection E as Ex Eb; subst.
    + right; left; auto.
    + right; right. split; [apply (Forall_inv F)|]. exists (c ++ set_end z o :: d). split; auto. apply rc_close; auto. apply (Forall_inv_tail F).
Qed.
(** deleting the move a path begins with *)
Lemma delitem_first : forall o b, joined (o :: b) -> ended (o :: b) -> s_kind o = KMove -> open_or_last b ->
  exists q, delitem (o :: b) 0 = Ok q /\ joined q /\ map s_kind q = map s_kind b.
Proof.
  intros o b H E D O. apply is_move_kind in D. apply joined_iff in H. cbn [JJ] in H. pose proof (delitem_at [] o b) as X. cbn [app length] in X.
  change (Z.of_nat 0) with 0%Z in X. rewrite X. clear X. unfold validate_connection. rewrite vc_neg by lia. rewrite D, orb_true_r. cbv zeta.
  destruct (validate_subpath_at [] b) as (b3 & P3 & C). cbn [app length] in P3. change (Z.of_nat 0) with 0%Z in P3. rewrite P3. exists b3. split; auto.
  destruct C as [[Len ->]|[Len C]].
  - split; auto. apply joined_iff. destruct b as [|n [|? ?]]; cbn in *; auto; lia.
  - split; [|apply (reclosed_kinds _ _ _ C)]. apply joined_iff. destruct b as [|n b]; [cbn in Len; lia|]. cbn [J] in H. destruct H as (A & B & H).
    assert (En : s_end n <> None) by (apply (Forall_inv (Forall_inv_tail E))).
    destruct (reclosed_cons _ _ _ _ C) as [[Mn ->]|[[Cn ->]|[Dn (b' & -> & R)]]]; cbn [JJ].
    + rewrite Mn in H. exact H.
    + exfalso. assert (b = []) by (apply (O [] n b); auto; apply is_close_kind; auto). subst b. cbn in Len; lia.
    + destruct (draws_split n Dn) as [Mn Cn]. rewrite Mn in H. apply (J_reclosed (s_end o) _ _ b); auto.
      intros c z d Eq F K. apply (O (n :: c) z d); auto. rewrite Eq; auto.
Qed.

(** * validate_connections *)
Lemma connect_J : forall p z prev, z <> None -> s_end prev <> None -> ended p ->
  exists r, connect z prev p = prev :: r /\ J z (s_end prev) r /\ map s_kind r = map s_kind p /\ Forall2 (fun a b => is_close b = false -> s_end a = s_end b) r p /\ ended r.
Proof.
  induction p as [|s p IH]; intros z prev Z E F; cbn [connect]; [exists []; cbn; repeat split; auto; constructor|].
  pose proof (Forall_inv F) as Es. pose proof (Forall_inv_tail F) as Ep. cbn in Es.
  destruct z as [z|]; [|congruence]. destruct (link_false prev s E) as (o & -> & M).
  set (s1 := set_start s o). set (z1 := if is_move s then s_end s else Some z). assert (Z1 : z1 <> None) by (unfold z1; destruct (is_move s); auto; discriminate).
  set (s2 := match z1 with Some q => if is_close s1 && negb (onear (s_end s1) (Some q)) then set_end s1 (Some q) else s1 | None => s1 end).
  assert (Q : s_kind s2 = s_kind s /\ s_start s2 = o /\ s_end s2 <> None /\ (is_close s = true -> ms (s_end s2) (Some z)) /\ (is_close s = false -> s_end s2 = s_end s)).
  { unfold s2. destruct z1 as [q|] eqn:Eq; [|congruence]. change (is_close s1) with (is_close s). destruct (is_close s) eqn:C; cbn [andb].
    - assert (q = z). { unfold z1 in Eq. rewrite (is_close_not_move s C) in Eq. congruence. } subst q.
      destruct (onear (s_end s1) (Some z)) eqn:N; cbn [negb].
      + repeat split; auto; try discriminate. intros _. unfold onear in N. unfold ms. destruct (s_end s1); auto; discriminate.
      + repeat split; auto; try discriminate. intros _. apply near_refl.
    - repeat split; auto; discriminate. }
  destruct Q as (K & S2 & E2 & C2 & D2). destruct (IH z1 s2 Z1 E2 Ep) as (r & R & HJ & HK & HE & HD). fold z1. fold s2. rewrite R. exists (s2 :: r).
  destruct (kind_move _ _ K) as [M2 C3]. split; auto. split; [|split; [cbn; congruence|split; [constructor; auto|constructor; auto]]].
  cbn [J]. rewrite M2, C3, S2. split; auto. split; auto. replace (if is_move s then s_end s2 else Some z) with z1; auto.
  unfold z1. destruct (is_move s) eqn:Ms; auto. rewrite D2; auto. apply move_not_close; auto.
Qed.
Lemma validate_connections_joined : forall p, ended p -> joined (validate_connections p) /\ map s_kind (validate_connections p) = map s_kind p /\
  Forall2 (fun a b => s_kind b <> KClose -> s_end a = s_end b) (validate_connections p) p /\ ended (validate_connections p).
Proof.
  intros [|s p] F; cbn [validate_connections]; [split; [apply joined_iff; exact I|split; auto; split; constructor]|].
  pose proof (Forall_inv F) as Es. pose proof (Forall_inv_tail F) as Ep. cbn in Es.
  destruct (connect_J p (s_end s) s Es Es Ep) as (r & -> & HJ & HK & HE & HD). split; [apply joined_iff; exact HJ|]. split; [cbn; congruence|].
  split; [|constructor; auto]. constructor; auto. clear - HE. induction HE; constructor; auto. intros NK. apply H. destruct (is_close y) eqn:C; auto. apply is_close_kind in C. congruence.
Qed.
Lemma connect_same : forall p z prev, z <> None -> J z (s_end prev) p -> ended p -> connect z prev p = prev :: p.
Proof.
  induction p as [|s p IH]; intros z prev Z H F; cbn [connect]; auto. cbn [J] in H. destruct H as (A & B & C). pose proof (Forall_inv F) as Es. cbn in Es.
  destruct z as [z|]; [|congruence].
  assert (L : link false prev s = (prev, s)). { unfold link, ms in *. destruct (s_end prev); [|tauto]. destruct (s_start s); [|tauto]. rewrite A; auto. }
  rewrite L. f_equal.
  assert (N : match (if is_move s then s_end s else Some z) with Some q => if is_close s && negb (onear (s_end s) (Some q)) then set_end s (Some q) else s | None => s end = s).
  { destruct (is_close s) eqn:Cs; [|destruct (if is_move s then s_end s else Some z); auto]. rewrite (is_close_not_move s Cs). cbn [andb]. specialize (B eq_refl). unfold ms in B. unfold onear.
    destruct (s_end s); [|tauto]. rewrite B. reflexivity. }
  rewrite N. apply IH; auto. { destruct (is_move s); auto. } apply (Forall_inv_tail F).
Qed.
Lemma validate_connections_same : forall p, joined p -> ended p -> validate_connections p = p.
Proof.
  intros [|s p] H F; cbn [validate_connections]; auto. apply joined_iff in H. apply connect_same; auto; [apply (Forall_inv F)|apply (Forall_inv_tail F)].
Qed.
Lemma ended_splice : forall p a b v, ended p -> ended v -> ended (pysplice p a b v).
Proof.
  intros p a b v E F. unfold pysplice. apply Forall_app. split; [|apply Forall_app; split; auto].
  - rewrite <- (firstn_skipn (lo (length p) a) p) in E. apply Forall_app in E. tauto.
  - rewrite <- (firstn_skipn (Nat.max (lo (length p) a) (hi (length p) b)) p) in E. apply Forall_app in E. tauto.
Qed.

(** * extend *)
Lemma in_on_path_e : forall p s q, In s p -> s_end s = Some q -> on_path p q. Proof. intros p s q I1 E. exists s. auto. Qed.
Lemma in_on_path_s : forall p s q, In s p -> s_start s = Some q -> on_path p q. Proof. intros p s q I1 E. exists s. auto. Qed.
Lemma zof_in : forall p z q, zof z p = Some q -> z = Some q \/ exists s, In s p /\ s_end s = Some q.
Proof.
  induction p as [|s p IH]; intros z q H; auto. cbn [zof fold_left] in H. destruct (IH _ _ H) as [E|(t & I1 & E)].
  - destruct (is_move s); auto. right. exists s. cbn; auto.
  - right. exists t. cbn; auto.
Qed.
Lemma zp_in : forall p q, zp p = Some q -> exists s, In s p /\ s_end s = Some q.
Proof. intros [|f p] q H; [discriminate|]. cbn in H. destruct (zof_in _ _ _ H) as [E|(s & I1 & E)]; [exists f|exists s]; cbn; auto. Qed.
Lemma ms_some : forall a b, ms a b -> exists p q, a = Some p /\ b = Some q /\ near p q = true.
Proof. intros [p|] [q|]; cbn; try tauto. intros. exists p, q. auto. Qed.
Lemma near_trans_on : forall p x y z, separated p -> on_path p x -> on_path p y -> on_path p z -> near x y = true -> near y z = true -> near x z = true.
Proof. intros p x y z S1 X Y Zz A B. apply near_iff. apply (S1 x y z); auto; apply near_iff; auto. Qed.
Lemma zp_snoc : forall l s, zp (l ++ [s]) = match l with [] => s_end s | _ => if is_move s then s_end s else zp l end.
Proof. intros [|f l] s; [reflexivity|]. cbn [app zp]. rewrite zof_app. reflexivity. Qed.
Lemma validate_subpath_stop : forall a f b, is_move f = true -> validate_subpath (a ++ f :: b) (Z.of_nat (length a)) = a ++ f :: b.
Proof.
  intros a f b M. unfold validate_subpath. destruct (_ || _); auto. rewrite Nat2Z.id, next_break_app. cbn [next_break]. rewrite M. cbn. rewrite M. reflexivity.
Qed.
Lemma extend_joined : forall p q, joined p -> joined q -> ended p -> ended q -> separated (p ++ q) ->
  match q with [] => True | m :: _ => s_kind m = KMove end ->
  joined (extend p q) /\ map s_kind (extend p q) = map s_kind (p ++ q).
Proof.
  intros p q Hp Hq Ep Eq Sep B. unfold extend. destruct (snoc_cases _ p) as [->|(l & f & ->)].
  - cbn [app length]. unfold validate_connection. rewrite vc_neg by (cbn; lia). unfold validate_subpath. cbn. auto.
  - set (p := l ++ [f]) in *. assert (NE : p <> []) by (unfold p; destruct l; discriminate).
    destruct (link_behind p q NE (ended_eo p NE Ep)) as (q2 & P & R & S1). rewrite P. destruct (restart_ends _ _ R) as [R1 R2].
    replace (Z.of_nat (length p) - 1)%Z with (Z.of_nat (length l)) by (unfold p; rewrite app_length; cbn; lia).
    assert (Jq : forall z, J z (eo p) q2).
    { intros z. destruct q as [|m q]; [destruct q2; [exact I|contradiction]|]. destruct q2 as [|n q2]; [contradiction|]. cbn in R. destruct R as [-> R].
      apply is_move_kind in B. assert (K : s_kind n = s_kind m) by (rewrite R; auto). destruct (kind_move _ _ K) as [M C]. apply joined_iff in Hq. cbn [J JJ] in *.
      rewrite M, C, B. split; auto. rewrite (move_not_close m B). split; [discriminate|]. replace (s_end n) with (s_end m) by (rewrite R; auto). exact Hq. }
    apply joined_iff in Hp. assert (JJpq : JJ (p ++ q2)) by (apply JJ_app; auto).
    assert (Def : joined (p ++ q2) /\ map s_kind (p ++ q2) = map s_kind (p ++ q)) by (split; [apply joined_iff; auto|rewrite !map_app, R2; auto]).
    destruct (is_move f) eqn:Mf.
    { assert (P2 : validate_subpath (p ++ q2) (Z.of_nat (length l)) = p ++ q2) by (unfold p; rewrite <- app_assoc; cbn [app]; apply validate_subpath_stop; auto).
      rewrite P2. exact Def. }
    destruct (validate_subpath_at l ([f] ++ q2)) as (b2 & P2 & C). assert (P3 : validate_subpath (p ++ q2) (Z.of_nat (length l)) = l ++ b2) by (unfold p; rewrite <- app_assoc; exact P2). rewrite P3.
    destruct C as [[_ ->]|[_ C]]; [rewrite app_assoc; exact Def|].
    cbn [app] in C. destruct (reclosed_cons _ _ _ _ C) as [[X _]|[[Cf ->]|[Df (b' & -> & Rb)]]]; [congruence| |].
    + split; [|rewrite !map_app; cbn [map set_end s_kind]; rewrite R2; unfold p; rewrite map_app, <- app_assoc; reflexivity].
      apply joined_iff. destruct l as [|g l].
      * cbn [app] in *. replace (set_end f (s_end f)) with f by (destruct f; auto). exact JJpq.
      * set (l0 := g :: l) in *. change (l0 ++ set_end f (zof (s_end g) l) :: q2) with (l0 ++ set_end f (zp l0) :: q2).
        assert (NEl : l0 <> []) by discriminate. assert (El : ended l0) by (apply ended_app in Ep; tauto).
        unfold p in JJpq. rewrite <- app_assoc in JJpq. apply JJ_app in JJpq; auto. destruct JJpq as [X Y]. apply JJ_app; auto. split; auto.
        fold (zp l0) in Y |- *. cbn [app] in Y. cbn [J] in Y |- *. unfold is_move, is_close. cbn [set_end s_kind s_start s_end]. fold (is_move f) (is_close f). rewrite Mf, Cf in *.
        destruct Y as (Y1 & Y2 & Y3). specialize (Y2 eq_refl). split; auto. split; [intros _; apply ms_refl; apply zp_some; auto|].
        destruct q as [|m q]; [destruct q2; [exact I|contradiction]|]. destruct q2 as [|n q2]; [contradiction|]. cbn in R. destruct R as [-> R].
        cbn [J] in Y3 |- *. destruct Y3 as (W1 & W2 & W3). split; auto.
        (* n starts at the old end of f, or at its old start near that *)
        destruct (ms_some _ _ Y2) as (e & z & Ee & Ez & Nez). destruct (ms_some _ _ W1) as (e' & s & Ee' & Es & Nes). rewrite Ee in Ee'. injection Ee' as <-.
        rewrite Ez, Es. cbn. 
        assert (on_path (p ++ m :: q) e) by (apply (in_on_path_e _ f); [apply in_or_app; left; apply in_or_app; cbn; auto|auto]).
        assert (on_path (p ++ m :: q) z). { destruct (zp_in _ _ Ez) as (t & I1 & Et). apply (in_on_path_e _ t); auto. apply in_or_app; left; apply in_or_app; left; auto. }
        assert (Os : on_path (p ++ m :: q) s).
        { pose proof P as P'. unfold p in P'. rewrite <- !app_assoc in P'. cbn [app] in P'.
          replace (Z.of_nat (length (l0 ++ [f])) - 1)%Z with (Z.of_nat (length l0)) in P' by (rewrite app_length; cbn [length]; lia).
          unfold validate_connection in P'. rewrite vc_at in P'. apply app_inv_head in P'. unfold link in P'. rewrite Ee in P'.
          destruct (s_start m) as [sm|] eqn:Sm.
          - destruct (near e sm); injection P' as Pn.
            + apply (in_on_path_s _ m); [apply in_or_app; cbn; auto|]. congruence.
            + rewrite <- Pn in Es. cbn in Es. injection Es as <-. auto.
          - injection P' as Pn. rewrite <- Pn in Es. cbn in Es. injection Es as <-. auto. }
        apply (near_trans_on (p ++ m :: q) z e s); auto. rewrite near_sym. auto.
    + assert (b' = q2).
      { destruct q as [|m q]; [destruct q2; [|contradiction]|destruct q2 as [|n q2]; [contradiction|]].
        - remember [] as w eqn:Ew. destruct Rb as [c F|c mm d F M|c z d F Cz]; auto; destruct c; discriminate Ew.
        - cbn in R. destruct R as [-> R]. apply is_move_kind in B. assert (K : s_kind n = s_kind m) by (rewrite R; auto). destruct (kind_move _ _ K) as [M Cn].
          destruct (reclosed_cons _ _ _ _ Rb) as [[_ ->]|[[Y _]|[Y _]]]; auto.
          + apply is_close_not_move in Y. congruence.
          + apply draws_split in Y. destruct Y. congruence. }
      subst b'. change (f :: q2) with ([f] ++ q2). rewrite app_assoc. exact Def.
Qed.
