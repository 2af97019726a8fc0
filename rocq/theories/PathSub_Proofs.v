(** Lemmas about subpaths and reversal. *)
Require Import ZArith QArith Qcanon Qabs List Bool Lia.
Require Import Verif.Base Verif.Path_Model Verif.PathText_Spec Verif.PathDraw_Spec Verif.PathDraw_Proofs.
Require Import Verif.PathEdit_Model Verif.PathEdit_Spec Verif.PathEdit_Proofs.
Import ListNotations.
Open Scope nat_scope.

(** * Partition *)
Fixpoint ranges (k : Z) (cs : list path) : list sub :=
  match cs with [] => [] | c :: r => mkSub k (k + Z.of_nat (length c) - 1) :: ranges (k + Z.of_nat (length c)) r end.
Definition quiet (c : path) : Prop := Forall (fun s => s_kind s <> KMove) c.
Definition led (c : path) : Prop := match c with m :: r => s_kind m = KMove /\ quiet r | [] => False end.
Lemma subpaths_from_chunks : forall rest w k, quiet (tl w) ->
  exists c cs, subpaths_from k (k + Z.of_nat (length w)) rest = ranges k (c :: cs) /\ w ++ rest = c ++ concat cs /\ quiet (tl c) /\ Forall led cs /\
    (w <> [] -> exists c', c = w ++ c') /\ (w ++ rest <> [] -> c <> []).
Proof.
  induction rest as [|s rest IH]; intros w k Q; cbn [subpaths_from].
  - exists w, []. rewrite app_nil_r. cbn [ranges concat]. rewrite app_nil_r. repeat split; auto. intros _. exists []. rewrite app_nil_r. auto.
  - destruct (is_move s) eqn:M.
    + destruct w as [|x w].
      * replace (k + Z.of_nat (length []) =? k)%Z with true by (cbn; symmetry; apply Z.eqb_eq; lia). cbn [negb andb length].
        replace (k + Z.of_nat 0 + 1)%Z with (k + Z.of_nat (length [s]))%Z by (cbn; lia).
        destruct (IH [s] k) as (c & cs & E & A & B & C & D & G); [constructor|]. exists c, cs. rewrite E. split; auto. split; auto. split; auto. split; auto. split; [congruence|].
        intros _. apply G. discriminate.
      * replace (k + Z.of_nat (length (x :: w)) =? k)%Z with false by (symmetry; apply Z.eqb_neq; cbn [length]; lia). cbn [negb andb].
        set (k2 := (k + Z.of_nat (length (x :: w)))%Z). replace (k2 + 1)%Z with (k2 + Z.of_nat (length [s]))%Z by (cbn; lia).
        destruct (IH [s] k2) as (c & cs & E & A & B & C & D & G); [constructor|]. rewrite E. exists (x :: w), (c :: cs). split; [reflexivity|]. cbn [concat].
        cbn [app] in A |- *. rewrite A. split; auto. split; auto. split.
        { constructor; auto. destruct D as (c' & ->); [discriminate|]. cbn in *. split; auto. apply is_move_kind; auto. }
        split; [|discriminate]. intros _. exists []. rewrite app_nil_r. auto.
    + rewrite andb_false_r. replace (k + Z.of_nat (length w) + 1)%Z with (k + Z.of_nat (length (w ++ [s])))%Z by (rewrite app_length; cbn; lia).
      destruct (IH (w ++ [s]) k) as (c & cs & E & A & B & C & D & G).
      { destruct w as [|x w]; cbn; [constructor|]. apply Forall_app. split; auto. constructor; auto. intros K. apply is_move_kind in K. congruence. }
      exists c, cs. rewrite E. rewrite <- app_assoc in A. cbn [app] in A. repeat split; auto.
      * intros W. destruct D as (c' & ->); [destruct w; discriminate|]. exists ([s] ++ c'). rewrite <- app_assoc. auto.
      * intros _. apply G. rewrite <- app_assoc. destruct w; discriminate.
Qed.
Lemma as_subpaths_chunks : forall p, exists c cs, as_subpaths p = ranges 0 (c :: cs) /\ p = c ++ concat cs /\ quiet (tl c) /\ Forall led cs /\ (p <> [] -> c <> []).
Proof.
  intros p. destruct (subpaths_from_chunks p [] 0) as (c & cs & E & A & B & C & D & G); [constructor|]. exists c, cs. cbn in *. auto.
Qed.
Lemma firstn_app_at : forall A (w b : list A), firstn (length w) (w ++ b) = w. Proof. intros. apply firstn_at. Qed.
Lemma sub_segments_at : forall a w b, sub_segments (a ++ w ++ b) (mkSub (Z.of_nat (length a)) (Z.of_nat (length a) + Z.of_nat (length w) - 1)) = w.
Proof.
  intros. unfold sub_segments, pyslice. cbn [u_start u_end lo hi]. rewrite !pyclamp_in by (rewrite ?app_length; lia).
  replace (Z.to_nat (Z.of_nat (length a) + Z.of_nat (length w) - 1 + 1)) with (length a + length w) by lia. rewrite Nat2Z.id.
  rewrite skipn_at. replace (length a + length w - length a) with (length w) by lia. apply firstn_at.
Qed.
Lemma map_ranges : forall cs a b, map (sub_segments (a ++ concat cs ++ b)) (ranges (Z.of_nat (length a)) cs) = cs.
Proof.
  induction cs as [|c cs IH]; intros a b; auto. cbn [concat ranges map]. f_equal.
  - rewrite <- app_assoc. apply sub_segments_at.
  - replace (Z.of_nat (length a) + Z.of_nat (length c))%Z with (Z.of_nat (length (a ++ c))) by (rewrite app_length; lia).
    replace (a ++ (c ++ concat cs) ++ b) with ((a ++ c) ++ concat cs ++ b) by (rewrite <- !app_assoc; auto). apply IH.
Qed.
Lemma sub_go : forall w a b, 
  (fix go (n : nat) (i : Z) : list seg := match n with O => [] | S n' => match pyget (a ++ w ++ b) i with Ok s => s :: go n' (i + 1)%Z | Err _ => [] end end) (length w) (Z.of_nat (length a)) = w.
Proof.
  induction w as [|s w IH]; intros a b; auto. cbn [length]. cbn [app]. rewrite pyget_at. f_equal.
  specialize (IH (a ++ [s]) b). replace (Z.of_nat (length a) + 1)%Z with (Z.of_nat (length (a ++ [s]))) by (rewrite app_length; cbn; lia).
  rewrite <- app_assoc in IH. exact IH.
Qed.
Lemma sub_list_at : forall a w b, sub_list (a ++ w ++ b) (mkSub (Z.of_nat (length a)) (Z.of_nat (length a) + Z.of_nat (length w) - 1)) = w.
Proof.
  intros. unfold sub_list. cbn [u_start u_end]. replace (Z.to_nat (Z.of_nat (length a) + Z.of_nat (length w) - 1 - Z.of_nat (length a) + 1)) with (length w) by lia. apply sub_go.
Qed.
Definition fits_in (p : path) (u : sub) : Prop := (0 <= u_start u)%Z /\ (u_start u <= u_end u + 1)%Z /\ (u_end u < Z.of_nat (length p))%Z.
Lemma fits_split : forall p u, fits_in p u -> exists a w b, p = a ++ w ++ b /\ u = mkSub (Z.of_nat (length a)) (Z.of_nat (length a) + Z.of_nat (length w) - 1) /\ sub_segments p u = w.
Proof.
  intros p [s e] (A & B & C). cbn [u_start u_end] in A, B, C. set (a := firstn (Z.to_nat s) p). set (w := firstn (Z.to_nat (e + 1 - s)) (skipn (Z.to_nat s) p)). set (b := skipn (Z.to_nat (e + 1 - s)) (skipn (Z.to_nat s) p)).
  assert (La : length a = Z.to_nat s) by (unfold a; rewrite firstn_length; lia).
  assert (Lw : length w = Z.to_nat (e + 1 - s)) by (unfold w; rewrite firstn_length, skipn_length; lia).
  assert (E : p = a ++ w ++ b) by (unfold w, b; rewrite firstn_skipn; unfold a; rewrite firstn_skipn; auto).
  assert (U : mkSub s e = mkSub (Z.of_nat (length a)) (Z.of_nat (length a) + Z.of_nat (length w) - 1)) by (f_equal; lia).
  exists a, w, b. split; auto. split; auto. rewrite U. transitivity (sub_segments (a ++ w ++ b) (mkSub (Z.of_nat (length a)) (Z.of_nat (length a) + Z.of_nat (length w) - 1))); [|apply sub_segments_at].
  f_equal. exact E.
Qed.
(** * Addressing *)
Lemma sub_get_at : forall a w b i, (- Z.of_nat (length w) <= i < Z.of_nat (length w))%Z ->
  sub_get (a ++ w ++ b) (mkSub (Z.of_nat (length a)) (Z.of_nat (length a) + Z.of_nat (length w) - 1)) i = pyget w i.
Proof.
  intros a w b i H. unfold sub_get, numeric_index. cbn [u_start u_end].
  set (j := if (i <? 0)%Z then (i + Z.of_nat (length w))%Z else i).
  assert (Hj : (0 <= j < Z.of_nat (length w))%Z) by (unfold j; destruct (i <? 0)%Z eqn:E; [apply Z.ltb_lt in E|apply Z.ltb_ge in E]; lia).
  replace (if (i <? 0)%Z then (Z.of_nat (length a) + Z.of_nat (length w) - 1 + i + 1)%Z else (Z.of_nat (length a) + i)%Z) with (Z.of_nat (length a) + j)%Z by (unfold j; destruct (i <? 0)%Z; lia).
  unfold pyget at 2. unfold pyidx. fold j. rewrite (proj2 (Z.leb_le 0 j)) by lia. rewrite (proj2 (Z.ltb_lt j _)) by lia. cbn [andb].
  unfold pyget, pyidx. rewrite (proj2 (Z.ltb_ge (Z.of_nat (length a) + j) 0)) by lia. rewrite (proj2 (Z.leb_le 0 (Z.of_nat (length a) + j))) by lia.
  rewrite (proj2 (Z.ltb_lt (Z.of_nat (length a) + j) _)) by (rewrite !app_length; lia). cbn [andb].
  replace (Z.to_nat (Z.of_nat (length a) + j)) with (length a + Z.to_nat j) by lia.
  rewrite nth_error_app2 by lia. replace (length a + Z.to_nat j - length a) with (Z.to_nat j) by lia. rewrite nth_error_app1 by lia. reflexivity.
Qed.
Definition in_bounds (n : Z) (o : option Z) : Prop := match o with None => True | Some i => (- n <= i <= n)%Z end.
Lemma numeric_bound : forall a w i, (- Z.of_nat w <= i <= Z.of_nat w)%Z ->
  numeric_index (mkSub (Z.of_nat a) (Z.of_nat a + Z.of_nat w - 1)) i = Z.of_nat (a + pyclamp w i).
Proof.
  intros a w i H. unfold numeric_index, pyclamp. cbn [u_start u_end]. destruct (i <? 0)%Z eqn:E; [apply Z.ltb_lt in E|apply Z.ltb_ge in E]; lia.
Qed.
Lemma sub_getslice_at : forall a w b x y, in_bounds (Z.of_nat (length w)) x -> in_bounds (Z.of_nat (length w)) y ->
  sub_getslice (a ++ w ++ b) (mkSub (Z.of_nat (length a)) (Z.of_nat (length a) + Z.of_nat (length w) - 1)) x y = pyslice w x y.
Proof.
  intros a w b x y X Y. unfold sub_getslice, slice_index, pyslice. cbn [lo hi].
  assert (EX : numeric_index (mkSub (Z.of_nat (length a)) (Z.of_nat (length a) + Z.of_nat (length w) - 1)) (match x with None => 0%Z | Some i => i end) = Z.of_nat (length a + lo (length w) x)).
  { destruct x as [i|]; cbn [in_bounds lo] in *; rewrite numeric_bound by lia; auto. rewrite pyclamp_in by lia. reflexivity. }
  assert (EY : numeric_index (mkSub (Z.of_nat (length a)) (Z.of_nat (length a) + Z.of_nat (length w) - 1)) (match y with None => sub_len (mkSub (Z.of_nat (length a)) (Z.of_nat (length a) + Z.of_nat (length w) - 1)) | Some i => i end) = Z.of_nat (length a + hi (length w) y)).
  { destruct y as [i|]; cbn [in_bounds hi] in *; [apply numeric_bound; lia|]. unfold sub_len, numeric_index. cbn [u_start u_end].
    destruct (_ <? 0)%Z eqn:E; [apply Z.ltb_lt in E|apply Z.ltb_ge in E]; lia. }
  rewrite EX, EY. set (i := lo (length w) x) in *. set (j := hi (length w) y) in *.
  assert (Hi : i <= length w) by (unfold i; destruct x; cbn; [unfold pyclamp; lia|lia]).
  assert (Hj : j <= length w) by (unfold j; destruct y; cbn; [unfold pyclamp; lia|lia]).
  rewrite !pyclamp_in by (rewrite !app_length; lia). rewrite !Nat2Z.id.
  replace (length a + j - (length a + i)) with (j - i) by lia.
  rewrite skipn_app. rewrite skipn_all2 by lia. cbn [app]. replace (length a + i - length a) with i by lia.
  rewrite skipn_app, firstn_app. rewrite skipn_length. replace (j - i - (length w - i)) with 0 by lia. cbn [firstn]. rewrite app_nil_r. reflexivity.
Qed.

(** * Reversal of a stretch of segments *)
Lemma pyget_last : forall A (a w : list A) y b, pyget (a ++ w ++ y :: b) (Z.of_nat (length a) + Z.of_nat (length w)) = Ok y.
Proof. intros. rewrite app_assoc. replace (Z.of_nat (length a) + Z.of_nat (length w))%Z with (Z.of_nat (length (a ++ w))) by (rewrite app_length; lia). apply pyget_at. Qed.
Lemma pyset_last : forall A (a w : list A) y b v, pyset (a ++ w ++ y :: b) (Z.of_nat (length a) + Z.of_nat (length w)) v = Ok (a ++ w ++ v :: b).
Proof. intros. rewrite !app_assoc. replace (Z.of_nat (length a) + Z.of_nat (length w))%Z with (Z.of_nat (length (a ++ w))) by (rewrite app_length; lia). apply pyset_at. Qed.
Lemma rev_loop_at : forall n w a b fuel, length w <= n -> length w < fuel ->
  rev_loop fuel (a ++ w ++ b) (Z.of_nat (length a)) (Z.of_nat (length a) + Z.of_nat (length w) - 1) = Ok (a ++ rev (map seg_reverse w) ++ b).
Proof.
  induction n as [|n IH]; intros w a b fuel L F.
  - destruct w; [|cbn in L; lia]. destruct fuel; [lia|]. cbn [rev_loop length]. rewrite (proj2 (Z.leb_gt (Z.of_nat (length a)) _)) by lia. reflexivity.
  - destruct fuel as [|fuel]; [lia|]. destruct w as [|x w].
    { cbn [rev_loop length]. rewrite (proj2 (Z.leb_gt (Z.of_nat (length a)) _)) by lia. reflexivity. }
    cbn [rev_loop]. rewrite (proj2 (Z.leb_le (Z.of_nat (length a)) _)) by (cbn [length]; lia).
    destruct (snoc_cases _ w) as [->|(w' & y & ->)].
    + cbn [length app]. replace (Z.of_nat (length a) + Z.of_nat 1 - 1)%Z with (Z.of_nat (length a)) by lia. rewrite pyget_at. cbn [rbind]. rewrite pyset_at. cbn [rbind]. rewrite Z.eqb_refl. cbn [rbind].
      destruct fuel; cbn [rev_loop]; rewrite (proj2 (Z.leb_gt (Z.of_nat (length a) + 1) _)) by lia; reflexivity.
    + cbn [app]. rewrite pyget_at. cbn [rbind].
      assert (EL : (Z.of_nat (length a) + Z.of_nat (length (x :: w' ++ [y])) - 1)%Z = (Z.of_nat (length (a ++ [x])) + Z.of_nat (length w'))%Z) by (cbn [length]; rewrite !app_length; cbn [length]; lia).
      rewrite EL. assert (E1 : a ++ x :: (w' ++ [y]) ++ b = (a ++ [x]) ++ w' ++ y :: b) by (rewrite <- !app_assoc; reflexivity). rewrite E1, pyget_last. cbn [rbind]. rewrite <- E1, pyset_at. cbn [rbind].
      replace (Z.of_nat (length a) =? Z.of_nat (length (a ++ [x])) + Z.of_nat (length w'))%Z with false by (symmetry; apply Z.eqb_neq; rewrite app_length; cbn; lia).
      replace (a ++ seg_reverse y :: (w' ++ [y]) ++ b) with ((a ++ [seg_reverse y]) ++ w' ++ y :: b) by (rewrite <- !app_assoc; reflexivity).
      replace (Z.of_nat (length (a ++ [x])) + Z.of_nat (length w'))%Z with (Z.of_nat (length (a ++ [seg_reverse y])) + Z.of_nat (length w'))%Z by (rewrite !app_length; cbn; lia).
      rewrite pyset_last. cbn [rbind].
      replace (Z.of_nat (length a) + 1)%Z with (Z.of_nat (length (a ++ [seg_reverse y]))) by (rewrite app_length; cbn; lia).
      rewrite IH; [|cbn in L; rewrite app_length in L; cbn in L; lia|cbn in F; rewrite app_length in F; cbn in F; lia].
      cbn [map]. rewrite map_app. cbn [map]. cbn [rev]. rewrite rev_app_distr. cbn [rev app]. rewrite <- !app_assoc. reflexivity.
Qed.
Lemma reverse_segments_at : forall a x w b u start e, numeric_index u start = Z.of_nat (length (a ++ [x])) -> numeric_index u e = (Z.of_nat (length (a ++ [x])) + Z.of_nat (length w) - 1)%Z ->
  reverse_segments (a ++ x :: w ++ b) u start e =
  Ok (validate_connection (validate_connection2 true (a ++ x :: rev (map seg_reverse w) ++ b) (Z.of_nat (length a))) (Z.of_nat (length a) + Z.of_nat (length w))).
Proof.
  intros a x w b u start e Es Ee. unfold reverse_segments. rewrite Es, Ee.
  replace (a ++ x :: w ++ b) with ((a ++ [x]) ++ w ++ b) by (rewrite <- app_assoc; reflexivity).
  rewrite (rev_loop_at (length w)); [|lia|lia]. cbn [rbind]. rewrite <- app_assoc. cbn [app]. rewrite app_length. cbn [length].
  f_equal. f_equal; [f_equal|]; lia.
Qed.
Lemma seg_reverse_draws : forall s, draws s -> draws (seg_reverse s).
Proof. intros [k a b r m]. unfold draws. cbn. destruct k; cbn; intros [A B]; split; congruence. Qed.
Lemma chain_app : forall l a l2 c, chain a (l ++ l2) c <-> exists b, chain a l b /\ chain b l2 c.
Proof.
  induction l as [|s l IH]; intros a l2 c; cbn [app chain]. { split; [intros H; exists a; auto|intros (x & -> & H); auto]. }
  split.
  - intros (A & D & e & E & H). apply IH in H. destruct H as (x & H1 & H2). exists x. split; auto. split; auto. split; auto. exists e. auto.
  - intros (x & (A & D & e & E & H) & H2). split; auto. split; auto. exists e. split; auto. apply IH. exists x. auto.
Qed.
Lemma chain_rev : forall l a b, chain a l b -> chain b (rev (map seg_reverse l)) a.
Proof.
  induction l as [|s l IH]; intros a b H; cbn [map rev chain] in *; auto. destruct H as (A & D & e & E & H).
  apply chain_app. exists e. split; [apply IH; auto|]. cbn [chain]. split; [exact E|]. split; [apply seg_reverse_draws; auto|]. exists a. split; [exact A|reflexivity].
Qed.
Lemma chain_draws : forall l a b, chain a l b -> Forall draws l.
Proof. induction l as [|s l IH]; intros a b H; constructor; cbn in H; destruct H as (A & D & e & E & H); auto. apply (IH e b); auto. Qed.
Lemma chain_first : forall s l a b, chain a (s :: l) b -> s_start s = Some a. Proof. cbn. tauto. Qed.
Lemma chain_last : forall l s a b, chain a (l ++ [s]) b -> s_end s = Some b.
Proof. intros l s a b H. apply chain_app in H. destruct H as (x & _ & H). cbn in H. destruct H as (_ & _ & e & E & ->). auto. Qed.

Definition window (a w : path) : sub := mkSub (Z.of_nat (length a)) (Z.of_nat (length a) + Z.of_nat (length w) - 1).
Lemma window_len : forall a w w2, length w = length w2 -> window a w = window a w2. Proof. intros a w w2 E. unfold window. rewrite E. auto. Qed.
Lemma get0 : forall a x w b u, u = window a (x :: w) -> sub_get (a ++ x :: w ++ b) u 0 = Ok x.
Proof. intros a x w b u ->. unfold window. pose proof (sub_get_at a (x :: w) b 0) as H. cbn [app] in H. rewrite H by (cbn [length]; lia). reflexivity. Qed.
Lemma get1 : forall a x y w b u, u = window a (x :: y :: w) -> sub_get (a ++ x :: y :: w ++ b) u 1 = Ok y.
Proof. intros a x y w b u ->. unfold window. pose proof (sub_get_at a (x :: y :: w) b 1) as H. cbn [app] in H. rewrite H by (cbn [length]; lia). apply (pyget_at _ [x] y w). Qed.
Lemma getm1 : forall a w y b u, u = window a (w ++ [y]) -> sub_get (a ++ w ++ y :: b) u (-1) = Ok y.
Proof.
  intros a w y b u ->. unfold window. pose proof (sub_get_at a (w ++ [y]) b (-1)) as H. rewrite <- app_assoc in H. cbn [app] in H. rewrite H by (rewrite app_length; cbn [length]; lia).
  unfold pyget, pyidx. change (-1 <? 0)%Z with true. cbv iota. rewrite app_length. cbn [length].
  rewrite (proj2 (Z.leb_le 0 _)) by lia. rewrite (proj2 (Z.ltb_lt _ _)) by lia. cbn [andb]. replace (Z.to_nat (-1 + Z.of_nat (length w + 1))) with (length w) by lia.
  rewrite nth_at. reflexivity.
Qed.
Lemma getm2 : forall a w x y b u, u = window a (w ++ [x; y]) -> sub_get (a ++ w ++ x :: y :: b) u (-2) = Ok x.
Proof.
  intros a w x y b u ->. unfold window. pose proof (sub_get_at a (w ++ [x; y]) b (-2)) as H. rewrite <- app_assoc in H. cbn [app] in H. rewrite H by (rewrite app_length; cbn [length]; lia).
  unfold pyget, pyidx. change (-2 <? 0)%Z with true. cbv iota. rewrite app_length. cbn [length].
  rewrite (proj2 (Z.leb_le 0 _)) by lia. rewrite (proj2 (Z.ltb_lt _ _)) by lia. cbn [andb]. replace (Z.to_nat (-2 + Z.of_nat (length w + 2))) with (length w) by lia.
  rewrite nth_at. reflexivity.
Qed.
Lemma set0 : forall a x w b u v, u = window a (x :: w) -> pyset (a ++ x :: w ++ b) (numeric_index u 0) v = Ok (a ++ v :: w ++ b).
Proof. intros a x w b u v ->. unfold numeric_index. cbn. rewrite Z.add_0_r. apply pyset_at. Qed.
Lemma setm1 : forall a w y b u v, u = window a (w ++ [y]) -> pyset (a ++ w ++ y :: b) (numeric_index u (-1)) v = Ok (a ++ w ++ v :: b).
Proof.
  intros a w y b u v ->. unfold numeric_index, window. change (-1 <? 0)%Z with true. cbv iota. cbn [u_end]. rewrite app_length. cbn [length].
  replace (Z.of_nat (length a) + Z.of_nat (length w + 1) - 1 + -1 + 1)%Z with (Z.of_nat (length a) + Z.of_nat (length w))%Z by lia. apply pyset_last.
Qed.
Lemma draws_flags : forall s, draws s -> is_move s = false /\ is_close s = false. Proof. intros s. apply draws_iff. Qed.
Lemma link_same_near : forall b f s, ms (s_end f) (s_start s) -> link b f s = (f, s).
Proof. intros b f s H. unfold link, ms in *. destruct (s_end f); [|tauto]. destruct (s_start s); [|tauto]. rewrite H. auto. Qed.
(** what a reversed whole subpath looks like *)
Definition turned (m : seg) (ds cl : path) (a b : pt) : path :=
  set_end m (Some b) :: rev (map seg_reverse ds) ++ map (fun z => mkSeg KClose (Some a) (Some b) (s_rel z) (s_smooth z)) cl.
Definition follows (sp B : path) : Prop :=
  B = [] \/ exists n B', B = n :: B' /\ s_kind n = KMove /\ ms (eo sp) (s_start n).
(** the last steps of Subpath.reverse, for a close [z] behind [t] *)
Lemma sub_close : forall A m w t z B u b c, s_end m = Some b -> s_kind z = KClose -> s_end z = Some c -> s_end t = Some c ->
  s_start z = Some b \/ (s_start z = Some c /\ near c b = false) ->
  u = window A (w ++ [t; z]) -> (exists w', w ++ [t] = m :: w') ->
  (let l2 := seg_reverse z in
      do p3 <- pyset (A ++ w ++ t :: z :: B) (numeric_index u (-1)) l2;
      do b <- sub_get p3 u (-2);
      let l3 := if onear (s_start l2) (s_end b) then l2 else set_start l2 (s_end b) in
      do p4 <- pyset p3 (numeric_index u (-1)) l3;
      do f <- sub_get p4 u 0;
      let l4 := if onear (s_end l3) (s_end f) then l3 else set_end l3 (s_end f) in
      pyset p4 (numeric_index u (-1)) l4)
  = Ok (A ++ w ++ t :: mkSeg KClose (Some c) (Some b) (s_rel z) (s_smooth z) :: B).
Proof.
  intros A m w t z B u b c Em Kz Ez Et Sz Eu (w' & Ew). cbv zeta.
  assert (U1 : u = window A ((w ++ [t]) ++ [z])) by (rewrite Eu, <- app_assoc; reflexivity).
  replace (A ++ w ++ t :: z :: B) with (A ++ (w ++ [t]) ++ z :: B) by (rewrite <- app_assoc; reflexivity).
  rewrite (setm1 A (w ++ [t]) z B u _ U1). cbn [rbind]. rewrite <- app_assoc. cbn [app].
  rewrite (getm2 A w t (seg_reverse z) B u) by (rewrite Eu; apply window_len; rewrite !app_length; reflexivity). cbn [rbind].
  replace (s_start (seg_reverse z)) with (Some c) by (symmetry; exact Ez). rewrite Et. cbn [onear]. rewrite near_refl.
  replace (A ++ w ++ t :: seg_reverse z :: B) with (A ++ (w ++ [t]) ++ seg_reverse z :: B) by (rewrite <- app_assoc; reflexivity).
  rewrite (setm1 A (w ++ [t]) (seg_reverse z) B u) by (rewrite U1; apply window_len; rewrite !app_length; reflexivity). cbn [rbind].
  replace (A ++ (w ++ [t]) ++ seg_reverse z :: B) with (A ++ m :: (w' ++ [seg_reverse z]) ++ B) by (rewrite Ew; cbn [app]; rewrite <- app_assoc; reflexivity).
  rewrite (get0 A m (w' ++ [seg_reverse z]) B u).
  2:{ rewrite U1, Ew. apply window_len. cbn [app length]. rewrite !app_length. reflexivity. }
  cbn [rbind]. rewrite Em. change (s_end (seg_reverse z)) with (s_start z).
  set (l4 := if onear (s_start z) (Some b) then seg_reverse z else set_end (seg_reverse z) (Some b)).
  assert (E4 : l4 = mkSeg KClose (Some c) (Some b) (s_rel z) (s_smooth z)).
  { unfold l4. destruct Sz as [Sz|[Sz N]]; rewrite Sz; cbn [onear]; [rewrite near_refl|rewrite N];
    destruct z as [k s e r sm]; cbn in *; subst; reflexivity. }
  rewrite E4. replace (A ++ m :: (w' ++ [seg_reverse z]) ++ B) with (A ++ (w ++ [t]) ++ seg_reverse z :: B) by (rewrite Ew; cbn [app]; rewrite <- app_assoc; reflexivity).
  rewrite (setm1 A (w ++ [t]) (seg_reverse z) B u) by (rewrite U1; apply window_len; rewrite !app_length; reflexivity). rewrite <- app_assoc. reflexivity.
Qed.
Lemma sub_reverse_at : forall A m ds cl B a b, s_kind m = KMove -> s_end m = Some a -> chain a ds b ->
  (cl = [] \/ exists z, cl = [z] /\ s_kind z = KClose /\ s_start z = Some b /\ s_end z = Some a) ->
  follows (m :: ds ++ cl) B ->
  exists B', sub_reverse (A ++ (m :: ds ++ cl) ++ B) (window A (m :: ds ++ cl)) = Ok (A ++ turned m ds cl a b ++ B') /\ restart B B'.
Proof.
  intros A m ds cl B a b Km Em Hc Hcl Hf. apply is_move_kind in Km. pose proof (move_not_close m Km) as Cm.
  set (u := window A (m :: ds ++ cl)).
  assert (Size : sub_len u = Z.of_nat (S (length (ds ++ cl)))) by (unfold u, window, sub_len; cbn [u_start u_end length]; lia).
  unfold sub_reverse. rewrite Size. replace (Z.of_nat (S (length (ds ++ cl))) =? 0)%Z with false by (symmetry; apply Z.eqb_neq; lia).
  assert (N0 : forall i, (0 <= i)%Z -> numeric_index u i = (Z.of_nat (length A) + i)%Z) by (intros i Hi; unfold u, numeric_index; rewrite (proj2 (Z.ltb_ge i 0)) by lia; reflexivity).
  destruct Hcl as [->|(z & -> & Kz & Sz & Ez)].
  - assert (Eu : u = window A (m :: ds)) by (unfold u; rewrite app_nil_r; reflexivity). clearbody u. rewrite !app_nil_r in *.
    destruct (snoc_cases _ (m :: ds)) as [X|(w & t & Ewt)]; [discriminate|].
    assert (G1 : sub_get (A ++ (m :: ds) ++ B) u (-1) = Ok t).
    { rewrite Ewt, <- app_assoc. cbn [app]. apply getm1. rewrite Eu, Ewt. reflexivity. }
    assert (Ct : is_close t = false).
    { destruct w as [|x w]; cbn in Ewt; injection Ewt as <- Ew; auto. subst ds. apply chain_draws in Hc. apply Forall_app in Hc. destruct Hc as [_ Hc]. apply Forall_inv in Hc. apply draws_flags in Hc. tauto. }
    rewrite G1. cbn [rbind]. cbn [app]. rewrite (get0 A m ds B u) by exact Eu. cbn [rbind]. rewrite Ct, Km.
    rewrite (reverse_segments_at A m ds B u); [|rewrite N0 by lia; rewrite app_length; cbn; lia|rewrite N0 by lia; rewrite app_length; cbn [length]; lia].
    cbn [rbind]. destruct ds as [|d0 ds].
    + cbn [map rev app length]. cbn in Hc. subst b. rewrite Nat2Z.inj_0, Z.add_0_r.
      assert (V : forall pr, validate_connection2 pr (A ++ m :: B) (Z.of_nat (length A)) = A ++ m :: B).
      { intros pr. destruct Hf as [->|(n & B' & -> & Kn & Mn)]; [apply vc_big; rewrite app_length; cbn; lia|]. rewrite vc_at, link_same_near; auto. }
      unfold validate_connection. rewrite !V. pose proof (get0 A m [] B u Eu) as G0. cbn [app] in G0. rewrite G0. cbn [rbind]. change (1 <? Z.of_nat 1)%Z with false. cbn [andb rbind].
      pose proof (getm1 A [] m B u Eu) as G2. cbn [app] in G2. rewrite G2. cbn [rbind]. rewrite Cm. exists B. split; [|apply restart_refl]. cbn [turned map rev app].
      rewrite <- Em. replace (set_end m (s_end m)) with m by (destruct m; auto). reflexivity.
    + set (ds1 := d0 :: ds) in *. assert (Hr := chain_rev _ _ _ Hc).
      destruct (rev (map seg_reverse ds1)) as [|r0 r] eqn:Er; [apply (f_equal (@length seg)) in Er; rewrite rev_length, map_length in Er; discriminate|].
      assert (Lr : length (r0 :: r) = length ds1) by (rewrite <- Er, rev_length, map_length; auto).
      cbn [app]. rewrite vc_at. pose proof (chain_first _ _ _ _ Hr) as S0.
      destruct (snoc_cases _ (r0 :: r)) as [X|(rl & rt & Ert)]; [discriminate|].
      assert (Eend : s_end rt = Some a) by (apply (chain_last rl rt b a); rewrite <- Ert; auto).
      assert (Drt : draws rt) by (apply chain_draws in Hr; rewrite Ert in Hr; apply Forall_app in Hr; destruct Hr as [_ Hr]; apply (Forall_inv Hr)).
      assert (L1 : exists o, link true m r0 = (set_end m o, r0)).
      { unfold link. rewrite Em, S0. destruct (near a b); [exists (Some a)|exists (Some b)]; auto. rewrite <- Em. destruct m; auto. }
      destruct L1 as (o & L1). rewrite L1. cbn [fst snd]. set (m1 := set_end m o).
      assert (NEw : A ++ m1 :: r0 :: r <> []) by (destruct A; discriminate).
      assert (EOw : eo (A ++ m1 :: r0 :: r) = Some a).
      { replace (A ++ m1 :: r0 :: r) with ((A ++ m1 :: rl) ++ [rt]) by (rewrite <- app_assoc; cbn [app]; rewrite <- Ert; auto). rewrite eo_snoc. auto. }
      destruct (link_behind (A ++ m1 :: r0 :: r) B NEw) as (B' & P & R & _); [congruence|].
      replace (Z.of_nat (length (A ++ m1 :: r0 :: r)) - 1)%Z with (Z.of_nat (length A) + Z.of_nat (length ds1))%Z in P by (rewrite app_length; cbn [length]; cbn [length] in Lr; lia).
      rewrite <- app_assoc in P. cbn [app] in P. rewrite P. cbn [rbind]. rewrite <- app_assoc. cbn [app].
      assert (U1 : forall m', u = window A (m' :: r0 :: r)) by (intros m'; rewrite Eu; apply window_len; cbn [length] in *; lia).
      assert (G0 : forall m', sub_get (A ++ m' :: r0 :: r ++ B') u 0 = Ok m').
      { intros m'. change (m' :: r0 :: r ++ B') with (m' :: (r0 :: r) ++ B'). apply get0. apply U1. }
      rewrite G0. cbn [rbind]. replace (1 <? Z.of_nat (S (length ds1)))%Z with true by (symmetry; apply Z.ltb_lt; cbn [ds1 length]; lia).
      change (is_move m1) with (is_move m). rewrite Km. cbn [andb].
      rewrite (get1 A m1 r0 r B' u (U1 m1)). cbn [rbind].
      pose proof (set0 A m1 (r0 :: r) B' u (set_end m1 (s_start r0)) (U1 m1)) as Q. cbn [app] in Q. rewrite Q. cbn [rbind]. rewrite S0.
      set (m2 := set_end m1 (Some b)).
      assert (G2 : sub_get (A ++ m2 :: r0 :: r ++ B') u (-1) = Ok rt).
      { replace (A ++ m2 :: r0 :: r ++ B') with (A ++ (m2 :: rl) ++ rt :: B') by (cbn [app]; change (r0 :: r ++ B') with ((r0 :: r) ++ B'); rewrite Ert, <- app_assoc; auto).
        apply getm1. rewrite Eu. apply window_len. cbn [app length]. rewrite Ert in Lr. rewrite <- Lr. reflexivity. }
      rewrite G2. cbn [rbind]. destruct (draws_flags rt Drt) as [_ ->]. exists B'. split; auto. unfold turned. rewrite Er. cbn [map]. rewrite app_nil_r. reflexivity.
  - set (sp := m :: ds ++ [z]) in *. apply is_close_kind in Kz as Cz.
    assert (G1 : sub_get (A ++ sp ++ B) u (-1) = Ok z).
    { unfold sp. change (m :: ds ++ [z]) with ((m :: ds) ++ [z]). rewrite <- app_assoc. cbn [app]. apply (getm1 A (m :: ds) z B u). reflexivity. }
    rewrite G1. cbn [rbind]. unfold sp at 1. cbn [app]. rewrite (get0 A m (ds ++ [z]) B u) by reflexivity. cbn [rbind]. rewrite Cz, Km.
    replace (A ++ sp ++ B) with (A ++ m :: ds ++ z :: B) by (unfold sp; cbn [app]; rewrite <- app_assoc; auto).
    rewrite (reverse_segments_at A m ds (z :: B) u); [|rewrite N0 by lia; rewrite app_length; cbn; lia|].
    2:{ rewrite N0; rewrite !app_length; cbn [length]; lia. }
    cbn [rbind]. replace (1 <? Z.of_nat (S (length (ds ++ [z]))))%Z with true by (symmetry; apply Z.ltb_lt; rewrite app_length; cbn; lia).
    destruct ds as [|d0 ds].
    + cbn [map rev app length] in *. cbn in Hc. subst b. rewrite Nat2Z.inj_0, Z.add_0_r.
      assert (V : forall pr, validate_connection2 pr (A ++ m :: z :: B) (Z.of_nat (length A)) = A ++ m :: z :: B).
      { intros pr. rewrite vc_at, link_same_near; auto. rewrite Em, Sz. apply near_refl. }
      unfold validate_connection. rewrite !V. pose proof (get0 A m [z] B u eq_refl) as G0. cbn [app] in G0. rewrite G0. cbn [rbind]. rewrite Km. cbn [andb].
      pose proof (get1 A m z [] B u eq_refl) as G3. cbn [app] in G3. rewrite G3. cbn [rbind]. rewrite Sz.
      pose proof (set0 A m [z] B u (set_end m (Some a)) eq_refl) as Q. cbn [app] in Q. rewrite Q. cbn [rbind].
      pose proof (getm1 A [set_end m (Some a)] z B u eq_refl) as G4. cbn [app] in G4. rewrite G4. cbn [rbind]. rewrite Cz.
      pose proof (sub_close A (set_end m (Some a)) [] (set_end m (Some a)) z B u a a eq_refl Kz Ez eq_refl (or_introl Sz) eq_refl (ex_intro _ [] eq_refl)) as Q2. cbn [app] in Q2. rewrite Q2.
      exists B. split; [reflexivity|apply restart_refl].
    + set (ds1 := d0 :: ds) in *. assert (Hr := chain_rev _ _ _ Hc).
      destruct (rev (map seg_reverse ds1)) as [|r0 r] eqn:Er; [apply (f_equal (@length seg)) in Er; rewrite rev_length, map_length in Er; discriminate|].
      assert (Lr : length (r0 :: r) = length ds1) by (rewrite <- Er, rev_length, map_length; auto).
      cbn [app]. rewrite vc_at. pose proof (chain_first _ _ _ _ Hr) as S0.
      destruct (snoc_cases _ (r0 :: r)) as [X|(rl & rt & Ert)]; [discriminate|].
      assert (Eend : s_end rt = Some a) by (apply (chain_last rl rt b a); rewrite <- Ert; auto).
      assert (L1 : exists o, link true m r0 = (set_end m o, r0)).
      { unfold link. rewrite Em, S0. destruct (near a b); [exists (Some a)|exists (Some b)]; auto. rewrite <- Em. destruct m; auto. }
      destruct L1 as (o & L1). rewrite L1. cbn [fst snd]. set (m1 := set_end m o).
      assert (E1 : forall m' z' X, A ++ m' :: r0 :: r ++ z' :: X = (A ++ m' :: rl) ++ rt :: z' :: X).
      { intros m' z' X. rewrite <- app_assoc. cbn [app]. change (r0 :: r ++ z' :: X) with ((r0 :: r) ++ z' :: X). rewrite Ert, <- app_assoc. reflexivity. }
      rewrite E1. replace (Z.of_nat (length A) + Z.of_nat (length ds1))%Z with (Z.of_nat (length (A ++ m1 :: rl))).
      2:{ rewrite app_length. cbn [length]. rewrite Ert, app_length in Lr. cbn [length] in Lr. lia. }
      unfold validate_connection. rewrite vc_at.
      assert (L2 : exists z', link false rt z = (rt, z') /\ s_kind z' = KClose /\ s_end z' = Some a /\ s_rel z' = s_rel z /\ s_smooth z' = s_smooth z /\ (s_start z' = Some b \/ (s_start z' = Some a /\ near a b = false))).
      { unfold link. rewrite Eend, Sz. destruct (near a b) eqn:N; [exists z|exists (set_start z (Some a))]; cbn; auto 10. }
      destruct L2 as (z' & L2 & Kz' & Ez' & Rz & Mz & Sz'). rewrite L2. cbn [fst snd]. rewrite <- E1.
      assert (U1 : forall m', u = window A (m' :: (r0 :: r) ++ [z'])) by (intros m'; unfold u, sp; apply window_len; cbn [length]; rewrite !app_length; cbn [length] in *; lia).
      replace (A ++ m1 :: r0 :: r ++ z' :: B) with (A ++ m1 :: ((r0 :: r) ++ [z']) ++ B) by (rewrite <- app_assoc; reflexivity).
      rewrite (get0 A m1 _ B u (U1 m1)). cbn [rbind]. change (is_move m1) with (is_move m). rewrite Km. cbn [andb].
      pose proof (get1 A m1 r0 (r ++ [z']) B u (U1 m1)) as G. change ((r0 :: r) ++ [z']) with (r0 :: r ++ [z']). cbn [app]. rewrite G. cbn [rbind]. rewrite S0.
      pose proof (set0 A m1 (r0 :: r ++ [z']) B u (set_end m1 (Some b)) (U1 m1)) as Q. cbn [app] in Q. rewrite Q. cbn [rbind].
      set (m2 := set_end m1 (Some b)).
      replace (A ++ m2 :: r0 :: (r ++ [z']) ++ B) with (A ++ (m2 :: rl) ++ rt :: z' :: B).
      2:{ rewrite <- app_assoc. cbn [app]. rewrite E1, <- app_assoc. reflexivity. }
      assert (U2 : u = window A ((m2 :: rl) ++ [rt; z'])). { rewrite (U1 m2), Ert, <- app_assoc. reflexivity. }
      replace (sub_get (A ++ (m2 :: rl) ++ rt :: z' :: B) u (-1)) with (Ok z' : Res seg).
      2:{ symmetry. replace (A ++ (m2 :: rl) ++ rt :: z' :: B) with (A ++ ((m2 :: rl) ++ [rt]) ++ z' :: B) by (rewrite <- !app_assoc; reflexivity).
          apply getm1. rewrite U2, <- app_assoc. reflexivity. }
      cbn [rbind]. apply is_close_kind in Kz' as Cz'. rewrite Cz'.
      exists B. split; [|apply restart_refl].
      etransitivity; [apply (sub_close A m2 (m2 :: rl) rt z' B u b a); auto; exists (rl ++ [rt]); reflexivity|]. f_equal. f_equal. unfold turned. rewrite Er, Ert. cbn [map app]. rewrite <- !app_assoc. cbn [app]. rewrite Rz, Mz. reflexivity.
Qed.

(** * Reversal of a path *)
Definition parts (sp : path) (m : seg) (ds cl : path) (a b : pt) : Prop :=
  sp = m :: ds ++ cl /\ s_kind m = KMove /\ s_end m = Some a /\ chain a ds b /\
  (cl = [] \/ exists z, cl = [z] /\ s_kind z = KClose /\ s_start z = Some b /\ s_end z = Some a).
Lemma whole_parts : forall sp, whole sp <-> exists m ds cl a b, parts sp m ds cl a b.
Proof. intros sp. unfold whole, parts. tauto. Qed.
Definition turnedR (sp sp' : path) : Prop := exists m ds cl a b, parts sp m ds cl a b /\ Forall2 alike sp' (turned m ds cl a b).
Lemma alike_refl : forall s, alike s s. Proof. intros s. repeat split. Qed.
Lemma alike_sym : forall s t, alike s t -> alike t s. Proof. intros s t (A & B & C). split; [auto|]. split; auto. intros K. symmetry. apply C. congruence. Qed.
Lemma alike_trans : forall s t u, alike s t -> alike t u -> alike s u.
Proof. intros s t u (A & B & C) (D & E & F). split; [congruence|]. split; [congruence|]. intros K. rewrite C by auto. apply F. congruence. Qed.
Lemma F2_refl : forall l, Forall2 alike l l. Proof. induction l; constructor; auto using alike_refl. Qed.
Lemma F2_sym : forall l m, Forall2 alike l m -> Forall2 alike m l. Proof. intros l m H. induction H; constructor; auto using alike_sym. Qed.
Lemma F2_trans : forall l m n, Forall2 alike l m -> Forall2 alike m n -> Forall2 alike l n.
Proof. intros l m n H. revert n. induction H; intros n K; inversion K; subst; constructor; eauto using alike_trans. Qed.
Lemma F2_app : forall (R : seg -> seg -> Prop) a b c d, Forall2 R a b -> Forall2 R c d -> Forall2 R (a ++ c) (b ++ d).
Proof. intros. apply Forall2_app; auto. Qed.
Lemma F2_rev : forall l m, Forall2 alike l m -> Forall2 alike (rev l) (rev m).
Proof. intros l m H. induction H; cbn; [constructor|]. apply F2_app; auto. Qed.
Lemma F2_length : forall (R : seg -> seg -> Prop) l m, Forall2 R l m -> length l = length m.
Proof. intros R l m H. induction H; cbn; auto. Qed.
Lemma alike_draws : forall s t, alike s t -> draws s -> draws t /\ s_start s = s_start t.
Proof. intros s t (A & B & C) [D E]. split; [split; congruence|auto]. Qed.
Lemma chain_alike : forall l l2 a b, Forall2 alike l l2 -> chain a l b -> chain a l2 b.
Proof.
  intros l l2 a b H. revert a. induction H as [|s t l l2 H1 H2 IH]; intros a C; auto. cbn [chain] in *. destruct C as (A & D & e & E & C).
  destruct (alike_draws _ _ H1 D) as [D2 S2]. destruct H1 as (_ & E2 & _). split; [congruence|]. split; auto. exists e. split; [congruence|auto].
Qed.
Lemma parts_alike : forall sp sp2 m ds cl a b, parts sp m ds cl a b -> Forall2 alike sp sp2 ->
  exists m2 ds2 cl2, parts sp2 m2 ds2 cl2 a b /\ alike m m2 /\ Forall2 alike ds ds2 /\ Forall2 alike cl cl2.
Proof.
  intros sp sp2 m ds cl a b (E & Km & Em & C & Z) H. subst sp. inversion H as [|? m2 ? r Hm Hr]; subst. apply Forall2_app_inv_l in Hr. destruct Hr as (ds2 & cl2 & Hd & Hc & ->).
  exists m2, ds2, cl2. split; [|auto]. pose proof Hm as (K & E2 & _). split; auto. split; [congruence|]. split; [congruence|]. split; [apply (chain_alike ds); auto|].
  destruct Z as [->|(z & -> & Kz & Sz & Ez)]; [left; inversion Hc; auto|]. right. inversion Hc as [|? z2 ? w Hz Hw]; subst. inversion Hw; subst. exists z2.
  destruct Hz as (Kz2 & Ez2 & Sz2). split; auto. split; [congruence|]. split; [|congruence]. rewrite <- Sz2; auto. rewrite Kz. discriminate.
Qed.
Lemma whole_alike : forall sp sp2, whole sp -> Forall2 alike sp sp2 -> whole sp2.
Proof. intros sp sp2 (m & ds & cl & a & b & P) H. destruct (parts_alike sp sp2 m ds cl a b P H) as (m2 & ds2 & cl2 & P2 & _). apply whole_parts. exists m2, ds2, cl2, a, b. auto. Qed.
Lemma seg_reverse_alike : forall s t, alike s t -> draws s -> alike (seg_reverse s) (seg_reverse t).
Proof.
  intros s t H D. destruct (alike_draws _ _ H D) as [D2 S2]. destruct H as (K & E & S). unfold alike, seg_reverse. cbn. rewrite K. auto.
Qed.
Lemma turned_alike : forall m m2 ds ds2 cl cl2 a b, alike m m2 -> Forall2 alike ds ds2 -> Forall2 alike cl cl2 -> chain a ds b ->
  Forall2 alike (turned m ds cl a b) (turned m2 ds2 cl2 a b).
Proof.
  intros m m2 ds ds2 cl cl2 a b Hm Hd Hc C. unfold turned. constructor.
  - destruct Hm as (K & E & S). unfold alike. cbn. auto.
  - apply F2_app.
    + apply F2_rev. apply chain_draws in C. clear - Hd C. induction Hd; cbn; constructor; inversion C; subst; auto using seg_reverse_alike.
    + clear - Hc. induction Hc; cbn; constructor; auto. repeat split.
Qed.
Lemma turnedR_left : forall sp sp2 x, Forall2 alike sp sp2 -> turnedR sp x -> turnedR sp2 x.
Proof.
  intros sp sp2 x H (m & ds & cl & a & b & P & T). destruct (parts_alike _ _ _ _ _ _ _ P H) as (m2 & ds2 & cl2 & P2 & Hm & Hd & Hc).
  exists m2, ds2, cl2, a, b. split; auto. apply (F2_trans _ (turned m ds cl a b)); auto. apply turned_alike; auto. apply P.
Qed.
Lemma turnedR_right : forall sp x y, turnedR sp x -> Forall2 alike y x -> turnedR sp y.
Proof. intros sp x y (m & ds & cl & a & b & P & T) H. exists m, ds, cl, a, b. split; auto. apply (F2_trans _ x); auto. Qed.
Lemma turned_parts : forall sp m ds cl a b, parts sp m ds cl a b ->
  parts (turned m ds cl a b) (set_end m (Some b)) (rev (map seg_reverse ds)) (map (fun z => mkSeg KClose (Some a) (Some b) (s_rel z) (s_smooth z)) cl) b a.
Proof.
  intros sp m ds cl a b (E & Km & Em & C & Z). split; [reflexivity|]. split; auto. split; auto. split; [apply chain_rev; auto|].
  destruct Z as [->|(z & -> & Kz & Sz & Ez)]; [left; reflexivity|right]. eexists. split; [reflexivity|]. auto.
Qed.
Lemma turnedR_whole : forall sp x, turnedR sp x -> whole x.
Proof.
  intros sp x (m & ds & cl & a & b & P & T). apply (whole_alike (turned m ds cl a b)); [|apply F2_sym; auto]. apply whole_parts. do 5 eexists. apply (turned_parts sp); auto.
Qed.
Lemma turned_length : forall m ds cl a b, length (turned m ds cl a b) = length (m :: ds ++ cl).
Proof. intros. unfold turned. cbn [length]. rewrite !app_length, rev_length, !map_length. auto. Qed.
Lemma turnedR_length : forall sp x, turnedR sp x -> length x = length sp.
Proof. intros sp x (m & ds & cl & a & b & P & T). apply F2_length in T. rewrite turned_length in T. destruct P as (-> & _). auto. Qed.
Lemma restart_alike : forall sp sp2, restart sp sp2 -> match sp with m :: _ => s_kind m = KMove | [] => True end -> Forall2 alike sp sp2.
Proof.
  intros [|m r] [|m2 r2]; cbn; try tauto; [constructor|]. intros [-> E] K. constructor; [|apply F2_refl]. rewrite E. unfold alike. cbn. split; auto. split; auto. congruence.
Qed.
Lemma whole_led : forall sp, whole sp -> led sp.
Proof.
  intros sp (m & ds & cl & a & b & -> & Km & Em & C & Z). cbn. split; auto. apply Forall_app. split.
  - apply chain_draws in C. apply Forall_forall. intros x I1. rewrite Forall_forall in C. apply C in I1. apply I1.
  - destruct Z as [->|(z & -> & Kz & _)]; [constructor|]. constructor; [congruence|constructor].
Qed.
Lemma led_head : forall c, led c -> exists m r, c = m :: r /\ s_kind m = KMove /\ quiet r. Proof. intros [|m r]; cbn; [tauto|]. intros [A B]. eauto. Qed.
Lemma quiet_split : forall c d x y, quiet c -> quiet d -> (x = [] \/ exists m r, x = m :: r /\ s_kind m = KMove) -> (y = [] \/ exists m r, y = m :: r /\ s_kind m = KMove) ->
  c ++ x = d ++ y -> c = d /\ x = y.
Proof.
  induction c as [|s c IH]; intros d x y Qc Qd X Y E; destruct d as [|t d]; cbn in E; auto.
  - exfalso. subst x. destruct X as [X|(m & r & X & K)]; [discriminate|]. injection X as -> _. inversion Qd; congruence.
  - exfalso. subst y. destruct Y as [Y|(m & r & Y & K)]; [discriminate|]. injection Y as -> _. inversion Qc; congruence.
  - injection E as -> E. inversion Qc; inversion Qd; subst. destruct (IH d x y) as [-> ->]; auto.
Qed.
Lemma concat_head : forall xs, Forall led xs -> concat xs = [] \/ exists m r, concat xs = m :: r /\ s_kind m = KMove.
Proof. intros [|c xs] F; auto. right. apply Forall_inv in F. destruct (led_head c F) as (m & r & -> & K & Q). cbn. eauto. Qed.
Lemma led_unique : forall xs ys, Forall led xs -> Forall led ys -> concat xs = concat ys -> xs = ys.
Proof.
  induction xs as [|c xs IH]; intros [|d ys] X Y E; auto.
  - exfalso. apply Forall_inv in Y. destruct (led_head d Y) as (m & r & -> & _). discriminate.
  - exfalso. apply Forall_inv in X. destruct (led_head c X) as (m & r & -> & _). discriminate.
  - pose proof (Forall_inv_tail X) as X1. pose proof (Forall_inv_tail Y) as Y1. pose proof (concat_head _ X1) as HX. pose proof (concat_head _ Y1) as HY.
    apply Forall_inv in X. apply Forall_inv in Y. destruct (led_head c X) as (m & r & -> & K & Q). destruct (led_head d Y) as (m' & r' & -> & K' & Q').
    cbn in E. injection E as -> E. destruct (quiet_split _ _ _ _ Q Q' HX HY E) as [-> E2]. f_equal. apply IH; auto.
Qed.
Lemma whole_subpaths : forall sps, Forall whole sps -> concat sps <> [] -> as_subpaths (concat sps) = ranges 0 sps.
Proof.
  intros sps F NE. destruct (as_subpaths_chunks (concat sps)) as (c & cs & E & A & B & C & D). rewrite E. f_equal.
  assert (L : Forall led sps) by (apply Forall_impl with (P := whole); auto using whole_led).
  symmetry. apply led_unique; auto. constructor; auto. specialize (D NE). destruct c as [|m c]; [congruence|].
  destruct (concat_head _ L) as [X|(m' & r & X & K)]; [congruence|]. rewrite X in A. cbn in A. injection A as -> _. cbn in *. auto.
Qed.
Lemma extend_exact : forall p q, ended p -> (forall l f, p = l ++ [f] -> is_close f = true -> l <> [] -> s_end f = zp l) ->
  match q with [] => True | m :: _ => s_kind m = KMove end ->
  exists q2, extend p q = p ++ q2 /\ restart q q2 /\ (p <> [] -> starts (eo p) q2).
Proof.
  intros p q Ep Hz B. unfold extend. destruct (snoc_cases _ p) as [->|(l & f & ->)].
  - exists q. cbn [app length]. unfold validate_connection. rewrite vc_neg by (cbn; lia). unfold validate_subpath. cbn. split; auto. split; [apply restart_refl|congruence].
  - specialize (Hz l f eq_refl). set (p := l ++ [f]) in *. assert (NE : p <> []) by (unfold p; destruct l; discriminate).
    destruct (link_behind p q NE (ended_eo p NE Ep)) as (q2 & P & R & S1). rewrite P. exists q2.
    replace (Z.of_nat (length p) - 1)%Z with (Z.of_nat (length l)) by (unfold p; rewrite app_length; cbn; lia).
    split; [|auto]. destruct (is_move f) eqn:Mf.
    { unfold p; rewrite <- app_assoc; cbn [app]; apply validate_subpath_stop; auto. }
    destruct (validate_subpath_at l ([f] ++ q2)) as (b2 & P2 & C). assert (P3 : validate_subpath (p ++ q2) (Z.of_nat (length l)) = l ++ b2) by (unfold p; rewrite <- app_assoc; exact P2). rewrite P3.
    destruct C as [[_ ->]|[_ C]]; [rewrite app_assoc; reflexivity|].
    cbn [app] in C. destruct (reclosed_cons _ _ _ _ C) as [[X _]|[[Cf ->]|[Df (b' & -> & Rb)]]]; [congruence| |].
    + destruct l as [|g l].
      * cbn [app] in *. replace (set_end f (s_end f)) with f by (destruct f; auto). reflexivity.
      * set (l0 := g :: l) in *. change (l0 ++ set_end f (zof (s_end g) l) :: q2) with (l0 ++ set_end f (zp l0) :: q2).
        rewrite <- Hz by (auto; discriminate). replace (set_end f (s_end f)) with f by (destruct f; auto). unfold p. rewrite <- app_assoc. reflexivity.
    + assert (b' = q2).
      { destruct q as [|m q]; [destruct q2; [|contradiction]|destruct q2 as [|n q2]; [contradiction|]].
        - remember [] as w eqn:Ew. destruct Rb as [c F|c mm d F M|c z d F Cz]; auto; destruct c; discriminate Ew.
        - cbn in R. destruct R as [-> R]. apply is_move_kind in B. assert (K : s_kind n = s_kind m) by (rewrite R; auto). destruct (kind_move _ _ K) as [M Cn].
          destruct (reclosed_cons _ _ _ _ Rb) as [[_ ->]|[[Y _]|[Y _]]]; auto.
          + apply is_close_not_move in Y. congruence.
          + apply draws_split in Y. destruct Y. congruence. }
      subst b'. change (f :: q2) with ([f] ++ q2). rewrite app_assoc. reflexivity.
Qed.
Lemma chain_ended : forall l a b, chain a l b -> ended l.
Proof. induction l as [|s l IH]; intros a b C; [constructor|]. cbn in C. destruct C as (_ & _ & e & E & C). constructor; [congruence|]. apply (IH e b C). Qed.
Lemma whole_ended : forall sp, whole sp -> ended sp.
Proof.
  intros sp (m & ds & cl & a & b & -> & Km & Em & C & Z). constructor; [congruence|]. apply Forall_app. split; [apply (chain_ended ds a b C)|].
  destruct Z as [->|(z & -> & Kz & Sz & Ez)]; constructor; [congruence|constructor].
Qed.
Lemma wholes_ended : forall sps, Forall whole sps -> ended (concat sps).
Proof. induction sps as [|sp sps IH]; intros F; [constructor|]. cbn. apply Forall_app. split; [apply whole_ended; apply (Forall_inv F)|apply IH; apply (Forall_inv_tail F)]. Qed.
Lemma last_move_draws : forall ds, Forall draws ds -> last_move ds = None.
Proof. induction ds as [|s ds IH]; intros F; auto. cbn [last_move]. rewrite IH by apply (Forall_inv_tail F). destruct (draws_split s (Forall_inv F)) as [-> _]. auto. Qed.
Lemma zp_move : forall A m ds, s_kind m = KMove -> Forall draws ds -> zp (A ++ m :: ds) = s_end m.
Proof.
  intros A m ds Km F. apply is_move_kind in Km. assert (Z : forall z, zof z (m :: ds) = s_end m).
  { intros z. change (m :: ds) with ([m] ++ ds). rewrite zof_app. cbn [zof fold_left]. fold (zof (if is_move m then s_end m else z) ds). rewrite Km. rewrite zof_last. rewrite last_move_draws; auto. }
  destruct A as [|f A]; cbn [app zp].
  - rewrite zof_last. rewrite last_move_draws; auto.
  - rewrite zof_app. apply Z.
Qed.
Lemma JJ_restart : forall b b2, restart b b2 -> JJ b -> JJ b2.
Proof. intros [|n b] [|m b2]; cbn [restart JJ]; try tauto. intros [-> E] H. rewrite E. exact H. Qed.
Lemma ms_same : forall a, ms (Some a) (Some a). Proof. intros a. apply ms_refl. discriminate. Qed.
Lemma chain_J : forall l z a b, chain a l b -> J z (Some a) l /\ eof (Some a) l = Some b /\ zof z l = z.
Proof.
  induction l as [|s l IH]; intros z a b C; cbn in C.
  - subst. cbn. auto.
  - destruct C as (S1 & D & e & E & C). destruct (IH z e b C) as (X & Y & W). destruct (draws_split s D) as [M Cl]. cbn [J eof zof fold_left]. rewrite M, Cl, S1, E. fold (eof (Some e) l). fold (zof z l).
    split; [|auto]. split; [apply ms_same|]. split; [discriminate|auto].
Qed.
Lemma whole_JJ : forall sp, whole sp -> JJ sp.
Proof.
  intros sp (m & ds & cl & a & b & -> & Km & Em & C & Z). cbn [JJ]. rewrite Em. apply J_app. destruct (chain_J ds (Some a) a b C) as (X & Y & W). split; auto. rewrite Y, W.
  destruct Z as [->|(z & -> & Kz & Sz & Ez)]; cbn [J]; auto. rewrite Sz, Ez. split; [apply ms_same|]. split; [intros; apply ms_same|exact I].
Qed.
Lemma whole_ne : forall sp, whole sp -> sp <> []. Proof. intros sp (m & ds & cl & a & b & -> & _). discriminate. Qed.
Lemma J_JJ : forall sps z e, Forall whole sps -> J z e (concat sps) <-> starts e (concat sps) /\ JJ (concat sps).
Proof.
  intros sps z e F. destruct (concat_head sps) as [->|(m & r & -> & K)].
  - apply Forall_impl with (P := whole); auto using whole_led.
  - cbn. tauto.
  - apply is_move_kind in K. cbn [J starts JJ]. rewrite K, (move_not_close m K). split; [intros (A & B & C); auto|intros (A & B); split; auto; split; auto; discriminate].
Qed.
Lemma JJ_cons : forall sp sps, whole sp -> Forall whole sps -> JJ (sp ++ concat sps) <-> starts (eo sp) (concat sps) /\ JJ (concat sps).
Proof.
  intros sp sps W F. rewrite JJ_app by (apply whole_ne; auto). rewrite J_JJ by auto. split; [tauto|]. intros; split; [apply whole_JJ; auto|auto].
Qed.
Lemma head_move : forall sps, Forall whole sps -> match concat sps with [] => True | m :: _ => s_kind m = KMove end.
Proof.
  intros sps F. destruct (concat_head sps) as [->|(m & r & -> & K)]; auto. apply Forall_impl with (P := whole); auto using whole_led.
Qed.
Lemma restart_concat : forall sps B', Forall whole sps -> restart (concat sps) B' ->
  exists sps', B' = concat sps' /\ Forall2 (Forall2 alike) sps sps' /\ Forall whole sps'.
Proof.
  intros [|sp sps] B' F R.
  - cbn in R. destruct B'; [|contradiction]. exists []. repeat split; constructor.
  - pose proof (Forall_inv F) as W. pose proof (Forall_inv_tail F) as F'. pose proof W as (m & ds & cl & a & b & E & Km & _). subst sp. cbn [concat app] in R. destruct B' as [|n B']; [contradiction|]. cbn in R. destruct R as [-> R].
    assert (A : Forall2 alike (m :: ds ++ cl) (n :: ds ++ cl)) by (constructor; [rewrite R; unfold alike; cbn; repeat split; auto; congruence|apply F2_refl]).
    exists ((n :: ds ++ cl) :: sps). split; [reflexivity|]. split; constructor; auto.
    + clear. induction sps; constructor; auto using F2_refl.
    + apply (whole_alike _ _ W A).
Qed.
Lemma ranges_len : forall sps sps' k, Forall2 (fun a b : path => length a = length b) sps sps' -> ranges k sps = ranges k sps'.
Proof. intros sps sps' k H. revert k. induction H as [|a b l l' E H IH]; intros k; cbn [ranges]; auto. rewrite E, IH. auto. Qed.
Lemma F2_impl : forall (A B : Type) (P Q : A -> B -> Prop) l m, (forall x y, P x y -> Q x y) -> Forall2 P l m -> Forall2 Q l m.
Proof. intros A B P Q l m H F. induction F; constructor; auto. Qed.
Lemma reverse_all_at : forall n sps A, length sps = n -> Forall whole sps -> JJ (concat sps) ->
  exists sps', reverse_all (A ++ concat sps) (ranges (Z.of_nat (length A)) sps) = Ok (A ++ concat sps') /\ Forall2 turnedR sps sps'.
Proof.
  induction n as [|n IH]; intros sps A L F H.
  - destruct sps; [|discriminate]. exists []. cbn. split; auto.
  - destruct sps as [|sp sps]; [discriminate|]. injection L as L. pose proof (Forall_inv F) as W. pose proof (Forall_inv_tail F) as F'. cbn [concat] in H. apply JJ_cons in H; auto. destruct H as [S1 H].
    pose proof W as (m & ds & cl & a & b & E & Km & Em & C & Z). cbn [concat ranges reverse_all].
    assert (Fo : follows (m :: ds ++ cl) (concat sps)).
    { pose proof (head_move sps F') as K. unfold follows. destruct (concat sps) as [|x r]; auto. right. exists x, r. cbn in S1. subst sp. auto. }
    destruct (sub_reverse_at A m ds cl (concat sps) a b Km Em C Z Fo) as (B' & P & R). rewrite <- E in P. unfold window in P. rewrite P. cbn [rbind].
    destruct (restart_concat sps B' F' R) as (sps2 & -> & AL & F2). rewrite app_assoc.
    assert (EL : (Z.of_nat (length A) + Z.of_nat (length (m :: ds ++ cl)))%Z = Z.of_nat (length (A ++ turned m ds cl a b))) by (rewrite app_length, turned_length; lia).
    rewrite <- E in EL. rewrite EL. rewrite (ranges_len sps sps2) by (apply (F2_impl _ _ (Forall2 alike)); auto; intros x y; apply F2_length).
    assert (L2 : length sps2 = n). { rewrite <- L. clear - AL. induction AL; cbn; auto. }
    destruct (IH sps2 (A ++ turned m ds cl a b) L2 F2 (JJ_restart _ _ R H)) as (sps3 & P3 & T3). rewrite P3.
    exists (turned m ds cl a b :: sps3). split; [cbn [concat]; rewrite <- app_assoc; reflexivity|]. constructor.
    + exists m, ds, cl, a, b. split; [repeat split; auto|apply F2_refl].
    + clear - AL T3. revert sps3 T3. induction AL; intros sps3 T3; inversion T3; subst; constructor; auto. apply (turnedR_left y); auto. apply F2_sym; auto.
Qed.
Lemma whole_close : forall qs l f, Forall whole qs -> concat qs = l ++ [f] -> is_close f = true -> l <> [] -> s_end f = zp l.
Proof.
  intros qs l f F E Cf NE. destruct (snoc_cases _ qs) as [->|(qs' & sp & ->)]; [destruct l; discriminate|].
  rewrite concat_app in E. cbn [concat] in E. rewrite app_nil_r in E. apply Forall_app in F. destruct F as [_ F]. apply Forall_inv in F. destruct F as (m & ds & cl & a & b & -> & Km & Em & C & Z).
  destruct Z as [->|(z & -> & Kz & Sz & Ez)].
  - exfalso. rewrite app_nil_r in E. destruct (snoc_cases _ ds) as [->|(ds' & d & ->)].
    + apply app_inj_tail in E. destruct E as [_ ->]. apply is_move_kind in Km. apply is_close_not_move in Cf. congruence.
    + rewrite app_comm_cons, app_assoc in E. apply app_inj_tail in E. destruct E as [_ ->]. apply chain_draws in C. apply Forall_app in C. destruct C as [_ C]. apply Forall_inv in C. apply draws_split in C. destruct C; congruence.
  - rewrite app_comm_cons, app_assoc in E. apply app_inj_tail in E. destruct E as [<- ->]. rewrite zp_move; auto; [congruence|]. apply (chain_draws _ _ _ C).
Qed.
Lemma copy_alike : forall sp, Forall2 alike sp (map seg_copy sp).
Proof. induction sp as [|s sp IH]; cbn; constructor; auto. destruct s as [k a b r h]. destruct k; repeat split. Qed.
Lemma extend_fold : forall sps qs, Forall whole sps -> Forall whole qs -> JJ (concat qs) ->
  exists rs, fold_left (fun q sp => extend q (map seg_copy sp)) sps (concat qs) = concat (qs ++ rs) /\ Forall2 (Forall2 alike) sps rs /\ JJ (concat (qs ++ rs)).
Proof.
  induction sps as [|sp sps IH]; intros qs F G H.
  - exists []. rewrite app_nil_r. cbn. auto.
  - pose proof (Forall_inv F) as W. pose proof (Forall_inv_tail F) as F'. cbn [fold_left].
    pose proof (whole_alike _ _ W (copy_alike sp)) as W2.
    assert (B : match map seg_copy sp with [] => True | m :: _ => s_kind m = KMove end) by (destruct W2 as (m & ds & cl & a & b & -> & Km & _); auto).
    destruct (extend_exact (concat qs) (map seg_copy sp) (wholes_ended qs G)) as (q2 & P & R & S1); auto.
    { intros l f. apply whole_close; auto. }
    rewrite P. assert (A2 : Forall2 alike (map seg_copy sp) q2) by (apply restart_alike; auto). pose proof (whole_alike _ _ W2 A2) as W3.
    assert (G2 : Forall whole (qs ++ [q2])) by (apply Forall_app; auto).
    assert (H2 : JJ (concat (qs ++ [q2]))).
    { rewrite concat_app. destruct (concat qs) as [|c cc] eqn:Ec; [cbn; rewrite app_nil_r; apply whole_JJ; auto|]. rewrite <- Ec in *. assert (NE : concat qs <> []) by congruence. apply JJ_app; auto. split; auto.
      apply J_JJ; auto. cbn [concat]. rewrite app_nil_r. split; [auto|apply whole_JJ; auto]. }
    destruct (IH (qs ++ [q2]) F' G2 H2) as (rs & Pr & Ar & Hr). exists (q2 :: rs).
    replace (concat qs ++ q2) with (concat (qs ++ [q2])) by (rewrite concat_app; cbn; rewrite app_nil_r; auto). rewrite Pr, <- app_assoc. cbn [app]. rewrite <- app_assoc in Hr. cbn [app] in Hr.
    split; auto. split; auto. constructor; auto. apply (F2_trans _ (map seg_copy sp)); auto. apply copy_alike.
Qed.
Lemma map_ranges_list : forall cs a b, map (sub_list (a ++ concat cs ++ b)) (ranges (Z.of_nat (length a)) cs) = cs.
Proof.
  induction cs as [|c cs IH]; intros a b; auto. cbn [concat ranges map]. f_equal.
  - rewrite <- app_assoc. apply sub_list_at.
  - replace (Z.of_nat (length a) + Z.of_nat (length c))%Z with (Z.of_nat (length (a ++ c))) by (rewrite app_length; lia).
    replace (a ++ (c ++ concat cs) ++ b) with ((a ++ c) ++ concat cs ++ b) by (rewrite <- !app_assoc; auto). apply IH.
Qed.
Lemma fold_map : forall (A B C : Type) (f : A -> B) (g : C -> B -> C) l c, fold_left (fun q u => g q (f u)) l c = fold_left g (map f l) c.
Proof. induction l; intros c; cbn; auto. Qed.
Theorem path_reverse_at : forall sps, Forall whole sps -> joined (concat sps) -> sps <> [] ->
  exists rs, path_reverse (concat sps) = Ok (concat rs) /\ Forall2 turnedR sps (rev rs) /\ Forall whole rs /\ joined (concat rs) /\
    match concat sps, concat rs with f :: _, g :: _ => s_start g = s_start f | _, _ => True end.
Proof.
  intros sps F H NE. apply joined_iff in H. destruct (concat sps) as [|f r] eqn:Ec.
  { exfalso. destruct sps as [|sp sps]; [congruence|]. apply Forall_inv in F. apply whole_ne in F. cbn in Ec. destruct sp; [congruence|discriminate]. }
  cbn [path_reverse]. assert (R : restart (concat sps) (set_start f None :: r)) by (rewrite Ec; cbn; auto).
  destruct (restart_concat sps _ F R) as (sps0 & E0 & A0 & F0). rewrite E0.
  assert (J0 : JJ (concat sps0)) by (rewrite <- E0; exact H).
  rewrite whole_subpaths by (auto; rewrite <- E0; discriminate).
  destruct (reverse_all_at _ sps0 [] eq_refl F0 J0) as (sps1 & P1 & T1). cbn [app length Z.of_nat] in P1. rewrite P1. cbn [rbind].
  assert (W1 : Forall whole sps1). { clear - T1. induction T1; constructor; auto. apply (turnedR_whole x); auto. }
  rewrite (fold_map _ _ _ (sub_list (concat sps1)) (fun q sp => extend q (map seg_copy sp))). rewrite map_rev.
  rewrite (ranges_len sps0 sps1) by (apply (F2_impl _ _ turnedR); auto; intros x y T; symmetry; apply turnedR_length; auto).
  pose proof (map_ranges_list sps1 [] []) as Q. cbn [app length Z.of_nat] in Q. rewrite app_nil_r in Q. rewrite Q.
  destruct (extend_fold (rev sps1) [] (Forall_rev W1) (Forall_nil _) I) as (rs & Pr & Ar & Hr). cbn [concat app] in Pr, Hr. rewrite Pr.
  assert (Wr : Forall whole rs).
  { assert (G : Forall whole (rev sps1)) by (apply Forall_rev; auto). clear - Ar G. induction Ar; constructor; inversion G; subst; auto. apply (whole_alike x); auto. }
  destruct (concat rs) as [|g q] eqn:Er.
  { exfalso. destruct rs as [|rr rs]; [|pose proof (whole_ne rr (Forall_inv Wr)); cbn in Er; destruct rr; [congruence|discriminate]].
    inversion Ar as [Er1|]. symmetry in Er1. apply (f_equal (@rev path)) in Er1. rewrite rev_involutive in Er1. cbn in Er1. subst sps1. inversion T1; subst. inversion A0; subst. congruence. }
  assert (Rr : restart (concat rs) (set_start g (s_start f) :: q)) by (rewrite Er; cbn; auto).
  destruct (restart_concat rs _ Wr Rr) as (rs2 & E2 & A2 & W2). rewrite E2. exists rs2. split; [reflexivity|]. split; [|split; [auto|split; [apply joined_iff; rewrite <- E2; exact Hr|rewrite <- E2; reflexivity]]].
  assert (X1 : Forall2 turnedR sps sps1).
  { clear - A0 T1. revert sps1 T1. induction A0; intros sps1 T1; inversion T1; subst; constructor; auto. apply (turnedR_left y); auto. apply F2_sym; auto. }
  assert (X2 : Forall2 (Forall2 alike) sps1 (rev rs2)).
  { rewrite <- (rev_involutive sps1). assert (X3 : Forall2 (Forall2 alike) (rev sps1) rs2).
    { clear - Ar A2. revert rs2 A2. induction Ar; intros rs2 A2; inversion A2; subst; constructor; auto. apply (F2_trans _ y); auto. }
    clear - X3. induction X3; cbn; [constructor|]. apply Forall2_app; auto. }
  clear - X1 X2. revert X2. generalize (rev rs2). induction X1; intros zs X2; inversion X2; subst; constructor; auto. apply (turnedR_right _ y); auto. apply F2_sym; auto.
Qed.
Lemma strokes_app : forall a b, strokes (a ++ b) = strokes a ++ strokes b.
Proof. intros. unfold strokes. rewrite filter_app, map_app. auto. Qed.
Lemma strokes_alike : forall a b, Forall2 alike a b -> strokes a = strokes b.
Proof.
  intros a b H. induction H as [|s t a b A H IH]; auto. unfold strokes in *. cbn [filter]. destruct A as (K & E & S). assert (D : is_draw t = is_draw s) by (unfold is_draw; rewrite K; auto). rewrite D.
  destruct (is_draw s) eqn:Ds; auto. cbn [map]. rewrite IH. f_equal. assert (S2 : s_start s = s_start t) by (apply S; unfold is_draw in Ds; intros X; rewrite X in Ds; discriminate).
  destruct s, t. cbn in *. subst. reflexivity.
Qed.
Lemma draws_is_draw : forall s, draws s -> is_draw s = true.
Proof. intros [k a b r m] [A B]. unfold is_draw. cbn in *. destruct k; auto; congruence. Qed.
Lemma filter_draws : forall ds, Forall draws ds -> filter is_draw ds = ds.
Proof. intros ds F. induction F; cbn; auto. rewrite draws_is_draw by auto. congruence. Qed.
Lemma strokes_parts : forall sp m ds cl a b, parts sp m ds cl a b -> strokes sp = map view ds.
Proof.
  intros sp m ds cl a b (-> & Km & Em & C & Z). unfold strokes. change (m :: ds ++ cl) with ([m] ++ ds ++ cl). rewrite !filter_app. rewrite (filter_draws ds) by apply (chain_draws _ _ _ C).
  assert (Fm : filter is_draw [m] = []) by (cbn; unfold is_draw; rewrite Km; auto). rewrite Fm.
  assert (Fc : filter is_draw cl = []) by (destruct Z as [->|(z & -> & Kz & _)]; auto; cbn; unfold is_draw; rewrite Kz; auto). rewrite Fc, app_nil_r. reflexivity.
Qed.
Lemma view_reverse : forall s, draws s -> view (seg_reverse s) = option_map flip (view s).
Proof.
  intros [k a b r m] [A B]. cbn in A, B. unfold view, seg_reverse. cbn. destruct k; try congruence; cbn; destruct a, b; repeat match goal with |- context [match ?o with Some _ => _ | None => _ end] => destruct o end; reflexivity.
Qed.
Lemma turned_strokes : forall sp x, turnedR sp x -> strokes x = map (option_map flip) (rev (strokes sp)).
Proof.
  intros sp x (m & ds & cl & a & b & P & T). rewrite (strokes_alike _ _ T), (strokes_parts _ _ _ _ _ _ (turned_parts _ _ _ _ _ _ P)), (strokes_parts _ _ _ _ _ _ P).
  destruct P as (_ & _ & _ & C & _). apply chain_draws in C. rewrite !map_rev, map_map. f_equal. rewrite map_map. apply map_ext_in. intros s I1. apply view_reverse. rewrite Forall_forall in C. auto.
Qed.
Lemma reversed_strokes : forall sps rs, Forall2 turnedR sps (rev rs) -> strokes (concat rs) = map (option_map flip) (rev (strokes (concat sps))).
Proof.
  intros sps rs H. rewrite <- (rev_involutive rs). revert H. generalize (rev rs). clear rs. intros l H. induction H as [|sp x sps l A H IH]; auto.
  cbn [rev concat]. rewrite concat_app. cbn [concat]. rewrite app_nil_r, !strokes_app, rev_app_distr, map_app, IH, (turned_strokes _ _ A). auto.
Qed.
Lemma seg_reverse_twice : forall s, seg_reverse (seg_reverse s) = s.
Proof. intros [k a b r m]. unfold seg_reverse. cbn. f_equal. destruct k as [| | | | |g]; cbn; auto. destruct g. cbn. rewrite negb_involutive. reflexivity. Qed.
Lemma parts_unique : forall sp m ds cl a b m2 ds2 cl2 a2 b2, parts sp m ds cl a b -> parts sp m2 ds2 cl2 a2 b2 -> m = m2 /\ ds = ds2 /\ cl = cl2 /\ a = a2 /\ b = b2.
Proof.
  intros sp m ds cl a b m2 ds2 cl2 a2 b2 (-> & Km & Em & C & Z) (E & Km2 & Em2 & C2 & Z2). injection E as <- E. assert (a = a2) by congruence. subst a2.
  assert (Fz : forall l x y, (l = [] \/ exists z, l = [z] /\ s_kind z = KClose /\ s_start z = Some x /\ s_end z = Some y) -> filter is_draw l = []).
  { intros l x y [->|(z & -> & Kz & _)]; auto. cbn. unfold is_draw. rewrite Kz. auto. }
  assert (ds = ds2).
  { apply (f_equal (filter is_draw)) in E. rewrite !filter_app, (filter_draws ds), (filter_draws ds2), (Fz cl _ _ Z), (Fz cl2 _ _ Z2), !app_nil_r in E by (eapply chain_draws; eauto). auto. }
  subst ds2. apply app_inv_head in E. subst cl2. repeat split; auto.
  destruct (chain_J ds None a b C) as (_ & X & _). destruct (chain_J ds None a b2 C2) as (_ & Y & _). congruence.
Qed.
Lemma turned_twice : forall sp x y, turnedR sp x -> turnedR x y -> Forall2 alike sp y.
Proof.
  intros sp x y (m & ds & cl & a & b & P & T) T2. apply (turnedR_left _ _ _ T) in T2. destruct T2 as (m2 & ds2 & cl2 & a2 & b2 & P2 & T2).
  destruct (parts_unique _ _ _ _ _ _ _ _ _ _ _ (turned_parts _ _ _ _ _ _ P) P2) as (<- & <- & <- & <- & <-). apply F2_sym. apply (F2_trans _ _ _ T2). clear T2 P2 T.
  destruct P as (-> & Km & Em & C & Z). unfold turned. rewrite map_rev, rev_involutive, map_map. constructor.
  - unfold alike. cbn. auto.
  - apply F2_app.
    + replace (map (fun s => seg_reverse (seg_reverse s)) ds) with ds; [apply F2_refl|]. rewrite <- (map_id ds) at 1. apply map_ext. intros s. symmetry. apply seg_reverse_twice.
    + destruct Z as [->|(z & -> & Kz & Sz & Ez)]; cbn; constructor; [|constructor]. unfold alike. cbn. rewrite Kz, Sz, Ez. auto.
Qed.
Theorem path_reverse_twice : forall sps, Forall whole sps -> joined (concat sps) -> sps <> [] ->
  exists q r, path_reverse (concat sps) = Ok q /\ path_reverse q = Ok r /\ Forall2 alike (concat sps) r.
Proof.
  intros sps F H NE. destruct (path_reverse_at sps F H NE) as (rs & P & T & W & Jr & _). assert (NEr : rs <> []) by (intros ->; cbn in T; inversion T; subst; congruence).
  destruct (path_reverse_at rs W Jr NEr) as (ts & P2 & T2 & _). exists (concat rs), (concat ts). split; auto. split; auto.
  assert (X : Forall2 (Forall2 alike) sps ts).
  { assert (T3 : Forall2 turnedR (rev rs) ts). { rewrite <- (rev_involutive ts). clear - T2. induction T2; cbn; [constructor|]. apply Forall2_app; auto. }
    clear - T T3. revert ts T3. induction T; intros ts T3; inversion T3; subst; constructor; auto. apply (turned_twice x y); auto. }
  clear - X. induction X; cbn; [constructor|]. apply F2_app; auto.
Qed.

(** * Arcs replaced by curves *)
Definition sub_arc (conv : seg -> list seg) (s : seg) : list seg := if is_arc s then conv s else [s].
Definition arcs_ok (conv : seg -> list seg) (p : path) : Prop :=
  forall s, In s p -> is_arc s = true -> conv s <> [] /\ exists a b, s_start s = Some a /\ s_end s = Some b /\ chain a (conv s) b.
Lemma arc_draws : forall s, is_arc s = true -> is_move s = false /\ is_close s = false.
Proof. intros [k a b r m]. unfold is_arc, is_move, is_close. cbn. destruct k; auto; discriminate. Qed.
Lemma chain_step : forall w z a b e rest, chain a w b -> w <> [] -> ms e (Some a) -> J z (Some b) rest -> J z e (w ++ rest).
Proof.
  intros [|s w] z a b e rest C NE M H; [congruence|]. cbn in C. destruct C as (S1 & D & c & E & C). destruct (draws_split s D) as [Ms Cs]. cbn [app J]. rewrite Ms, Cs, S1, E.
  split; auto. split; [discriminate|]. destruct (chain_J w z c b C) as (X & Y & W). apply J_app. rewrite Y, W. auto.
Qed.
Lemma splice_at : forall (a : path) s v rest, pysplice (a ++ s :: rest) (Some (Z.of_nat (length a))) (Some (Z.of_nat (length a) + 1)%Z) v = a ++ v ++ rest.
Proof.
  intros a s v rest. unfold pysplice, lo, hi, pyclamp. 
  assert (E1 : (Z.of_nat (length a) <? 0)%Z = false) by (apply Z.ltb_ge; lia). assert (E2 : (Z.of_nat (length a) + 1 <? 0)%Z = false) by (apply Z.ltb_ge; lia). rewrite E1, E2.
  assert (N1 : Z.to_nat (Z.min (Z.max 0 (Z.of_nat (length a))) (Z.of_nat (length (a ++ s :: rest)))) = length a) by (rewrite app_length; cbn [length]; lia).
  assert (N2 : Z.to_nat (Z.min (Z.max 0 (Z.of_nat (length a) + 1)) (Z.of_nat (length (a ++ s :: rest)))) = length (a ++ [s])) by (rewrite !app_length; cbn [length]; lia).
  rewrite N1, N2. rewrite Nat.max_r by (rewrite app_length; lia).
  rewrite firstn_app, Nat.sub_diag, firstn_all. cbn [firstn]. rewrite app_nil_r. f_equal. f_equal. change (a ++ s :: rest) with (a ++ [s] ++ rest). rewrite app_assoc, skipn_app, skipn_all, Nat.sub_diag. reflexivity.
Qed.
Lemma approx_from_at : forall conv a rest, joined (a ++ rest) -> ended (a ++ rest) -> arcs_ok conv a -> match a with [] => True | s :: _ => is_arc s = false end ->
  approx_from conv (length a) (a ++ rest) = flat_map (sub_arc conv) a ++ rest /\ joined (flat_map (sub_arc conv) a ++ rest) /\ ended (flat_map (sub_arc conv) a ++ rest).
Proof.
  intros conv a. induction a as [|s a IH] using rev_ind; intros rest H E Ok1 Hd; [cbn; auto|].
  rewrite app_length. cbn [length]. rewrite Nat.add_1_r. cbn [approx_from]. rewrite <- app_assoc. cbn [app]. rewrite nth_error_app2, Nat.sub_diag by lia. cbn [nth_error].
  rewrite flat_map_app, <- app_assoc. cbn [flat_map]. rewrite app_nil_r. rewrite <- app_assoc in H, E. cbn [app] in H, E.
  assert (Ok2 : arcs_ok conv a) by (intros t I1; apply Ok1; apply in_or_app; auto).
  assert (Hd2 : match a with [] => True | s :: _ => is_arc s = false end) by (destruct a; auto).
  destruct (is_arc s) eqn:As; unfold sub_arc at 2 4 6; rewrite As; [|apply (IH (s :: rest)); auto].
  destruct (Ok1 s) as (NE & p & q & Sp & Eq & C); [apply in_or_app; cbn; auto|auto|].
  assert (NEa : a <> []) by (intros ->; cbn in Hd; congruence).
  assert (H2 : joined (a ++ conv s ++ rest)).
  { apply joined_iff. apply joined_iff in H. apply JJ_app in H; auto. apply JJ_app; auto. destruct H as [X Y]. split; auto. fold (zp a) in *. cbn [J] in Y. destruct (arc_draws s As) as [Ms Cs]. rewrite Ms, Sp, Eq in Y.
    apply (chain_step _ _ p q); tauto. }
  assert (E2 : ended (a ++ conv s ++ rest)).
  { apply Forall_app in E. destruct E as [E1 E2]. apply Forall_app. split; auto. apply Forall_app. split; [apply (chain_ended _ _ _ C)|apply (Forall_inv_tail E2)]. }
  unfold setslice. rewrite splice_at, validate_connections_same by auto. apply IH; auto.
Qed.
Theorem approximate_arcs_at : forall conv p, joined p -> ended p -> arcs_ok conv p -> match p with [] => True | s :: _ => is_arc s = false end ->
  approximate_arcs conv p = flat_map (sub_arc conv) p /\ joined (approximate_arcs conv p).
Proof.
  intros conv p H E O D. unfold approximate_arcs. pose proof (approx_from_at conv p []) as Q. rewrite !app_nil_r in Q. destruct (Q H E O D) as (A & B & _). rewrite A. auto.
Qed.

(** * Writing through a view *)
Lemma inside_fits : forall p u, inside p u -> fits_in p u. Proof. intros p u H. exact H. Qed.
Lemma restart_but : forall n m : seg, m = set_start n (s_start m) -> but_start n m.
Proof. intros n m E. rewrite E. repeat split. Qed.
Lemma put_keeps : forall a v b, a <> [] -> ended a -> s_end v <> None ->
  exists v2 b2, validate_connection (validate_connection (a ++ v :: b) (Z.of_nat (length a) - 1)) (Z.of_nat (length a)) = a ++ v2 :: b2 /\ restart b b2 /\ but_start v v2.
Proof.
  intros a v b NE E Hv. destruct (link_behind a (v :: b) NE (ended_eo a NE E)) as (b1 & P & R & S1). rewrite P. destruct b1 as [|v1 b1]; [contradiction|].
  cbn in R. destruct R as [-> R]. replace (Z.of_nat (length a)) with (Z.of_nat (length a) + Z.of_nat 0)%Z by lia.
  unfold validate_connection. rewrite vc_shift. destruct (link_front v1 b) as (v2 & b2 & E2 & R2 & W & A & B & C).
  unfold validate_connection in E2. change (Z.of_nat 0) with 0%Z. rewrite E2. exists v2, b2. split; auto. split; auto.
  assert (Ev1 : s_end v1 = s_end v) by (rewrite R; auto). rewrite W, A by congruence. rewrite R. repeat split.
Qed.
Lemma setitem_written : forall a o v b, a <> [] -> ended a -> draws v -> s_end v <> None ->
  exists q, setitem (a ++ o :: b) (Z.of_nat (length a)) v = Ok q /\ written (length a) v (a ++ o :: b) q.
Proof.
  intros a o v b NE E D Hv. unfold setitem. rewrite pyset_at. cbn [rbind]. destruct (put_keeps a v b NE E Hv) as (v2 & b2 & P & R & B). rewrite P.
  apply draws_split in D. destruct D as [Mv Cv]. rewrite Mv. cbn [rbind]. rewrite Cv. eexists. split; [reflexivity|].
  assert (Lb : length b2 = length b) by (destruct b, b2; cbn in R; try contradiction; auto; destruct R as [-> _]; auto).
  split; [rewrite !app_length; cbn; lia|]. split; [|split].
  - intros j J1 J2. destruct (Nat.lt_ge_cases j (length a)) as [L|L]; [rewrite !nth_error_app1 by auto; auto|]. rewrite !nth_error_app2 by auto. remember (j - length a) as i. destruct i as [|[|i]]; [lia|lia|]. cbn.
    destruct b, b2; cbn in R; try contradiction; auto. destruct R as [-> _]. auto.
  - exists v2. rewrite nth_error_app2, Nat.sub_diag by auto. cbn. auto.
  - intros s. rewrite !nth_error_app2 by lia. replace (S (length a) - length a) with 1 by lia. cbn. destruct b as [|n b], b2 as [|n2 b2]; cbn in R |- *; try contradiction; try discriminate. intros X. injection X as <-. destruct R as [_ R]. exists n2. split; auto. apply restart_but. auto.
Qed.
Lemma sub_set_written : forall p u i v, inside p u -> (- sub_len u <= i < sub_len u)%Z -> ended p -> draws v -> s_end v <> None ->
  let k := Z.to_nat (if (i <? 0)%Z then u_start u + sub_len u + i else u_start u + i)%Z in
  0 < k -> exists q, sub_set p u i v = Ok q /\ written k v p q.
Proof.
  intros p u i v I1 Hi E D Hv k K. unfold sub_set. assert (N : numeric_index u i = Z.of_nat k).
  { destruct I1 as (A & B & C). unfold numeric_index, k, sub_len in *. destruct (i <? 0)%Z eqn:Ei; [apply Z.ltb_lt in Ei|apply Z.ltb_ge in Ei]; lia. }
  rewrite N. assert (L : k < length p).
  { destruct I1 as (A & B & C). unfold k, sub_len in *. destruct (i <? 0)%Z eqn:Ei; [apply Z.ltb_lt in Ei|apply Z.ltb_ge in Ei]; lia. }
  clearbody k. destruct (nth_error p k) as [o|] eqn:O; [|apply nth_error_None in O; lia]. destruct (nth_error_split _ _ O) as (a & b & -> & <-).
  apply setitem_written; auto.
  - destruct a; [cbn in K; lia|discriminate].
  - apply Forall_app in E. tauto.
Qed.
Lemma between_at : forall a w b, between (a ++ w ++ b) (Z.of_nat (length a)) (Z.of_nat (length a) + Z.of_nat (length w) - 1) w.
Proof.
  intros a w b. split; [lia|]. intros k K. rewrite nth_error_app2 by lia. rewrite nth_error_app1 by lia. f_equal. lia.
Qed.
Lemma sub_list_segments : forall p u, inside p u -> sub_list p u = sub_segments p u.
Proof. intros p u I1. destruct (fits_split p u I1) as (a & w & b & -> & -> & E). rewrite E. apply sub_list_at. Qed.

(** * Partition, spelled out *)
Lemma ranges_between : forall cs a b, Forall2 (fun u c => between (a ++ concat cs ++ b) (u_start u) (u_end u) c) (ranges (Z.of_nat (length a)) cs) cs.
Proof.
  induction cs as [|c cs IH]; intros a b; cbn [ranges concat]; constructor.
  - cbn [u_start u_end]. rewrite <- app_assoc. apply between_at.
  - specialize (IH (a ++ c) b). rewrite app_length, Nat2Z.inj_add in IH. rewrite <- !app_assoc in IH. rewrite <- app_assoc. exact IH.
Qed.
Lemma extend_kinds : forall p q, map s_kind (extend p q) = map s_kind (p ++ q).
Proof.
  assert (U : forall p k s t, nth_error p k = Some s -> s_kind t = s_kind s -> map s_kind (upd p k t) = map s_kind p).
  { induction p as [|x p IH]; intros [|k] s t H K; cbn in *; try discriminate; [injection H as ->; congruence|f_equal; apply (IH k s t); auto]. }
  assert (B : forall p n j z, next_break p n = Some (j, z) -> nth_error p j = Some z).
  { induction p as [|x p IH]; intros n j z H; [discriminate|]. cbn in H. destruct n as [|n].
    - destruct (is_move x || is_close x); [injection H as <- <-; auto|]. destruct (next_break p 0) as [[j' z']|] eqn:Q; [|discriminate]. cbn in H. injection H as <- <-. cbn. apply (IH 0); auto.
    - destruct (next_break p n) as [[j' z']|] eqn:Q; [|discriminate]. cbn in H. injection H as <- <-. cbn. apply (IH n); auto. }
  assert (VS : forall p i, map s_kind (validate_subpath p i) = map s_kind p).
  { intros p i. unfold validate_subpath. destruct (_ || _); auto. destruct (next_break p (Z.to_nat i)) as [[j z]|] eqn:N; auto. destruct (is_move z); auto. apply (U _ _ z); auto. apply (B _ _ _ _ N). }
  intros p q. unfold extend. rewrite VS. generalize (p ++ q) as r. intros r. generalize (Z.of_nat (length p) - 1)%Z as i. intros i.
  unfold validate_connection, validate_connection2. destruct (_ || _); auto. destruct (nth_error r (Z.to_nat i)) as [f|] eqn:F; auto. destruct (nth_error r (S (Z.to_nat i))) as [s|] eqn:S1; auto.
  assert (L : s_kind (fst (link false f s)) = s_kind f /\ s_kind (snd (link false f s)) = s_kind s) by (unfold link; destruct (s_end f), (s_start s); auto; destruct (near p0 p1); auto).
  destruct (link false f s) as [f' s'] eqn:Lk. cbn [fst snd] in L. destruct L as [L1 L2].
  assert (X : map s_kind (upd r (Z.to_nat i) f') = map s_kind r) by (apply (U _ _ f); auto).
  rewrite <- X. apply (U _ _ s); auto. revert S1. generalize (Z.to_nat i). clear. induction r as [|x r IH]; intros [|n] H; cbn in *; try discriminate; auto.
Qed.

Definition closef (s : seg) : bool := match s_kind s with KClose => true | _ => false end.
Lemma closings_app : forall a b, closings (a ++ b) = closings a ++ closings b.
Proof. intros. unfold closings. rewrite filter_app, map_app. auto. Qed.
Lemma closings_alike : forall a b, Forall2 alike a b -> closings a = closings b.
Proof.
  intros a b H. induction H as [|s t a b A H IH]; auto. unfold closings in *. cbn [filter]. destruct A as (K & E & S). rewrite <- K. destruct (s_kind s) eqn:Ks; auto. cbn [map]. rewrite IH. f_equal.
  assert (S2 : s_start s = s_start t) by (apply S; congruence). destruct s, t. cbn in *. subst. reflexivity.
Qed.
Lemma closings_draws : forall ds, Forall draws ds -> closings ds = [].
Proof. intros ds F. induction F as [|s ds D F IH]; auto. unfold closings in *. cbn [filter]. destruct D as [A B]. destruct (s_kind s); auto; congruence. Qed.
Lemma closings_parts : forall sp m ds cl a b, parts sp m ds cl a b -> closings sp = map (fun _ => Some (SClose b a)) cl.
Proof.
  intros sp m ds cl a b (-> & Km & Em & C & Z). change (m :: ds ++ cl) with ([m] ++ ds ++ cl). rewrite !closings_app, (closings_draws ds) by apply (chain_draws _ _ _ C).
  assert (Fm : closings [m] = []) by (unfold closings; cbn; rewrite Km; auto). rewrite Fm. cbn [app].
  destruct Z as [->|(z & -> & Kz & Sz & Ez)]; auto. unfold closings. cbn. rewrite Kz. cbn. unfold view. rewrite Kz, Sz, Ez. auto.
Qed.
Lemma turned_closings : forall sp x, turnedR sp x -> closings x = map (option_map flip) (rev (closings sp)).
Proof.
  intros sp x (m & ds & cl & a & b & P & T). rewrite (closings_alike _ _ T), (closings_parts _ _ _ _ _ _ (turned_parts _ _ _ _ _ _ P)), (closings_parts _ _ _ _ _ _ P).
  destruct P as (_ & _ & _ & _ & [->|(z & -> & _)]); reflexivity.
Qed.
Lemma reversed_closings : forall sps rs, Forall2 turnedR sps (rev rs) -> closings (concat rs) = map (option_map flip) (rev (closings (concat sps))).
Proof.
  intros sps rs H. rewrite <- (rev_involutive rs). revert H. generalize (rev rs). clear rs. intros l H. induction H as [|sp x sps l A H IH]; auto.
  cbn [rev concat]. rewrite concat_app. cbn [concat]. rewrite app_nil_r, !closings_app, rev_app_distr, map_app, IH, (turned_closings _ _ A). auto.
Qed.
Theorem path_reverse_spec : forall p, wholes p -> joined p -> p <> [] ->
  exists q, path_reverse p = Ok q /\ wholes q /\ joined q /\
    strokes q = map (option_map flip) (rev (strokes p)) /\ closings q = map (option_map flip) (rev (closings p)).
Proof.
  intros p (sps & -> & F) H NE. assert (NEs : sps <> []) by (intros ->; apply NE; auto). destruct (path_reverse_at sps F H NEs) as (rs & P & T & W & Jr & _). exists (concat rs). split; auto. split; [exists rs; auto|]. split; auto.
  split; [apply reversed_strokes; auto|apply reversed_closings; auto].
Qed.
Theorem path_reverse_twice_spec : forall p, wholes p -> joined p -> p <> [] -> exists q r, path_reverse p = Ok q /\ path_reverse q = Ok r /\ Forall2 alike p r.
Proof. intros p (sps & -> & F) H NE. apply path_reverse_twice; auto. intros ->. apply NE; auto. Qed.
Theorem sub_reverse_spec : forall a sp b, whole sp -> joined (a ++ sp ++ b) -> wholes b ->
  exists sp' b', sub_reverse (a ++ sp ++ b) (PathEdit_Model.mkSub (Z.of_nat (length a)) (Z.of_nat (length a + length sp) - 1)) = Ok (a ++ sp' ++ b') /\
    whole sp' /\ strokes sp' = map (option_map flip) (rev (strokes sp)) /\ closings sp' = map (option_map flip) (rev (closings sp)) /\ Forall2 but_start b b' /\ tl b' = tl b.
Proof.
  intros a sp b W H (bs & -> & Fb). pose proof W as (m & ds & cl & x & y & E & Km & Em & C & Z).
  assert (Fo : follows (m :: ds ++ cl) (concat bs)).
  { pose proof (head_move bs Fb) as K. assert (S1 : starts (eo sp) (concat bs)).
    { apply joined_iff in H. destruct a as [|h a]; [cbn [app] in H; apply JJ_cons in H; tauto|]. apply JJ_app in H; [|discriminate]. destruct H as [_ H]. apply J_app in H. destruct H as [_ H]. apply J_JJ in H; auto. destruct H as [H _].
      subst sp. unfold eo. cbn [eof fold_left]. exact H. }
    unfold follows. destruct (concat bs) as [|n r]; auto. right. exists n, r. cbn in S1. subst sp. auto. }
  destruct (sub_reverse_at a m ds cl (concat bs) x y Km Em C Z Fo) as (b' & P & R). exists (turned m ds cl x y), b'.
  unfold window in P. rewrite <- E in P. rewrite Nat2Z.inj_add. rewrite P. split; auto. assert (Pp : parts sp m ds cl x y) by (repeat split; auto). assert (T : turnedR sp (turned m ds cl x y)) by (exists m, ds, cl, x, y; split; auto; apply F2_refl).
  split; [apply (turnedR_whole _ _ T)|]. split; [apply turned_strokes; auto|]. split; [apply turned_closings; auto|].
  destruct (concat bs) as [|n r], b' as [|n2 r2]; cbn in R; try contradiction; [split; auto|]. destruct R as [-> R]. split; [|reflexivity]. constructor; [apply restart_but; auto|]. clear. induction r; constructor; auto. repeat split.
Qed.
