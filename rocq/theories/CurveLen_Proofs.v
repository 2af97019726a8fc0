(** Proofs about lengths of segments. *)
Require Import Reals List Lra Lia Psatz Bool.
From Coquelicot Require Import Coquelicot.
Require Import Verif.Point_Model Verif.Curve_Model Verif.Curve_Spec Verif.Curve_Proofs.
Import ListNotations.
Open Scope R_scope.

Lemma sqr_nn : forall x : R, 0 <= x * x. Proof. apply Rle_0_sqr. Qed.
Lemma sum_sqr_nn : forall x y : R, 0 <= x * x + y * y.
Proof. intros. pose proof (sqr_nn x). pose proof (sqr_nn y). lra. Qed.
Lemma hypot_nn : forall x y, 0 <= hypot x y. Proof. intros. apply sqrt_pos. Qed.
Lemma hypot_sq : forall x y, hypot x y * hypot x y = x * x + y * y.
Proof. intros. apply sqrt_sqrt, sum_sqr_nn. Qed.
Lemma hypot_le : forall x y k, 0 <= k -> x * x + y * y <= k * k -> hypot x y <= k.
Proof. intros x y k K H. unfold hypot. rewrite <- (sqrt_square k K). now apply sqrt_le_1_alt. Qed.
Lemma hypot_tri : forall x y u v, hypot (x + u) (y + v) <= hypot x y + hypot u v.
Proof.
  intros. pose proof (hypot_nn x y) as A. pose proof (hypot_nn u v) as B.
  pose proof (hypot_sq x y) as C. pose proof (hypot_sq u v) as D.
  apply hypot_le; [lra|].
  assert (E : x * u + y * v <= hypot x y * hypot u v).
  { apply Rsqr_incr_0_var; [|now apply Rmult_le_pos]. unfold Rsqr.
    replace (hypot x y * hypot u v * (hypot x y * hypot u v)) with ((x * x + y * y) * (u * u + v * v)) by (rewrite <- C, <- D; ring).
    pose proof (sqr_nn (x * v - y * u)). lra. }
  lra.
Qed.
Lemma dist_hypot : forall p q, dist p q = hypot (px p - px q) (py p - py q).
Proof. intros. unfold dist, hypot. f_equal. ring. Qed.
Lemma dist_nn : forall p q, 0 <= dist p q. Proof. intros. apply sqrt_pos. Qed.
Lemma dist_tri : forall p q r, dist p r <= dist p q + dist q r.
Proof.
  intros. rewrite !dist_hypot.
  replace (px p - px r) with ((px p - px q) + (px q - px r)) by ring.
  replace (py p - py r) with ((py p - py q) + (py q - py r)) by ring. apply hypot_tri.
Qed.
Lemma dist_sym : forall p q, dist p q = dist q p.
Proof. intros. unfold dist. f_equal. ring. Qed.
Lemma distance_to_dist : forall p q, distance_to p q = dist p q.
Proof. intros. rewrite dist_hypot. reflexivity. Qed.
Lemma linear_length_dist : forall a b, linear_length a b = dist a b.
Proof. intros. unfold linear_length, distance, dist. f_equal. ring. Qed.

(** * Subdivision *)
Lemma polygon_app : forall l p m, polygon p (l ++ m) = polygon p l + polygon (last l p) m.
Proof.
  induction l as [|q r IH]; intros p m.
  - simpl. ring.
  - cbn [app polygon]. rewrite IH.
    replace (last (q :: r) p) with (last r q). ring.
    destruct r; auto. simpl. clear. revert p0 q p. induction r as [|x r IH]; intros; auto. simpl in *. destruct r; auto.
Qed.
Lemma steps_app : forall h ts s m us e, steps h s ts m -> steps h m us e -> steps h s (ts ++ us) e.
Proof.
  induction ts as [|t r IH]; intros s m us e A B; simpl in *.
  - now subst.
  - destruct A. split; eauto.
Qed.
Lemma steps_last : forall h ts s e d, steps h s ts e -> ts <> [] -> last ts d = e.
Proof.
  induction ts as [|t r IH]; intros s e d A N; [easy|]. destruct A as [A B]. destruct r as [|u r].
  - simpl in B. now subst.
  - change (last (u :: r) d = e). eapply IH; eauto. easy.
Qed.
Lemma steps_weaken : forall h k ts s e, h <= k -> steps h s ts e -> steps k s ts e.
Proof. induction ts as [|t r IH]; intros s e H A; simpl in *; auto. destruct A. split; [lra|auto]. Qed.
Lemma steps_le : forall h ts s e, steps h s ts e -> s <= e.
Proof. induction ts as [|t r IH]; intros s e A; simpl in *; [lra|]. destruct A as [A B]. apply IH in B. lra. Qed.
Lemma map_last : forall (A B : Type) (f : A -> B) l d, last (map f l) (f d) = f (last l d).
Proof. induction l as [|x [|y r] IH]; intros d; auto. exact (IH d). Qed.

Lemma segment_length_eq : forall n f s e sp ep err md d,
  segment_length (S n) f s e sp ep err md d =
  let mid := (s + e) / 2 in
  if (if Rlt_dec err (dist sp (f mid) + dist (f mid) ep - dist sp ep) then true else Nat.ltb d md)
  then match segment_length n f s mid sp (f mid) err md (S d), segment_length n f mid e (f mid) ep err md (S d) with
       | Some a, Some b => Some (a + b)
       | _, _ => None
       end
  else Some (dist sp (f mid) + dist (f mid) ep).
Proof.
  intros. cbn -[distance_to Nat.ltb]. rewrite !distance_to_dist, (dist_sym ep sp), (dist_sym _ sp), (dist_sym ep _). reflexivity.
Qed.
Lemma segment_length_polygon : forall f err md n s e d l, s < e ->
  segment_length n f s e (f s) (f e) err md d = Some l ->
  exists ts, steps ((e - s) / 2 ^ S (md - d)) s ts e /\ l = polygon (f s) (map f ts).
Proof.
  intros f err md. induction n as [|n IH]; intros s e d l SE H; [easy|].
  rewrite segment_length_eq in H. cbv zeta in H.
  set (mid := (s + e) / 2) in *. assert (M : s < mid < e) by (unfold mid; lra).
  destruct (if Rlt_dec _ _ then true else Nat.ltb d md) eqn:C.
  - destruct (segment_length n f s mid _ _ _ _ _) as [u|] eqn:U; [|easy].
    destruct (segment_length n f mid e _ _ _ _ _) as [v|] eqn:V; [|easy]. inversion H; subst; clear H.
    apply IH in U as (ts & T1 & T2); [|lra]. apply IH in V as (us & U1 & U2); [|lra].
    exists (ts ++ us). split.
    + apply steps_app with mid.
      * eapply steps_weaken; [|exact T1].
        replace (mid - s) with ((e - s) / 2) by (unfold mid; lra).
        destruct (Nat.le_gt_cases md d) as [L|L].
        -- replace (md - S d)%nat with 0%nat by lia. replace (md - d)%nat with 0%nat by lia. simpl. lra.
        -- replace (md - d)%nat with (S (md - S d)) by lia. simpl. right. field. apply pow_nonzero. lra.
      * eapply steps_weaken; [|exact U1].
        replace (e - mid) with ((e - s) / 2) by (unfold mid; lra).
        destruct (Nat.le_gt_cases md d) as [L|L].
        -- replace (md - S d)%nat with 0%nat by lia. replace (md - d)%nat with 0%nat by lia. simpl. lra.
        -- replace (md - d)%nat with (S (md - S d)) by lia. simpl. right. field. apply pow_nonzero. lra.
    + rewrite map_app, polygon_app, map_last, <- T2, U2. do 2 f_equal.
      destruct ts as [|t r]. { simpl in T1. lra. } rewrite (steps_last _ _ _ _ s T1); easy.
  - inversion H; subst; clear H. exists [mid; e]. split.
    + destruct (Rlt_dec _ _); [easy|]. apply Nat.ltb_ge in C. replace (md - d)%nat with 0%nat by lia.
      simpl. unfold mid. repeat split; lra.
    + simpl. ring.
Qed.
Lemma polygon_chord : forall h f ts s e, steps h s ts e -> dist (f s) (f e) <= polygon (f s) (map f ts).
Proof.
  induction ts as [|t r IH]; intros s e A; simpl in *.
  - subst. unfold dist. replace (_ + _) with 0 by ring. rewrite sqrt_0. lra.
  - destruct A as [A B]. apply IH in B. pose proof (dist_tri (f s) (f t) (f e)). lra.
Qed.
Lemma polygon_upper : forall (U : R -> R) f h ts s e,
  (forall s t, 0 <= s -> s <= t -> t <= 1 -> dist (f s) (f t) <= U t - U s) -> 0 <= s -> e <= 1 -> steps h s ts e ->
  polygon (f s) (map f ts) <= U e - U s.
Proof.
  intros U f h ts s e H. revert s. induction ts as [|t r IH]; intros s S0 E1 A; simpl in *.
  - subst. lra.
  - destruct A as [A B]. pose proof (steps_le _ _ _ _ B). apply IH in B; try lra. specialize (H s t). lra.
Qed.
(** The subdivision of a curve of bounded speed ends. *)
Lemma segment_length_ends : forall f K err md k n s e d,
  (forall s t, 0 <= s -> s <= t -> t <= 1 -> dist (f s) (f t) <= K * (t - s)) -> 0 < err -> 0 <= s -> e <= 1 -> s < e ->
  K * (e - s) <= err * 2 ^ k -> (Nat.max (md - d) k < n)%nat ->
  exists l, segment_length n f s e (f s) (f e) err md d = Some l.
Proof.
  intros f K err md k n s e d HK E. revert k s e d. induction n as [|n IH]; intros k s e d S0 E1 SE B N; [lia|].
  rewrite segment_length_eq. cbv zeta. set (mid := (s + e) / 2). assert (M : s < mid < e) by (unfold mid; lra).
  destruct (if Rlt_dec _ _ then true else Nat.ltb d md) eqn:C.
  - assert (Q : (Nat.max (md - S d) (k - 1) < n)%nat).
    { destruct (Nat.eq_dec (Nat.max (md - d) k) 0) as [Z|Z]; [|lia].
      exfalso. destruct (Rlt_dec err _) as [G|G].
      - pose proof (HK s mid ltac:(lra) ltac:(lra) ltac:(lra)). pose proof (HK mid e ltac:(lra) ltac:(lra) ltac:(lra)). pose proof (dist_nn (f s) (f e)).
        replace k with 0%nat in B by lia. simpl in B. lra.
      - apply Nat.ltb_lt in C. lia. }
    assert (B2 : K * ((e - s) / 2) <= err * 2 ^ (k - 1)).
    { destruct k as [|k].
      - simpl in *. destruct (Rle_dec 0 K); nra.
      - replace (S k - 1)%nat with k by lia. simpl in B. lra. }
    destruct (IH (k - 1)%nat s mid (S d)) as [u ->]; [lra|lra|lra| |lia|].
    { replace (mid - s) with ((e - s) / 2) by (unfold mid; lra). auto. }
    destruct (IH (k - 1)%nat mid e (S d)) as [v ->]; [lra|lra|lra| |lia|].
    { replace (e - mid) with ((e - s) / 2) by (unfold mid; lra). auto. }
    eauto.
  - eauto.
Qed.

(** * The length of a smooth curve *)
Lemma cont_of_derive : forall (f : R -> R) (x : R), ex_derive f x -> continuous f x.
Proof. intros. now apply (ex_derive_continuous (K := R_AbsRing) (V := R_NormedModule)). Qed.
(** [f] moves with the continuous velocity ([dx], [dy]). *)
Definition moves (f : R -> pt) (dx dy : R -> R) : Prop :=
  (forall t, is_derive (fun u => px (f u)) t (dx t)) /\ (forall t, is_derive (fun u => py (f u)) t (dy t)) /\
  (forall t, continuous dx t) /\ (forall t, continuous dy t).
Lemma moves_speed : forall f dx dy, moves f dx dy -> forall t, speed f t = hypot (dx t) (dy t).
Proof.
  intros f dx dy (A & B & _) t. unfold speed, hypot.
  assert (E : Derive (fun u => px (f u)) t = dx t) by (apply is_derive_unique, A).
  assert (F : Derive (fun u => py (f u)) t = dy t) by (apply is_derive_unique, B).
  rewrite E, F. f_equal. ring.
Qed.
Lemma hypot_continuous : forall (dx dy : R -> R) t, continuous dx t -> continuous dy t -> continuous (fun u => hypot (dx u) (dy u)) t.
Proof.
  intros dx dy t A B. unfold hypot. apply continuous_comp with (f := fun u => dx u * dx u + dy u * dy u).
  - apply (continuous_plus (V := R_NormedModule)); apply (continuous_mult (K := R_AbsRing)); auto.
  - apply continuity_pt_filterlim. apply continuity_pt_sqrt. apply sum_sqr_nn.
Qed.
Lemma moves_length : forall f dx dy, moves f dx dy -> forall s e, s <= e ->
  exists l, is_RInt (speed f) s e l /\ dist (f s) (f e) <= l.
Proof.
  intros f dx dy H s e SE. pose proof (moves_speed _ _ _ H) as Sp. destruct H as (A & B & C & D).
  assert (X : ex_RInt (fun u => hypot (dx u) (dy u)) s e).
  { apply (ex_RInt_continuous (V := R_CompleteNormedModule)). intros. now apply hypot_continuous. }
  destruct X as [l X]. exists l. split.
  - eapply is_RInt_ext; [|exact X]. intros. simpl. now rewrite Sp.
  - rewrite dist_sym, dist_hypot.
    assert (Ix : is_RInt dx s e (minus (px (f e)) (px (f s)))) by (apply (is_RInt_derive (fun u => px (f u))); auto).
    assert (Iy : is_RInt dy s e (minus (py (f e)) (py (f s)))) by (apply (is_RInt_derive (fun u => py (f u))); auto).
    pose proof (is_RInt_fct_extend_pair (fun t => (dx t, dy t)) s e _ _ Ix Iy) as I2.
    assert (NE : forall x y : R, norm (V := prod_NormedModule R_AbsRing R_NormedModule R_NormedModule) (x, y) = hypot x y).
    { intros x y. unfold norm. simpl. unfold prod_norm. simpl. unfold hypot, norm. simpl. unfold abs. simpl.
      f_equal. rewrite <- !Rsqr_abs || idtac. rewrite !Rmult_1_r. rewrite <- !Rabs_mult. rewrite !Rabs_pos_eq; auto; apply sqr_nn. }
    pose proof (norm_RInt_le (V := prod_NormedModule R_AbsRing R_NormedModule R_NormedModule) _ (fun u => hypot (dx u) (dy u)) s e _ l SE
      (fun x _ => Req_le _ _ (NE (dx x) (dy x))) I2 X) as N.
    rewrite NE in N. exact N.
Qed.

Definition J (f : R -> R) (a b : R) : R := RInt f a b.
Lemma J_unique : forall f a b (l : R), is_RInt f a b l -> J f a b = l.
Proof. intros. now apply is_RInt_unique. Qed.
Lemma J_point : forall f a, J f a a = 0.
Proof. intros. apply J_unique, (is_RInt_point (V := R_NormedModule)). Qed.
Lemma is_RInt_J : forall f a b c (l m : R), is_RInt f a b l -> is_RInt f b c m -> is_RInt f a c (l + m).
Proof. intros. now apply (is_RInt_Chasles (V := R_NormedModule)) with b. Qed.
Lemma moves_RInt : forall f dx dy, moves f dx dy -> forall s e, s <= e ->
  is_RInt (speed f) s e (J (speed f) s e) /\ dist (f s) (f e) <= J (speed f) s e.
Proof.
  intros f dx dy H s e SE. destruct (moves_length _ _ _ H s e SE) as (l & A & B).
  rewrite (J_unique _ _ _ _ A). auto.
Qed.
Lemma moves_U : forall f dx dy, moves f dx dy -> forall s t, 0 <= s -> s <= t ->
  J (speed f) s t = J (speed f) 0 t - J (speed f) 0 s.
Proof.
  intros f dx dy H s t S0 ST.
  destruct (moves_RInt _ _ _ H 0 s S0) as [A _]. destruct (moves_RInt _ _ _ H s t ST) as [B _].
  pose proof (is_RInt_J _ _ _ _ _ _ A B) as C. apply J_unique in C. rewrite C. ring.
Qed.
Lemma RInt_bound : forall f dx dy K s e, moves f dx dy -> s <= e -> (forall t, s <= t <= e -> hypot (dx t) (dy t) <= K) ->
  J (speed f) s e <= K * (e - s).
Proof.
  intros f dx dy K s e H SE B. destruct (moves_RInt _ _ _ H s e SE) as [A _].
  assert (C : is_RInt (fun _ => K) s e (K * (e - s))).
  { pose proof (is_RInt_const s e K) as C. unfold scal in C. simpl in C. unfold mult in C. simpl in C. now rewrite Rmult_comm. }
  apply (is_RInt_le _ _ _ _ _ _ SE A C). intros t T. rewrite (moves_speed _ _ _ H). apply B. lra.
Qed.
(** The piecewise chord of a curve whose velocity changes at a bounded rate. *)
Lemma moves_gap : forall f dx dy M s e, moves f dx dy -> s <= e ->
  (forall u, s <= u <= e -> hypot (dx u - dx s) (dy u - dy s) <= M * (u - s)) ->
  J (speed f) s e - dist (f s) (f e) <= M * (e - s) * (e - s).
Proof.
  intros f dx dy M s e H SE L.
  set (vx := dx s) in *. set (vy := dy s) in *.
  assert (IL : is_RInt (fun u => M * (u - s)) s e (M * (e - s) * (e - s) / 2)).
  { replace (M * (e - s) * (e - s) / 2) with (minus (M * (e - s) * (e - s) / 2) (M * (s - s) * (s - s) / 2)) by (unfold minus, plus, opp; simpl; lra).
    apply (is_RInt_derive (fun u => M * (u - s) * (u - s) / 2)).
    - intros. auto_derive; auto. field.
    - intros. apply (continuous_scal_r M (fun u => u - s)). apply (continuous_minus (V := R_NormedModule)); [apply continuous_id | apply continuous_const]. }
  set (g := fun u => P (px (f u) - vx * (u - s)) (py (f u) - vy * (u - s))).
  assert (G : moves g (fun u => dx u - vx) (fun u => dy u - vy)).
  { destruct H as (A & B & C & D). split; [|split; [|split]].
    - intros t. unfold g. simpl. apply (is_derive_minus (V := R_NormedModule) (fun u => px (f u)) (fun u => vx * (u - s))); auto. auto_derive; auto. ring.
    - intros t. unfold g. simpl. apply (is_derive_minus (V := R_NormedModule) (fun u => py (f u)) (fun u => vy * (u - s))); auto. auto_derive; auto. ring.
    - intros t. apply (continuous_minus (V := R_NormedModule)); auto. apply continuous_const.
    - intros t. apply (continuous_minus (V := R_NormedModule)); auto. apply continuous_const. }
  destruct (moves_RInt _ _ _ G s e SE) as [G1 G2].
  assert (G3 : J (speed g) s e <= M * (e - s) * (e - s) / 2).
  { apply (is_RInt_le _ _ _ _ _ _ SE G1 IL). intros t T. rewrite (moves_speed _ _ _ G). apply L. lra. }
  destruct (moves_RInt _ _ _ H s e SE) as [H1 _].
  assert (H3 : J (speed f) s e <= (e - s) * hypot vx vy + M * (e - s) * (e - s) / 2).
  { pose proof (is_RInt_plus _ _ _ _ _ _ (is_RInt_const s e (hypot vx vy)) IL) as I.
    apply (is_RInt_le _ _ _ _ _ _ SE H1 I). intros t T. rewrite (moves_speed _ _ _ H). unfold plus. simpl.
    pose proof (hypot_tri vx vy (dx t - vx) (dy t - vy)) as Q. specialize (L t ltac:(lra)).
    replace (vx + (dx t - vx)) with (dx t) in Q by ring. replace (vy + (dy t - vy)) with (dy t) in Q by ring. lra. }
  assert (H4 : (e - s) * hypot vx vy <= dist (f s) (f e) + dist (g s) (g e)).
  { replace ((e - s) * hypot vx vy) with (hypot ((e - s) * vx) ((e - s) * vy)).
    - rewrite (dist_sym (f s)), !dist_hypot.
      pose proof (hypot_tri (px (f e) - px (f s)) (py (f e) - py (f s)) (px (g s) - px (g e)) (py (g s) - py (g e))) as Q.
      eapply Rle_trans; [|exact Q]. right. unfold g. simpl. f_equal; ring.
    - unfold hypot. replace ((e - s) * vx * ((e - s) * vx) + (e - s) * vy * ((e - s) * vy)) with ((e - s) * (e - s) * (vx * vx + vy * vy)) by ring.
      rewrite sqrt_mult_alt by apply sqr_nn. rewrite sqrt_square by lra. reflexivity. }
  lra.
Qed.
Lemma polygon_gap : forall f dx dy M h ts s e, moves f dx dy -> 0 <= M -> 0 <= s -> e <= 1 ->
  (forall u v, 0 <= u -> u <= v -> v <= 1 -> hypot (dx v - dx u) (dy v - dy u) <= M * (v - u)) -> steps h s ts e ->
  J (speed f) s e - polygon (f s) (map f ts) <= M * h * (e - s).
Proof.
  intros f dx dy M h ts s e H M0 S0 E1 L. revert s S0. induction ts as [|t r IH]; intros s S0 A; simpl in *.
  - subst. rewrite J_point. lra.
  - destruct A as [A B]. pose proof (steps_le _ _ _ _ B) as TE. apply IH in B; [|lra].
    assert (C : J (speed f) s e = J (speed f) s t + J (speed f) t e).
    { rewrite (moves_U _ _ _ H s e), (moves_U _ _ _ H s t), (moves_U _ _ _ H t e) by lra. ring. }
    pose proof (moves_gap f dx dy M s t H ltac:(lra)) as G. rewrite C.
    assert (G2 : J (speed f) s t - dist (f s) (f t) <= M * (t - s) * (t - s)). { apply G. intros u U. apply L; lra. }
    assert (M * (t - s) * (t - s) <= M * h * (t - s)).
    { apply Rmult_le_compat_r; [lra|]. apply Rmult_le_compat_l; lra. }
    replace (M * h * (e - s)) with (M * h * (t - s) + M * h * (e - t)) by ring. lra.
Qed.
(** Everything together: subdivision measures a smooth curve. *)
Lemma line_length_smooth : forall f dx dy K M err md k n, moves f dx dy -> 0 <= M ->
  (forall t, 0 <= t <= 1 -> hypot (dx t) (dy t) <= K) ->
  (forall u v, 0 <= u -> u <= v -> v <= 1 -> hypot (dx v - dx u) (dy v - dy u) <= M * (v - u)) ->
  0 < err -> K <= err * 2 ^ k -> (Nat.max md k < n)%nat ->
  exists l L, line_length n f err md = Some l /\ arc_length f L /\ dist (f 0) (f 1) <= l <= L /\ L - l <= M / 2 ^ S md /\
    exists ts, steps (/ 2 ^ S md) 0 ts 1 /\ l = polygon (f 0) (map f ts).
Proof.
  intros f dx dy K M err md k n H M0 HK HM E B N. unfold line_length.
  destruct (segment_length_ends f K err md k n 0 1 0) as [l L]; auto; try lra.
  - intros s t S0 ST T1. destruct (moves_RInt _ _ _ H s t ST) as [_ D]. eapply Rle_trans; [exact D|].
    apply (RInt_bound f dx dy); auto. intros. apply HK. lra.
  - lia.
  - exists l, (J (speed f) 0 1). destruct (segment_length_polygon _ _ _ _ _ _ _ _ Rlt_0_1 L) as (ts & T1 & T2).
    replace ((1 - 0) / 2 ^ S (md - 0)) with (/ 2 ^ S md) in T1 by (rewrite Nat.sub_0_r; unfold Rdiv; ring).
    split; auto. split; [apply (moves_RInt _ _ _ H); lra|]. split; [split|split].
    + rewrite T2. eapply polygon_chord; eauto.
    + rewrite T2. replace (J (speed f) 0 1) with (J (speed f) 0 1 - J (speed f) 0 0) by (rewrite J_point; ring).
      eapply (polygon_upper (fun t => J (speed f) 0 t)); eauto; try lra.
      intros s t S0 ST T3. rewrite <- (moves_U _ _ _ H); auto. apply (moves_RInt _ _ _ H). auto.
    + rewrite T2. pose proof (polygon_gap f dx dy M _ ts 0 1 H M0 ltac:(lra) ltac:(lra) HM T1) as G.
      unfold Rdiv. lra.
    + eauto.
Qed.

(** * Cubic curves *)
Definition cv (x0 x1 x2 x3 t : R) : R := 3 * (x1 - x0) * (1 - t) ^ 2 + 6 * (x2 - x1) * (1 - t) * t + 3 * (x3 - x2) * t ^ 2.
Lemma cubic_moves : forall a c d b,
  moves (cubic_point a c d b) (cv (px a) (px c) (px d) (px b)) (cv (py a) (py c) (py d) (py b)).
Proof.
  intros. split; [|split; [|split]]; intros t.
  - unfold cubic_point, cubic1, cv. simpl. auto_derive; auto. ring.
  - unfold cubic_point, cubic1, cv. simpl. auto_derive; auto. ring.
  - apply cont_of_derive. unfold cv. auto_derive; auto.
  - apply cont_of_derive. unfold cv. auto_derive; auto.
Qed.
Lemma cubic_abs_derivative : forall a c d b t, abs_derivative a c d b t = speed (cubic_point a c d b) t.
Proof. intros. rewrite (moves_speed _ _ _ (cubic_moves a c d b)). reflexivity. Qed.
Lemma hypot_scal : forall k x y, 0 <= k -> hypot (k * x) (k * y) = k * hypot x y.
Proof.
  intros k x y K. unfold hypot. replace (k * x * (k * x) + k * y * (k * y)) with (k * k * (x * x + y * y)) by ring.
  rewrite sqrt_mult_alt by apply sqr_nn. now rewrite sqrt_square.
Qed.
Lemma cubic_speed_le : forall a c d b t, 0 <= t <= 1 ->
  speed (cubic_point a c d b) t <= 3 * (1 - t) ^ 2 * dist a c + 6 * (1 - t) * t * dist c d + 3 * t ^ 2 * dist d b.
Proof.
  intros a c d b t T. rewrite (moves_speed _ _ _ (cubic_moves a c d b)).
  rewrite (dist_sym a c), (dist_sym c d), (dist_sym d b), !dist_hypot.
  assert (0 <= 3 * (1 - t) ^ 2) by (pose proof (pow2_ge_0 (1 - t)); lra).
  assert (0 <= 6 * (1 - t) * t) by nra.
  assert (0 <= 3 * t ^ 2) by (pose proof (pow2_ge_0 t); lra).
  rewrite <- !hypot_scal by auto.
  eapply Rle_trans; [|apply Rplus_le_compat_r, hypot_tri]. eapply Rle_trans; [|apply hypot_tri].
  right. unfold cv. f_equal; ring.
Qed.
Lemma cubic_length_le : forall a c d b L, arc_length (cubic_point a c d b) L -> L <= polygon a [c; d; b].
Proof.
  intros a c d b L H. unfold arc_length in H.
  set (W := fun t => - (1 - t) ^ 3 * dist a c + (3 * t ^ 2 - 2 * t ^ 3) * dist c d + t ^ 3 * dist d b).
  assert (I : is_RInt (fun t => 3 * (1 - t) ^ 2 * dist a c + 6 * (1 - t) * t * dist c d + 3 * t ^ 2 * dist d b) 0 1 (minus (W 1) (W 0))).
  { apply (is_RInt_derive W).
    - intros. unfold W. auto_derive; auto. ring.
    - intros. apply cont_of_derive. auto_derive; auto. }
  assert (Z : minus (W 1) (W 0) = polygon a [c; d; b]) by (unfold minus, plus, opp, W; simpl; ring).
  rewrite Z in I. apply (is_RInt_le _ _ _ _ _ _ Rle_0_1 H I). intros t T. apply cubic_speed_le. lra.
Qed.
Lemma bend_hypot : forall a c d, bend a c d = hypot (px a - 2 * px c + px d) (py a - 2 * py c + py d).
Proof. intros. unfold bend. rewrite dist_hypot. simpl. now rewrite !Rminus_0_r. Qed.
Lemma cubic_velocity : forall a c d b u v, 0 <= u -> u <= v -> v <= 1 ->
  hypot (cv (px a) (px c) (px d) (px b) v - cv (px a) (px c) (px d) (px b) u)
    (cv (py a) (py c) (py d) (py b) v - cv (py a) (py c) (py d) (py b) u) <= 6 * (bend a c d + bend c d b) * (v - u).
Proof.
  intros a c d b u v U UV V.
  set (w := (u + v) / 2).
  assert (E : forall x0 x1 x2 x3, cv x0 x1 x2 x3 v - cv x0 x1 x2 x3 u = 6 * (v - u) * (1 - w) * (x0 - 2 * x1 + x2) + 6 * (v - u) * w * (x1 - 2 * x2 + x3)).
  { intros. unfold cv, w. field. }
  rewrite !E. eapply Rle_trans; [apply hypot_tri|].
  assert (0 <= w <= 1) by (unfold w; lra).
  assert (0 <= 6 * (v - u)) by lra.
  rewrite !hypot_scal by (apply Rmult_le_pos; lra). rewrite <- !bend_hypot.
  assert (0 <= bend a c d) by apply dist_nn. assert (0 <= bend c d b) by apply dist_nn.
  replace (6 * (bend a c d + bend c d b) * (v - u)) with (6 * (v - u) * 1 * bend a c d + 6 * (v - u) * 1 * bend c d b) by ring.
  apply Rplus_le_compat; (apply Rmult_le_compat_r; [auto|]); apply Rmult_le_compat_l; lra.
Qed.
Lemma polygon3 : forall a c d b, polygon a [c; d; b] = dist a c + dist c d + dist d b.
Proof. intros. simpl. ring. Qed.
Lemma cubic_length_spec : forall a c d b err md k n, 0 < err -> 3 * polygon a [c; d; b] <= err * 2 ^ k -> (Nat.max md k < n)%nat ->
  exists l L, cubic_length n a c d b err md = Some l /\ arc_length (cubic_point a c d b) L /\
    dist a b <= l <= L /\ L <= polygon a [c; d; b] /\ L - l <= 6 * (bend a c d + bend c d b) / 2 ^ S md /\
    exists ts, steps (/ 2 ^ S md) 0 ts 1 /\ l = polygon a (map (cubic_point a c d b) ts).
Proof.
  intros a c d b err md k n E B N.
  destruct (line_length_smooth (cubic_point a c d b) _ _ (3 * polygon a [c; d; b]) (6 * (bend a c d + bend c d b)) err md k n (cubic_moves a c d b))
    as (l & L & H1 & H2 & H3 & H4 & ts & H5 & H6); auto.
  - pose proof (dist_nn (P (px a - 2 * px c + px d) (py a - 2 * py c + py d)) (P 0 0)). pose proof (dist_nn (P (px c - 2 * px d + px b) (py c - 2 * py d + py b)) (P 0 0)). unfold bend. lra.
  - intros t T. rewrite <- (moves_speed _ _ _ (cubic_moves a c d b)). eapply Rle_trans; [apply cubic_speed_le; auto|].
    rewrite polygon3. pose proof (dist_nn a c). pose proof (dist_nn c d). pose proof (dist_nn d b).
    assert (3 * (1 - t) ^ 2 <= 3) by nra. assert (6 * (1 - t) * t <= 3) by (pose proof (pow2_ge_0 (1 - 2 * t)); nra). assert (3 * t ^ 2 <= 3) by nra.
    assert (3 * (1 - t) ^ 2 * dist a c <= 3 * dist a c) by (apply Rmult_le_compat_r; auto).
    assert (6 * (1 - t) * t * dist c d <= 3 * dist c d) by (apply Rmult_le_compat_r; auto).
    assert (3 * t ^ 2 * dist d b <= 3 * dist d b) by (apply Rmult_le_compat_r; auto). lra.
  - apply cubic_velocity.
  - assert (P0 : cubic_point a c d b 0 = a) by (apply (point_0 true (GCubic a c d b) a); auto; easy).
    assert (P1 : cubic_point a c d b 1 = b) by (apply (point_1 true (GCubic a c d b))).
    rewrite P0 in *. rewrite P1 in *. exists l, L. split; [auto|]. split; [auto|]. split; [auto|]. split; [now apply cubic_length_le|]. split; [auto|]. eauto.
Qed.

(** * Quadratic curves *)
Section SqrtQuadratic.
Variables (r B C : R).
Let A := r * r.
Let q (t : R) := A * (t * t) + B * t + C.
Let D := 4 * A * C - B * B.
Hypothesis r0 : 0 < r.
Hypothesis D0 : 0 < D.
Lemma q_pos : forall t, 0 < q t.
Proof.
  intros t. assert (0 < A) by (apply Rmult_lt_0_compat; auto).
  apply (Rmult_lt_reg_l (4 * A)); [lra|]. rewrite Rmult_0_r.
  replace (4 * A * q t) with (D + (2 * A * t + B) * (2 * A * t + B)) by (unfold q, D; ring).
  pose proof (sqr_nn (2 * A * t + B)). lra.
Qed.
Lemma log_arg_pos : forall t, 0 < 2 * r * sqrt (q t) + 2 * A * t + B.
Proof.
  intros t. pose proof (q_pos t) as Q. pose proof (sqrt_lt_R0 _ Q) as W. pose proof (sqrt_sqrt _ (Rlt_le _ _ Q)) as S.
  set (w := sqrt (q t)) in *. set (z := 2 * A * t + B).
  assert (E : (2 * r * w) * (2 * r * w) = D + z * z).
  { replace ((2 * r * w) * (2 * r * w)) with (4 * A * (w * w)) by (unfold A; ring). rewrite S. unfold q, D, z. ring. }
  assert (0 < 2 * r * w) by (apply Rmult_lt_0_compat; lra).
  destruct (Rle_dec 0 (2 * r * w + z)) as [L|L].
  - destruct L as [L|L]; [unfold z in L; lra|]. exfalso. assert (z = - (2 * r * w)) by lra. rewrite H0 in E. lra.
  - exfalso. assert (z < - (2 * r * w)) by lra. nra.
Qed.
Let F (t : R) := (2 * A * t + B) * sqrt (q t) / (4 * A) + D / (8 * A * r) * ln (2 * r * sqrt (q t) + 2 * A * t + B).
Lemma F_deriv : forall t, is_derive F t (sqrt (q t)).
Proof.
  intros t. pose proof (q_pos t) as Q. pose proof (sqrt_lt_R0 _ Q) as W. pose proof (sqrt_sqrt _ (Rlt_le _ _ Q)) as S.
  pose proof (log_arg_pos t) as L.
  assert (A0 : 0 < A) by (apply Rmult_lt_0_compat; auto).
  unfold F, q. auto_derive.
  - fold (q t). repeat split; auto.
  - fold (q t). set (w := sqrt (q t)) in *.
    assert (EC : C = w * w - A * (t * t) - B * t) by (rewrite S; unfold q; ring).
    unfold D. clear S Q. clearbody w. rewrite EC in *. clear EC. unfold A in *. field. lra.
Qed.
Lemma sqrt_quadratic_int : is_RInt (fun t => sqrt (q t)) 0 1 (F 1 - F 0).
Proof.
  apply (is_RInt_derive F).
  - intros. apply F_deriv.
  - intros t _. apply cont_of_derive. unfold q. auto_derive. apply q_pos.
Qed.
End SqrtQuadratic.
(** The closed formula of the code. *)
Lemma sqrt_quadratic : forall r B C, 0 < r -> 0 < 4 * (r * r) * C - B * B ->
  is_RInt (fun t => sqrt (r * r * (t * t) + B * t + C)) 0 1
    ((2 * (r * r) * r * (2 * sqrt (r * r + B + C)) + r * B * (2 * sqrt (r * r + B + C) - 2 * sqrt C)
      + (4 * C * (r * r) - B ^ 2) * ln ((2 * r + B / r + 2 * sqrt (r * r + B + C)) / (B / r + 2 * sqrt C))) / (4 * (2 * (r * r) * r))).
Proof.
  intros r B C R0 D0. pose proof (sqrt_quadratic_int r B C R0 D0) as I.
  pose proof (log_arg_pos r B C R0 D0 0) as L0. pose proof (log_arg_pos r B C R0 D0 1) as L1.
  cbv beta in I, L0, L1.
  replace (r * r * (0 * 0) + B * 0 + C) with C in * by ring.
  replace (r * r * (1 * 1) + B * 1 + C) with (r * r + B + C) in * by ring.
  set (S := sqrt (r * r + B + C)) in *. set (T := sqrt C) in *.
  replace (2 * r * T + 2 * (r * r) * 0 + B) with (r * (B / r + 2 * T)) in * by (field; lra).
  replace (2 * r * S + 2 * (r * r) * 1 + B) with (r * (2 * r + B / r + 2 * S)) in * by (field; lra).
  assert (P0 : 0 < B / r + 2 * T) by (apply (Rmult_lt_reg_l r); auto; lra).
  assert (P1 : 0 < 2 * r + B / r + 2 * S) by (apply (Rmult_lt_reg_l r); auto; lra).
  rewrite ln_mult in I by auto. rewrite ln_mult in I by auto. rewrite ln_div by auto.
  match goal with |- is_RInt _ _ _ ?y => match type of I with is_RInt _ _ _ ?x => replace y with x; [exact I|] end end.
  field. lra.
Qed.


Definition qv (x0 x1 x2 t : R) : R := 2 * (x1 - x0) + 2 * (x0 - 2 * x1 + x2) * t.
Lemma quad_moves : forall a c b, moves (quad_point a c b) (qv (px a) (px c) (px b)) (qv (py a) (py c) (py b)).
Proof.
  intros. split; [|split; [|split]]; intros t.
  - unfold quad_point, quad1, qv. simpl. auto_derive; auto. ring.
  - unfold quad_point, quad1, qv. simpl. auto_derive; auto. ring.
  - apply cont_of_derive. unfold qv. auto_derive; auto.
  - apply cont_of_derive. unfold qv. auto_derive; auto.
Qed.
(** The length of a point moving on a line with the velocity |2t - k|. *)
Lemma abs_linear_low : forall k, k <= 0 -> is_RInt (fun t => Rabs (2 * t - k)) 0 1 (1 - k).
Proof.
  intros k K. apply is_RInt_ext with (f := fun t => 2 * t - k).
  { intros t T. rewrite Rmin_left, Rmax_right in T by lra. rewrite Rabs_pos_eq; lra. }
  replace (1 - k) with ((1 * 1 - k * 1) - (0 * 0 - k * 0)) by ring. apply (is_RInt_derive (fun t => t * t - k * t)).
  - intros. auto_derive; auto. ring.
  - intros. apply cont_of_derive. auto_derive; auto.
Qed.
Lemma abs_linear_high : forall k b, 2 * b <= k -> 0 <= b -> is_RInt (fun t => Rabs (2 * t - k)) 0 b (k * b - b * b).
Proof.
  intros k b K B0. apply is_RInt_ext with (f := fun t => k - 2 * t).
  { intros t T. rewrite Rmin_left, Rmax_right in T by lra. rewrite Rabs_minus_sym, Rabs_pos_eq; lra. }
  replace (k * b - b * b) with ((k * b - b * b) - (k * 0 - 0 * 0)) by ring. apply (is_RInt_derive (fun t => k * t - t * t)).
  - intros. auto_derive; auto. ring.
  - intros. apply cont_of_derive. auto_derive; auto.
Qed.
Lemma abs_linear_mid : forall k, 0 <= k <= 2 -> is_RInt (fun t => Rabs (2 * t - k)) 0 1 (k ^ 2 / 2 - k + 1).
Proof.
  intros k K. replace (k ^ 2 / 2 - k + 1) with ((k * (k / 2) - k / 2 * (k / 2)) + ((1 * 1 - k * 1) - (k / 2 * (k / 2) - k * (k / 2)))) by field.
  apply is_RInt_J with (k / 2).
  - apply abs_linear_high; lra.
  - apply is_RInt_ext with (f := fun t => 2 * t - k).
    { intros t T. rewrite Rmin_left, Rmax_right in T by lra. rewrite Rabs_pos_eq; lra. }
    apply (is_RInt_derive (fun t => t * t - k * t)).
    + intros. auto_derive; auto. ring.
    + intros. apply cont_of_derive. auto_derive; auto.
Qed.
Lemma int_scal : forall f a b l k, is_RInt f a b l -> is_RInt (fun t => k * f t) a b (k * l).
Proof. intros. now apply (is_RInt_scal (V := R_NormedModule)). Qed.

Section QuadLength.
Variables a c b : pt.
Let ax := px a - 2 * px c + px b.
Let ay := py a - 2 * py c + py b.
Let bx := 2 * (px c - px a).
Let by_ := 2 * (py c - py a).
Let la := hypot ax ay.
Lemma quad_speed : forall t, speed (quad_point a c b) t =
  sqrt (4 * (ax ^ 2 + ay ^ 2) * (t * t) + 4 * (ax * bx + ay * by_) * t + (bx ^ 2 + by_ ^ 2)).
Proof.
  intros. rewrite (moves_speed _ _ _ (quad_moves a c b)). unfold hypot, qv. f_equal. unfold ax, ay, bx, by_. ring.
Qed.
Lemma sqrt_A : sqrt (4 * (ax ^ 2 + ay ^ 2)) = 2 * la.
Proof.
  unfold la, hypot. replace (4 * (ax ^ 2 + ay ^ 2)) with ((2 * 2) * (ax * ax + ay * ay)) by ring.
  rewrite sqrt_mult_alt by lra. rewrite sqrt_square; lra.
Qed.
Lemma la_sq : la * la = ax * ax + ay * ay. Proof. apply hypot_sq. Qed.
Lemma la_nn : 0 <= la. Proof. apply hypot_nn. Qed.
Lemma quad_length_exists : exists L, arc_length (quad_point a c b) L /\ Rabs (quad_length a c b - L) <= / 10 ^ 10 /\
  (la = 0 \/ / 10 ^ 10 <= la \/ ax * by_ <> ay * bx \/ 0 < ax * bx + ay * by_ -> quad_length a c b = L).
Proof.
  assert (EPS : 0 < / 10 ^ 10) by (apply Rinv_0_lt_compat, pow_lt; lra).
  pose proof la_nn as LN. pose proof la_sq as LS.
  unfold quad_length. fold ax ay bx by_. rewrite sqrt_A. fold la.
  destruct (Req_dec la 0) as [Z|NZ].
  { destruct (Req_EM_T (2 * la) 0) as [_|N]; [|exfalso; apply N; lra].
    assert (X : ax = 0 /\ ay = 0).
    { rewrite Z in LS. pose proof (sqr_nn ax). pose proof (sqr_nn ay). split; apply Rsqr_0_uniq; unfold Rsqr; lra. }
    destruct (Rlt_dec la (/ 10 ^ 10)) as [_|N]; [|lra]. exists (hypot bx by_).
    split; [|split]; auto.
    - unfold arc_length. apply is_RInt_ext with (f := fun _ => hypot bx by_).
      + intros t _. rewrite quad_speed. destruct X as [-> ->]. unfold hypot. f_equal. ring.
      + pose proof (is_RInt_const 0 1 (hypot bx by_)) as I. unfold scal in I. simpl in I. unfold mult in I. simpl in I.
        replace ((1 - 0) * hypot bx by_) with (hypot bx by_) in I by ring. exact I.
    - rewrite Rminus_eq_0, Rabs_R0. lra. }
  assert (LP : 0 < la) by lra.
  destruct (Req_EM_T (2 * la) 0) as [N|_]; [lra|].
  set (B := 4 * (ax * bx + ay * by_)) in *. set (C := bx ^ 2 + by_ ^ 2) in *.
  assert (EA : 4 * (ax ^ 2 + ay ^ 2) = 2 * la * (2 * la)) by (replace (2 * la * (2 * la)) with (4 * (la * la)) by ring; rewrite LS; ring).
  rewrite EA.
  set (K := ax * by_ - ay * bx).
  assert (ED : 4 * (2 * la * (2 * la)) * C - B * B = 16 * (K * K)).
  { replace (4 * (2 * la * (2 * la)) * C) with (16 * (la * la) * C) by ring. rewrite LS. unfold C, B, K. ring. }
  assert (SP : forall t, speed (quad_point a c b) t = sqrt (2 * la * (2 * la) * (t * t) + B * t + C)).
  { intros. rewrite quad_speed. fold B C. now rewrite EA. }
  destruct (Req_dec K 0) as [KZ|KN].
  2: { (* not collinear *)
    assert (D0 : 0 < 4 * (2 * la * (2 * la)) * C - B * B).
    { rewrite ED. assert (0 < K * K) by (apply Rsqr_pos_lt; auto). lra. }
    pose proof (sqrt_quadratic (2 * la) B C ltac:(lra) D0) as I.
    pose proof (log_arg_pos (2 * la) B C ltac:(lra) D0 0) as L0. pose proof (log_arg_pos (2 * la) B C ltac:(lra) D0 1) as L1.
    cbv beta in L0, L1.
    replace (2 * la * (2 * la) * (0 * 0) + B * 0 + C) with C in * by ring.
    replace (2 * la * (2 * la) * (1 * 1) + B * 1 + C) with (2 * la * (2 * la) + B + C) in * by ring.
    set (S := sqrt (2 * la * (2 * la) + B + C)) in *. set (T := sqrt C) in *.
    replace (2 * (2 * la) * T + 2 * (2 * la * (2 * la)) * 0 + B) with (2 * la * (B / (2 * la) + 2 * T)) in * by (field; lra).
    replace (2 * (2 * la) * S + 2 * (2 * la * (2 * la)) * 1 + B) with (2 * la * (2 * (2 * la) + B / (2 * la) + 2 * S)) in * by (field; lra).
    assert (P0 : 0 < B / (2 * la) + 2 * T) by (apply (Rmult_lt_reg_l (2 * la)); lra).
    assert (P1 : 0 < 2 * (2 * la) + B / (2 * la) + 2 * S) by (apply (Rmult_lt_reg_l (2 * la)); lra).
    destruct (Req_EM_T _ 0) as [N|_]; [lra|].
    destruct (Rle_dec _ 0) as [N|_].
    { exfalso. pose proof (Rdiv_lt_0_compat _ _ P1 P0). lra. }
    eexists. split; [|split; [|reflexivity]].
    - unfold arc_length. eapply is_RInt_ext; [|exact I]. intros t _. simpl. now rewrite SP.
    - rewrite Rminus_eq_0, Rabs_R0. lra. }
  (* collinear: the velocity is -k a + 2 t a *)
  set (k := - (ax * bx + ay * by_) / (la * la)).
  assert (L2 : 0 < la * la) by (apply Rmult_lt_0_compat; auto).
  assert (XB : bx = - k * ax).
  { unfold k. apply (Rmult_eq_reg_r (la * la)); [|lra].
    replace (- (- (ax * bx + ay * by_) / (la * la)) * ax * (la * la)) with ((ax * bx + ay * by_) * ax) by (field; lra).
    rewrite LS. assert (ay * bx = ax * by_) by (unfold K in KZ; lra).
    replace (bx * (ax * ax + ay * ay)) with (bx * ax * ax + ay * (ay * bx)) by ring. rewrite H. ring. }
  assert (YB : by_ = - k * ay).
  { unfold k. apply (Rmult_eq_reg_r (la * la)); [|lra].
    replace (- (- (ax * bx + ay * by_) / (la * la)) * ay * (la * la)) with ((ax * bx + ay * by_) * ay) by (field; lra).
    rewrite LS. assert (ay * bx = ax * by_) by (unfold K in KZ; lra).
    replace (by_ * (ax * ax + ay * ay)) with (ax * (ax * by_) + by_ * ay * ay) by ring. rewrite <- H. ring. }
  assert (EB : B = - 4 * k * (la * la)) by (unfold B; rewrite XB, YB, LS; ring).
  assert (EC : C = k * la * (k * la)) by (unfold C; rewrite XB, YB; replace (k * la * (k * la)) with (k * k * (la * la)) by ring; rewrite LS; ring).
  assert (EH : hypot bx by_ = Rabs k * la).
  { rewrite XB, YB. unfold hypot. replace (- k * ax * (- k * ax) + - k * ay * (- k * ay)) with (k * la * (k * la)).
    - rewrite sqrt_Rsqr_abs || (fold (Rsqr (k * la)); rewrite sqrt_Rsqr_abs). rewrite Rabs_mult. f_equal. apply Rabs_pos_eq; lra.
    - replace (k * la * (k * la)) with (k * k * (la * la)) by ring. rewrite LS. ring. }
  assert (SP2 : forall t, speed (quad_point a c b) t = la * Rabs (2 * t - k)).
  { intros t. rewrite SP, EB, EC. replace (_ + _) with (Rsqr (la * (2 * t - k))) by (unfold Rsqr; ring).
    rewrite sqrt_Rsqr_abs, Rabs_mult. f_equal. apply Rabs_pos_eq; lra. }
  assert (SC : sqrt C = la * Rabs k).
  { rewrite EC. fold (Rsqr (k * la)). rewrite sqrt_Rsqr_abs, Rabs_mult, (Rabs_pos_eq la) by lra. ring. }
  assert (SABC : sqrt (2 * la * (2 * la) + B + C) = la * Rabs (2 - k)).
  { rewrite EB, EC. replace (_ + _) with (Rsqr (la * (2 - k))) by (unfold Rsqr; ring). rewrite sqrt_Rsqr_abs, Rabs_mult, (Rabs_pos_eq la) by lra. ring. }
  assert (BA : B / (2 * la) = - 2 * k * la) by (rewrite EB; field; lra).
  rewrite SC, SABC, BA, EH.
  assert (ARC : forall l, is_RInt (fun t => Rabs (2 * t - k)) 0 1 l -> arc_length (quad_point a c b) (la * l)).
  { intros l I. unfold arc_length. apply is_RInt_ext with (f := fun t => la * Rabs (2 * t - k)); [|now apply int_scal]. intros. now rewrite SP2. }
  destruct (Rlt_dec k 0) as [K0|K0].
  - (* same direction *)
    rewrite (Rabs_left k), (Rabs_pos_eq (2 - k)) by lra.
    destruct (Req_EM_T _ 0) as [N|_].
    { exfalso. assert (0 < - k * la) by (apply Rmult_lt_0_compat; lra). lra. }
    assert (P : 0 < - k * la) by (apply Rmult_lt_0_compat; lra).
    destruct (Rle_dec _ 0) as [N|_].
    { exfalso. assert (0 < (2 * (2 * la) + -2 * k * la + 2 * (la * (2 - k))) / (-2 * k * la + 2 * (la * - k))).
      { apply Rdiv_lt_0_compat; lra. } lra. }
    replace (4 * C * (2 * la * (2 * la)) - B ^ 2) with 0 by (rewrite EB, EC; ring).
    rewrite Rmult_0_l, EB.
    match goal with |- exists L, _ /\ Rabs (?x - L) <= _ /\ _ => replace x with (la * (1 - k)) by (field; lra) end.
    exists (la * (1 - k)). split; [|split; [|reflexivity]].
    + apply ARC. apply abs_linear_low. lra.
    + rewrite Rminus_eq_0, Rabs_R0. lra.
  - (* opposite direction: the code falls back *)
    rewrite (Rabs_pos_eq k) by lra.
    destruct (Req_EM_T _ 0) as [_|N]; [|exfalso; apply N; ring].
    assert (OPP : ~ (ax * by_ <> ay * bx \/ 0 < ax * bx + ay * by_)).
    { intros [O|O]; [unfold K in KZ; lra|]. unfold B in EB. assert (0 <= k * (la * la)) by (apply Rmult_le_pos; lra). lra. }
    replace (k * la / la) with k by (field; lra).
    assert (OUT : forall l, is_RInt (fun t => Rabs (2 * t - k)) 0 1 l -> Rabs (k - l) <= 1 ->
      (2 <= k /\ l = k - 1) \/ (~ 2 <= k /\ l = k ^ 2 / 2 - k + 1) ->
      exists L, arc_length (quad_point a c b) L /\
        Rabs ((if Rlt_dec la (/ 10 ^ 10) then k * la else if Rle_dec 2 k then k * la - la else la * (k ^ 2 / 2 - k + 1)) - L) <= / 10 ^ 10 /\
        (la = 0 \/ / 10 ^ 10 <= la \/ ax * by_ <> ay * bx \/ 0 < ax * bx + ay * by_ ->
         (if Rlt_dec la (/ 10 ^ 10) then k * la else if Rle_dec 2 k then k * la - la else la * (k ^ 2 / 2 - k + 1)) = L)).
    { intros l I CL W. exists (la * l). split; [now apply ARC|].
      destruct (Rlt_dec la (/ 10 ^ 10)) as [SM|SM].
      - split.
        + replace (k * la - la * l) with (la * (k - l)) by ring. rewrite Rabs_mult, (Rabs_pos_eq la) by lra.
          pose proof (Rabs_pos (k - l)). nra.
        + intros [O|[O|O]]; [lra | exfalso; apply (Rle_not_lt _ _ O SM) | exfalso; apply OPP; exact O].
      - assert (EQ : (if Rle_dec 2 k then k * la - la else la * (k ^ 2 / 2 - k + 1)) = la * l).
        { destruct W as [[W1 ->]|[W1 ->]]; destruct (Rle_dec 2 k); try easy; ring. }
        rewrite EQ. split; auto. rewrite Rminus_eq_0, Rabs_R0. lra. }
    destruct (Rle_dec 2 k) as [K2|K2].
    + apply (OUT (k - 1)).
      * replace (k - 1) with (k * 1 - 1 * 1) by ring. apply abs_linear_high; lra.
      * apply Rabs_le. lra.
      * left. auto.
    + apply (OUT (k ^ 2 / 2 - k + 1)).
      * apply abs_linear_mid. lra.
      * apply Rabs_le. split; nra.
      * right. auto.
Qed.
End QuadLength.
