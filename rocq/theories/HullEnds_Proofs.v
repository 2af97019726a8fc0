(** The walk of convex_hull always comes back to where it began. *)
Require Import ZArith QArith List Bool Lia Lqa Permutation Sorted.
Require Import Verif.Base Verif.Hull_Model Verif.Hull_Spec Verif.Hull_Proofs.
Import ListNotations.
Open Scope Q_scope.

Lemma ge_by : forall p x v, 0 < p -> 0 <= v -> p * x == v -> 0 <= x. Proof. intros. nra. Qed.
Lemma gt_by : forall p x v, 0 < p -> 0 < v -> p * x == v -> 0 < x. Proof. intros. nra. Qed.
Lemma le_by : forall p x v, 0 < p -> v <= 0 -> p * x == v -> x <= 0. Proof. intros. nra. Qed.
Lemma plk : forall p c e t t', area2 p c e * area2 c t t' == area2 p c t * area2 c e t' + area2 p c t' * area2 c t e.
Proof. intros. unfold area2. ring. Qed.
Lemma plx : forall f a b c, (fst b - fst f) * area2 f a c == (fst a - fst f) * area2 f b c + (fst c - fst f) * area2 f a b.
Proof. intros. unfold area2. ring. Qed.

(** The inner loop once the end point is another point. *)
Definition pick (c : Q * Q) (l : list (Q * Q)) (e : Q * Q) : Q * Q := fold_left (fun e t => if Qltb 0 (area2 c t e) then t else e) l e.
Lemma ltb_iff : forall a b, Qltb a b = true <-> a < b.
Proof. intros a b. unfold Qltb. rewrite negb_true_iff. split; intros H. - apply Qnot_le_lt. intros C. apply Qle_bool_iff in C. congruence. - apply not_true_iff_false. intros C. apply Qle_bool_iff in C. lra. Qed.
Lemma ltb_no : forall a b, b <= a -> Qltb a b = false.
Proof. intros a b H. apply not_true_iff_false. rewrite ltb_iff. lra. Qed.
Lemma orient_ltb : forall p q r, Z.eqb (orientation p q r) 2 = Qltb 0 (area2 p q r).
Proof. intros p q r. destruct (Z.eqb (orientation p q r) 2) eqn:E; symmetry; [apply ltb_iff, orient2; auto|]. apply not_true_iff_false. intros C. apply ltb_iff, orient2 in C. congruence. Qed.
Lemma pick_in : forall c l e, pick c l e = e \/ In (pick c l e) l.
Proof. intros c. induction l as [|t l IH]; intros e; [left; auto|]. unfold pick. cbn [fold_left]. fold (pick c l (if Qltb 0 (area2 c t e) then t else e)). destruct (IH (if Qltb 0 (area2 c t e) then t else e)) as [H|H]; [rewrite H; destruct (Qltb 0 (area2 c t e)); cbn; auto|right; right; auto]. Qed.
Lemma pick_stays : forall c l e, (forall t, In t l -> area2 c t e <= 0) -> pick c l e = e.
Proof. intros c. induction l as [|t l IH]; intros e H; [reflexivity|]. unfold pick. cbn [fold_left]. rewrite ltb_no by (apply H; left; auto). apply IH. intros x X. apply H. right. auto. Qed.
Lemma pick_app : forall c l l' e, pick c (l ++ l') e = pick c l' (pick c l e). Proof. intros. unfold pick. apply fold_left_app. Qed.

Lemma pick_best : forall p c e0 (M : Q * Q -> Prop) l, 0 < area2 p c e0 -> (forall t, In t l -> M t \/ 0 <= area2 p c t) ->
  (forall l1 t l2, l = l1 ++ t :: l2 -> M t -> forall e, e = e0 \/ In e l1 -> e = e0 \/ 0 < area2 c e e0 -> area2 c t e <= 0) ->
  (pick c l e0 = e0 \/ In (pick c l e0) l /\ 0 < area2 c (pick c l e0) e0) /\ 0 <= area2 p c (pick c l e0) /\ (forall t, In t l -> M t \/ 0 <= area2 c (pick c l e0) t).
Proof.
  intros p c e0 M. induction l as [|t l IH] using rev_ind; intros A H S.
  - unfold pick. cbn [fold_left]. split; [auto|]. split; [lra|]. intros t [].
  - destruct IH as (I1 & I2 & I3); auto.
    { intros x X. apply H, in_app_iff. auto. }
    { intros l1 x l2 E MX e E1 E2. apply (S l1 x (l2 ++ [t])); auto. rewrite E, <- app_assoc. reflexivity. }
    rewrite pick_app. remember (pick c l e0) as e eqn:EE. clear EE. unfold pick. cbn [fold_left]. destruct (Qltb 0 (area2 c t e)) eqn:B.
    + apply ltb_iff in B. assert (NM : ~ M t). { intros MT. assert (area2 c t e <= 0) by (apply (S l t []); auto; destruct I1 as [I1|[I1 I1']]; auto). lra. }
      assert (T0 : 0 <= area2 p c t) by (destruct (H t) as [?|?]; [apply in_app_iff; right; left; auto|contradiction|auto]).
      assert (E0 : e = e0 \/ 0 < area2 c e e0) by tauto. assert (AE : 0 < area2 p c e).
      { destruct E0 as [->|E0]; auto. pose proof (plk p c e t e0) as Q. assert (0 <= area2 p c t * area2 c e e0) by nra. assert (0 < area2 p c e0 * area2 c t e) by nra. destruct (Qlt_le_dec 0 (area2 p c e)); auto. assert (Z : area2 p c e == 0) by lra. rewrite Z in Q. lra. }
      split; [right; split; [apply in_app_iff; right; left; auto|]|split; [exact T0|]].
      * destruct E0 as [E0|E0]; [rewrite <- E0; exact B|]. apply (gt_by _ _ _ AE) with (2 := plk p c e t e0). nra.
      * intros x X. apply in_app_iff in X. destruct X as [X|[<-|[]]]; [|right; rewrite area_aa; lra]. destruct (I3 x X) as [MX|MX]; [auto|]. destruct (H x ltac:(apply in_app_iff; auto)) as [HX|HX]; [auto|]. right. apply (ge_by _ _ _ AE) with (2 := plk p c e t x). nra.
    + split; [destruct I1 as [I1|[I1 I1']]; [auto|right; split; auto; apply in_app_iff; auto]|]. split; [exact I2|]. intros x X. apply in_app_iff in X. destruct X as [X|[<-|[]]]; [auto|]. right. rewrite area_anti. assert (~ 0 < area2 c t e) by (intros C; apply ltb_iff in C; congruence). lra.
Qed.

Lemma filter_le : forall (A : Type) (P Q : A -> bool) l, (forall t, In t l -> P t = true -> Q t = true) -> (length (filter P l) <= length (filter Q l))%nat.
Proof.
  intros A P Q. induction l as [|a l IH]; intros H; [auto|]. cbn [filter]. assert (L : (length (filter P l) <= length (filter Q l))%nat) by (apply IH; intros t T; apply H; right; auto).
  destruct (P a) eqn:E; [rewrite (H a (or_introl eq_refl) E); cbn [length]; lia|destruct (Q a); cbn [length]; lia].
Qed.
Lemma filter_lt : forall (A : Type) (P Q : A -> bool) l x, (forall t, In t l -> P t = true -> Q t = true) -> In x l -> Q x = true -> P x = false -> (length (filter P l) < length (filter Q l))%nat.
Proof.
  intros A P Q. induction l as [|a l IH]; intros x H X QX PX; [destruct X|]. cbn [filter]. destruct X as [<-|X].
  - rewrite QX, PX. assert (length (filter P l) <= length (filter Q l))%nat by (apply filter_le; intros t T; apply H; right; auto). cbn [length]. lia.
  - assert (L : (length (filter P l) < length (filter Q l))%nat) by (apply (IH x); auto; intros t T; apply H; right; auto). destruct (P a) eqn:E; [rewrite (H a (or_introl eq_refl) E); cbn [length]; lia|destruct (Q a); cbn [length]; lia].
Qed.
Lemma sorted_before : forall l1 (t : Q * Q) l2, StronglySorted (fun a b : Q * Q => fst a <= fst b) (l1 ++ t :: l2) -> forall e, In e l1 -> fst e <= fst t.
Proof.
  induction l1 as [|a l1 IH]; intros t l2 S e E; [destruct E|]. cbn [app] in S. inversion S as [|? ? S' F]; subst. destruct E as [<-|E]; [|apply (IH t l2); auto]. rewrite Forall_forall in F. apply F, in_app_iff. right. left. auto.
Qed.
Lemma prefix_in : forall (A : Type) (l1 : list A) t l2 pre post, NoDup (l1 ++ t :: l2) -> l1 ++ t :: l2 = pre ++ post -> In t pre -> incl l1 pre.
Proof.
  induction l1 as [|a l1 IH]; intros t l2 pre post N E T; [intros x []|]. destruct pre as [|b pre]; [destruct T|]. cbn [app] in *. injection E as <- E. inversion N as [|? ? NI N']; subst.
  assert (T' : In t pre) by (destruct T as [<-|T]; auto; exfalso; apply NI, in_app_iff; right; left; auto). intros x [<-|X]; [left; auto|right; eapply IH; eauto].
Qed.
Lemma vertical : forall x c t e, fst t == x -> fst e == x -> area2 c t e == (x - fst c) * (snd e - snd t).
Proof. intros x c t e T E. unfold area2. rewrite T, E. ring. Qed.

Lemma split_first : forall (A : Type) (P : A -> bool) l, (forall t, In t l -> P t = false) \/ exists l1 w l2, l = l1 ++ w :: l2 /\ P w = true /\ forall t, In t l1 -> P t = false.
Proof.
  intros A P. induction l as [|a l IH]; [left; intros t []|]. destruct (P a) eqn:E; [right; exists [], a, l; repeat split; auto; intros t []|].
  destruct IH as [IH|(l1 & w & l2 & -> & W & IH)]; [left; intros t [<-|T]; auto|right; exists (a :: l1), w, l2; repeat split; auto; intros t [<-|T]; auto].
Qed.

Section Walk.
  Variable f : Q * Q.
  Variable r : list (Q * Q).
  Let pts := f :: r.
  Hypothesis PD : pdistinct pts.
  Hypothesis SO : StronglySorted (fun a b : Q * Q => fst a <= fst b) pts.
  Lemma f_in : In f pts. Proof. left. auto. Qed.
  Lemma f_min : forall t, In t pts -> fst f <= fst t.
  Proof. intros t [<-|T]; [lra|]. inversion SO as [|? ? S' F]; subst. rewrite Forall_forall in F. auto. Qed.
  Lemma r_not_f : forall t, In t r -> t <> f. Proof. intros t T ->. destruct PD as [N _]. inversion N. auto. Qed.
  Lemma same_f : forall t, In t pts -> (same f t = true <-> f = t). Proof. intros t T. apply same_in with (s := pts); auto. apply f_in. Qed.
  Lemma fold_pick : forall c, In c pts -> forall l e, incl l pts -> In e pts -> e <> c ->
    fold_left (fun e t => if same c e || Z.eqb (orientation c t e) 2 then t else e) l e = pick c l e.
  Proof.
    intros c C. induction l as [|t l IH]; intros e I E N; [reflexivity|]. unfold pick. cbn [fold_left]. assert (S : same c e = false) by (apply not_true_iff_false; intros S; apply (same_in pts) in S; auto). rewrite S, orient_ltb. cbn [orb].
    destruct (Qltb 0 (area2 c t e)) eqn:B.
    - apply IH; [intros x X; apply I; right; auto|apply I; left; auto|]. intros ->. apply ltb_iff in B. rewrite area_pp in B. lra.
    - apply IH; auto. intros x X; apply I; right; auto.
  Qed.
  Lemma next_other : forall c, In c pts -> c <> f -> hull_next pts c = pick c r f.
  Proof.
    intros c C N. unfold hull_next, pts. cbn [fold_left]. replace (same c c) with true by (symmetry; apply same_iff; split; reflexivity). cbn [orb]. apply fold_pick; auto; [intros x X; right; auto|left; auto].
  Qed.
  Lemma next_first : forall p r', r = p :: r' -> hull_next pts f = pick f r' p.
  Proof.
    intros p r' E. assert (S : same f f = true) by (apply same_iff; split; reflexivity). assert (P : In p r) by (rewrite E; left; auto). unfold hull_next, pts. rewrite E. cbn [fold_left]. rewrite S. cbn [orb]. rewrite S. cbn [orb].
    apply fold_pick; [left; auto|intros x X; right; rewrite E; right; auto|right; auto|apply r_not_f; auto].
  Qed.
  (** What may be left outside: points below the first one, and points beyond v on the line from the first point through v. *)
  Definition low (t : Q * Q) : Prop := fst t == fst f /\ snd t < snd f.
  Definition miss (v t : Q * Q) : Prop := low t \/ area2 f v t == 0 /\ fst v < fst t.
  Definition good (v : Q * Q) (h : list (Q * Q)) : Prop := forall a b, In (a, b) (combine h (tl h ++ [f])) -> forall t, In t pts -> miss v t \/ 0 <= area2 a b t.
  Lemma loop_hd : forall k c h, hull_loop k pts f c = Some h -> exists h', h = c :: h'.
  Proof. intros [|k] c h H; [discriminate H|]. cbn [hull_loop] in H. destruct (same f (hull_next pts c)); [injection H as <-; eauto|]. destruct (hull_loop k pts f (hull_next pts c)); [injection H as <-; eauto|discriminate H]. Qed.
  Lemma loop_step : forall v k c n, hull_next pts c = n -> In n pts -> (forall t, In t pts -> miss v t \/ 0 <= area2 c n t) -> n = f \/ (exists h, hull_loop k pts f n = Some h /\ good v h) -> exists h, hull_loop (S k) pts f c = Some h /\ good v h.
  Proof.
    intros v k c n E I A H. cbn [hull_loop]. rewrite E. destruct (same f n) eqn:S.
    - apply same_f in S; auto. exists [c]. split; auto. intros a b [AB|[]]. injection AB as <- <-. rewrite S. exact A.
    - destruct H as [->|(h & H & G)]; [exfalso; apply not_true_iff_false in S; apply S, same_iff; split; reflexivity|]. rewrite H. exists (c :: h). split; auto. destruct (loop_hd _ _ _ H) as [h' ->]. intros a b AB. cbn [combine tl app] in AB. destruct AB as [AB|AB]; [injection AB as <- <-; exact A|apply G; exact AB].
  Qed.
  Definition ahead (c : Q * Q) : nat := length (filter (fun t => Qltb 0 (area2 f c t)) pts).
  (** Below the first point nothing is chosen as long as the end point is on the left edge. *)
  Lemma low_safe : forall c t e, fst f <= fst c -> low t -> fst e == fst f -> e = f \/ 0 < area2 c e f -> area2 c t e <= 0.
  Proof.
    intros c t e C [T1 T2] E H. rewrite (vertical (fst f)) by auto. destruct H as [->|H]; [nra|]. rewrite (vertical (fst f)) in H by (auto; reflexivity). nra.
  Qed.
  Lemma grows : forall c n t, In t pts -> In n pts -> fst f < fst c \/ fst f == fst c /\ snd f < snd c -> 0 < area2 f c n -> 0 < area2 f n t -> fst f < fst c /\ 0 < area2 f c t.
  Proof.
    intros c n t T N C CN NT. pose proof (f_min t T). pose proof (f_min n N). assert (X : fst f < fst c).
    { destruct C as [C|[C1 C2]]; auto. exfalso. assert (Z : area2 f c n == - ((snd c - snd f) * (fst n - fst f))) by (unfold area2; rewrite <- C1; ring). nra. }
    split; [exact X|]. pose proof (plx f c n t) as P. assert (0 < (fst c - fst f) * area2 f n t) by nra. assert (0 <= (fst t - fst f) * area2 f c n) by nra. destruct (Qlt_le_dec (fst f) (fst n)); [apply (gt_by (fst n - fst f)) with (3 := P); lra|]. assert (Z : fst n - fst f == 0) by lra. rewrite Z in P. lra.
  Qed.
  Lemma phase2 : forall v xc m p c pre post, pts = pre ++ post -> (forall x, In x pre -> xc < fst x -> miss v x) -> (ahead c < m)%nat -> In c pts -> 0 < area2 p c f ->
    (forall t, In t pts -> (In t pre /\ xc < fst t \/ low t) \/ 0 <= area2 p c t) -> fst f < fst c \/ fst f == fst c /\ snd f < snd c -> (forall x, In x pre -> area2 f c x <= 0) ->
    exists h, hull_loop m pts f c = Some h /\ good v h.
  Proof.
    intros v xc. induction m as [|m IH]; intros p c pre post E PV AH C A H X PR; [lia|]. assert (CF : c <> f) by (intros ->; destruct X as [X|[_ X]]; lra). pose proof (f_min c C) as MC.
    destruct (pick_best p c f (fun t => In t pre /\ xc < fst t \/ low t) r A) as (I1 & _ & I3).
    { intros t T. apply H. right. auto. }
    { intros l1 t l2 R M e E1 E2. assert (SP : pts = (f :: l1) ++ t :: l2) by (unfold pts; rewrite R; reflexivity). assert (EI : In e (f :: l1)) by (destruct E1 as [->|E1]; [left; auto|right; auto]). destruct M as [[M _]|M].
      - assert (EP : In e pre) by (apply (prefix_in _ (f :: l1) t l2 pre post); auto; [rewrite <- SP; apply PD|congruence]). destruct E2 as [->|E2]; [rewrite <- area_rot; apply PR; auto|]. rewrite <- area_rot in E2. specialize (PR e EP). lra.
      - apply low_safe; auto. assert (L : fst e <= fst t) by (apply (sorted_before (f :: l1) t l2); [rewrite <- SP; exact SO|auto]). assert (fst f <= fst e) by (apply f_min; rewrite SP; apply in_app_iff; auto). destruct M as [M _]. lra. }
    assert (CFP : 0 <= area2 c (pick c r f) f) by (destruct I1 as [->|[_ I1]]; [rewrite area_aa|]; lra). apply (loop_step v m c (pick c r f)); [apply next_other; auto|destruct I1 as [->|[I _]]; [left; auto|right; auto]| |].
    { intros t [<-|T]; [auto|]. destruct (I3 t T) as [[[P1 P2]|LO]|P]; [left; apply PV; auto|left; left; auto|auto]. }
    destruct I1 as [I1|[I1 I2]]; [auto|right]. set (n := pick c r f) in *. assert (N : In n pts) by (right; auto). assert (CN : 0 < area2 f c n) by (rewrite area_rot; auto).
    assert (XC : fst f < fst c). { destruct X as [X|[X1 X2]]; auto. exfalso. pose proof (f_min n N). assert (Z : area2 f c n == - ((snd c - snd f) * (fst n - fst f))) by (unfold area2; rewrite <- X1; ring). nra. }
    apply (IH c n pre post); auto.
    - apply (Nat.lt_le_trans _ (ahead c)); [|lia]. apply filter_lt with (x := n); auto; [|apply ltb_iff; auto|apply ltb_no; rewrite area_aa; lra]. intros t T B. apply ltb_iff in B. apply ltb_iff. apply (grows c n t); auto.
    - intros t [<-|T]; [right; lra|apply I3; auto].
    - pose proof (f_min n N). destruct (Qlt_le_dec (fst f) (fst n)); [auto|right]. split; [lra|]. assert (Z : area2 f c n == (fst c - fst f) * (snd n - snd f)) by (unfold area2; assert (Q : fst n == fst f) by lra; rewrite Q; ring). nra.
    - intros x XP. pose proof (plx f n c x) as P. assert (IX : In x pts) by (rewrite E; apply in_app_iff; auto). pose proof (f_min x IX). pose proof (f_min n N). specialize (PR x XP). apply (le_by (fst c - fst f)) with (3 := P); [lra|]. rewrite (area_anti f n c). nra.
  Qed.
  Definition east (c : Q * Q) : nat := length (filter (fun t => Qltb (fst c) (fst t)) pts).
  Lemma ltb_false : forall a b, Qltb a b = false -> b <= a.
  Proof. intros a b H. apply Qnot_lt_le. intros C. apply ltb_iff in C. congruence. Qed.
  Lemma phase1 : forall v m c, (east c < m)%nat -> In c pts -> fst f < fst c -> (forall t, In t pts -> low t \/ 0 <= area2 f c t) -> fst f < fst v <= fst c -> area2 f v c == 0 -> exists k h, hull_loop k pts f c = Some h /\ good v h.
  Proof.
    intros v. induction m as [|m IH]; intros c EA C X H VX VC; [lia|]. assert (CF : c <> f) by (intros ->; lra). destruct (split_first _ (fun t => Qltb 0 (area2 f c t)) r) as [NO|(l1 & w & l2 & R & W & L1)].
    { exists 1%nat. apply (loop_step v 0 c f); [|apply f_in| |auto].
      - rewrite next_other by auto. apply pick_stays. intros t T. rewrite <- area_rot. apply ltb_false. apply NO; auto.
      - intros t [<-|T]; right; [rewrite area_aa; lra|]. rewrite area_anti, <- area_rot. specialize (NO t T). apply ltb_false in NO. lra. }
    apply ltb_iff in W. assert (WI : In w pts) by (right; rewrite R; apply in_app_iff; right; left; auto). assert (NX : hull_next pts c = pick c l2 w).
    { rewrite next_other by auto. rewrite R, pick_app, (pick_stays c l1 f) by (intros t T; rewrite <- area_rot; apply ltb_false, L1; auto). unfold pick at 1. cbn [fold_left]. replace (Qltb 0 (area2 c w f)) with true by (symmetry; apply ltb_iff; rewrite <- area_rot; auto). reflexivity. }
    assert (SP : pts = (f :: l1) ++ w :: l2) by (unfold pts; rewrite R; reflexivity).
    destruct (pick_best f c w low l2 W) as (I1 & I2 & I3).
    { intros t T. apply H. rewrite SP. apply in_app_iff. right. right. auto. }
    { intros m1 t m2 M LT e E1 E2. assert (SP' : pts = (f :: l1 ++ w :: m1) ++ t :: m2) by (rewrite SP, M; cbn [app]; rewrite <- app_assoc; reflexivity). assert (BF : forall x, In x (w :: m1) -> fst x == fst f).
      { intros x XI. assert (fst x <= fst t) by (apply (sorted_before (f :: l1 ++ w :: m1) t m2); [rewrite <- SP'; exact SO|right; apply in_app_iff; auto]). assert (fst f <= fst x) by (apply f_min; rewrite SP'; apply in_app_iff; left; right; apply in_app_iff; auto). destruct LT as [LT _]. lra. }
      assert (WX : fst w == fst f) by (apply BF; left; auto). assert (EX : fst e == fst f) by (apply BF; destruct E1 as [->|E1]; [left; auto|right; auto]). destruct LT as [T1 T2]. rewrite (vertical (fst f)) by auto.
      assert (WY : snd f < snd w). { assert (Z : area2 f c w == (fst c - fst f) * (snd w - snd f)) by (unfold area2; rewrite WX; ring). nra. }
      destruct E2 as [->|E2]; [nra|]. rewrite (vertical (fst f)) in E2 by auto. nra. }
    set (n := pick c l2 w) in *. assert (N : In n pts) by (destruct I1 as [->|[I _]]; auto; rewrite SP; apply in_app_iff; right; right; auto). pose proof (f_min n N) as MN.
    destruct (Qlt_le_dec 0 (area2 f c n)) as [LV|ON].
    - assert (CN : forall t, In t pts -> (In t (f :: l1) /\ fst c < fst t \/ low t) \/ 0 <= area2 c n t).
      { intros t T. rewrite SP in T. apply in_app_iff in T. destruct T as [T|[<-|T]]; [|right; destruct I1 as [->|[_ I1]]; [rewrite area_aa; lra|lra]|destruct (I3 t T); auto]. destruct (Qlt_le_dec (fst c) (fst t)); [left; left; auto|]. assert (TI : In t pts) by (rewrite SP; apply in_app_iff; auto). destruct (H t TI) as [LT|GT]; [auto|right].
        assert (Z : area2 f c t == 0). { destruct T as [<-|T]; [unfold area2; ring|]. specialize (L1 t T). apply ltb_false in L1. lra. }
        apply (ge_by (fst c - fst f)) with (v := (fst c - fst t) * area2 f c n); [lra|nra|]. assert (Q : (fst c - fst f) * area2 c n t == (fst c - fst t) * area2 f c n + (fst n - fst c) * area2 f c t) by (unfold area2; ring). rewrite Q, Z. ring. }
      assert (PV : forall x, In x (f :: l1) -> fst c < fst x -> miss v x).
      { intros x XI XC. assert (IX : In x pts) by (rewrite SP; apply in_app_iff; auto). destruct (H x IX) as [LX|GX]; [left; auto|right]. split; [|lra]. assert (Z : area2 f c x == 0). { destruct XI as [<-|XI]; [unfold area2; ring|]. specialize (L1 x XI). apply ltb_false in L1. lra. }
        pose proof (plx f v c x) as Q. rewrite Z, VC in Q. assert (0 < fst c - fst f) by lra. nra. }
      destruct (phase2 v (fst c) (S (ahead n)) c n (f :: l1) (w :: l2)) as (h & Hh & G); auto.
      + rewrite <- area_rot. auto.
      + destruct (Qlt_le_dec (fst f) (fst n)); [auto|right]. split; [lra|]. assert (Z : area2 f c n == (fst c - fst f) * (snd n - snd f)) by (unfold area2; assert (Q : fst n == fst f) by lra; rewrite Q; ring). nra.
      + intros x XI. assert (PX : area2 f c x <= 0). { destruct XI as [<-|XI]; [unfold area2; lra|apply ltb_false, L1; auto]. }
        assert (IX : In x pts) by (rewrite SP; apply in_app_iff; auto). pose proof (f_min x IX). apply (le_by (fst c - fst f)) with (3 := plx f n c x); [lra|]. rewrite (area_anti f n c). nra.
      + exists (S (S (ahead n))). apply (loop_step v _ c n); auto; [|right; exists h; auto]. intros t T. destruct (CN t T) as [[[P1 P2]|LO]|P]; [left; apply PV; auto|left; left; auto|auto].
    - assert (Z : area2 f c n == 0) by lra. destruct I1 as [I1|[_ I1]]; [rewrite I1 in Z; lra|]. assert (XN : fst c < fst n).
      { assert (Q : (fst c - fst f) * area2 c n w == (fst n - fst c) * area2 f c w + (fst f - fst w) * area2 f c n + (fst c - fst f) * area2 f c n) by (unfold area2; ring). rewrite Z in Q. nra. }
      destruct (IH n) as (k & h & Hh); auto; [|lra| |lra| |exists (S k); apply (loop_step v k c n); eauto].
      + apply (Nat.lt_le_trans _ (east c)); [|lia]. apply filter_lt with (x := n); auto; [|apply ltb_iff; auto|apply ltb_no; lra]. intros t T B. apply ltb_iff in B. apply ltb_iff. lra.
      + intros t T. destruct (H t T) as [HT|HT]; [auto|right]. apply (ge_by (fst c - fst f)) with (3 := plx f n c t); [lra|]. rewrite (area_anti f n c), Z. pose proof (f_min t T). nra.
      + pose proof (plx f v c n) as Q. rewrite Z, VC in Q. assert (0 < fst c - fst f) by lra. nra.
      + intros t T. destruct (H t T) as [HT|HT]; [left; left; auto|right]. assert (Q : (fst c - fst f) * area2 c n t == (fst n - fst c) * area2 f c t + (fst c - fst t) * area2 f c n) by (unfold area2; ring). apply (ge_by (fst c - fst f)) with (3 := Q); [lra|]. rewrite Z. nra.
  Qed.
  Lemma after : forall l1 w l2, pts = l1 ++ w :: l2 -> forall t, In t l2 -> fst w <= fst t.
  Proof. intros l1 w l2 E t T. apply in_split in T. destruct T as (m1 & m2 & ->). apply (sorted_before (l1 ++ w :: m1) t m2); [|apply in_app_iff; right; left; auto]. rewrite <- app_assoc. cbn [app]. rewrite <- E. exact SO. Qed.
  Lemma on_edge : forall c t, fst t == fst c -> forall n, area2 c n t == (fst n - fst c) * (snd t - snd c).
  Proof. intros c t E n. unfold area2. rewrite E. ring. Qed.
  Lemma down : forall c x, area2 (fst c, snd c + 1) c x == fst x - fst c.
  Proof. intros c x. unfold area2. cbn [fst snd]. ring. Qed.
  (** From a point on the left edge to the best of those right of it. *)
  Lemma from_edge : forall c w l2, fst c == fst f -> fst f < fst w -> (forall t, In t l2 -> fst w <= fst t) ->
    fst f < fst (pick c l2 w) /\ (pick c l2 w = w \/ In (pick c l2 w) l2) /\ forall t, In t (w :: l2) -> 0 <= area2 c (pick c l2 w) t.
  Proof.
    intros c w l2 C W L. destruct (pick_best (fst c, snd c + 1) c w (fun _ => False) l2) as (I1 & _ & I3).
    - rewrite down. lra.
    - intros t T. right. rewrite down. specialize (L t T). lra.
    - intros l1 t l3 _ [].
    - split; [destruct I1 as [->|[I1 _]]; auto; specialize (L _ I1); lra|]. split; [tauto|]. intros t [<-|T]; [destruct I1 as [->|[_ I1]]; [rewrite area_aa; lra|lra]|destruct (I3 t T); tauto].
  Qed.
  Lemma walk_ends : exists k h, hull_loop k pts f f = Some h /\ good (hull_next pts f) h.
  Proof.
    assert (RC : r = [] \/ exists p r', r = p :: r') by (clear; destruct r as [|p r']; [auto|right; eauto]). destruct RC as [R|(p & r' & R)].
    { exists 1%nat. apply (loop_step _ 0 f f); auto; [|apply f_in|intros t T; right; rewrite area_pp; lra]. assert (S : same f f = true) by (apply same_iff; split; reflexivity). unfold hull_next, pts. rewrite R. cbn [fold_left]. rewrite S. reflexivity. }
    assert (P : In p pts) by (right; rewrite R; left; auto). pose proof (f_min p P) as MP. pose proof (next_first p r' R) as NF. destruct (Qlt_le_dec (fst f) (fst p)) as [XP|XP].
    - destruct (from_edge f p r') as (N1 & N2 & N3); auto; [reflexivity|apply (after [f]); unfold pts; rewrite R; reflexivity|]. assert (N : In (pick f r' p) pts) by (destruct N2 as [->|N2]; auto; right; rewrite R; right; auto).
      assert (SD : forall t, In t pts -> 0 <= area2 f (pick f r' p) t) by (intros t [<-|T]; [unfold area2; lra|apply N3; rewrite <- R; auto]).
      destruct (phase1 (pick f r' p) (S (east (pick f r' p))) (pick f r' p)) as (k & h & H); auto; [lra|apply area_aa|].
      rewrite NF. exists (S k). apply (loop_step _ k f (pick f r' p)); eauto.
    - assert (PX : fst p == fst f) by lra. assert (PN : p <> f) by (apply r_not_f; rewrite R; left; auto). assert (PY : ~ snd p == snd f) by (intros Y; apply PN; destruct PD as [_ PD']; apply PD'; auto; apply f_in). destruct (Qlt_le_dec (snd p) (snd f)) as [YP|YP].
      + assert (NF' : hull_next pts f = p). { rewrite NF. apply pick_stays. intros t T. rewrite on_edge by auto. assert (fst f <= fst t) by (apply f_min; right; rewrite R; right; auto). nra. }
        rewrite NF'. enough (exists k h, hull_loop k pts f p = Some h /\ good p h) as (k & h & H) by (exists (S k); apply (loop_step p k f p); eauto; intros t T; right; rewrite area_anti, on_edge by auto; pose proof (f_min t T); nra). assert (FP : fst f == fst p) by (symmetry; exact PX).
        destruct (split_first _ (fun t => Qltb (fst f) (fst t)) r) as [NO|(l1 & w & l2 & RR & W & L1)].
        * exists 1%nat. assert (Z : forall t, In t pts -> area2 p t f == 0). { intros t T. rewrite on_edge by auto. pose proof (f_min t T). assert (fst t <= fst f) by (destruct T as [<-|T]; [lra|specialize (NO t T); apply ltb_false in NO; lra]). assert (Q : fst t - fst p == 0) by lra. rewrite Q. ring. }
          apply (loop_step p 0 p f); auto; [|apply f_in|intros t T; right; rewrite area_anti, Z; auto; lra]. rewrite next_other by auto. apply pick_stays. intros t T. rewrite Z; [lra|right; auto].
        * apply ltb_iff in W. assert (SP : pts = (f :: l1) ++ w :: l2) by (unfold pts; rewrite RR; reflexivity). assert (NX : hull_next pts p = pick p l2 w).
          { rewrite next_other by auto. rewrite RR, pick_app, (pick_stays p l1 f) by (intros t T; rewrite on_edge by auto; specialize (L1 t T); apply ltb_false in L1; nra). unfold pick at 1. cbn [fold_left]. replace (Qltb 0 (area2 p w f)) with true by (symmetry; apply ltb_iff; rewrite on_edge by auto; nra). reflexivity. }
          destruct (from_edge p w l2) as (N1 & N2 & N3); auto; [apply (after (f :: l1)); auto|]. set (n := pick p l2 w) in *. assert (N : In n pts) by (rewrite SP; apply in_app_iff; right; destruct N2 as [->|N2]; [left|right]; auto).
          assert (SD : forall t, In t pts -> low t \/ 0 <= area2 p n t).
          { intros t T. rewrite SP in T. apply in_app_iff in T. destruct T as [T|T]; [|right; apply N3; auto]. assert (TX : fst t == fst f). { assert (fst f <= fst t) by (apply f_min; rewrite SP; apply in_app_iff; auto). destruct T as [<-|T]; [reflexivity|]. specialize (L1 t T). apply ltb_false in L1. lra. }
            destruct (Qlt_le_dec (snd t) (snd f)); [left; split; auto|right]. rewrite on_edge by lra. nra. }
          destruct (phase2 p 0 (S (ahead n)) p n [] pts) as (h & Hh); auto.
          -- intros x [].
          -- rewrite on_edge by auto. nra.
          -- intros t T. destruct (SD t T); auto.
          -- intros x [].
          -- exists (S (S (ahead n))). apply (loop_step p _ p n); auto; [|eauto]. intros t T. destruct (SD t T); [left; left|right]; auto.
      + assert (YP' : snd f < snd p) by lra. destruct (split_first _ (fun t => Qltb (fst f) (fst t)) r') as [NO|(l1 & w & l2 & RR & W & L1)].
        * assert (TX : forall t, In t pts -> fst t == fst f). { intros t T. pose proof (f_min t T). assert (fst t <= fst f) by (destruct T as [<-|T]; [lra|]; rewrite R in T; destruct T as [<-|T]; [lra|specialize (NO t T); apply ltb_false in NO; lra]). lra. }
          assert (Z : forall a b c, In a pts -> In b pts -> In c pts -> area2 a b c == 0) by (intros a b c A B C; unfold area2; rewrite (TX a A), (TX b B), (TX c C); ring).
          exists 2%nat. assert (NF' : hull_next pts f = p) by (rewrite NF; apply pick_stays; intros t T; rewrite Z; auto; [lra|apply f_in|right; rewrite R; right; auto]). rewrite NF'. apply (loop_step p 1 f p); auto; [intros t T; right; rewrite Z; auto; [lra|apply f_in]|]. right. apply (loop_step p 0 p f); auto; [|apply f_in|intros t T; right; rewrite Z; auto; [lra|apply f_in]]. rewrite next_other by auto. apply pick_stays. intros t T. rewrite Z; auto; [lra|right; auto|apply f_in].
        * apply ltb_iff in W. assert (SP : pts = (f :: p :: l1) ++ w :: l2) by (unfold pts; rewrite R, RR; reflexivity). assert (NX : hull_next pts f = pick f l2 w).
          { rewrite NF, RR, pick_app, (pick_stays f l1 p) by (intros t T; rewrite on_edge by auto; specialize (L1 t T); apply ltb_false in L1; nra). unfold pick at 1. cbn [fold_left]. replace (Qltb 0 (area2 f w p)) with true by (symmetry; apply ltb_iff; rewrite on_edge by auto; nra). reflexivity. }
          destruct (from_edge f w l2) as (N1 & N2 & N3); auto; [reflexivity|apply (after (f :: p :: l1)); auto|]. set (n := pick f l2 w) in *. assert (N : In n pts) by (rewrite SP; apply in_app_iff; right; destruct N2 as [->|N2]; [left|right]; auto).
          assert (SD : forall t, In t pts -> low t \/ 0 <= area2 f n t).
          { intros t T. rewrite SP in T. apply in_app_iff in T. destruct T as [T|T]; [|right; apply N3; auto]. assert (TX : fst t == fst f). { assert (fst f <= fst t) by (apply f_min; rewrite SP; apply in_app_iff; auto). destruct T as [<-|[<-|T]]; [reflexivity|exact PX|]. specialize (L1 t T). apply ltb_false in L1. lra. }
            destruct (Qlt_le_dec (snd t) (snd f)); [left; split; auto|right]. rewrite on_edge by auto. nra. }
          destruct (phase1 n (S (east n)) n) as (k & h & H); auto; [lra|apply area_aa|]. rewrite NX.
          exists (S k). apply (loop_step n k f n); eauto. intros t T. destruct (SD t T); [left; left|right]; auto.
  Qed.
End Walk.

(** A walk that ends meets no point twice. *)
Lemma loop_more : forall l f k c h, hull_loop k l f c = Some h -> forall k', (length h <= k')%nat -> hull_loop k' l f c = Some h.
Proof.
  intros l f. induction k as [|k IH]; intros c h H k' K; [discriminate H|]. cbn [hull_loop] in H. destruct (same f (hull_next l c)) eqn:S.
  - injection H as <-. cbn [length] in K. destruct k' as [|k']; [lia|]. cbn [hull_loop]. rewrite S. reflexivity.
  - destruct (hull_loop k l f (hull_next l c)) as [h'|] eqn:E; [|discriminate H]. injection H as <-. cbn [length] in K. destruct k' as [|k']; [lia|]. cbn [hull_loop]. rewrite S, (IH _ _ E) by lia. reflexivity.
Qed.
Lemma loop_unique : forall l f k k' c h h', hull_loop k l f c = Some h -> hull_loop k' l f c = Some h' -> h = h'.
Proof. intros l f k k' c h h' H H'. pose proof (loop_more l f k c h H (length h + length h') ltac:(lia)). pose proof (loop_more l f k' c h' H' (length h + length h') ltac:(lia)). congruence. Qed.
Lemma loop_sub : forall l f k c h x, hull_loop k l f c = Some h -> In x h -> exists k' h', hull_loop k' l f x = Some h' /\ (length h' <= length h)%nat.
Proof.
  intros l f. induction k as [|k IH]; intros c h x H X; [discriminate H|]. pose proof H as H0. cbn [hull_loop] in H. destruct (same f (hull_next l c)) eqn:S.
  - injection H as <-. destruct X as [<-|[]]. exists (Datatypes.S k), [c]. split; auto.
  - destruct (hull_loop k l f (hull_next l c)) as [h1|] eqn:E; [|discriminate H]. injection H as <-. destruct X as [<-|X]; [exists (Datatypes.S k), (c :: h1); auto|]. destruct (IH _ _ x E X) as (k' & h' & A & B). exists k', h'. split; auto. cbn [length]. lia.
Qed.
Lemma loop_nodup : forall l f k c h, hull_loop k l f c = Some h -> NoDup h.
Proof.
  intros l f. induction k as [|k IH]; intros c h H; [discriminate H|]. pose proof H as H0. cbn [hull_loop] in H. destruct (same f (hull_next l c)) eqn:S.
  - injection H as <-. constructor; [intros []|constructor].
  - destruct (hull_loop k l f (hull_next l c)) as [h1|] eqn:E; [|discriminate H]. injection H as <-. constructor; [|eapply IH; eauto]. intros C. destruct (loop_sub _ _ _ _ _ c E C) as (k' & h' & A & B). pose proof (loop_unique _ _ _ _ _ _ _ H0 A) as U. rewrite <- U in B. cbn [length] in B. lia.
Qed.
Lemma next_in : forall l c, hull_next l c = c \/ In (hull_next l c) l.
Proof.
  intros l c. unfold hull_next. assert (G : forall m e, let n := fold_left (fun e t => if same c e || Z.eqb (orientation c t e) 2 then t else e) m e in n = e \/ In n m); [|apply G].
  induction m as [|t m IH]; intros e; cbn zeta; [left; auto|]. cbn [fold_left]. destruct (same c e || Z.eqb (orientation c t e) 2); [destruct (IH t) as [->|H]; [right; left; auto|right; right; auto]|destruct (IH e) as [->|H]; [left; auto|right; right; auto]].
Qed.
Lemma loop_incl : forall l f k c h, In c l -> hull_loop k l f c = Some h -> incl h l /\ hd_error h = Some c.
Proof.
  intros l f. induction k as [|k IH]; intros c h C H; [discriminate H|]. cbn [hull_loop] in H. destruct (same f (hull_next l c)).
  - injection H as <-. split; auto. intros x [<-|[]]. auto.
  - destruct (hull_loop k l f (hull_next l c)) as [h1|] eqn:E; [|discriminate H]. injection H as <-. split; auto. intros x [<-|X]; auto. apply (IH (hull_next l c) h1); auto. destruct (next_in l c) as [->|N]; auto.
Qed.

Lemma insert_sorted : forall p l, StronglySorted (fun a b : Q * Q => fst a <= fst b) l -> StronglySorted (fun a b : Q * Q => fst a <= fst b) (insert_x p l).
Proof.
  intros p. induction l as [|q l IH]; intros S; [repeat constructor|]. cbn [insert_x]. inversion S as [|? ? S' F]; subst. destruct (Qle_bool (fst p) (fst q)) eqn:E.
  - apply Qle_bool_iff in E. constructor; auto. constructor; auto. rewrite Forall_forall in *. intros x X. specialize (F x X). cbn beta in *. lra.
  - assert (fst q <= fst p) by (apply Qlt_le_weak, Qnot_le_lt; intros C; apply Qle_bool_iff in C; congruence). constructor; auto. rewrite Forall_forall in *. intros x X. apply insert_in in X. destruct X as [->|X]; auto.
Qed.
Lemma sort_sorted : forall l, StronglySorted (fun a b : Q * Q => fst a <= fst b) (sort_x l).
Proof. induction l as [|p l IH]; [constructor|]. apply insert_sorted; auto. Qed.

Lemma hull_ends_lemma : forall s, pdistinct s -> exists h, incl h s /\ NoDup h /\ (s <> [] -> h <> []) /\ (forall k, (length s <= k)%nat -> convex_hull k s = Some h) /\
  forall t, In t s -> outside h t -> exists f v, nth_error h 0 = Some f /\ nth_error h 1 = Some v /\ (forall p, In p s -> fst f <= fst p) /\
    (fst t == fst f /\ snd t < snd f \/ area2 f v t == 0 /\ fst f < fst v < fst t).
Proof.
  intros s PD. pose proof (sort_perm s) as PM. pose proof (sort_sorted s) as SO. unfold convex_hull. destruct (sort_x s) as [|f r] eqn:E.
  - exists []. split; [intros x []|]. split; [constructor|]. assert (SN : s = []) by (apply Permutation_sym, Permutation_nil in PM; auto). split; [contradiction|]. split; [auto|]. intros t T. rewrite SN in T. destruct T.
  - assert (PD' : pdistinct (f :: r)). { destruct PD as [N D]. split; [eapply Permutation_NoDup; eauto|]. intros a b A B. apply D; eapply Permutation_in; [apply Permutation_sym, PM|exact A|apply Permutation_sym, PM|exact B]. }
    destruct (walk_ends f r PD' SO) as (k0 & h & H & G). destruct (loop_incl _ _ _ f h (in_eq f r) H) as [I HD]. exists h. assert (IS : incl h s) by (intros x X; apply (Permutation_in x (Permutation_sym PM)), I; auto). pose proof (loop_nodup _ _ _ _ _ H) as ND.
    split; auto. split; auto. split; [intros _ ->; discriminate HD|]. split; [intros k K; apply (loop_more _ _ k0); auto; apply Nat.le_trans with (length s); auto; apply NoDup_incl_length; auto|].
    intros t T (a & b & AB & O). destruct h as [|f' h]; [discriminate HD|]. injection HD as ->. unfold sides in AB. cbn [firstn] in AB. assert (TP : In t (f :: r)) by (eapply Permutation_in; eauto). destruct (G a b AB t TP) as [MI|C]; [|lra].
    destruct h as [|v h]; [destruct AB as [AB|[]]; injection AB as <- <-; rewrite area_pp in O; lra|]. assert (V : hull_next (f :: r) f = v).
    { destruct k0 as [|k0]; [discriminate H|]. cbn [hull_loop] in H. destruct (same f (hull_next (f :: r) f)); [discriminate H|]. destruct (hull_loop k0 (f :: r) f (hull_next (f :: r) f)) as [h1|] eqn:E1; [|discriminate H]. injection H as ->. destruct (loop_hd f r _ _ _ E1) as [h' E2]. injection E2 as ->. auto. }
    rewrite V in MI. exists f, v. split; auto. split; auto. assert (MN : forall p, In p s -> fst f <= fst p) by (intros p P; apply (f_min f r SO); eapply Permutation_in; eauto). split; auto.
    destruct MI as [[M1 M2]|[M1 M2]]; [left; auto|]. assert (VI : In v s) by (apply IS; right; left; auto). specialize (MN v VI). destruct (Qlt_le_dec (fst f) (fst v)) as [L|L]; [right; split; auto|]. exfalso.
    assert (VN : ~ snd v == snd f). { intros Y. inversion ND as [|? ? NI _]; subst. apply NI. left. destruct PD as [_ D]. apply D; auto; [apply IS; left; auto|lra]. }
    assert (VX : fst v == fst f) by lra. assert (Q : area2 f v t == - ((snd v - snd f) * (fst t - fst f))) by (unfold area2; rewrite VX; ring). rewrite M1 in Q. assert (W : (snd v - snd f) * (fst t - fst f) == 0) by lra. apply Qmult_integral in W. destruct W; [apply VN|]; lra.
Qed.
