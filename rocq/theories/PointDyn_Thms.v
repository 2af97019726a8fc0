(** C88: every form of a position is as good as a Point in point arithmetic. C89: points and matrices as sequences. *)
Require Import ZArith QArith Qabs List Ascii String Bool Lia Lqa.
Require Import Verif.Base Verif.FmtG_Model Verif.PointDyn_Model Verif.PointDyn_Spec.
Import ListNotations.
Open Scope Q_scope.

Lemma near_iff a b : near a b = true <-> Qabs (a - b) <= 1 # 1000000000000.
Proof. unfold near. apply Qle_bool_iff. Qed.

(** Whatever the form, p + o, o + p, p - o, o - p, p * o and Point(o) are those of the complex numbers. *)
Theorem point_forms : forall m x y o u v, stands_for o u v ->
  p_add (x, y) o = Ok (x + u, y + v) /\ p_sub (x, y) o = Ok (x - u, y - v) /\ p_rsub (x, y) o = Ok (u - x, v - y) /\
  p_mul m (x, y) o = Ok (x * u - y * v, x * v + y * u) /\ p_new o = Ok (EN u, EN v).
Proof. intros m x y o u v H. destruct H; repeat split. Qed.
Example point_forms_ex : stands_for (OSeq [EN 3; EN 4]) 3 4 /\ stands_for (ONum 5) 5 0 /\
  p_rsub (1, 2) (OComplex 3 4) = Ok (3 - 1, 4 - 2).
Proof. repeat split; constructor. Qed.
Print Assumptions point_forms.

(** p += o, p -= o and p *= o change the point to what the operator without = gives, and the name stays with it. *)
Theorem point_forms_in_place : forall m x y o u v, stands_for o u v ->
  p_iarith Qplus (x, y) o = ((x + u, y + v), p_add (x, y) o) /\
  p_iarith Qminus (x, y) o = ((x - u, y - v), p_sub (x, y) o) /\
  p_imul m (x, y) o = ((x * u - y * v, x * v + y * u), p_mul m (x, y) o).
Proof. intros m x y o u v H. destruct H; repeat split. Qed.
Example point_forms_in_place_ex : p_iarith Qminus (1, 2) (ONum 5) = ((1 - 5, 2 - 0), Ok (1 - 5, 2 - 0)).
Proof. reflexivity. Qed.
Print Assumptions point_forms_in_place.

(** p == o and p != o compare with what o stands for. *)
Theorem point_forms_equal : forall x y o u v, stands_for o u v -> exists b,
  p_eq (x, y) o = Ok b /\ p_ne (x, y) o = Ok (negb b) /\ (b = true <-> close x y u v).
Proof.
  intros x y o u v H. exists (near x u && near y v)%bool.
  assert (p_eq (x, y) o = Ok (near x u && near y v)%bool) as E.
  { destruct H; unfold p_eq; cbn; destruct (near _ _); reflexivity. }
  split; [exact E|]. split; [unfold p_ne; rewrite E; reflexivity|].
  rewrite andb_true_iff, !near_iff. unfold close. tauto.
Qed.
Example point_forms_equal_ex : p_eq (1, 2) (OSeq [EN 1; EN 2]) = Ok true /\ p_eq (1, 2) (OComplex 1 3) = Ok false /\ p_eq (7, 0) (ONum 7) = Ok true.
Proof. repeat split. Qed.
Print Assumptions point_forms_equal.

(** move_towards and reflected_across with any form. *)
Theorem point_forms_moves : forall x y o u v t, stands_for o u v ->
  (exists r, p_move_towards (x, y) o t = Ok r /\ same_pair r (x + t * (u - x), y + t * (v - y))) /\
  (exists r, p_reflected (x, y) o = Ok r /\ same_pair r (2 * u - x, 2 * v - y)).
Proof.
  intros x y o u v t H. split.
  - eexists. split; [destruct H; reflexivity|]. split; cbn [fst snd cmul]; unfold cmul; cbn [fst snd]; ring.
  - eexists. split; [destruct H; reflexivity|]. split; cbn [fst snd]; ring.
Qed.
Example point_forms_moves_ex : exists r, p_reflected (1, 2) (OSeq [EN 5; EN 5]) = Ok r /\ same_pair r (9, 8).
Proof. eexists. split; [reflexivity|]. split; reflexivity. Qed.
Print Assumptions point_forms_moves.

(** Text is a position for Point(text) and ==, but never for + and -; for * it is a transform. *)
Theorem point_text : forall m p t,
  p_add p (OText t) = Err TypeError /\ p_sub p (OText t) = Err TypeError /\ p_rsub p (OText t) = Err TypeError /\
  p_iarith Qplus p (OText t) = (p, Err TypeError) /\ p_iarith Qminus p (OText t) = (p, Err TypeError) /\
  (forall u v, point_of_text t = Ok (u, v) -> p_new (OText t) = Ok (EN u, EN v) /\
     exists b, p_eq p (OText t) = Ok b /\ (b = true <-> close (fst p) (snd p) u v)) /\
  (forall e, point_of_text t = Err e -> p_eq p (OText t) = Ok false) /\
  (forall a b c d e f, m t = Ok (a, b, c, d, e, f) -> p_mul m p (OText t) = p_mul m p (OMatrix a b c d e f)).
Proof.
  intros m [x y] t.
  assert (forall g q, p_arith g q (OText t) = Err TypeError) as A.
  { intros g [a b]. destruct t as [|c0 [|c1 t]]; reflexivity. }
  assert (forall g q, p_iarith g q (OText t) = (q, Err TypeError)) as B.
  { intros g [a b]. destruct t as [|c0 [|c1 t]]; reflexivity. }
  do 3 (split; [apply A|]). do 2 (split; [apply B|]). split; [|split].
  - intros u v H. unfold p_eq, p_new. rewrite H. split; [reflexivity|]. exists (near x u && near y v)%bool.
    cbn. split; [destruct (near x u); reflexivity|]. rewrite andb_true_iff, !near_iff. unfold close. tauto.
  - intros e H. unfold p_eq, p_new. rewrite H. reflexivity.
  - intros a b c d e f H. unfold p_mul. rewrite H. reflexivity.
Qed.
Example point_text_ex : point_of_text (T "3,4"%string) = Ok (3, 4) /\ p_eq (3, 4) (OText (T "3,4"%string)) = Ok true /\
  p_eq (3, 4) (OText (T "north"%string)) = Ok false.
Proof. vm_compute. repeat split. Qed.
Print Assumptions point_text.

(** None, and tuples without two numbers to begin with, are refused by + - * and leave the point alone; this needs
    the second item not to be a number. *)
Theorem point_refuses_partial : forall m p o,
  (o = ONone \/ exists l, o = OSeq l /\ (nth_error l 1 = None \/ nth_error l 1 = Some EX)) ->
  p_add p o = Err TypeError /\ p_sub p o = Err TypeError /\ p_rsub p o = Err TypeError /\ p_mul m p o = Err TypeError /\
  p_iarith Qplus p o = (p, Err TypeError) /\ p_iarith Qminus p o = (p, Err TypeError) /\ p_imul m p o = (p, Err TypeError).
Proof.
  intros m [x y] o H.
  assert (forall g q, p_arith g q o = Err TypeError) as A.
  { intros g [a b]. destruct H as [-> |[[|a0 [|a1 l]] [-> [E|E]]]]; try discriminate E; try (injection E as ->); reflexivity. }
  assert (forall g q, p_iarith g q o = (q, Err TypeError)) as B.
  { intros g [a b]. destruct H as [-> |[[|a0 [|a1 l]] [-> [E|E]]]]; try discriminate E; try (injection E as ->); reflexivity. }
  assert (p_mul m (x, y) o = Err TypeError) as D.
  { destruct H as [-> |[[|[q|] [|a1 l]] [-> [E|E]]]]; try discriminate E; try (injection E as ->); reflexivity. }
  do 3 (split; [apply A|]). split; [exact D|]. do 2 (split; [apply B|]). unfold p_imul. rewrite D. reflexivity.
Qed.
Example point_refuses_ex : exists l, OSeq [EN 1] = OSeq l /\ (nth_error l 1 = None \/ nth_error l 1 = Some EX).
Proof. exists [EN 1]. split; [reflexivity|]. left. reflexivity. Qed.
Print Assumptions point_refuses_partial.
(** An addition that raises TypeError has still moved the point: p += (None, 5). *)
Theorem point_refuses_refuted : exists p o q, p_iarith Qplus p o = (q, Err TypeError) /\ ~ same_pair p q.
Proof. exists (1, 2), (OSeq [EX; EN 5]), (1, 2 + 5). split; [reflexivity|]. intros [_ H]. discriminate. Qed.
Print Assumptions point_refuses_refuted.
(** Comparing raises with a pair that holds no numbers: Point(1, 2) == (None, 5). *)
Theorem point_equal_raises_refuted : exists p o, p_eq p o = Err TypeError.
Proof. exists (1, 2), (OSeq [EX; EN 5]). reflexivity. Qed.
Print Assumptions point_equal_raises_refuted.
(** A Matrix passes for the point (a, b) in + - and ==, though not when it comes first in ==. *)
Theorem point_matrix_refuted :
  (forall p a b c d e f, p_add p (OMatrix a b c d e f) = p_add p (OPoint a b) /\ p_eq p (OMatrix a b c d e f) = p_eq p (OPoint a b)) /\
  exists p a b c d e f, p_eq p (OMatrix a b c d e f) = Ok true /\ matrix_eq_point a b c d e f p = false.
Proof.
  split.
  - intros [x y] *. split; reflexivity.
  - exists (1, 0), 1, 0, 0, 1, 0, 0. split; reflexivity.
Qed.
Print Assumptions point_matrix_refuted.
(** Point * Matrix transforms; Matrix * Point raises. *)
Theorem point_matrix_order_refuted : forall m p a b c d e f,
  (exists q, p_mul m p (OMatrix a b c d e f) = Ok q /\
     same_pair q (a * fst p + c * snd p + e, b * fst p + d * snd p + f)) /\
  matrix_mul_point a b c d e f p = Err AttributeError.
Proof.
  intros. split; [|reflexivity]. eexists. split; [reflexivity|]. split; unfold in_space; cbn [fst snd]; ring.
Qed.
Print Assumptions point_matrix_order_refuted.

(** Equality of points: reflexive and symmetric; not transitive. *)
Theorem point_eq_symmetric : forall x y u v,
  p_eq (x, y) (OPoint x y) = Ok true /\ p_eq (x, y) (OPoint u v) = p_eq (u, v) (OPoint x y).
Proof.
  assert (forall a b, near a b = near b a) as S.
  { intros. unfold near. rewrite (Qabs_Qminus a b). reflexivity. }
  assert (forall a, near a a = true) as R.
  { intros. apply near_iff. setoid_replace (a - a) with 0 by ring. discriminate. }
  intros. unfold p_eq. cbn. rewrite !R, (S u x), (S v y). split; reflexivity.
Qed.
Print Assumptions point_eq_symmetric.
Theorem point_eq_transitive_refuted : exists a b c d e f,
  p_eq (a, b) (OPoint c d) = Ok true /\ p_eq (c, d) (OPoint e f) = Ok true /\ p_eq (a, b) (OPoint e f) = Ok false.
Proof. exists 0, 0, (1 # 1000000000000), 0, (2 # 1000000000000), 0. repeat split. Qed.
Print Assumptions point_eq_transitive_refuted.
(** Equal points need not have the same hash, whatever the hash of two floats is, unless two pairs that differ
    collide: a set may hold two equal points. *)
Theorem point_hash_refuted : forall h, (forall a b, h a = h b -> same_pair a b) ->
  exists p u v, p_eq p (OPoint u v) = Ok true /\ p_hash h p <> p_hash h (u, v).
Proof.
  intros h H. exists (0, 0), (1 # 1000000000000), 0. split; [reflexivity|].
  intros E. destruct (H _ _ E) as [F _]. discriminate.
Qed.
Print Assumptions point_hash_refuted.

(** * C89 *)
(** A point unpacks into x and y, whatever number of steps is allowed beyond the third. *)
Theorem point_unpacks : forall p n, iterate (point_item p) (S (S (S n))) 0 = Some (Ok [fst p; snd p]) /\
  Z.of_nat (List.length [fst p; snd p]) = point_len p.
Proof. intros. split; reflexivity. Qed.
Print Assumptions point_unpacks.
(** p[i] = v changes exactly that coordinate; anything but 0 and 1, also -1, raises and changes nothing. *)
Theorem point_item_set : forall p i v q, point_set p i v = Ok q ->
  point_item q i = Ok v /\ (forall j, j <> i -> point_item q j = point_item p j).
Proof.
  intros [x y] i v q H. unfold point_set, point_item in *. destruct (Z.eqb_spec i 0) as [->|N].
  - injection H as <-. split; [reflexivity|]. intros j J. destruct (Z.eqb_spec j 0); [contradiction|]. reflexivity.
  - destruct (Z.eqb_spec i 1) as [->|N1]; [|discriminate]. injection H as <-. split; [reflexivity|].
    intros j J. destruct (Z.eqb_spec j 0); [reflexivity|]. destruct (Z.eqb_spec j 1); [contradiction|reflexivity].
Qed.
Example point_item_set_ex : point_set (1, 2) 1 5 = Ok (1, 5).
Proof. reflexivity. Qed.
Print Assumptions point_item_set.
Theorem point_item_bounds : forall p i v, (i < 0 \/ 1 < i)%Z -> point_item p i = Err IndexError /\ point_set p i v = Err IndexError.
Proof.
  intros p i v H. unfold point_item, point_set.
  destruct (Z.eqb_spec i 0); [lia|]. destruct (Z.eqb_spec i 1); [lia|]. split; reflexivity.
Qed.
Example point_item_bounds_ex : (-1 < 0 \/ 1 < -1)%Z.
Proof. lia. Qed.
Print Assumptions point_item_bounds.
(** m[0] to m[5] are a to f in this order, and m[i] = v changes exactly that one. *)
Theorem matrix_items : forall a b c d e f i v, (0 <= i < 6)%Z ->
  nth_error [a; b; c; d; e; f] (Z.to_nat i) = match matrix_item a b c d e f i with EN q => Some q | EX => None end /\
  exists m, matrix_set [a; b; c; d; e; f] i v = m /\ List.length m = 6%nat /\ nth_error m (Z.to_nat i) = Some v /\
    forall j, j <> Z.to_nat i -> nth_error m j = nth_error [a; b; c; d; e; f] j.
Proof.
  intros a b c d e f i v H.
  assert (i = 0 \/ i = 1 \/ i = 2 \/ i = 3 \/ i = 4 \/ i = 5)%Z as C by lia.
  split; [|eexists; split; [reflexivity|]];
  repeat (destruct C as [-> |C]); try subst i; cbn; try reflexivity;
  (split; [reflexivity|]; split; [reflexivity|]; intros j J;
   destruct j as [|[|[|[|[|[|j]]]]]]; cbn; try reflexivity; exfalso; apply J; reflexivity).
Qed.
Example matrix_items_ex : matrix_item 1 2 3 4 5 6 4 = EN 5 /\ matrix_set [1; 2; 3; 4; 5; 6] 2 9 = [1; 2; 9; 4; 5; 6].
Proof. split; reflexivity. Qed.
Print Assumptions matrix_items.
(** Outside 0 to 5 reading gives None and writing is ignored: no IndexError. *)
Theorem matrix_item_bounds : forall a b c d e f i v, (i < 0 \/ 5 < i)%Z ->
  matrix_item a b c d e f i = EX /\ matrix_set [a; b; c; d; e; f] i v = [a; b; c; d; e; f].
Proof.
  intros a b c d e f i v H. unfold matrix_item, matrix_set.
  repeat match goal with |- context [Z.eqb i ?k] => destruct (Z.eqb_spec i k); [lia|] end. split; reflexivity.
Qed.
Example matrix_item_bounds_ex : (-1 < 0 \/ 5 < -1)%Z.
Proof. lia. Qed.
Print Assumptions matrix_item_bounds.
(** So going through a matrix, list(m), tuple(m), a, b, c, d, e, f = m, never ends. *)
Theorem matrix_unpacks_refuted : forall a b c d e f n i, iterate (fun i => Ok (matrix_item a b c d e f i)) n i = None.
Proof.
  intros a b c d e f n. induction n as [|n IH]; intros i; [reflexivity|]. cbn -[matrix_item].
  rewrite IH. reflexivity.
Qed.
Print Assumptions matrix_unpacks_refuted.
