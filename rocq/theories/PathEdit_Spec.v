(** Specifications for editing paths. *)
Require Import ZArith QArith Qcanon Qabs List.
Require Import Verif.Path_Model Verif.PathEdit_Model Verif.PathText_Spec Verif.PathDraw_Spec.
Import ListNotations.

(** Two points the library regards as equal: no coordinate differs by more than 1e-12. *)
Definition same_place (p q : pt) : Prop :=
  (Qabs (this (fst p) - this (fst q)) <= 1 # 1000000000000)%Q /\
  (Qabs (this (snd p) - this (snd q)) <= 1 # 1000000000000)%Q.
Definition meets (a b : option pt) : Prop := exists p q, a = Some p /\ b = Some q /\ same_place p q.
(** Every segment starts where the one before it ends; every close but one in front of everything returns to the
    start of its subpath. *)
Definition joined (p : path) : Prop :=
  (forall a f s b, p = a ++ f :: s :: b -> meets (s_end f) (s_start s)) /\
  (forall a s b, p = a ++ s :: b -> a <> [] -> s_kind s = KClose -> exists o, subpath_start a o /\ meets (s_end s) o).
(** Every segment goes somewhere. *)
Definition ended (p : path) : Prop := Forall (fun s => s_end s <> None) p.
(** A drawing segment: neither a move nor a close. *)
Definition draws (s : seg) : Prop := s_kind s <> KMove /\ s_kind s <> KClose.
(** In [b], a close that belongs to the subpath [b] starts in is the last segment of all. *)
Definition open_or_last (b : path) : Prop :=
  forall c z d, b = c ++ z :: d -> Forall draws c -> s_kind z = KClose -> d = [].
(** The points a path goes through. *)
Definition ends (p : path) : list (option pt) := map s_end p.
Definition on_path (p : path) (q : pt) : Prop := exists s, In s p /\ (s_start s = Some q \/ s_end s = Some q).
(** Being equal is transitive on the points of [p]; two different points of [p] do not almost coincide. *)
Definition separated (p : path) : Prop :=
  forall x y z, on_path p x -> on_path p y -> on_path p z -> same_place x y -> same_place y z -> same_place x z.
(** The segments that draw, in order. *)
Definition is_draw (s : seg) : bool := match s_kind s with KMove | KClose => false | _ => true end.
Definition strokes (p : path) : list (option drawn) := map view (filter is_draw p).
(** The same drawing in the other direction. *)
Definition flip (d : drawn) : drawn :=
  match d with
  | SMove o b => d
  | SLine a b => SLine b a
  | SClose a b => SClose b a
  | SQuad a c b => SQuad b c a
  | SCubic a c e b => SCubic b e c a
  | SArc a rx ry rot l s b => SArc b rx ry rot l (negb s) a
  end.

(** * Subpaths and reversal *)
(** Segments that each start exactly where the one before ends; [a] is where the first starts. *)
Fixpoint chain (a : pt) (l : path) (b : pt) : Prop :=
  match l with
  | [] => a = b
  | s :: l' => s_start s = Some a /\ draws s /\ exists c, s_end s = Some c /\ chain c l' b
  end.
(** One complete subpath: a move, drawing segments, perhaps a close. *)
Definition whole (sp : path) : Prop :=
  exists m ds cl a b, sp = m :: ds ++ cl /\ s_kind m = KMove /\ s_end m = Some a /\ chain a ds b /\
    (cl = [] \/ exists z, cl = [z] /\ s_kind z = KClose /\ s_start z = Some b /\ s_end z = Some a).
(** A path made of complete subpaths. *)
Definition wholes (p : path) : Prop := exists sps, p = concat sps /\ Forall whole sps.
(** Equal in everything that is drawn (where a move came from is not, nor are the text flags). *)
Definition alike (s t : seg) : Prop :=
  s_kind s = s_kind t /\ s_end s = s_end t /\ (s_kind s <> KMove -> s_start s = s_start t).

(** * Where an edit keeps a path connected *)
(** Segments that may be put in front of [b], not at the very beginning. *)
Definition insertable (v : seg) (b : path) : Prop :=
  draws v \/ (s_kind v = KMove /\ s_end v <> None /\ open_or_last b) \/ (s_kind v = KClose /\ b = []).
(** [v] may take the place of [o]. *)
Definition replaceable (o v : seg) (b : path) : Prop :=
  (draws v /\ s_kind o <> KMove) \/ (s_kind v = KMove /\ s_end v <> None /\ open_or_last b) \/ (s_kind v = KClose /\ b = []).
(** [o] may be taken out. *)
Definition removable (o : seg) (b : path) : Prop :=
  draws o \/ (s_kind o = KClose /\ open_or_last b) \/
  (s_kind o = KMove /\ open_or_last b /\ forall z, b = [z] -> s_kind z <> KClose).
Definition begins_with_a_move (p : path) : Prop := match p with [] => True | m :: _ => s_kind m = KMove end.

(** * Writing at one position *)
(** Equal but for where it starts. *)
Definition but_start (s t : seg) : Prop :=
  s_kind s = s_kind t /\ s_end s = s_end t /\ s_rel s = s_rel t /\ s_smooth s = s_smooth t.
(** [q] is [p] with position [k] replaced by [v], the start of the next segment adapted. *)
Definition written (k : nat) (v : seg) (p q : path) : Prop :=
  length q = length p /\
  (forall j, j <> k -> j <> S k -> nth_error q j = nth_error p j) /\
  (exists t, nth_error q k = Some t /\ but_start v t) /\
  (forall s, nth_error p (S k) = Some s -> exists t, nth_error q (S k) = Some t /\ but_start s t).
(** A subpath view lies inside the path. *)
Definition inside (p : path) (u : PathEdit_Model.sub) : Prop := (0 <= u_start u)%Z /\ (u_start u <= u_end u + 1)%Z /\ (u_end u < Z.of_nat (length p))%Z.
(** The segments between two positions, both included. *)
Definition between (p : path) (a b : Z) (l : path) : Prop :=
  Z.of_nat (length l) = (b - a + 1)%Z /\ forall k, (0 <= k < Z.of_nat (length l))%Z -> nth_error l (Z.to_nat k) = nth_error p (Z.to_nat (a + k)).
(** The closing lines, in order. *)
Definition closings (p : path) : list (option drawn) := map view (filter (fun s => match s_kind s with KClose => true | _ => false end) p).
