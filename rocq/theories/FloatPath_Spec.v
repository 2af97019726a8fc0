(** Path data in floating point: the numbers that are read, and what is drawn. *)
Require Import ZArith QArith Qreals Reals List Bool.
From Flocq Require Import Core.
Require Import Verif.Base Verif.Text_Spec Verif.Text_Proofs Verif.PathText_Spec Verif.Float_Model Verif.Float_Spec Verif.FloatText_Model Verif.FloatText_Spec Verif.FloatPath_Model.
Import ListNotations.

(** The float a literal is read as; FloatText_Thms.float_reads_nearest. *)
Definition qlit_f (l : lit) : fl := ffnum (fnum_of l).
Definition values_f (l : list (bool * atom lit)) : list (bool * atom fl) := map (fun x => (fst x, map_atom qlit_f (snd x))) l.

(** * What is drawn, with floats; as PathText_Spec.drawn *)
Inductive drawn_f :=
| SMove_f (from : option pt_f) (to : pt_f)
| SLine_f (from to : pt_f)
| SClose_f (from to : pt_f)
| SQuad_f (from c to : pt_f)
| SCubic_f (from c d to : pt_f)
| SArc_f (from : pt_f) (rx ry rot : fl) (large sweep : bool) (to : pt_f).
(** The drawing a segment stands for, if its points are known. *)
Definition view_f (s : seg_f) : option drawn_f :=
  match s_kind_f s, s_start_f s, s_end_f s with
  | KMove_f, o, Some b => Some (SMove_f o b)
  | KLine_f, Some a, Some b => Some (SLine_f a b)
  | KClose_f, Some a, Some b => Some (SClose_f a b)
  | KQuad_f (Some c), Some a, Some b => Some (SQuad_f a c b)
  | KCubic_f (Some c) (Some d), Some a, Some b => Some (SCubic_f a c d b)
  | KArc_f g, Some a, Some b => Some (SArc_f a (a_rx_f g) (a_ry_f g) (a_rot_f g) (a_large_f g) (a_sweep_f g) b)
  | _, _, _ => None
  end.

(** * Printing and reading *)
Open Scope R_scope.
Definition good_pt (p : pt_f) : Prop := good_coord (fst p) /\ good_coord (snd p).
(** Segments with their points known, written with coordinates that are read back. *)
Definition printable (s : seg_f) : Prop :=
  match s_kind_f s, s_end_f s with
  | KMove_f, Some e | KLine_f, Some e => good_pt e
  | KClose_f, _ => True
  | KQuad_f (Some c), Some e => good_pt c /\ good_pt e
  | KCubic_f (Some c) (Some d), Some e => good_pt c /\ good_pt d /\ good_pt e
  | _, _ => False
  end.
(** Eleven significant digits of both coordinates are the same. *)
Definition same11 (p q : pt_f) : Prop :=
  Rabs (value (fst q) - value (fst p)) <= / 199000000000 * Rabs (value (fst p)) /\ Rabs (value (snd q) - value (snd p)) <= / 199000000000 * Rabs (value (snd p)).
(** Segments of the same kind with such points; a close has no points of its own. *)
Definition alike (s s' : seg_f) : Prop :=
  match s_kind_f s, s_end_f s, s_kind_f s', s_end_f s' with
  | KMove_f, Some e, KMove_f, Some e' | KLine_f, Some e, KLine_f, Some e' => same11 e e'
  | KClose_f, _, KClose_f, _ => True
  | KQuad_f (Some c), Some e, KQuad_f (Some c'), Some e' => same11 c c' /\ same11 e e'
  | KCubic_f (Some c) (Some d), Some e, KCubic_f (Some c') (Some d'), Some e' => same11 c c' /\ same11 d d' /\ same11 e e'
  | _, _, _, _ => False
  end.

(** * Drift: [e] bounds the error of end points, [m] that of control points *)
Definition rv (c : Qcanon.Qc) : R := Q2R (Qcanon.this c).
Definition near_num (e : R) (x : fl) (c : Qcanon.Qc) : Prop := finite x /\ Rabs (value x - rv c) <= e.
Definition near_pt (e : R) (p : pt_f) (q : point) : Prop := near_num e (fst p) (fst q) /\ near_num e (snd p) (snd q).
Definition near_drawn (e m : R) (d : drawn_f) (d' : drawn) : Prop :=
  match d, d' with
  | SMove_f None b, SMove None b' => near_pt e b b'
  | SMove_f (Some a) b, SMove (Some a') b' => near_pt e a a' /\ near_pt e b b'
  | SLine_f a b, SLine a' b' | SClose_f a b, SClose a' b' => near_pt e a a' /\ near_pt e b b'
  | SQuad_f a c b, SQuad a' c' b' => near_pt e a a' /\ near_pt m c c' /\ near_pt e b b'
  | SCubic_f a c d b, SCubic a' c' d' b' => near_pt e a a' /\ near_pt m c c' /\ near_pt m d d' /\ near_pt e b b'
  | _, _ => False
  end.
(** The coordinates of a drawing are at most B in size. *)
Definition small (B : R) (p : point) : Prop := Rabs (rv (fst p)) <= B /\ Rabs (rv (snd p)) <= B.
Definition inside (B : R) (d : drawn) : Prop :=
  match d with
  | SMove _ b => small B b
  | SLine a b | SClose a b => small B a /\ small B b
  | SQuad a c b => small B a /\ small B c /\ small B b
  | SCubic a c d b => small B a /\ small B c /\ small B d /\ small B b
  | SArc a _ _ _ _ _ b => small B a /\ small B b
  end.
(** The segments from number [n] on: end points are off by at most four roundings of B per instruction, control points,
    which smooth curves derive from one another, by at most eight times the square of the number of instructions. *)
Fixpoint drifts (B : R) (n : nat) (l : list seg_f) (ds : list drawn) : Prop :=
  match l, ds with
  | [], [] => True
  | s :: l', d :: ds' =>
      (exists d_f, view_f s = Some d_f /\ near_drawn (4 * INR (S n) * bpow radix2 (-53) * B) (8 * (INR (S n) * INR (S n)) * bpow radix2 (-53) * B) d_f d) /\ drifts B (S n) l' ds'
  | _, _ => False
  end.
Definition arcless {N} (x : bool * atom N) : Prop := match snd x with DArc _ _ _ _ _ _ => False | _ => True end.

(** * Printing relative instructions *)
(** A point that can be printed relative to [cur]: the difference is written with digits that are read back. *)
Definition reachable (B : R) (cur e : pt_f) : Prop :=
  finite (fst e) /\ finite (snd e) /\ Rabs (value (fst e)) <= B /\ Rabs (value (snd e)) <= B /\ good_pt (psub_f e cur).
(** A path whose points can, one after the other, [cur] being where it is and [mv] where the last move led; closes lead there. *)
Fixpoint steps_ok (B : R) (cur mv : pt_f) (p : path_f) : Prop :=
  match p with
  | [] => True
  | s :: p' =>
      match s_kind_f s, s_end_f s with
      | KMove_f, Some e => reachable B cur e /\ steps_ok B e e p'
      | KClose_f, Some e => e = mv /\ steps_ok B mv mv p'
      | KLine_f, Some e => reachable B cur e /\ steps_ok B e mv p'
      | KQuad_f (Some c), Some e => reachable B cur c /\ reachable B cur e /\ steps_ok B e mv p'
      | KCubic_f (Some c) (Some d), Some e => reachable B cur c /\ reachable B cur d /\ reachable B cur e /\ steps_ok B e mv p'
      | _, _ => False
      end
  end.
(** Points that are at most [e] apart on either axis. *)
Definition apart (e : R) (p q : pt_f) : Prop :=
  (finite (fst q) /\ Rabs (value (fst q) - value (fst p)) <= e) /\ finite (snd q) /\ Rabs (value (snd q) - value (snd p)) <= e.
Definition strays1 (e : R) (s s' : seg_f) : Prop :=
  match s_kind_f s, s_end_f s, s_kind_f s', s_end_f s' with
  | KMove_f, Some b, KMove_f, Some b' | KLine_f, Some b, KLine_f, Some b' | KClose_f, Some b, KClose_f, Some b' => apart e b b'
  | KQuad_f (Some c), Some b, KQuad_f (Some c'), Some b' => apart e c c' /\ apart e b b'
  | KCubic_f (Some c) (Some d), Some b, KCubic_f (Some c') (Some d'), Some b' => apart e c c' /\ apart e d d' /\ apart e b b'
  | _, _, _, _ => False
  end.
(** Segments from number [n] on: one unit of the eleventh digit of B more per segment. *)
Fixpoint strays (B : R) (n : nat) (p q : path_f) : Prop :=
  match p, q with
  | [], [] => True
  | s :: p', s' :: q' => strays1 (INR (S n) * (B / 90000000000)) s s' /\ strays B (S n) p' q'
  | _, _ => False
  end.
