(** Lengths of a Path and points along it, with what is remembered between calls: svgio/path.py:1966-1970,
    2046-2078, 2138-2242, 2595-2673. Segments are measured by [len] and evaluated by [pnt] (Curve_Model.v has these for
    lines and Bezier curves). *)
Require Import Reals ZArith QArith Qcanon Qreals List Bool.
Require Import Verif.Base Verif.Path_Model Verif.PathText_Model Verif.PathEdit_Model.
Require Verif.Point_Model Verif.Curve_Model.
Import ListNotations.
Open Scope R_scope.

(** A Path with its _length and _lengths. *)
Record cpath := mkC { c_segs : path; c_length : option R; c_lengths : list R }.
(** A Path that was just built, path.py:1966-1969. *)
Definition fresh (p : path) : cpath := mkC p None [].
(** The settings of a measurement: error and min_depth. *)
Definition cfg := (R * nat)%type.
(** ERROR and MIN_DEPTH, constants.py *)
Definition default_error : R := / 10 ^ 12.
Definition MIN_DEPTH : nat := 5.

Definition rsum (l : list R) : R := fold_right Rplus 0 l.
(** int(round(x)): to the nearest integer, halves to the even one. *)
Definition py_round (x : R) : Z :=
  let f := Int_part x in
  let r := x - IZR f in
  if Rlt_dec r (1 / 2) then f
  else if Rlt_dec (1 / 2) r then (f + 1)%Z
  else if Z.even f then f else (f + 1)%Z.

Section Cache.
  Context {PT : Type}.
  Variable len : cfg -> seg -> R.
  Variable pnt : seg -> R -> Res PT.

  (** _calc_lengths, path.py:2138-2156. *)
  Definition calc_lengths (c : cfg) (s : cpath) : cpath :=
    match c_length s with
    | Some _ => s
    | None =>
        let ls := map (len c) (c_segs s) in
        let total := rsum ls in
        mkC (c_segs s) (Some total) (if Req_EM_T total 0 then ls else map (fun x => x / total) ls)
    end.
  (** length, path.py:2240-2242. *)
  Definition path_length (c : cfg) (s : cpath) : cpath * option R :=
    let s' := calc_lengths c s in (s', c_length s').
  (** The search of point, path.py:2227-2238. [s] is the last segment looked at. *)
  Fixpoint walk (segs : path) (ls : list R) (start t : R) (s : seg) : Res PT :=
    match segs with
    | [] => pnt s 0
    | g :: r =>
        match ls with
        | [] => Err IndexError
        | l :: ls' =>
            let e := start + l in
            if Rle_dec t e then
              if Req_EM_T (e - start) 0 then Err ZeroDivisionError else pnt g ((t - start) / (e - start))
            else walk r ls' e t g
        end
    end.
  (** point, path.py:2201-2238, for a number. *)
  Definition path_point (t error : R) (s : cpath) : cpath * Res (option PT) :=
    match c_segs s with
    | [] => (s, Ok None)
    | g :: _ =>
        if Rle_dec t 0 then (s, rmap Some (pnt g t))
        else if Rle_dec 1 t then (s, rmap Some (pnt (last (c_segs s) g) t))
        else
          let s' := calc_lengths (error, MIN_DEPTH) s in
          match c_length s' with
          | None => (s', Err TypeError)
          | Some total =>
              if Req_EM_T total 0 then
                (s', do x <- pyget (c_segs s') (py_round (t * INR (length (c_segs s') - 1))); rmap Some (pnt x 0))
              else (s', rmap Some (walk (c_segs s') (c_lengths s') 0 t g))
          end
    end.
  (** npoint with numpy, path.py:2158-2199: [None] is an entry of the array that is never written. [ps] are the
      positions, [acc] the array. A path of no length makes round() of an array, a TypeError. *)
  Fixpoint nwalk (segs : path) (ls : list R) (start : R) (ps : list R) (acc : list (option (Res PT))) : Res (list (option (Res PT))) :=
    match segs with
    | [] => Ok acc
    | g :: r =>
        match ls with
        | [] => Err IndexError
        | l :: ls' =>
            let e := start + l in
            let hit p := if Rle_dec start p then (if Rlt_dec p e then true else false) else false in
            if existsb hit ps then
              let d := e - start in
              let pos p := if Req_EM_T d 0 then 0 else (p - start) / d in
              nwalk r ls' e ps (map (fun q => if hit (fst q) then Some (pnt g (pos (fst q))) else snd q) (combine ps acc))
            else nwalk r ls' start ps acc
        end
    end.
  (** The end of the last segment is written as the Python object's end; [ept] gives it as a point. *)
  Definition path_npoint (ept : seg -> Res PT) (ps : list R) (error : R) (s : cpath) : cpath * Res (option (list (option (Res PT)))) :=
    match c_segs s with
    | [] => (s, Ok None)
    | g :: _ =>
        let s' := calc_lengths (error, MIN_DEPTH) s in
        match c_length s' with
        | None => (s', Err TypeError)
        | Some total =>
            if Req_EM_T total 0 then (s', Err TypeError)
            else
              (s', do xy <- nwalk (c_segs s') (c_lengths s') 0 ps (map (fun _ => None) ps);
                   Ok (Some (map (fun q => if Req_EM_T (fst q) 1 then Some (ept (last (c_segs s') g)) else snd q) (combine ps xy))))
        end
    end.

  (** What can be done to a Path. Edits are those of PathEdit_Model.v, of which only the successful ones go on. *)
  Inductive op :=
  | OSet (i : Z) (v : seg) | OSetSlice (a b : option Z) (v : list seg)
  | ODel (i : Z) | ODelSlice (a b : option Z)
  | OAppend (v : seg) | OInsert (i : Z) (v : seg) | OExtend (q : path) | OAdd (a : addend)
  | OAppendText (t : text) | OInsertText (i : Z) (t : text) | ODirectClose | OApproximate (conv : seg -> list seg)
  | OSubSet (u : sub) (i : Z) (v : seg) | OSubDel (u : sub) (i : Z) | OSubAdd (u : sub) (v : seg)
  | OReverse | OSubReverse (u : sub) | OValidate | OSubMul (u : sub) (f : seg -> seg)
  | OLength (c : cfg) | OPoint (t error : R).
  (** The edits that forget the measurement, path.py:2057, 2072, 2604, 2617, 2629. *)
  Definition forget (p : path) (s : cpath) : cpath := mkC p None (c_lengths s).
  (** Text that draws nothing, and a direct_close that inserts nothing, leave the path as it was: nothing was appended or inserted. *)
  Definition grown (q : path) (s : cpath) : cpath := if Nat.eqb (length q) (length (c_segs s)) then s else forget q s.
  (** The others keep it: reverse (2659-2672), Subpath.reverse (2974-3001), validate_connections (2311), and
      Subpath *= matrix (2850-2856, here any change [f] of the segments of the subpath). *)
  Definition keep (p : path) (s : cpath) : cpath := mkC p (c_length s) (c_lengths s).
  Definition step (o : op) (s : cpath) : Res cpath :=
    let p := c_segs s in
    match o with
    | OSet i v => do q <- setitem p i v; Ok (mkC q None [])
    | OSetSlice a b v => Ok (mkC (setslice p a b v) None [])
    | ODel i => do q <- delitem p i; Ok (forget q s)
    | ODelSlice a b => Ok (forget (delslice p a b) s)
    | OAppend v => Ok (forget (append p v) s)
    | OInsert i v => do q <- insert p i v; Ok (forget q s)
    | OExtend q => Ok (forget (extend p q) s)
    | OAdd (ATextual t) => do q <- path_iadd p (ATextual t); Ok (grown q s)
    | OAdd a => do q <- path_iadd p a; Ok (forget q s)
    | OAppendText t => do q <- append_text p t; Ok (grown q s)
    | OInsertText i t => do q <- insert_text p i t; Ok (grown q s)
    | ODirectClose => do q <- direct_close p; Ok (grown q s)
    | OApproximate conv => if existsb is_arc p then Ok (mkC (approximate_arcs conv p) None []) else Ok s
    | OSubSet u i v => do q <- sub_set p u i v; Ok (mkC q None [])
    | OSubDel u i => do q <- sub_del p u i; Ok (forget (fst q) s)
    | OSubAdd u v => do q <- sub_iadd p u v; Ok (forget q s)
    | OReverse => do q <- path_reverse p; Ok (keep q s)
    | OSubReverse u => do q <- sub_reverse p u; Ok (keep q s)
    | OValidate => Ok (keep (validate_connections p) s)
    | OSubMul u f => Ok (keep (pysplice p (Some (u_start u)) (Some (u_end u + 1)%Z) (map f (sub_segments p u))) s)
    | OLength c => Ok (fst (path_length c s))
    | OPoint t e => Ok (fst (path_point t e s))
    end.
  Fixpoint steps (os : list op) (s : cpath) : Res cpath :=
    match os with [] => Ok s | o :: r => do s' <- step o s; steps r s' end.
End Cache.

(** A segment of a Path as one of Curve_Model.v; arcs and segments without all their points have none. *)
Definition rp (p : pt) : Point_Model.pt := Point_Model.P (Q2R (this (fst p))) (Q2R (this (snd p))).
Definition geo (s : seg) : option Curve_Model.gseg :=
  match s_kind s, s_start s, s_end s with
  | KMove, o, Some b => Some (Curve_Model.GMove (option_map rp o) (rp b))
  | KLine, Some a, Some b => Some (Curve_Model.GLine (rp a) (rp b))
  | KClose, Some a, Some b => Some (Curve_Model.GClose (rp a) (rp b))
  | KQuad (Some c), Some a, Some b => Some (Curve_Model.GQuad (rp a) (rp c) (rp b))
  | KCubic (Some c) (Some d), Some a, Some b => Some (Curve_Model.GCubic (rp a) (rp c) (rp d) (rp b))
  | _, _, _ => None
  end.
Definition seg_point (np : bool) (s : seg) (t : R) : Res Point_Model.pt :=
  match geo s with Some g => Ok (Curve_Model.point np g t) | None => Err Unmodelled end.
(** length of a segment; that of cubic curves and arcs is given by [other]. A move has none, path.py:493-501. *)
Definition seg_len (other : cfg -> seg -> R) (c : cfg) (s : seg) : R :=
  match geo s with
  | Some (Curve_Model.GMove _ _) => 0
  | Some (Curve_Model.GLine a b) | Some (Curve_Model.GClose a b) => Curve_Model.linear_length a b
  | Some (Curve_Model.GQuad a m b) => Curve_Model.quad_length a m b
  | _ => match s_kind s with KLine | KClose | KMove => 0 | _ => other c s end
  end.
