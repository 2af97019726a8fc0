(** Paths with elliptical arcs on the reals: the segments of Path_Model.v as points and arcs, and
    approximate_arcs_with_cubics and _with_quads of svgio/path.py:2765-2785 on them. Every segment has all its points, but
    for the start of a Move. *)
Require Import Reals ZArith QArith Qreals Qcanon List Bool.
Require Import Verif.Base Verif.Angle_Model Verif.Point_Model Verif.Matrix_Model Verif.Curve_Model Verif.Arc_Model Verif.PathBox_Model Verif.PathElem_Model.
Require Verif.Path_Model.
Import ListNotations.
Open Scope R_scope.

(** Attributes of segments, path.py:355-366, 1168-1172. *)
Definition r_start (s : aseg) : option pt := match s with ASeg g => g_start g | AArc A => Some (a_start A) end.
Definition r_end (s : aseg) : pt := match s with ASeg g => g_end g | AArc A => a_end A end.
Definition r_is_move (s : aseg) : bool := match s with ASeg (GMove _ _) => true | _ => false end.
Definition r_is_close (s : aseg) : bool := match s with ASeg (GClose _ _) => true | _ => false end.
Definition r_is_arc (s : aseg) : bool := match s with AArc _ => true | _ => false end.
(** segment.start = p, segment.end = p: plain attributes; nothing else of an arc is adapted. *)
Definition r_set_start (s : aseg) (p : pt) : aseg :=
  match s with
  | ASeg (GMove _ e) => ASeg (GMove (Some p) e)
  | ASeg (GLine _ b) => ASeg (GLine p b)
  | ASeg (GClose _ b) => ASeg (GClose p b)
  | ASeg (GQuad _ c b) => ASeg (GQuad p c b)
  | ASeg (GCubic _ c d b) => ASeg (GCubic p c d b)
  | AArc A => AArc (mkArc p (a_end A) (a_center A) (a_prx A) (a_pry A) (a_sweep A))
  end.
Definition r_set_close_end (s : aseg) (p : pt) : aseg := match s with ASeg (GClose a _) => ASeg (GClose a p) | _ => s end.
(** segment.point(t), path.py:477-491. *)
Definition r_point (np : bool) (s : aseg) (t : R) : pt := match s with ASeg g => point np g t | AArc A => arc_point A t end.
(** segment.reverse(), path.py:469-475, 1000-1004, 1464-1466, and segment *= matrix, 563-571, 639-647, 785-796, 971-984, 1418-1436. *)
Definition r_reverse (s : aseg) : aseg := match s with ASeg g => ASeg (g_reverse g) | AArc A => AArc (arc_reverse A) end.
Definition r_mul (s : aseg) (m : mx) : aseg := match s with ASeg g => ASeg (g_mul g m) | AArc A => AArc (arc_mul A m) end.

(** validate_connections, path.py:2311-2339. [z] is zpoint, [prev] is last_segment; all ends exist. *)
Fixpoint r_connect (z : pt) (prev : aseg) (p : list aseg) : list aseg :=
  match p with
  | [] => []
  | s :: p' =>
      let z1 := if r_is_move s then r_end s else z in
      let s1 := match r_start s with
                | None => r_set_start s (r_end prev)
                | Some a => if pt_eqb (r_end prev) a then s else r_set_start s (r_end prev)
                end in
      let s2 := if r_is_close s1 then (if pt_eqb (r_end s1) z1 then s1 else r_set_close_end s1 z1) else s1 in
      s2 :: r_connect z1 s2 p'
  end.
Definition r_validate (p : list aseg) : list aseg := match p with [] => [] | s :: p' => s :: r_connect (r_end s) s p' end.

(** The loops of approximate_arcs_with_cubics and _with_quads, path.py:2765-2785: positions from the last to the first;
    a slice of one position is assigned, path.py:2057-2061. *)
Fixpoint r_approx_from (conv : arc -> list gseg) (n : nat) (p : list aseg) : list aseg :=
  match n with
  | O => p
  | S k =>
      match nth_error p k with
      | Some (AArc A) => r_approx_from conv k (r_validate (firstn k p ++ map ASeg (conv A) ++ skipn (S k) p))
      | _ => r_approx_from conv k p
      end
  end.
(** int(ceil(abs(sweep) / sweep_limit)), path.py:2774, 2785; range() of a negative number is empty. *)
Definition r_pieces (error : R) (A : arc) : nat := Z.to_nat (ceil (Rabs (a_sweep A) / (tau * error))).
Definition r_approximate (curves : arc -> nat -> list gseg) (error : R) (p : list aseg) : Res (list aseg) :=
  if existsb r_is_arc p then
    if Req_EM_T error 0 then Err ZeroDivisionError
    else Ok (r_approx_from (fun A => curves A (r_pieces error A)) (length p) p)
  else Ok p.
(** The default for error is 0.1. *)
Definition approximate_arcs_with_cubics (error : R) (p : list aseg) : Res (list aseg) := r_approximate as_cubic_curves_n error p.
Definition approximate_arcs_with_quads (error : R) (p : list aseg) : Res (list aseg) := r_approximate as_quad_curves_n error p.

(** The segment on the reals that the parser makes: Path_Model.v has the arguments of an arc, Arc_Model.v the arc made of
    them, path.py:1586-1679. *)
Definition real_seg (s : Path_Model.seg) : option aseg :=
  match Path_Model.s_kind s, Path_Model.s_start s, Path_Model.s_end s with
  | Path_Model.KMove, o, Some b => Some (ASeg (GMove (option_map real_pt o) (real_pt b)))
  | Path_Model.KLine, Some a, Some b => Some (ASeg (GLine (real_pt a) (real_pt b)))
  | Path_Model.KClose, Some a, Some b => Some (ASeg (GClose (real_pt a) (real_pt b)))
  | Path_Model.KQuad (Some c), Some a, Some b => Some (ASeg (GQuad (real_pt a) (real_pt c) (real_pt b)))
  | Path_Model.KCubic (Some c) (Some d), Some a, Some b => Some (ASeg (GCubic (real_pt a) (real_pt c) (real_pt d) (real_pt b)))
  | Path_Model.KArc g, Some a, Some b => Some (AArc (real_arc a b g))
  | _, _, _ => None
  end.
Fixpoint real_path (p : Path_Model.path) : option (list aseg) :=
  match p with
  | [] => Some []
  | s :: r => match real_seg s, real_path r with Some x, Some l => Some (x :: l) | _, _ => None end
  end.
