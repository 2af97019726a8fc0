(** What a program with several paths does if a path is just the list of the values of its segments, and what it is for
    objects not to be shared. *)
Require Import ZArith QArith Qcanon List Bool.
Require Import Verif.Base Verif.Path_Model Verif.PathText_Model Verif.PathEdit_Model Verif.Alias_Model.
Import ListNotations.
Local Open Scope Z_scope.

(** Every point of a segment moved by [m]. *)
Definition seg_map (m : pt -> pt) (s : seg) : seg :=
  mkSeg (match s_kind s with
         | KQuad c => KQuad (option_map m c)
         | KCubic a b => KCubic (option_map m a) (option_map m b)
         | k => k
         end)
        (option_map m (s_start s)) (option_map m (s_end s)) (s_rel s) (s_smooth s).
Definition v_imul (m : pt -> pt) (s : seg) : Res seg := if is_arc s then Err Unmodelled else Ok (seg_map m s).
Definition v_draw (d : drawing) (p : path) : Res path :=
  match d with
  | DMove a rel => move p a rel
  | DLine a rel => line p a rel
  | DVertical v rel => vertical p v rel
  | DHorizontal v rel => horizontal p v rel
  | DSmoothQuad a rel => smooth_quad p a rel
  | DQuad c a rel => quad p c a rel
  | DSmoothCubic c a rel => smooth_cubic p c a rel
  | DCubic c1 c2 a rel => cubic p c1 c2 a rel
  | DArc rx ry rot large sweep a rel => arc p rx ry rot large sweep a rel
  | DClose rel => closed p rel
  end.
(** The segments at [n] positions from [i] on are moved by [m], one after the other. *)
Fixpoint v_imul_range (m : pt -> pt) (n : nat) (i : Z) (p : path) : Res path :=
  match n with
  | O => Ok p
  | S n' => match pyget p i with
            | Err _ => Ok p
            | Ok s => do t <- v_imul m s; do q <- pyset p i t; v_imul_range m n' (i + 1) q
            end
  end.
Definition v_with (ps : list path) (k : nat) (f : path -> Res path) : Res (list path) :=
  match nth_error ps k with
  | None => Err NameError
  | Some p => do q <- f p; Ok (upd ps k q)
  end.
Definition v_source (ps : list path) (j : nat) (f : path -> Res (list path)) : Res (list path) :=
  match nth_error ps j with None => Err NameError | Some p => f p end.
(** One statement on lists of values: it touches the path it names and no other. *)
Definition v_step (ps : list path) (c : stmt) : Res (list path) :=
  match c with
  | SNew => Ok (ps ++ [[]])
  | SNewSegs vs => Ok (ps ++ [vs])
  | SNewList vs => Ok (ps ++ [validate_connections vs])
  | SDraw k d => v_with ps k (v_draw d)
  | SAppend k v => v_with ps k (fun p => Ok (append p v))
  | SInsert k i v => v_with ps k (fun p => insert p i v)
  | SSet k i v => v_with ps k (fun p => setitem p i v)
  | SSetSlice k a b vs => v_with ps k (fun p => Ok (setslice p a b vs))
  | SDel k i => v_with ps k (fun p => delitem p i)
  | SDelSlice k a b => v_with ps k (fun p => Ok (delslice p a b))
  | SExtend k vs => v_with ps k (fun p => Ok (extend p vs))
  | SAddPath k j =>
      match nth_error ps j with
      | None => Err NameError
      | Some q => v_with ps k (fun p => path_iadd p (APath q))
      end
  | SAddSub k j u =>
      match nth_error ps j with
      | None => Err NameError
      | Some q => v_with ps k (fun p => path_iadd p (ASub q u))
      end
  | SValidate k => v_with ps k (fun p => Ok (validate_connections p))
  | SDirect k => v_with ps k direct_close
  | SReverse k => v_with ps k path_reverse
  | SReverseSub k u => v_with ps k (fun p => sub_reverse p u)
  | SScale k i m => v_with ps k (fun p => do s <- pyget p i; do t <- v_imul m s; pyset p i t)
  | SScaleSet k i m => v_with ps k (fun p => do s <- pyget p i; do t <- v_imul m s; setitem p i t)
  | SScaleSub k u m => v_with ps k (fun p => v_imul_range m (Z.to_nat (u_end u - u_start u + 1)) (u_start u) p)
  | SNewText t => do q <- path_init (IText t); Ok (ps ++ [q])
  | SText k t => v_with ps k (fun p => path_iadd p (ATextual t))
  | SCopy j => v_source ps j (fun p => do q <- path_copy p; Ok (ps ++ [q]))
  | SPlus j i => v_source ps j (fun p => v_source ps i (fun o => do q <- path_add p (APath o); Ok (ps ++ [q])))
  | SPlusText j t => v_source ps j (fun p => do q <- path_add p (ATextual t); Ok (ps ++ [q]))
  | STextPlus t j => v_source ps j (fun p => do q <- path_radd_text t p; Ok (ps ++ [q]))
  end.
Fixpoint v_exec (ps : list path) (cs : list stmt) : Res (list path) :=
  match cs with [] => Ok ps | c :: r => do q <- v_step ps c; v_exec q r end.
(** The values of all paths of a world. *)
Definition values (w : world) : list path := map (reads (w_heap w)) (w_paths w).

(** No segment object is held twice and no point object is held twice, by one path or by two; all references are to
    objects that exist. *)
Definition unshared (h : heap) (ls : list (list nat)) : Prop :=
  NoDup (List.concat ls)
  /\ NoDup (flat_map (fun s => opts (gets h s)) (List.concat ls))
  /\ (forall s, In s (List.concat ls) -> (s < length (h_segs h))%nat)
  /\ (forall p, In p (flat_map (fun s => opts (gets h s)) (List.concat ls)) -> (p < length (h_pts h))%nat).
(** The path a statement names. *)
Definition target (c : stmt) : option nat :=
  match c with
  | SNew | SNewSegs _ | SNewList _ | SNewText _ | SCopy _ | SPlus _ _ | SPlusText _ _ | STextPlus _ _ => None
  | SDraw k _ | SAppend k _ | SInsert k _ _ | SSet k _ _ | SSetSlice k _ _ _ | SDel k _ | SDelSlice k _ _ | SExtend k _
  | SAddPath k _ | SAddSub k _ _ | SValidate k | SDirect k | SReverse k | SReverseSub k _ | SScale k _ _
  | SScaleSet k _ _ | SScaleSub k _ _ | SText k _ => Some k
  end.
