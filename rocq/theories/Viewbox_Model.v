(** Viewbox of svgio/basic.py:2520-2688 on exact rationals. *)
Require Import ZArith QArith Qminmax Ascii String List Bool.
Require Import Verif.Base Verif.Fmt_Model Verif.Length_Model.
Import ListNotations.
Open Scope Q_scope.

(** REGEX_FLOAT.findall and float(), constants.py:155. *)
Fixpoint find_floats (skip : nat) (s : text) : list Q :=
  match s with
  | [] => []
  | _ :: s' =>
      match skip with
      | S k => find_floats k s'
      | O =>
          match match_float s with
          | Some (f, rest) => fnum_val f :: find_floats (List.length s' - List.length rest) s'
          | None => find_floats 0 s'
          end
      end
  end.

Record vbox := mkVb { vb_x : option Q; vb_y : option Q; vb_w : option Q; vb_h : option Q; vb_par : option text }.
(** set_viewbox, basic.py:2561-2570: missing numbers stay None. *)
Definition vb_of_text (s : text) (par : option text) : vbox :=
  let d := find_floats 0 s in mkVb (nth_error d 0) (nth_error d 1) (nth_error d 2) (nth_error d 3) par.
(** __str__, basic.py:2541-2547, for a complete viewbox. *)
Definition vb_str (x y w h : Q) : text :=
  length_str x ++ " "%char :: length_str y ++ " "%char :: length_str w ++ " "%char :: length_str h.

(** str.split(" ") *)
Fixpoint split_sp (s : text) : list text :=
  match s with
  | [] => [[]]
  | c :: s' =>
      if aeqb c " " then [] :: split_sp s'
      else match split_sp s' with [] => [[c]] | w :: ws => (c :: w) :: ws end
  end.
(** sub in s *)
Fixpoint starts (p s : text) : bool :=
  match p, s with
  | [], _ => true
  | x :: p', y :: s' => aeqb x y && starts p' s'
  | _, [] => false
  end.
Fixpoint contains (p s : text) : bool :=
  starts p s || match s with [] => false | _ :: s' => contains p s' end.

(** align and meet_or_slice, basic.py:2627-2639. *)
Definition aspect_parts (aspect : option text) : text * text :=
  match aspect with
  | None => (T "xMidyMid", T "meet")
  | Some a =>
      match split_sp a with
      | [] => (T "xMidyMid", T "meet")
      | [al] => (al, T "meet")
      | al :: ms :: _ => (al, ms)
      end
  end.
Record vtrans := mkVt { t_sx : Q; t_sy : Q; t_tx : Q; t_ty : Q }.
(** The numbers of viewbox_transform, basic.py:2640-2668. *)
Definition vb_numbers (ex ey ew eh vx vy vw vh : Q) (aspect : option text) : Res vtrans :=
  let '(align, ms) := aspect_parts aspect in
  do sx0 <- qdiv ew vw;
  do sy0 <- qdiv eh vh;
  let uni := negb (teqb align (T "none")) in
  let '(sx, sy) :=
    if uni && teqb ms (T "meet") then (Qmin sx0 sy0, Qmin sx0 sy0)
    else if uni && teqb ms (T "slice") then (Qmax sx0 sy0, Qmax sx0 sy0)
    else (sx0, sy0) in
  let al := lower align in
  let tx := ex - vx * sx in
  let ty := ey - vy * sy in
  let tx := if contains (T "xmid") al then tx + (ew - vw * sx) / 2 else tx in
  let tx := if contains (T "xmax") al then tx + (ew - vw * sx) else tx in
  let ty := if contains (T "ymid") al then ty + (eh - vh * sy) / 2 else ty in
  let ty := if contains (T "ymax") al then ty + (eh - vh * sy) else ty in
  Ok (mkVt sx sy tx ty).
(** The returned text, basic.py:2669-2688. *)
Definition vt_text (t : vtrans) : text :=
  let sc := T "scale(" ++ length_str (t_sx t) ++ T ", " ++ length_str (t_sy t) ++ T ")" in
  let tr := T "translate(" ++ length_str (t_tx t) ++ T ", " ++ length_str (t_ty t) ++ T ")" in
  let s1 := Qeq_bool (t_sx t) 1 && Qeq_bool (t_sy t) 1 in
  if Qeq_bool (t_tx t) 0 && Qeq_bool (t_ty t) 0 then (if s1 then [] else sc)
  else if s1 then tr else tr ++ T " " ++ sc.
(** viewbox_transform, basic.py:2587-2688, the element's and the viewbox's numbers being numbers or None
    (a Length among them is not modelled). *)
Definition viewbox_transform (ex ey ew eh vx vy vw vh : option Q) (aspect : option text) : Res text :=
  match ex, ey, ew, eh, vx, vy, vw, vh with
  | Some ex, Some ey, Some ew, Some eh, Some vx, Some vy, Some vw, Some vh =>
      rmap vt_text (vb_numbers ex ey ew eh vx vy vw vh aspect)
  | _, _, _, _, _, _, _, _ => Ok []
  end.
(** transform(element), basic.py:2572-2584. *)
Definition vb_transform (v : vbox) (ex ey ew eh : option Q) : Res text :=
  viewbox_transform ex ey ew eh (vb_x v) (vb_y v) (vb_w v) (vb_h v) (vb_par v).
