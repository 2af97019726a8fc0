(** Which drawings must survive being printed and read. *)
Require Import ZArith QArith Qcanon Ascii String List Bool.
Require Import Verif.Text_Spec Verif.PathText_Spec.
Import ListNotations.
Open Scope Z_scope.

(** A drawing of moves, lines, Beziers and closes in which everything starts where the last ended and
    closes return to the last move. *)
Fixpoint chained (at_ : option point) (sub : point) (l : list drawn) : Prop :=
  match l with
  | [] => True
  | SMove f t :: l' => f = at_ /\ chained (Some t) t l'
  | SLine f t :: l' => at_ = Some f /\ chained (Some t) sub l'
  | SClose f t :: l' => at_ = Some f /\ t = sub /\ chained (Some t) sub l'
  | SQuad f _ t :: l' => at_ = Some f /\ chained (Some t) sub l'
  | SCubic f _ _ t :: l' => at_ = Some f /\ chained (Some t) sub l'
  | SArc _ _ _ _ _ _ _ :: _ => False
  end.
Definition starts_drawing (l : list drawn) : Prop := match l with [] => True | SMove _ _ :: _ => True | _ => False end.
(** Numbers with at most [g] decimals and less than 12 digits. *)
Definition on_grid (g : Z) (x : Qc) : Prop := exists k, Z.abs k <= 499999999999 /\ (this x == inject_Z k * p10 (- g))%Q.
Definition pt_on_grid (g : Z) (p : point) : Prop := on_grid g (fst p) /\ on_grid g (snd p).
Definition drawn_points (d : drawn) : list point :=
  match d with
  | SMove None t => [t] | SMove (Some f) t => [f; t] | SLine f t => [f; t] | SClose f t => [f; t]
  | SQuad f c t => [f; c; t] | SCubic f c d t => [f; c; d; t] | SArc f _ _ _ _ _ t => [f; t]
  end.
Definition all_on_grid (g : Z) (l : list drawn) : Prop := Forall (fun d => Forall (pt_on_grid g) (drawn_points d)) l.
(** No curve whose first control is its start directly after a Bezier curve of the other sort. *)
Definition mixed (a b : drawn) : Prop :=
  match a, b with
  | SQuad _ _ _, SCubic f c _ _ => c = f
  | SCubic _ _ _ _, SQuad f c _ => c = f
  | _, _ => False
  end.
Fixpoint unmixed (l : list drawn) : Prop :=
  match l with a :: ((b :: _) as l') => ~ mixed a b /\ unmixed l' | _ => True end.
