(** Path data as SVG defines it: how drawing instructions may be written and what they draw. *)
Require Import ZArith QArith Qcanon Ascii String List Bool.
Require Import Verif.Text_Spec.
Import ListNotations.
Open Scope Z_scope.

(** One drawing instruction with its numbers. *)
Inductive atom (N : Type) :=
| DMove (p : N * N)
| DLine (p : N * N)
| DHor (x : N)
| DVer (y : N)
| DQuad (c p : N * N)
| DSmoothQuad (p : N * N)
| DCubic (c d p : N * N)
| DSmoothCubic (d p : N * N)
| DArc (rx ry rot : N) (large sweep : bool) (p : N * N)
| DClose.
Arguments DMove {N} _. Arguments DLine {N} _. Arguments DHor {N} _. Arguments DVer {N} _. Arguments DQuad {N} _ _.
Arguments DSmoothQuad {N} _. Arguments DCubic {N} _ _ _. Arguments DSmoothCubic {N} _ _. Arguments DArc {N} _ _ _ _ _ _. Arguments DClose {N}.

Definition on2 {A B} (f : A -> B) (p : A * A) : B * B := (f (fst p), f (snd p)).
Definition map_atom {A B} (f : A -> B) (a : atom A) : atom B :=
  match a with
  | DMove p => DMove (on2 f p) | DLine p => DLine (on2 f p) | DHor x => DHor (f x) | DVer y => DVer (f y)
  | DQuad c p => DQuad (on2 f c) (on2 f p) | DSmoothQuad p => DSmoothQuad (on2 f p)
  | DCubic c d p => DCubic (on2 f c) (on2 f d) (on2 f p) | DSmoothCubic d p => DSmoothCubic (on2 f d) (on2 f p)
  | DArc rx ry r l s p => DArc (f rx) (f ry) (f r) l s (on2 f p)
  | DClose => DClose
  end.

(** * How they are written *)
Definition sepch (c : ascii) : Prop := In c [" "; ","; "009"; "010"; "012"; "013"]%char.
Inductive tok := TNum (l : lit) | TFlag (b : bool).
Definition two (p : lit * lit) : list tok := [TNum (fst p); TNum (snd p)].
Definition args (a : atom lit) : list tok :=
  match a with
  | DMove p | DLine p | DSmoothQuad p => two p
  | DHor x | DVer x => [TNum x]
  | DQuad c p | DSmoothCubic c p => two c ++ two p
  | DCubic c d p => two c ++ two d ++ two p
  | DArc rx ry r l s p => [TNum rx; TNum ry; TNum r; TFlag l; TFlag s] ++ two p
  | DClose => []
  end.
Definition letter_of {N} (rel : bool) (a : atom N) : ascii :=
  match a with
  | DMove _ => if rel then "m" else "M" | DLine _ => if rel then "l" else "L"
  | DHor _ => if rel then "h" else "H" | DVer _ => if rel then "v" else "V"
  | DQuad _ _ => if rel then "q" else "Q" | DSmoothQuad _ => if rel then "t" else "T"
  | DCubic _ _ _ => if rel then "c" else "C" | DSmoothCubic _ _ => if rel then "s" else "S"
  | DArc _ _ _ _ _ _ => if rel then "a" else "A" | DClose => if rel then "z" else "Z"
  end%char.
(** [toks_text ts s t]: [s] is the tokens [ts], each behind any separators, followed by [t]; no separator is
    needed where what follows cannot continue the number. *)
Inductive toks_text : list tok -> list ascii -> list ascii -> Prop :=
| tt_nil : forall t, toks_text [] t t
| tt_num : forall l w ts s t, lit_ok l -> Forall sepch w -> no_cont l s -> toks_text ts s t ->
    toks_text (TNum l :: ts) (w ++ lit_text l ++ s) t
| tt_flag : forall (b : bool) w ts s t, Forall sepch w -> toks_text ts s t ->
    toks_text (TFlag b :: ts) (w ++ (if b then "1"%char else "0"%char) :: s) t.
(** The instruction a further group of numbers stands for: the same again, and a line after a move. *)
Definition repeats {N} (a : atom N) : ascii * bool :=
  match a with DMove _ => ("L"%char, true) | DClose => ("Z"%char, false) | _ => (letter_of false a, true) end.
Definition may_omit {N} (prev : option (bool * ascii)) (rel : bool) (a : atom N) : Prop :=
  prev = Some (rel, letter_of false a).
Definition implied {N} (rel : bool) (a : atom N) : option (bool * ascii) :=
  let '(c, b) := repeats a in if b then Some (rel, c) else None.
(** [spelled prev l s t]: [s] is a spelling of the instructions [l] followed by [t], where [prev] is the
    instruction letter that may be left out. *)
Inductive spelled : option (bool * ascii) -> list (bool * atom lit) -> list ascii -> list ascii -> Prop :=
| sp_nil : forall prev t, spelled prev [] t t
| sp_letter : forall prev rel a w s1 s2 l t, Forall sepch w -> toks_text (args a) s1 s2 ->
    spelled (implied rel a) l s2 t -> spelled prev ((rel, a) :: l) (w ++ letter_of rel a :: s1) t
| sp_omit : forall prev rel a s1 s2 l t, may_omit prev rel a -> toks_text (args a) s1 s2 ->
    spelled (implied rel a) l s2 t -> spelled prev ((rel, a) :: l) s1 t.
(** Nothing recognisable follows: after separators the text ends, or neither a command letter nor a number follows. *)
Definition commands_letters : list ascii := ["M"; "m"; "Z"; "z"; "L"; "l"; "H"; "h"; "V"; "v"; "C"; "c"; "S"; "s"; "Q"; "q"; "T"; "t"; "A"; "a"]%char.
Definition stop (t : list ascii) : Prop :=
  exists w r, Forall sepch w /\ t = w ++ r /\
    (r = [] \/ exists c r', r = c :: r' /\ ~ sepch c /\ ~ In c commands_letters /\ ~ exists l u, lit_ok l /\ r = lit_text l ++ u).

(** * What they draw *)
Notation point := (Qc * Qc)%type.
Inductive drawn :=
| SMove (from : option point) (to : point)
| SLine (from to : point)
| SClose (from to : point)
| SQuad (from c to : point)
| SCubic (from c d to : point)
| SArc (from : point) (rx ry rot : Qc) (large sweep : bool) (to : point).
(** The last control point, for smooth continuation. *)
Inductive memory := NoCurve | AfterQuad (c : point) | AfterCubic (c : point).
Record pen := mkPen { at_ : option point; sub : point; mem : memory }.
Definition pen0 : pen := mkPen None (0, 0)%Qc NoCurve.
Definition here (k : pen) : point := match at_ k with Some p => p | None => (0, 0)%Qc end.
Definition shift (k : pen) (rel : bool) (p : point) : point :=
  if rel then (fst p + fst (here k), snd p + snd (here k))%Qc else p.
Definition mirror (c p : point) : point := (fst p + fst p - fst c, snd p + snd p - snd c)%Qc.
(** SVG: a smooth curve continues the last curve if that is of the same sort ([strict]); the lenient
    reading continues any Bezier curve. *)
Definition smooth_quad_control (strict : bool) (k : pen) : point :=
  match mem k with AfterQuad c => mirror c (here k) | AfterCubic c => if strict then here k else mirror c (here k) | NoCurve => here k end.
Definition smooth_cubic_control (strict : bool) (k : pen) : point :=
  match mem k with AfterCubic c => mirror c (here k) | AfterQuad c => if strict then here k else mirror c (here k) | NoCurve => here k end.
Definition stroke (strict : bool) (k : pen) (rel : bool) (a : atom Qc) : drawn * pen :=
  let sh := shift k rel in
  match a with
  | DMove p => (SMove (at_ k) (sh p), mkPen (Some (sh p)) (sh p) NoCurve)
  | DLine p => (SLine (here k) (sh p), mkPen (Some (sh p)) (sub k) NoCurve)
  | DHor x => let p := (fst (sh (x, 0%Qc)), snd (here k)) in (SLine (here k) p, mkPen (Some p) (sub k) NoCurve)
  | DVer y => let p := (fst (here k), snd (sh (0%Qc, y))) in (SLine (here k) p, mkPen (Some p) (sub k) NoCurve)
  | DQuad c p => (SQuad (here k) (sh c) (sh p), mkPen (Some (sh p)) (sub k) (AfterQuad (sh c)))
  | DSmoothQuad p => let c := smooth_quad_control strict k in (SQuad (here k) c (sh p), mkPen (Some (sh p)) (sub k) (AfterQuad c))
  | DCubic c d p => (SCubic (here k) (sh c) (sh d) (sh p), mkPen (Some (sh p)) (sub k) (AfterCubic (sh d)))
  | DSmoothCubic d p => let c := smooth_cubic_control strict k in (SCubic (here k) c (sh d) (sh p), mkPen (Some (sh p)) (sub k) (AfterCubic (sh d)))
  | DArc rx ry r l s p => (SArc (here k) rx ry r l s (sh p), mkPen (Some (sh p)) (sub k) NoCurve)
  | DClose => (SClose (here k) (sub k), mkPen (Some (sub k)) (sub k) NoCurve)
  end.
Fixpoint svg (strict : bool) (k : pen) (l : list (bool * atom Qc)) : list drawn :=
  match l with
  | [] => []
  | (rel, a) :: l' => let '(d, k') := stroke strict k rel a in d :: svg strict k' l'
  end.
(** The same instructions with absolute numbers. *)
Definition absolute (k : pen) (rel : bool) (a : atom Qc) : atom Qc :=
  let sh := shift k rel in
  match a with
  | DMove p => DMove (sh p) | DLine p => DLine (sh p) | DHor x => DHor (fst (sh (x, 0%Qc))) | DVer y => DVer (snd (sh (0%Qc, y)))
  | DQuad c p => DQuad (sh c) (sh p) | DSmoothQuad p => DSmoothQuad (sh p)
  | DCubic c d p => DCubic (sh c) (sh d) (sh p) | DSmoothCubic d p => DSmoothCubic (sh d) (sh p)
  | DArc rx ry r l s p => DArc rx ry r l s (sh p)
  | DClose => DClose
  end.
Fixpoint absolutes (strict : bool) (k : pen) (l : list (bool * atom Qc)) : list (atom Qc) :=
  match l with [] => [] | (rel, a) :: l' => absolute k rel a :: absolutes strict (snd (stroke strict k rel a)) l' end.
Definition begins_with_move {N} (l : list (bool * atom N)) : Prop := exists rel p l', l = (rel, DMove p) :: l'.
(** No smooth curve directly after a curve of the other sort. *)
Definition quad_like {N} (a : atom N) : Prop := match a with DQuad _ _ | DSmoothQuad _ => True | _ => False end.
Definition cubic_like {N} (a : atom N) : Prop := match a with DCubic _ _ _ | DSmoothCubic _ _ => True | _ => False end.
Fixpoint smooth_matched {N} (l : list (bool * atom N)) : Prop :=
  match l with
  | (_, a) :: (((_, b) :: _) as l') =>
      ~ (quad_like a /\ match b with DSmoothCubic _ _ => True | _ => False end) /\
      ~ (cubic_like a /\ match b with DSmoothQuad _ => True | _ => False end) /\ smooth_matched l'
  | _ => True
  end.
(** The number a literal denotes. *)
Definition qlit (l : lit) : Qc := Q2Qc (lit_val l).
Definition values (l : list (bool * atom lit)) : list (bool * atom Qc) := map (fun x => (fst x, map_atom qlit (snd x))) l.
