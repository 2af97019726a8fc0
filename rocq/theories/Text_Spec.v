(** Independent specification of decimal literals: what text they are written as and what number
    they denote. Digits are integers 0..9, text comes from a ten-way table. *)
Require Import ZArith QArith Ascii String List Bool.
Import ListNotations.
Open Scope Z_scope.

Definition dchar (d : Z) : ascii :=
  match d with
  | 0 => "0" | 1 => "1" | 2 => "2" | 3 => "3" | 4 => "4"
  | 5 => "5" | 6 => "6" | 7 => "7" | 8 => "8" | _ => "9"
  end%char.
Definition is_dig (d : Z) : Prop := 0 <= d <= 9.
Definition dtext (ds : list Z) : list ascii := map dchar ds.
(** Positional value, most significant digit first. *)
Fixpoint dval (ds : list Z) : Z :=
  match ds with [] => 0 | d :: ds' => d * 10 ^ Z.of_nat (length ds') + dval ds' end.

Inductive sgn := SNone | SPlus | SMinus.
Definition sgn_text (s : sgn) : list ascii :=
  match s with SNone => [] | SPlus => ["+"] | SMinus => ["-"] end%char.
Definition sgn_z (s : sgn) : Z := match s with SMinus => -1 | _ => 1 end.

(** A decimal literal: sign, integer digits, optional fraction digits, optional exponent. *)
Record lit := mkLit {
  l_sgn : sgn; l_int : list Z; l_frac : list Z; l_exp : option (bool * sgn * list Z) }.
Definition lit_ok (l : lit) : Prop :=
  Forall is_dig (l_int l) /\ Forall is_dig (l_frac l) /\
  (l_int l <> [] \/ l_frac l <> []) /\
  match l_exp l with None => True | Some (_, _, ds) => Forall is_dig ds /\ ds <> [] end.
Definition lit_text (l : lit) : list ascii :=
  sgn_text (l_sgn l) ++ dtext (l_int l) ++
  (match l_frac l with [] => [] | fs => "."%char :: dtext fs end) ++
  match l_exp l with
  | None => []
  | Some (up, s, ds) => (if up : bool then "E"%char else "e"%char) :: sgn_text s ++ dtext ds
  end.
(** 10^e for any integer e. *)
Definition p10 (e : Z) : Q := Qpower 10 e.
Definition lit_val (l : lit) : Q :=
  inject_Z (sgn_z (l_sgn l)) *
  (inject_Z (dval (l_int l)) + inject_Z (dval (l_frac l)) * p10 (- Z.of_nat (length (l_frac l)))) *
  p10 (match l_exp l with None => 0 | Some (_, s, ds) => sgn_z s * dval ds end).

(** White space characters between tokens (the ASCII ones). *)
Definition wsp (c : ascii) : Prop := In c ["032"; "009"; "010"; "011"; "012"; "013"]%char.

(** [rest] cannot be read as a continuation of the literal. *)
Definition dig_start (s : list ascii) : Prop := exists d r, is_dig d /\ s = dchar d :: r.
Definition no_cont (l : lit) (rest : list ascii) : Prop :=
  ~ dig_start rest /\
  (l_frac l = [] -> l_exp l = None -> forall r, rest = "."%char :: r -> ~ dig_start r) /\
  (l_exp l = None -> forall s r, (rest = "e"%char :: sgn_text s ++ r \/ rest = "E"%char :: sgn_text s ++ r) -> ~ dig_start r).
