(** Python decimal formatting on exact rationals: "%.12f" as used by Length.str. *)
Require Import ZArith QArith Qabs Qround Ascii String List Bool.
Require Import Verif.Base.
Import ListNotations.
Open Scope Z_scope.

(** Decimal digits of a non-negative integer, most significant first, without leading zeros. *)
Fixpoint digits_fuel (k : nat) (n : Z) : list Z :=
  match k with
  | O => []
  | S k' => if n <? 10 then [n] else digits_fuel k' (n / 10) ++ [n mod 10]
  end.
Definition digits (n : Z) : list Z := digits_fuel (S (Z.to_nat (Z.log2 n))) n.
(** Exactly [k] decimal digits, zero padded. *)
Fixpoint fixed_digits (k : nat) (n : Z) : list Z :=
  match k with O => [] | S k' => fixed_digits k' (n / 10) ++ [n mod 10] end.
Definition dch (d : Z) : ascii := chr (48 + d).

(** "%.12f" % q (basic.py:488, 492): the exact value rounded half-even to 12 decimals; a negative
    value keeps its sign even if it rounds to zero. *)
Definition fmt_f12 (q : Q) : text :=
  let n := Qround_even (Qabs q * inject_Z (10 ^ 12)) in
  (if Qltb q 0 then ["-"%char] else []) ++
  map dch (digits (n / 10 ^ 12)) ++ "."%char :: map dch (fixed_digits 12 (n mod 10 ^ 12)).

(** s.rstrip("0").rstrip(".") *)
Definition strip_zeros (s : text) : text := rstrip1 "." (rstrip1 "0" s).

(** Length.str on a number, basic.py:479-497 (the None and Length cases are not numbers; "%.12f"
    always contains a "."). *)
Definition length_str (q : Q) : text := strip_zeros (fmt_f12 q).
