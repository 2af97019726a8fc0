(** C26: printed coordinates read back to twelve significant digits. *)
Require Import ZArith QArith Qabs Ascii String List Bool Lia Lqa.
Require Import Verif.Base Verif.Text_Spec Verif.Text_Proofs Verif.Fmt_Model Verif.Transform_Proofs Verif.FmtG_Model Verif.PointText_Spec Verif.FmtG_Proofs.
Import ListNotations.
Open Scope Z_scope.

(** C26: every number's "%.<p>G" text is a decimal literal right to [p] significant digits, and exact when
    the number has no more digits than that. *)
Theorem format_G_reads_back : forall p q, 1 <= p -> exists l, lit_ok l /\ fmt_G p q = lit_text l /\ sig p (lit_val l) q /\
  (short p q -> (lit_val l == q)%Q).
Proof. exact fmt_G_lit. Qed.
Example format_G_ex : fmt_G 6 (-1234567 # 10) = T "-123457" /\ fmt_G 6 1234567 = T "1.23457E+06" /\ fmt_G 12 (1 # 100000) = T "1E-05".
Proof. repeat split; vm_compute; reflexivity. Qed.
Print Assumptions format_G_reads_back.

(** C26: two numbers written with white space or a comma between them are read as the point they denote. *)
Theorem point_text_pair : forall l1 sep l2 rest, lit_ok l1 -> lit_ok l2 -> pair_sep sep -> no_cont l2 rest -> exists x y,
  point_of_text (lit_text l1 ++ sep ++ lit_text l2 ++ rest) = Ok (x, y) /\ (x == lit_val l1)%Q /\ (y == lit_val l2)%Q.
Proof. exact point_of_text_lits. Qed.
Example point_text_pair_ex : point_of_text (T "-1.5 , 2e1") = Ok (-15 # 10, 20%Q)
  /\ pair_sep (T " , ") /\ pair_sep (T " ").
Proof.
  split; [vm_compute; reflexivity|]. split.
  - right. exists [" "%char], [" "%char]. repeat split; repeat constructor.
  - left. split; [repeat constructor|discriminate].
Qed.
Print Assumptions point_text_pair.

(** C26: a point whose coordinates are 0, or between 1e-4 and 1e12 in size, or of a size printed with an
    exponent not ending in 0, reads back with both coordinates right to twelve significant digits; exactly if
    they have at most twelve. Missing: the remaining exponents, where it is false (next theorem). *)
Theorem point_str_reads_back_partial : forall x y,
  (plain x \/ exists d, scientific d x) -> (plain y \/ exists d, scientific d y) -> exists x' y',
  point_of_text (point_str x y) = Ok (x', y') /\ sig 12 x' x /\ sig 12 y' y /\
  (short 12 x -> (x' == x)%Q) /\ (short 12 y -> (y' == y)%Q).
Proof.
  assert (C : forall q, (plain q \/ exists d, scientific d q) -> exists l, lit_ok l /\ coord_str q = lit_text l /\ sig 12 (lit_val l) q /\
     (short 12 q -> (lit_val l == q)%Q)).
  { intros q [H|[d H]]. destruct (coord_plain q H) as (l & A & _ & B). exists l; auto. apply (coord_scientific d); auto. }
  intros x y X Y. destruct (C x X) as (l1 & A1 & B1 & C1 & D1), (C y Y) as (l2 & A2 & B2 & C2 & D2).
  destruct (point_of_text_lits l1 [","%char] l2 []) as (u & v & E & U & V); auto.
  { right. exists [], []. repeat split; auto. }
  { apply nc_no_cont. exact I. }
  exists u, v. unfold point_str. rewrite B1, B2. rewrite app_nil_r in E. split; [exact E|].
  unfold sig. rewrite U, V. auto.
Qed.
Example point_str_ex : point_str (100 # 3) (-5 # 2) = T "33.3333333333,-2.5" /\ plain (100 # 3) /\ plain (-5 # 2)
  /\ point_str (3 # 200000) 0 = T "1.5E-05,0" /\ scientific (-5) (3 # 200000).
Proof.
  repeat split; try (vm_compute; reflexivity); try (vm_compute; discriminate).
  - right. split; vm_compute; discriminate.
  - right. split; vm_compute; discriminate.
  - left. reflexivity.
Qed.
Print Assumptions point_str_reads_back_partial.

(** C26: with an exponent ending in 0 the stripping eats the exponent: the point (1.5e-10, 0) reads back as (0.15, 0). *)
Theorem point_str_exponent_refuted : exists x x', point_of_text (point_str x 0) = Ok (x', 0%Q) /\ short 12 x /\ ~ sig 12 x' x.
Proof.
  exists (15 # 100000000000)%Q, (15 # 100)%Q. split; [vm_compute; reflexivity|]. split.
  - exists 15, (-11). split; [reflexivity|]. vm_compute; reflexivity.
  - unfold sig. intros H. vm_compute in H. apply H. reflexivity.
Qed.
Example point_str_exponent_ex : point_str (15 # 100000000000) 0 = T "1.5E-1,0".
Proof. vm_compute; reflexivity. Qed.
Print Assumptions point_str_exponent_refuted.

(** C26: text without a digit has no point in it: IndexError. *)
Theorem point_text_no_number : forall s, Forall (fun c => is_digit c = false) s -> point_of_text s = Err IndexError.
Proof.
  assert (SP : forall u, Forall (fun c => is_digit c = false) u -> span is_digit u = ([], u)).
  { intros [|a u] K; [reflexivity|]. inversion K; subst. cbn [span]. rewrite H1. reflexivity. }
  assert (MF : forall s, Forall (fun c => is_digit c = false) s -> match_float s = None).
  { intros s F. unfold match_float. destruct (opt_sign s) as [[x neg] r] eqn:O.
    assert (R : Forall (fun c => is_digit c = false) r).
    { unfold opt_sign in O. destruct F as [|c s D F]. inversion O; auto.
      destruct (aeqb c "-"); [inversion O; subst; auto|]. destruct (aeqb c "+"); inversion O; subst; auto. }
    rewrite (SP r R). unfold match_frac. destruct R as [|c r D R]; [reflexivity|].
    destruct (aeqb c "."); [|reflexivity]. rewrite (SP r R). reflexivity. }
  intros s F. unfold point_of_text. replace (find_pair s) with (@None (Q * Q)); auto.
  induction F as [|c s D F IH]; [reflexivity|]. cbn [find_pair]. unfold match_pair. rewrite MF by auto. auto.
Qed.
Example point_text_no_number_ex : point_of_text (T "a, b") = Err IndexError.
Proof. vm_compute; reflexivity. Qed.
Print Assumptions point_text_no_number.
