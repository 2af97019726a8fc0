(** C92, angles and arcs. *)
Require Import ZArith QArith Qabs Qcanon Qreals Reals List Ascii String Bool Lia Lqa Lra.
Require Import Verif.Base Verif.Text_Spec Verif.Text_Proofs Verif.Fmt_Model Verif.Fmt_Proofs Verif.Color_Spec Verif.Color_Proofs Verif.Viewbox_Proofs Verif.Path_Model Verif.PathText_Model
  Verif.PathEdit_Model Verif.PathD_Model Verif.PathSeq_Model Verif.Angle_Model Verif.Angle_Proofs.
Require Import Verif.Repr_Spec Verif.Repr_Model Verif.Repr_Proofs Verif.Repr_Thms.
Import ListNotations.
Open Scope Z_scope.

(** * Numbers *)
Lemma prints_unsigned u v : number u = Some v -> prints u (ENum v) /\ prints ("-"%char :: u) (ENum (- v)).
Proof.
  intros NV. assert (C : forallb numc u = true /\ u <> []).
  { revert NV. unfold number. destruct (split_dot u) as [i f] eqn:S.
    assert (SP : u = (i ++ match f with None => [] | Some r => "."%char :: r end)%list).
    { clear -S. revert i f S. induction u as [|c u IH]; intros i f S; cbn [split_dot] in S; [injection S as <- <-; reflexivity|].
      destruct (Ascii.eqb_spec c "."); [injection S as <- <-; subst; reflexivity|]. destruct (split_dot u) as [i' f']. injection S as <- <-. cbn [app]. f_equal. now apply IH. }
    assert (D : forall t, forallb digitc t = true -> forallb numc t = true).
    { induction t as [|c t IH]; [reflexivity|]. cbn [forallb]. intros H. apply andb_prop in H. unfold numc at 1. rewrite (proj1 H). cbn [orb andb]. apply IH. apply H. }
    destruct f as [f|].
    - destruct (forallb digitc i && forallb digitc f && _) eqn:E; [|discriminate]. intros _. apply andb_prop in E. destruct E as [E _]. apply andb_prop in E. destruct E as [A B].
      rewrite SP. split; [|destruct i; discriminate]. rewrite forallb_app, (D _ A). cbn [forallb]. rewrite (D _ B). reflexivity.
    - destruct (forallb digitc i && _) eqn:E; [|discriminate]. intros _. apply andb_prop in E. destruct E as [A B]. rewrite SP, app_nil_r. split; [now apply D|]. intros ->. discriminate. }
  destruct C as [C NE].
  assert (L : forall k, fold_left lex_char u (Some (k, Idle)) = Some (k, InNum u)).
  { intros k. destruct u as [|c r]; [congruence|]. cbn [fold_left lex_char]. cbn [forallb] in C. apply andb_prop in C. destruct C as [A B].
    assert (BT : begin_tok k c = Some (k, InNum [c])).
    { unfold numc in A. destruct (digitc c) eqn:DC; [now apply digit_begin|]. cbn [orb] in A. apply Ascii.eqb_eq in A. subst. reflexivity. }
    rewrite BT. apply (lex_num_go r k [c]). exact B. }
  split.
  - exists [KNum v]. split; [|reflexivity]. intros k c S. rewrite fold_left_app, L. cbn [fold_left lex_char]. rewrite (num_stop c S), NV. now apply begin_stop.
  - exists [KSym "-"%char; KNum v]. split; [|reflexivity]. intros k c S. cbn [app fold_left lex_char]. change (begin_tok k "-") with (Some ((k ++ [KSym "-"%char])%list, Idle)).
    rewrite fold_left_app, L. cbn [fold_left lex_char]. rewrite (num_stop c S), NV. rewrite begin_stop by exact S. now rewrite <- !app_assoc.
Qed.
(** "%.12f" with all its digits. *)
Definition full_lit (neg : bool) (n : Z) : lit := mkLit (if neg then SMinus else SNone) (digits (n / 10 ^ 12)) (fixed_digits 12 (n mod 10 ^ 12)) None.
Lemma fmt_f12_value q : exists v n, prints (fmt_f12 q) (ENum v) /\ nearest (Qabs q * inject_Z (10 ^ 12)) n /\ 0 <= n /\
  (v == inject_Z (if Qltb q 0 then - n else n) / inject_Z (10 ^ 12))%Q.
Proof.
  pose proof (round_nearest (Qabs q * inject_Z (10 ^ 12))) as R.
  remember (Qround_even (Qabs q * inject_Z (10 ^ 12))) as n eqn:En.
  assert (N : 0 <= n).
  { destruct R as (R1 & R2 & _). assert (-1 < n); [|lia]. rewrite Zlt_Qlt. change (inject_Z (-1)) with (-1)%Q.
    assert (0 <= Qabs q * inject_Z (10^12))%Q. { apply Qmult_le_0_compat; [apply Qabs_nonneg|]. discriminate. } Lqa.lra. }
  destruct (digits_spec (n / 10 ^ 12)) as (A & B & C). { apply Z.div_pos; lia. }
  destruct (fixed_spec 12 (n mod 10 ^ 12)) as (D & E & F). { apply Z.mod_pos_bound. lia. }
  set (l := full_lit (Qltb q 0) n).
  assert (L : lit_ok l) by (unfold lit_ok, l, full_lit; cbn [l_int l_frac l_exp]; auto).
  destruct (number_plain l L) as (v & NV & VV). { cbn [l full_lit l_int]. apply digits_plain, Z.div_pos; lia. }
  cbn [l full_lit l_int l_frac] in VV. rewrite A, D, F, p10_neg in VV. change (Z.of_nat 12) with 12 in VV.
  assert (V : (v == inject_Z n / inject_Z (10 ^ 12))%Q).
  { assert (DM := Z.div_mod n (10 ^ 12) ltac:(lia)).
    assert (Q1 : (inject_Z n == inject_Z (10 ^ 12) * inject_Z (n / 10 ^ 12) + inject_Z (n mod 10 ^ 12))%Q).
    { rewrite <- inject_Z_mult, <- inject_Z_plus, <- DM. reflexivity. }
    rewrite VV, Q1. field. discriminate. }
  assert (U : fmt_f12 q = ((if Qltb q 0 then ["-"%char] else []) ++ unsigned l)%list).
  { unfold fmt_f12. rewrite <- En. f_equal. unfold unsigned, l, full_lit. cbn [l_int l_frac]. rewrite !map_dch by auto.
    destruct (fixed_digits 12 (n mod 10 ^ 12)) eqn:X; [cbn in F; discriminate|reflexivity]. }
  destruct (prints_unsigned _ _ NV) as [P1 P2]. rewrite U. destruct (Qltb q 0).
  - exists (- v)%Q, n. split; [exact P2|]. split; [exact R|]. split; [exact N|]. rewrite V, inject_Z_opp. field. discriminate.
  - exists v, n. split; [exact P1|]. split; [exact R|]. split; [exact N|exact V].
Qed.
Lemma fmt_f12_near q : exists v, prints (fmt_f12 q) (ENum v) /\ near12 v q /\ ((exists k, (q * inject_Z (10 ^ 12) == inject_Z k)%Q) -> (v == q)%Q).
Proof.
  destruct (fmt_f12_value q) as (v & n & P & NR & N & V). exists v. split; [exact P|].
  destruct (length_str_spec q) as (l & L & X & T1 & m & MR & M0 & VL). assert (m = n) as -> by (eapply nearest_unique; eauto).
  destruct (str_near q) as (l' & L' & E' & N' & X'). assert (EL : (lit_val l == lit_val l')%Q) by (apply lit_text_val; auto; congruence).
  split; [unfold near12 in *; rewrite V, <- VL, EL; exact N'|]. intros K. rewrite V, <- VL, EL. now apply X'.
Qed.

(** * Angles *)
Lemma eval_angle t v : prints t (ENum v) -> prints (T "Angle(" ++ t ++ T ")") (ECall (T "Angle") [(None, ENum v)]) /\
  python (T "Angle(" ++ t ++ T ")") = Some (ECall (T "Angle") [(None, ENum v)]).
Proof.
  intros P. assert (N : names (T "Angle")) by name_ok. assert (R : rest (t ++ [")"%char]) [(None, ENum v)]) by (apply rest_last; exact P).
  split; [exact (prints_call _ _ _ N R eq_refl)|exact (python_call _ _ _ N R eq_refl)].
Qed.
Lemma abs_le_inv x y : (Rabs x <= y -> - y <= x <= y)%R.
Proof. intros H. pose proof (Rle_abs x). pose proof (Rle_abs (- x)). rewrite Rabs_Ropp in *. Lra.lra. Qed.
Lemma near_reals v q : near12 v q -> (Rabs (Q2R v - Q2R q) <= / 2 * / 10 ^ 12)%R.
Proof.
  intros N. unfold near12 in N. apply Qabs_Qle_condition in N. destruct N as [A B]. apply Qle_Rle in A. apply Qle_Rle in B.
  rewrite Q2R_minus in A, B. rewrite Q2R_opp in A.
  assert (E : Q2R ((1 # 2) * (1 # 1000000000000)) = (/ 2 * / 10 ^ 12)%R) by (unfold Q2R; cbn [Qnum Qden Qmult]; simpl; Lra.lra).
  rewrite E in A, B. apply Rabs_le. Lra.lra.
Qed.
(** The angle read back is as printed: within half a unit of the twelfth decimal, exact if there are no more decimals, and equal to the angle unless that is
    about to complete a turn. *)
Theorem repr_angle_partial : forall q, exists a, evaluate (angle_repr q) = Ok (OAngle a) /\ (Qabs (a - q) <= (1 # 2) * 1e-12)%Q /\
  ((exists k, (q * inject_Z (10 ^ 12) == inject_Z k)%Q) -> (a == q)%Q) /\
  ((/ 10 ^ 12 <= rmod (Q2R q) tau <= tau - / 10 ^ 12)%R -> angle_eq (Q2R q) (Q2R a)).
Proof.
  intros q. destruct (fmt_f12_near q) as (v & P & N & X). exists v. destruct (eval_angle _ _ P) as [_ PY].
  split; [unfold evaluate, angle_repr; rewrite PY; reflexivity|]. split; [exact N|]. split; [exact X|]. intros H.
  apply near_reals in N. apply abs_le_inv in N.
  unfold angle_eq. assert (T0 : (0 < tau)%R) by (unfold tau; pose proof PI_RGT_0; Lra.lra).
  assert (E : rmod (Q2R v) tau = (rmod (Q2R q) tau + (Q2R v - Q2R q))%R).
  { apply (rmod_unique _ _ (Int_part (Q2R q / tau))); [exact T0|unfold rmod; Lra.lra|].
    assert (P12 : (0 < / 10 ^ 12)%R) by (apply Rinv_0_lt_compat, pow_lt; Lra.lra). Lra.lra. }
  rewrite E. assert (P11 : (/ 10 ^ 12 <= / 10 ^ 11)%R) by (apply Rinv_le_contravar; [apply pow_lt; Lra.lra|]; simpl; Lra.lra).
  assert (P12 : (0 < / 10 ^ 12)%R) by (apply Rinv_0_lt_compat, pow_lt; Lra.lra).
  apply Rabs_le. Lra.lra.
Qed.
Lemma pi_2 : (2 < PI)%R.
Proof. pose proof PI2_1. Lra.lra. Qed.
Example repr_angle_ex : angle_repr (-5 # 2) = T "Angle(-2.500000000000)" /\ (/ 10 ^ 12 <= rmod (Q2R (-5 # 2)) tau <= tau - / 10 ^ 12)%R.
Proof.
  split; [reflexivity|]. pose proof pi_2. assert (P11 : (/ 10 ^ 12 <= 1)%R) by (rewrite <- Rinv_1; apply Rinv_le_contravar; [Lra.lra|]; simpl; Lra.lra).
  assert (Q2R (-5 # 2) = (-5 / 2)%R) as -> by (unfold Q2R; cbn; Lra.lra).
  rewrite (rmod_unique _ tau (-1) (tau - 5 / 2)); unfold tau; try Lra.lra.
Qed.
Print Assumptions repr_angle_partial.
(** A tiny negative angle is read back as zero, which == takes to be almost a whole turn away. *)
Theorem repr_angle_refuted : exists q a, evaluate (angle_repr q) = Ok (OAngle a) /\ ~ angle_eq (Q2R q) (Q2R a).
Proof.
  exists (-1 # 10000000000000). eexists. split; [vm_compute; reflexivity|]. pose proof pi_2.
  match goal with |- ~ angle_eq _ (Q2R ?a) => assert (Q2R a = 0%R) as -> by (unfold Q2R; cbn; Lra.lra) end.
  assert (Q2R (-1 # 10000000000000) = (- / 10000000000000)%R) as -> by (unfold Q2R; cbn; Lra.lra).
  unfold angle_eq. rewrite (rmod_unique (- / 10000000000000) tau (-1) (tau - / 10000000000000)); [|unfold tau; Lra.lra..].
  rewrite (rmod_unique 0 tau 0 0); [|unfold tau; Lra.lra..].
  assert (P11 : (/ 10 ^ 11 <= 1)%R) by (rewrite <- Rinv_1; apply Rinv_le_contravar; [Lra.lra|]; simpl; Lra.lra).
  intros K. apply abs_le_inv in K. unfold tau in K. Lra.lra.
Qed.
Print Assumptions repr_angle_refuted.

(** * Arcs *)
(** What a text of decimal digits, perhaps with a point and after a minus sign, stands for. *)
Definition decimal (t : text) (v : Q) : Prop := number t = Some v \/ exists u w, t = ("-"%char :: u)%list /\ number u = Some w /\ v = (- w)%Q.
(** Sweeps are equal if both are None, equal floats, or equal angles; [rd] gives the float that a decimal is read as. Arc.__eq__, path.py:1401-1411. *)
Definition same_sweep (rd : Q -> Q) (w v : sweep) : Prop :=
  match w, v with WNone, WNone => True | WFloat a, WFloat b => (rd b == a)%Q | WAngle a, WAngle b => angle_eq (Q2R a) (Q2R b) | _, _ => False end.
Definition same_arc (rd : Q -> Q) (a b : arcobj) : Prop :=
  onear (o_start a) (o_start b) = true /\ onear (o_end a) (o_end b) = true /\ onear (o_prx a) (o_prx b) = true /\ onear (o_pry a) (o_pry b) = true /\
  onear (o_center a) (o_center b) = true /\ same_sweep rd (o_sweep a) (o_sweep b).
(** Sweeps that come back: floats printed as a decimal that reads as the same float, angles not about to complete a turn. *)
Definition plain_sweep (fr : Q -> text) (rd : Q -> Q) (w : sweep) : Prop :=
  match w with
  | WNone => True
  | WFloat q => exists v, decimal (fr q) v /\ (rd v == q)%Q
  | WAngle q => (/ 10 ^ 12 <= rmod (Q2R q) tau <= tau - / 10 ^ 12)%R
  end.
Theorem repr_arc_partial : forall fr rd a, plain_sweep fr rd (o_sweep a) -> exists b, evaluate (arc_repr fr a) = Ok (OArc b) /\ same_arc rd a b.
Proof.
  intros fr rd [s e c x y w] W. cbn [o_sweep] in W.
  destruct (opoint_lemma s) as (es & s' & PS & ES & NS & _). destruct (opoint_lemma e) as (ee & e' & PE & EE & NE & _). destruct (opoint_lemma c) as (ec & c' & PC & EC & NC & _).
  destruct (opoint_lemma x) as (ex & x' & PX & EX & NX & _). destruct (opoint_lemma y) as (ey & y' & PY & EY & NY & _).
  assert (SW : exists ew ow w', prints (sweep_str fr w) ew /\ eval ew = Ok ow /\
     match ow with ONone => Ok WNone | ONum q => Ok (WFloat q) | OAngle q => Ok (WAngle q) | _ => Err Unmodelled end = Ok w' /\ same_sweep rd w w').
  { destruct w as [|q|q]; cbn [sweep_str plain_sweep] in *.
    - exists ENone, ONone, WNone. repeat split; apply prints_none.
    - destruct W as (v & [D|(u & z & -> & D & ->)] & V); destruct (prints_unsigned _ _ D) as [P1 P2].
      + exists (ENum v), (ONum v), (WFloat v). repeat split; assumption.
      + exists (ENum (- z)), (ONum (- z)), (WFloat (- z)). repeat split; assumption.
    - destruct (repr_angle_partial q) as (a & _). destruct (fmt_f12_near q) as (v & P & N & X). destruct (eval_angle _ _ P) as [P1 PV].
      exists (ECall (T "Angle") [(None, ENum v)]), (OAngle v), (WAngle v). split; [exact P1|]. split; [reflexivity|]. split; [reflexivity|].
      destruct (repr_angle_partial q) as (a' & EA & _ & _ & GA). unfold evaluate, angle_repr in EA. rewrite PV in EA. injection EA as <-. exact (GA W). }
  destruct SW as (ew & ow & w' & PW & EW & OW & SW).
  exists (mkArcObj s' e' c' x' y' w'). split; [|unfold same_arc; cbn; auto 10].
  assert (R : rest (opoint_repr s ++ ","%char :: " "%char :: opoint_repr e ++ ","%char :: " "%char :: opoint_repr c ++ ","%char :: " "%char :: opoint_repr x ++ ","%char :: " "%char :: opoint_repr y ++ ","%char :: " "%char :: sweep_str fr w ++ [")"%char])
      [(None, es); (None, ee); (None, ec); (None, ex); (None, ey); (None, ew)]) by (repeat (apply rest_space; [assumption|]); apply rest_last; assumption).
  assert (N : names (T "Arc")) by name_ok. unfold evaluate.
  replace (python (arc_repr fr (mkArcObj s e c x y w))) with (Some (ECall (T "Arc") [(None, es); (None, ee); (None, ec); (None, ex); (None, ey); (None, ew)])) by (symmetry; exact (python_call _ _ _ N R eq_refl)).
  cbn [eval]. rewrite ES. cbn [rbind]. rewrite EE. cbn [rbind]. rewrite EC. cbn [rbind]. rewrite EX. cbn [rbind]. rewrite EY. cbn [rbind]. rewrite EW. cbn [rbind app].
  unfold construct. change (teqb (T "Arc") (T "Arc")) with true.
  do 11 (match goal with |- context [teqb (T "Arc") ?x] => change (teqb (T "Arc") x) with false end; cbn iota).
  unfold arc_init. rewrite !as_point_oobj. cbn [rbind]. rewrite OW. reflexivity.
Qed.
Definition sample_arc : arcobj := mkArcObj (Some (Q2Qc 1, Q2Qc 0)) (Some (Q2Qc 0, Q2Qc 1)) (Some (Q2Qc 0, Q2Qc 0)) (Some (Q2Qc 1, Q2Qc 0)) (Some (Q2Qc 0, Q2Qc 1)) (WFloat (-3 # 2)).
Example repr_arc_ex : let fr := fun _ : Q => T "-1.5" in plain_sweep fr (fun v => v) (o_sweep sample_arc) /\
  arc_repr fr sample_arc = T "Arc(Point(1,0), Point(0,1), Point(0,0), Point(1,0), Point(0,1), -1.5)".
Proof. split; [|reflexivity]. exists (- (15 / 10))%Q. split; [right; exists (T "1.5"), (15 / 10)%Q; repeat split|reflexivity]. Qed.
Print Assumptions repr_arc_partial.
