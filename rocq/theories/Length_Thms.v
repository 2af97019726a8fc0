(** Property theorems about lengths (C13-C19, C69). [len2 a (T u)] is Length(a, u). *)
Require Import ZArith QArith Qabs Qround Ascii String List Bool Lia Lqa.
Require Import Verif.Base Verif.Text_Spec Verif.Length_Model Verif.Length_Spec Verif.Length_Proofs Verif.Length_Proofs2.
Import ListNotations.
Open Scope Q_scope.

(** * C13: text round trip. [a] has at most 12 decimals, the unit is letters or %. *)
Theorem length_text_roundtrip : forall a k u, a * inject_Z (10 ^ 12) == inject_Z k ->
  forallb is_unit_char (T u) = true ->
  exists a', len_of_text (len_str (len2 a (T u))) = len2 a' (T u) /\ a' == a.
Proof. exact len_text_roundtrip_lemma. Qed.
Example length_text_roundtrip_ex : len_str (len2 (-125 # 1000) (T "em")) = T "-0.125em"
  /\ (-125 # 1000) * inject_Z (10 ^ 12) == inject_Z (-125000000000).
Proof. split; reflexivity. Qed.
Print Assumptions length_text_roundtrip.

(** For any amount the printed text is off by at most half of the twelfth decimal. *)
Theorem length_text_near : forall a u, forallb is_unit_char (T u) = true ->
  exists a', len_of_text (len_str (len2 a (T u))) = len2 a' (T u) /\ Qabs (a' - a) <= (1 # 2) * (1 # 1000000000000).
Proof. exact len_text_near_lemma. Qed.
Example length_text_near_ex : len_str (len2 (2 # 3) (T "mm")) = T "0.666666666667mm".
Proof. reflexivity. Qed.
Print Assumptions length_text_near.

(** Every decimal literal (sign, fraction, exponent) followed by a unit is read with its value. *)
Theorem length_text_reads : forall l u, lit_ok l -> forallb is_unit_char (T u) = true ->
  exists a, len_of_text (lit_text l ++ T u) = len2 a (T u) /\ a == lit_val l.
Proof. exact len_of_lit_any. Qed.
Example length_text_reads_ex : len_of_text (T "-1.5e2em") = len2 (-150) (T "em") \/
  (exists a, len_of_text (T "-1.5e2em") = len2 a (T "em") /\ a == -150).
Proof. right. eexists. split; reflexivity. Qed.
Print Assumptions length_text_reads.

(** * C14: the CSS unit table *)
Theorem length_value_css_partial : forall c a u f, css_unit (num_env c) u f ->
  ~ In u ["pt"; "cm"; "mm"; "vmin"; "vmax"]%string ->
  exists x, value c (len2 a (T u)) = Ok (VNum x) /\ x == a * f.
Proof. exact value_css_lemma. Qed.
Example length_value_css_ex :
  let c := mkCtx (Some 96) (Some (ANum 300)) (Some (FNum 12)) None (Some (640, 480)) in
  css_unit (num_env c) "%" (300 / 100) /\ css_unit (num_env c) "vw" (640 / 100) /\ css_unit (num_env c) "in" 96.
Proof. repeat split; econstructor; reflexivity. Qed.
Print Assumptions length_value_css_partial.

(** pt, cm and mm use rounded constants: within one part in 40000 of the CSS size. *)
Theorem length_value_css_near : forall c a u f, css_unit (num_env c) u f -> In u ["pt"; "cm"; "mm"]%string ->
  exists x, value c (len2 a (T u)) = Ok (VNum x) /\ within (1 # 40000) x (a * f).
Proof. exact value_css_near_lemma. Qed.
Example length_value_css_near_ex : css_unit (num_env (mkCtx (Some 96) None None None None)) "mm" (96 / (254 # 10)).
Proof. apply css_mm. reflexivity. Qed.
Print Assumptions length_value_css_near.
Theorem length_value_pt_refuted : exists c a f x, css_unit (num_env c) "pt" f /\
  value c (len2 a (T "pt")) = Ok (VNum x) /\ ~ x == a * f.
Proof. exists (mkCtx None None None None None), 3, (4 # 3), (3 * pt_px). repeat split; [constructor | discriminate]. Qed.
Print Assumptions length_value_pt_refuted.

(** vmin and vmax are right only when the height is the smaller (larger) side. *)
Theorem length_value_vminmax_partial : forall c a u w h, c_vb c = Some (w, h) ->
  (u = "vmin" /\ h <= w \/ u = "vmax" /\ w <= h)%string ->
  exists x f, value c (len2 a (T u)) = Ok (VNum x) /\ css_unit (num_env c) u f /\ x == a * f.
Proof. exact value_vmin_lemma. Qed.
Example length_value_vminmax_ex : (480 <= 640)%Q. Proof. discriminate. Qed.
Print Assumptions length_value_vminmax_partial.
Theorem length_value_vmin_refuted : exists c a f x, css_unit (num_env c) "vmin" f /\
  value c (len2 a (T "vmin")) = Ok (VNum x) /\ ~ x == a * f.
Proof.
  exists (mkCtx None None None None (Some (100, 200))), 50, (100 / 100), (50 * (if Qltb 200 200 then 200 else 200) / 100).
  repeat split; [eapply css_vmin_w; [reflexivity | discriminate] | discriminate].
Qed.
Print Assumptions length_value_vmin_refuted.
Theorem length_value_vmax_refuted : exists c a f x, css_unit (num_env c) "vmax" f /\
  value c (len2 a (T "vmax")) = Ok (VNum x) /\ ~ x == a * f.
Proof.
  exists (mkCtx None None None None (Some (200, 100))), 50, (200 / 100), (50 * (if Qltb 100 100 then 100 else 100) / 100).
  repeat split; [eapply css_vmax_w; [reflexivity | discriminate] | discriminate].
Qed.
Print Assumptions length_value_vmax_refuted.

(** A percentage of a length given as Length or text is that fraction of its size. *)
Theorem length_value_percent_of_length : forall c a b u x, u <> "%"%string -> c_rel c = Some (ALen (len2 b (T u))) ->
  value c (len2 b (T u)) = Ok (VNum x) ->
  exists y, value c (len2 a (T "%")) = Ok (VNum y) /\ y == a * (x / 100).
Proof. exact value_rel_len_lemma. Qed.
Example length_value_percent_of_length_ex : exists y,
  value (mkCtx (Some 96) (Some (ALen (len2 2 (T "in")))) None None None) (len2 25 (T "%")) = Ok (VNum y) /\ y == 48.
Proof. eexists. split; reflexivity. Qed.
Print Assumptions length_value_percent_of_length.
Theorem length_value_percent_of_text : forall c a b t u x, u <> "%"%string -> ~ b == 0 -> len_of_text t = len2 b (T u) ->
  c_rel c = Some (AText t) -> value c (len2 b (T u)) = Ok (VNum x) ->
  exists y, value c (len2 a (T "%")) = Ok (VNum y) /\ y == a * (x / 100).
Proof. exact value_rel_text_lemma. Qed.
Example length_value_percent_of_text_ex : len_of_text (T "12px") = len2 12 (T "px") /\ exists y,
  value (mkCtx None (Some (AText (T "12px"))) None None None) (len2 25 (T "%")) = Ok (VNum y) /\ y == 3.
Proof. split; [reflexivity|]. eexists. split; reflexivity. Qed.
Print Assumptions length_value_percent_of_text.
(** A percentage of a percentage is 100 times too large (and stays a Length). *)
Theorem length_value_percent_percent_refuted : exists c l, c_rel c = Some (ALen (len2 50 (T "%"))) /\
  value c (len2 50 (T "%")) = Ok (VLen l) /\ l = len2 2500 (T "%").
Proof. exists (mkCtx None (Some (ALen (len2 50 (T "%")))) None None None), (len2 2500 (T "%")). repeat split. Qed.
Print Assumptions length_value_percent_percent_refuted.

(** * C15: unresolvable lengths stay symbolic *)
Theorem length_value_symbolic_partial : forall c a u,
  undetermined (mkEnv (c_ppi c) (option_map (fun _ => 0) (c_rel c)) (option_map farg_float (c_size c))
     (option_map farg_float (c_height c)) (c_vb c)) u ->
  value c (len2 a (T u)) = Ok (VLen (len2 a (T u))).
Proof. exact value_symbolic_lemma. Qed.
Example length_value_symbolic_ex : undetermined (mkEnv (Some 96) None None None None) "em" /\
  value (mkCtx (Some 96) None None None None) (len2 3 (T "em")) = Ok (VLen (len2 3 (T "em"))).
Proof. split; reflexivity. Qed.
Print Assumptions length_value_symbolic_partial.
(** A unit the code does not know (rem, ch, Q, ...) is silently taken as px. *)
Theorem length_value_unknown_unit_refuted : exists u x, ~ (exists e f, css_unit e u f) /\
  value (mkCtx None None None None None) (len2 5 (T u)) = Ok (VNum x).
Proof. exists "rem"%string, 5. split; [intros (e & f & H); inversion H | reflexivity]. Qed.
Print Assumptions length_value_unknown_unit_refuted.

(** * C16: equality *)
Theorem length_eq_reflexive : forall l, len_eq l (Some (ALen l)) = true.
Proof. exact eq_refl_lemma. Qed.
Print Assumptions length_eq_reflexive.
(** For units the code does not convert, equality is the right one. *)
Theorem length_eq_partial : forall a b u v, ~ pxlike u -> ~ metric u ->
  (len_eq (len2 a (T u)) (Some (ALen (len2 b (T v)))) = true <-> a == b /\ u = v).
Proof. exact eq_partial_lemma. Qed.
Example length_eq_partial_ex : ~ pxlike "em" /\ ~ metric "em".
Proof. unfold pxlike, metric. intuition discriminate. Qed.
Print Assumptions length_eq_partial.
(** For px, pt, pc, mm, cm and in every comparison is True. *)
Theorem length_eq_refuted : exists a b u, pxlike u /\ len_eq (len2 a (T u)) (Some (ALen (len2 b (T u)))) = true /\
  exists x y, value (mkCtx None None None None None) (len2 a (T u)) = Ok (VNum x) /\
              value (mkCtx None None None None None) (len2 b (T u)) = Ok (VNum y) /\ ~ x == y.
Proof.
  exists 1, 2, "px"%string. split; [unfold pxlike; auto|]. split; [reflexivity|]. exists 1, 2. repeat split. discriminate.
Qed.
Print Assumptions length_eq_refuted.
Theorem length_eq_always_true : forall a b u v, pxlike u \/ metric u ->
  len_eq (len2 a (T u)) (Some (ALen (len2 b (T v)))) = true.
Proof. exact eq_always_lemma. Qed.
Print Assumptions length_eq_always_true.
Theorem length_eq_symmetric_refuted : exists l m, len_eq l (Some (ALen m)) = true /\ len_eq m (Some (ALen l)) = false.
Proof. exists (len2 1 (T "px")), (len2 1 (T "em")). split; reflexivity. Qed.
Print Assumptions length_eq_symmetric_refuted.
(** Against a number: 1pc is 16 px but does not equal 16. *)
Theorem length_eq_number_refuted : exists l x, value (mkCtx None None None None None) l = Ok (VNum x) /\
  x == 16 /\ len_eq l (Some (ANum 16)) = false.
Proof. exists (len2 1 (T "pc")), (1 * 16). repeat split. Qed.
Print Assumptions length_eq_number_refuted.
(** What it does compare with, for every number: pixels and no unit as they are, points and picas divided (not multiplied) by their size, and nothing
    else but zero with zero. *)
Theorem length_eq_number : forall l q, len_eq l (Some (ANum q)) = true <->
  match units l with
  | UPx | UNone => Qabs (amount l - q) <= 1 # 1000000000000
  | UPt => Qabs (amount l / (13333 # 10000) - q) <= 1 # 1000000000000
  | UPc => Qabs (amount l / 16 - q) <= 1 # 1000000000000
  | _ => q == 0 /\ amount l == 0
  end.
Proof.
  intros [a u] q. unfold len_eq, in_pixels, near. destruct u; cbn [units amount]; rewrite ?andb_true_iff, ?Qle_bool_iff, ?Qeq_bool_iff; reflexivity.
Qed.
Example length_eq_number_ex : len_eq (len2 48 (T "pc")) (Some (ANum 3)) = true /\ len_eq (len2 3 (T "px")) (Some (ANum 3)) = true /\ len_eq (len2 3 (T "mm")) (Some (ANum 3)) = false.
Proof. repeat split. Qed.
Print Assumptions length_eq_number.
(** float(length): points and picas in pixels, everything else the bare amount, whatever the unit. *)
Theorem length_float : forall a u, len_float (len2 a (T u)) == a * (if String.eqb u "pt" then 13333 # 10000 else if String.eqb u "pc" then 16 else 1).
Proof.
  intros a u. destruct (String.eqb_spec u "pt") as [->|N1]; [reflexivity|]. destruct (String.eqb_spec u "pc") as [->|N2]; [reflexivity|].
  assert (H : units (len2 a (T u)) <> UPt /\ units (len2 a (T u)) <> UPc). { split; intros H; [apply N1|apply N2]; apply T_inj; rewrite <- (unit_text_of u); unfold len2 in H; cbn [units] in H; rewrite H; reflexivity. }
  unfold len_float. destruct H as [H1 H2]. destruct (units (len2 a (T u))); try congruence; cbn; ring.
Qed.
Example length_float_ex : len_float (len2 3 (T "pc")) == 48 /\ len_float (len2 3 (T "mm")) == 3.
Proof. split; reflexivity. Qed.
Print Assumptions length_float.

(** * C17: order *)
Theorem length_order_partial : forall c a b u v x y pu pv, ~ pt_pc_mix u v ->
  value c (len2 1 (T u)) = Ok (VNum pu) -> 0 < pu -> value c (len2 1 (T v)) = Ok (VNum pv) -> 0 < pv ->
  value c (len2 a (T u)) = Ok (VNum x) -> value c (len2 b (T v)) = Ok (VNum y) ->
  (forall t, len_lt (len2 a (T u)) (ALen (len2 b (T v))) = Ok t -> (t = true <-> x < y)) /\
  (forall t, len_le (len2 a (T u)) (ALen (len2 b (T v))) = Ok t -> (t = true <-> x <= y)) /\
  (forall t, len_gt (len2 a (T u)) (ALen (len2 b (T v))) = Ok t -> (t = true <-> y < x)) /\
  (forall t, len_ge (len2 a (T u)) (ALen (len2 b (T v))) = Ok t -> (t = true <-> y <= x)).
Proof. exact order_lemma. Qed.
Example length_order_ex : len_lt (len2 3 (T "cm")) (ALen (len2 2 (T "in"))) = Ok true /\ ~ pt_pc_mix "cm" "in".
Proof. split; [reflexivity|]. unfold pt_pc_mix. intuition discriminate. Qed.
Print Assumptions length_order_partial.
Theorem length_lt_irreflexive : forall l, len_lt l (ALen l) = Ok false.
Proof. exact lt_irrefl_lemma. Qed.
Print Assumptions length_lt_irreflexive.
Theorem length_lt_transitive_partial : forall a b d u v w r, ~ pt_pc_mix u v -> ~ pt_pc_mix v w -> ~ pt_pc_mix u w ->
  len_lt (len2 a (T u)) (ALen (len2 b (T v))) = Ok true -> len_lt (len2 b (T v)) (ALen (len2 d (T w))) = Ok true ->
  len_lt (len2 a (T u)) (ALen (len2 d (T w))) = Ok r -> r = true.
Proof. exact lt_trans_lemma. Qed.
Example length_lt_transitive_ex : len_lt (len2 1 (T "mm")) (ALen (len2 1 (T "cm"))) = Ok true /\
  len_lt (len2 1 (T "cm")) (ALen (len2 1 (T "in"))) = Ok true /\ len_lt (len2 1 (T "mm")) (ALen (len2 1 (T "in"))) = Ok true.
Proof. repeat split. Qed.
Print Assumptions length_lt_transitive_partial.
(** pt, pc and px together do not: 12 pt per pc and 1.3333 px per pt disagree with 16 px per pc. *)
Theorem length_lt_transitive_refuted : exists l m n, len_lt l (ALen m) = Ok true /\ len_lt m (ALen n) = Ok true /\
  len_lt l (ALen n) = Ok false.
Proof. exists (len2 1 (T "pc")), (len2 (120001 # 10000) (T "pt")), (len2 (159999 # 10000) (T "px")). repeat split. Qed.
Print Assumptions length_lt_transitive_refuted.

(** * C18: addition *)
Theorem length_add_value_partial : forall c a b u v x y s, ~ pt_pc_mix u v ->
  value c (len2 a (T u)) = Ok (VNum x) -> value c (len2 b (T v)) = Ok (VNum y) ->
  len_add (len2 a (T u)) (ALen (len2 b (T v))) = Ok s ->
  exists z, value c s = Ok (VNum z) /\ z == x + y.
Proof. exact add_value_lemma. Qed.
Theorem length_sub_value_partial : forall c a b u v x y s, ~ pt_pc_mix u v ->
  value c (len2 a (T u)) = Ok (VNum x) -> value c (len2 b (T v)) = Ok (VNum y) ->
  len_sub (len2 a (T u)) (ALen (len2 b (T v))) = Ok s ->
  exists z, value c s = Ok (VNum z) /\ z == x - y.
Proof. exact sub_value_lemma. Qed.
(** Reflected subtraction: the other operand minus this one. *)
Theorem length_rsub_value_partial : forall c a b u v x y s, ~ pt_pc_mix u v ->
  value c (len2 a (T u)) = Ok (VNum x) -> value c (len2 b (T v)) = Ok (VNum y) ->
  len_rsub (len2 a (T u)) (ALen (len2 b (T v))) = Ok s ->
  exists z, value c s = Ok (VNum z) /\ z == y - x.
Proof. exact rsub_value_lemma. Qed.
Theorem length_add_sub_partial : forall c a b u v x y s, ~ pt_pc_mix u v ->
  value c (len2 a (T u)) = Ok (VNum x) -> value c (len2 b (T v)) = Ok (VNum y) ->
  len_add (len2 a (T u)) (ALen (len2 b (T v))) = Ok s ->
  exists r z, len_sub s (ALen (len2 b (T v))) = Ok r /\ value c r = Ok (VNum z) /\ z == x.
Proof. exact add_sub_lemma. Qed.
Example length_add_ex : exists s, len_add (len2 3 (T "mm")) (ALen (len2 2 (T "in"))) = Ok s /\ units s = UMm.
Proof. eexists. split; reflexivity. Qed.
Print Assumptions length_add_value_partial.
Print Assumptions length_sub_value_partial.
Print Assumptions length_rsub_value_partial.
Print Assumptions length_add_sub_partial.
Theorem length_add_defined : forall a b u v,
  (convertible u v \/ a == 0 \/ b == 0 -> exists s, len_add (len2 a (T u)) (ALen (len2 b (T v))) = Ok s) /\
  (~ convertible u v -> ~ a == 0 -> ~ b == 0 -> len_add (len2 a (T u)) (ALen (len2 b (T v))) = Err ValueError).
Proof. exact iadd_defined_lemma. Qed.
Example length_add_defined_ex : ~ convertible "px" "mm".
Proof. unfold convertible, metric, pxlike. intuition discriminate. Qed.
Print Assumptions length_add_defined.
Theorem length_add_pt_pc_refuted : exists s z, len_add (len2 1 (T "pt")) (ALen (len2 1 (T "pc"))) = Ok s /\
  value (mkCtx None None None None None) s = Ok (VNum z) /\ ~ z == 1 * pt_px + 1 * 16.
Proof. eexists _, _. split; [reflexivity|]. split; [reflexivity|]. discriminate. Qed.
Print Assumptions length_add_pt_pc_refuted.

(** * C19: scaling *)
Theorem length_scale_value : forall c a u k x, value c (len2 a (T u)) = Ok (VNum x) ->
  exists s z, len_mul (len2 a (T u)) (ANum k) = Ok (VLen s) /\ value c s = Ok (VNum z) /\ z == k * x.
Proof. exact mul_value_lemma. Qed.
Theorem length_mul_div : forall a u k, ~ k == 0 -> exists s r, len_mul (len2 a (T u)) (ANum k) = Ok (VLen s) /\
  len_div s (ANum k) = Ok (VLen (len2 r (T u))) /\ r == a.
Proof. exact mul_div_lemma. Qed.
Theorem length_ratio_partial : forall c a b u v x y r, ~ pt_pc_mix u v ->
  value c (len2 a (T u)) = Ok (VNum x) -> value c (len2 b (T v)) = Ok (VNum y) ->
  len_div (len2 a (T u)) (ALen (len2 b (T v))) = Ok (VNum r) -> r * y == x.
Proof. exact div_ratio_lemma. Qed.
Theorem length_ratio_zero : forall a b u v, ~ a == 0 -> b == 0 -> convertible u v ->
  len_div (len2 a (T u)) (ALen (len2 b (T v))) = Err ZeroDivisionError.
Proof. exact div_by_zero_lemma. Qed.
Theorem length_ratio_incompatible : forall a b u v, ~ a == 0 -> ~ convertible u v ->
  len_div (len2 a (T u)) (ALen (len2 b (T v))) = Err ValueError.
Proof. exact div_incompatible_lemma. Qed.
Example length_ratio_ex : exists r, len_div (len2 5 (T "cm")) (ALen (len2 4 (T "mm"))) = Ok (VNum r) /\ r == 25 # 2.
Proof. eexists. split; reflexivity. Qed.
Theorem length_ratio_pt_pc_refuted : exists r, len_div (len2 12 (T "pt")) (ALen (len2 1 (T "pc"))) = Ok (VNum r) /\
  ~ r * (1 * 16) == 12 * pt_px.
Proof. eexists. split; [reflexivity|]. discriminate. Qed.
Print Assumptions length_scale_value.
Print Assumptions length_mul_div.
Print Assumptions length_ratio_partial.
Print Assumptions length_ratio_zero.
Print Assumptions length_ratio_incompatible.
Print Assumptions length_ratio_pt_pc_refuted.

(** * C69: to_mm, to_cm, to_inch keep the size *)
Theorem length_convert_keeps_size : forall ppi c l x, ~ ppi == 0 ->
  value (mkCtx (Some ppi) (c_rel c) (c_size c) (c_height c) (c_vb c)) l = Ok (VNum x) ->
  exists m n i xm xn xi,
    to_mm ppi c l = Ok (len2 m (T "mm")) /\ to_cm ppi c l = Ok (len2 n (T "cm")) /\ to_inch ppi c l = Ok (len2 i (T "in")) /\
    value (mkCtx (Some ppi) None None None None) (len2 m (T "mm")) = Ok (VNum xm) /\
    value (mkCtx (Some ppi) None None None None) (len2 n (T "cm")) = Ok (VNum xn) /\
    value (mkCtx (Some ppi) None None None None) (len2 i (T "in")) = Ok (VNum xi) /\
    Qabs (xm - x) <= (1 # 2000000000000) * Qabs ppi /\ Qabs (xn - x) <= (1 # 2000000000000) * Qabs ppi /\
    Qabs (xi - x) <= (1 # 2000000000000) * Qabs ppi.
Proof. exact convert_lemma. Qed.
Example length_convert_ex : exists m, to_mm 96 (mkCtx None None None None None) (len2 2 (T "in")) = Ok (len2 m (T "mm")) /\ m == 50799972568015 # 1000000000000.
Proof. eexists. split; vm_compute; reflexivity. Qed.
Print Assumptions length_convert_keeps_size.
