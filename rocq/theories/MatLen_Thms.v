(** Property theorems about transforms with lengths (C87). *)
Require Import ZArith QArith Qreals Reals Ascii String List Bool Lia Lra.
Require Import Verif.Base Verif.Text_Spec Verif.Text_Proofs Verif.Length_Model Verif.Length_Proofs
  Verif.Angle_Model Verif.Angle_Spec Verif.Angle_Proofs Verif.Point_Model Verif.Matrix_Model Verif.Matrix_Spec Verif.Matrix_Proofs
  Verif.Transform_Model Verif.Transform_Spec Verif.Transform_Proofs Verif.MatLen_Model Verif.MatLen_Spec Verif.MatLen_Proofs.
Import ListNotations.
Open Scope R_scope.

(** * C87 *)
(** If the text is accepted, the matrix is the map with each length resolved on its own; percentages where width and height
    are the same. *)
Theorem transform_lengths_sound : forall c s f m, tlist_by (resolved (known_of c)) any s f -> lmx_of_text c s = Ok m ->
  exists k, m = lmx_num k /\ forall p, act k p = f p.
Proof. exact lengths_sound. Qed.
Print Assumptions transform_lengths_sound.
(** Lengths of one family, with zeros, are always accepted. *)
Theorem transform_lengths_partial : forall c us s f, family us -> tlist_by (of_family (known_of c) us) (eq 0) s f ->
  exists k, lmx_of_text c s = Ok (lmx_num k) /\ forall p, act k p = f p.
Proof.
  intros c us s f FU H. destruct (tlist_family _ _ _ _ FU H lident) as (r & L & _). { split; reflexivity. }
  assert (E : lmx_of_text c s = Ok (render c r)) by (unfold lmx_of_text; rewrite L; reflexivity).
  destruct (lengths_sound c s f (render c r)) as (k & K & A); auto.
  - eapply tlist_by_mono; [| |exact H]; [intros p d [R _]; exact R|exact (fun _ _ => I)].
  - exists k. split; auto. congruence.
Qed.
(** A demonstration text: matrix(0 1 -1 0 0 0) translate(d u). *)
Definition int_param (s : sgn) (n : Z) (u : string) : param := mkParam (mkLit s [n] [] None) (T u).
Lemma quarter_tlist : forall (D : param -> R -> Prop) u d, D (int_param SNone 5 u) d -> In u ["cm"; "%"]%string ->
  tlist_by D (eq 0) (T "matrix(0 1 -1 0 0 0)" ++ T "translate(5" ++ T u ++ T ")")
    (fun p => (fun p => (0 * fst p + -1 * snd p + 0, 1 * fst p + 0 * snd p + 0)) (sp_translate d 0 p)).
Proof.
  intros D u d H U.
  assert (NUM : forall s n, (0 <= n <= 9)%Z -> is_num (int_param s n "") (Q2R (lit_val (mkLit s [n] [] None)))).
  { intros s n B. apply num_of; [|reflexivity]. split; [constructor; [unfold is_dig; lia|constructor]|split; [constructor|split; [left; discriminate|exact I]]]. }
  assert (V : Q2R (lit_val (mkLit SNone [0%Z] [] None)) = 0 /\ Q2R (lit_val (mkLit SNone [1%Z] [] None)) = 1 /\ Q2R (lit_val (mkLit SMinus [1%Z] [] None)) = -1).
  { unfold Q2R. cbn. repeat split; lra. }
  destruct V as (V0 & V1 & V2).
  pose proof (NUM SNone 0%Z ltac:(lia)) as N0. pose proof (NUM SNone 1%Z ltac:(lia)) as N1. pose proof (NUM SMinus 1%Z ltac:(lia)) as N2.
  rewrite V0 in N0. rewrite V1 in N1. rewrite V2 in N2.
  change (T "matrix(0 1 -1 0 0 0)" ++ T "translate(5" ++ T u ++ T ")") with ([] ++ T "matrix(0 1 -1 0 0 0)" ++ (T "translate(5" ++ T u ++ T ")")).
  refine (tb_cons D (eq 0) [] "matrix" [int_param SNone 0 ""; int_param SNone 1 ""; int_param SMinus 1 ""; int_param SNone 0 ""; int_param SNone 0 ""; int_param SNone 0 ""]
    (T "matrix(0 1 -1 0 0 0)") (fun p => (0 * fst p + -1 * snd p + 0, 1 * fst p + 0 * snd p + 0)) (T "translate(5" ++ T u ++ T ")") (sp_translate d 0) _ _ _ _).
  - constructor.
  - apply (ft "matrix" _ (T "matrix") [] [] (T "0 1 -1 0 0 0")); try constructor.
    assert (SP : Forall sepc (T " ")) by (repeat constructor).
    apply (pt_cons (int_param SNone 0 "") (int_param SNone 1 "") _ (T " ")); auto; [left; discriminate|].
    apply (pt_cons (int_param SNone 1 "") (int_param SMinus 1 "") _ (T " ")); auto; [left; discriminate|].
    apply (pt_cons (int_param SMinus 1 "") (int_param SNone 0 "") _ (T " ")); auto; [left; discriminate|].
    apply (pt_cons (int_param SNone 0 "") (int_param SNone 0 "") _ (T " ")); auto; [left; discriminate|].
    apply (pt_cons (int_param SNone 0 "") (int_param SNone 0 "") _ (T " ")); auto; [left; discriminate|].
    apply (pt_one (int_param SNone 0 "") []). constructor.
  - apply (db_matrix D (eq 0)); auto.
  - replace (T "translate(5" ++ T u ++ T ")") with ([] ++ (T "translate(5" ++ T u ++ T ")") ++ []) by (rewrite app_nil_r; reflexivity).
    refine (tb_cons D (eq 0) [] "translate" [int_param SNone 5 u] _ (sp_translate d 0) [] (fun p => p) _ _ _ _).
    + constructor.
    + replace (T "translate(5" ++ T u ++ T ")") with (T "translate" ++ [] ++ "("%char :: [] ++ (T "5" ++ T u) ++ [")"%char]) by (cbn [app]; rewrite <- app_assoc; reflexivity).
      apply ft; try constructor. rewrite <- (app_nil_r (T "5" ++ T u)). apply (pt_one (int_param SNone 5 u) []). constructor.
    + apply db_translate1. exact H.
    + constructor. constructor.
Qed.
Lemma five_ok : forall u, lit_ok (p_lit (int_param SNone 5 u)) /\ Q2R (lit_val (p_lit (int_param SNone 5 u))) = 5.
Proof. intros u. split; [|unfold Q2R; cbn; lra]. split; [constructor; [unfold is_dig; lia|constructor]|split; [constructor|split; [left; discriminate|exact I]]]. Qed.
(** 5cm at 100 pixels per inch, turned by a right angle. *)
Example transform_lengths_ex : exists k, lmx_of_text (mkR (Some 100) None None None None None None) (T "matrix(0 1 -1 0 0 0)translate(5cm)") = Ok (lmx_num k) /\
  act k (0, 0) = (0, 5 * (100 * 0.393701)).
Proof.
  destruct (transform_lengths_partial (mkR (Some 100) None None None None None None) ["cm"; "mm"; "in"]%string
     (T "matrix(0 1 -1 0 0 0)translate(5cm)") (fun p => (fun p => (0 * fst p + -1 * snd p + 0, 1 * fst p + 0 * snd p + 0)) (sp_translate (5 * (100 * 0.393701)) 0 p))) as (k & K & A).
  - left. reflexivity.
  - apply (quarter_tlist _ "cm"); [|simpl; auto]. destruct (five_ok "cm") as [L V]. split.
    + split; [exact L|]. exists (100 * 0.393701). split; [apply (up_cm _ 100); reflexivity|]. rewrite V. reflexivity.
    + left. exists "cm"%string. split; [simpl; auto|reflexivity].
  - exists k. split; [exact K|]. rewrite A. cbn. apply pair_eq; ring.
Qed.
Print Assumptions transform_lengths_partial.
(** Percentages: the x coordinate comes out as if all of them referred to the width, the y coordinate as if to the height. *)
Theorem transform_percent_axes : forall c s fw fh m, tlist_by (resolved (along (known_of c) (k_w (known_of c)))) any s fw ->
  tlist_by (resolved (along (known_of c) (k_h (known_of c)))) any s fh ->
  lmx_of_text c s = Ok m -> exists k, m = lmx_num k /\ forall p, act k p = (fst (fw p), snd (fh p)).
Proof. exact lengths_axes. Qed.
Print Assumptions transform_percent_axes.
(** So they are right in transforms parallel to the axes. *)
Theorem transform_percent_partial : forall c w h s f m, k_w (known_of c) = Some w -> k_h (known_of c) = Some h ->
  alist_by (resolved (along (known_of c) (Some w))) (resolved (along (known_of c) (Some h))) s f ->
  lmx_of_text c s = Ok m -> exists k, m = lmx_num k /\ forall p, act k p = f p.
Proof.
  intros c w h s f m W H A E. destruct (alist_split c w h s f A) as (fw & fh & TW & TH & P & Q).
  cbn in W, H. destruct (lengths_axes c s fw fh m) as (k & K & B); [rewrite W; exact TW|rewrite H; exact TH|exact E|].
  exists k. split; auto. intros p. rewrite B, (P p p), (Q p p) by auto. destruct (f p); reflexivity.
Qed.
Print Assumptions transform_percent_partial.
(** After a quarter turn, 5% along x is taken of the height: 5 instead of 10 for a canvas of 200 by 100. *)
Theorem transform_percent_refuted : exists c k, k_w (known_of c) = Some 200 /\ k_h (known_of c) = Some 100 /\
  lmx_of_text c (T "matrix(0 1 -1 0 0 0)translate(5%)") = Ok (lmx_num k) /\ act k (0, 0) = (0, 5) /\
  alist_by (resolved (along (known_of c) (Some 200))) (resolved (along (known_of c) (Some 100))) (T "translate(5%)") (sp_translate 10 0).
Proof.
  set (c := mkR None None (Some 200) (Some 100) None None None). exists c.
  assert (R : forall r, resolved (along (known_of c) (Some r)) (int_param SNone 5 "%") (5 * (r / 100))).
  { intros r. destruct (five_ok "%") as [L V]. split; [exact L|]. exists (r / 100). split; [apply (up_pct _ r); reflexivity|]. rewrite V. reflexivity. }
  set (t := fun r p => (fun p => (0 * fst p + -1 * snd p + 0, 1 * fst p + 0 * snd p + 0)) (sp_translate (5 * (r / 100)) 0 p)).
  assert (TL : forall r, tlist_by (of_family (along (known_of c) (Some r)) ["%"%string]) (eq 0) (T "matrix(0 1 -1 0 0 0)translate(5%)") (t r)).
  { intros r. apply (quarter_tlist _ "%"); [|simpl; auto]. split; [apply R|]. left. exists "%"%string. split; [simpl; auto|reflexivity]. }
  assert (OK : exists m, lmx_of_text c (T "matrix(0 1 -1 0 0 0)translate(5%)") = Ok m).
  { destruct (tlist_family (along (known_of c) (Some 200)) ["%"%string] _ _ ltac:(unfold family; auto 10) (TL 200) lident) as (x & X & _); [split; reflexivity|].
    eexists. unfold lmx_of_text. rewrite X. reflexivity. }
  destruct OK as (m & M). destruct (transform_percent_axes c (T "matrix(0 1 -1 0 0 0)translate(5%)") (t 200) (t 100) m) as (k & K & A).
  - eapply tlist_by_mono; [| |apply TL]; [intros p d [Z _]; exact Z|exact (fun _ _ => I)].
  - eapply tlist_by_mono; [| |apply TL]; [intros p d [Z _]; exact Z|exact (fun _ _ => I)].
  - exact M.
  - exists k. split; [reflexivity|]. split; [reflexivity|]. split; [congruence|]. split.
    + rewrite A. unfold t. cbn. apply pair_eq; lra.
    + replace 10 with (5 * (200 / 100)) by lra. change (T "translate(5%)") with ([] ++ T "translate(5%)" ++ []).
      apply (al_cons _ _ [] "translate" [int_param SNone 5 "%"] (T "translate(5%)") (sp_translate (5 * (200 / 100)) 0) [] (fun p => p)).
      * constructor.
      * apply (ft "translate" _ (T "translate") [] [] (T "5%")); try constructor. apply (pt_one (int_param SNone 5 "%") []). constructor.
      * apply ab_translate1. apply R.
      * constructor. constructor.
Qed.
Print Assumptions transform_percent_refuted.
(** User units and centimetres do not mix, whatever is known. *)
Theorem transform_mixed_refuted : forall c, lmx_of_text c (T "translate(1)translate(1cm)") = Err ValueError.
Proof.
  intros c. unfold lmx_of_text. change (find_funcs 0 (lower (T "translate(1)translate(1cm)"))) with [(T "translate", T "1"); (T "translate", T "1cm")].
  cbn [lapply_funcs]. change (find_params 0 (T "1")) with [T "1"]. change (find_params 0 (T "1cm")) with [T "1cm"]. unfold lapply_func. teqs.
  change (len_param ["1"%char]) with (Ok (EN (Q2R (1 # 1)))). change (len_param ["1"%char; "c"%char; "m"%char]) with (Ok (EL (Q2R (1 # 1)) UCm)).
  replace (Q2R (1 # 1)) with 1 by (unfold Q2R; cbn; lra).
  cbn [rbind]. unfold lpre_translate, lpre_cat, l_translate, lmx_of, render, lmul, lident.
  cbn [no_rctx ent_value value_r r_ppi r_width r_height r_rel or_else le lf la lb lc ld ent_scale ent_add rbind].
  repeat (unfold iadd_r at 1; cbn [unit_eqb unit_text teqb T list_ascii_of_string];
    repeat match goal with |- context [Req_EM_T ?x 0] => destruct (Req_EM_T x 0); try (exfalso; lra) end; cbn [rbind ent_add ent_scale]).
  reflexivity.
Qed.
Print Assumptions transform_mixed_refuted.
(** The units Q and ex are read as user units. *)
Theorem transform_units_refuted : forall c, lmx_of_text c (T "translate(8Q)") = lmx_of_text c (T "translate(8)") /\ lmx_of_text c (T "translate(8ex)") = lmx_of_text c (T "translate(8)").
Proof. intros c. split; reflexivity. Qed.
Print Assumptions transform_units_refuted.
(** The entries of a matrix add up as Lengths do, in every unit, where the sums are defined and where they raise. *)
Theorem matrix_lengths_add : forall s o, ent_add (ent_of s) (ent_of o) = rmap ent_of (Length_Model.len_iadd s o).
Proof. intros s o. exact (iadd_agrees s o). Qed.
Example matrix_lengths_add_ex : exists x, Length_Model.len_iadd (Length_Model.mkLen 1 Length_Model.UPt) (Length_Model.mkLen 2 Length_Model.UPc) = Ok x /\ (Length_Model.amount x == 25)%Q.
Proof. eexists. split; [reflexivity|reflexivity]. Qed.
Print Assumptions matrix_lengths_add.
