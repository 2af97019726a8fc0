(** Property theorems about transform text (C30). *)
Require Import ZArith QArith Qreals Reals Ascii String List Bool Lia Lra.
Require Import Verif.Base Verif.Text_Spec Verif.Angle_Spec Verif.Angle_Model Verif.Point_Model Verif.Matrix_Model Verif.Matrix_Spec Verif.Matrix_Proofs
  Verif.Transform_Model Verif.Transform_Spec Verif.Transform_Proofs.
Import ListNotations.
Open Scope R_scope.

(** * C30 *)
(** A transform list parses to the map SVG gives it. *)
Theorem transform_list_denotes : forall s f, tlist s f -> exists m, mx_of_text s = Ok m /\ forall p, act m p = f p.
Proof. exact tlist_lemma. Qed.
Example transform_list_ex : exists f, tlist (T "translate(10, -2)SCALE (2)") f /\ f (1, 1) = (12, 0).
Proof.
  eexists. split.
  - eapply (tl_cons [] "translate" [mkParam (mkLit SNone [1; 0]%Z [] None) []; mkParam (mkLit SMinus [2]%Z [] None) []] (T "translate(10, -2)") _ (T "SCALE (2)")).
    + constructor.
    + apply (ft "translate" _ (T "translate") [] [] (T "10, -2")); auto.
      apply (pt_cons (mkParam (mkLit SNone [1; 0]%Z [] None) []) (mkParam (mkLit SMinus [2]%Z [] None) []) [] (T ", ") (T "-2")); [apply Forall_cons; [right; reflexivity | apply Forall_cons; [left; unfold wsp; simpl; auto | constructor]] | right; discriminate | ].
      apply (pt_one (mkParam (mkLit SMinus [2]%Z [] None) []) []). constructor.
    + apply d_translate; apply dist_of; simpl; auto; unfold lit_ok, is_dig; simpl; repeat split; auto; try (left; discriminate);
        repeat constructor; discriminate.
    + eapply (tl_cons [] "scale" [mkParam (mkLit SNone [2]%Z [] None) []] (T "SCALE (2)") _ []).
      * constructor.
      * apply (ft "scale" _ (T "SCALE") (T " ") [] (T "2")); auto. { apply Forall_cons; [unfold wsp; simpl; auto | constructor]. }
        apply (pt_one (mkParam (mkLit SNone [2]%Z [] None) []) []). constructor.
      * apply d_scale1. apply num_of; simpl; auto. unfold lit_ok, is_dig; simpl; repeat split; auto; try (left; discriminate);
          repeat constructor; discriminate.
      * apply tl_nil. constructor.
  - unfold sp_translate, sp_scale, Q2R. simpl. apply pair_eq; lra.
Qed.
Print Assumptions transform_list_denotes.
(** Putting one list behind another composes: the second acts first. Holds for any texts, well formed or
    not, the first one ending in a closing parenthesis. *)
Theorem transform_concat : forall u s2, let s1 := u ++ [")"%char] in
  mx_of_text (s1 ++ s2) = rbind (mx_of_text s1) (fun m1 => rbind (mx_of_text s2) (fun m2 => Ok (matmul m2 m1))).
Proof. intros. apply parse_concat. right. exists u. reflexivity. Qed.
Print Assumptions transform_concat.
(** Parsing into an existing matrix precedes it by the parsed transform. *)
Theorem transform_into : forall m s, mx_parse m s = rmap (fun k => matmul k m) (mx_of_text s).
Proof. intros. apply apply_funcs_mul. Qed.
Print Assumptions transform_into.
(** CSS skew() with one angle means skewX; here it is ignored. *)
Theorem transform_skew_one_refuted : exists k, mx_of_text (T "skew(45)") = Ok ident /\ mx_of_text (T "skewX(45)") = Ok k /\ k <> ident.
Proof.
  assert (A : angle_parse (T "45") = Ok (PI / 4)).
  { unfold angle_parse. cbn. f_equal. unfold degrees, tau, Q2R, num_of_digits. cbn. field. }
  exists (pre_skew_x ident (PI / 4) None None). split; [|split].
  - unfold mx_of_text, mx_parse. change (find_funcs 0 (lower (T "skew(45)"))) with [(T "skew", T "45")]. cbn [apply_funcs].
    change (find_params 0 (T "45")) with [T "45"]. unfold apply_func. cbn [teqb T list_ascii_of_string aeqb Ascii.eqb Bool.eqb andb].
    change ["4"%char; "5"%char] with (T "45"). rewrite A. reflexivity.
  - unfold mx_of_text, mx_parse. change (find_funcs 0 (lower (T "skewX(45)"))) with [(T "skewx", T "45")]. cbn [apply_funcs].
    change (find_params 0 (T "45")) with [T "45"]. unfold apply_func. cbn [teqb T list_ascii_of_string aeqb Ascii.eqb Bool.eqb andb].
    change ["4"%char; "5"%char] with (T "45"). rewrite A. reflexivity.
  - intros K. assert (E : mc (pre_skew_x ident (PI / 4) None None) = 0) by (rewrite K; reflexivity).
    unfold pre_skew_x, pre_skew in E. simpl in E. destruct (at0 0 0) as [_|N]; [|tauto]. simpl in E. rewrite tan_PI4 in E. lra.
Qed.
Print Assumptions transform_skew_one_refuted.
