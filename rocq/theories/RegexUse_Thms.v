(** C94: the regular expressions of constants.py and the code that uses them. Regex_Model gives the
    patterns, copied character by character, the meaning Python's re gives them; the scanners in the
    other models are compared with that meaning here. *)
Require Import ZArith QArith Qcanon Arith Ascii String List Bool Lia.
Require Import Verif.Color_Model Verif.Dom_Model Verif.PathText_Model Verif.Length_Model Verif.Viewbox_Model Verif.Transform_Model Verif.FmtG_Model.
Require Import Verif.Base Verif.Text_Spec Verif.Text_Proofs Verif.RegexLit_Proofs.
Require Import Verif.Regex_Model Verif.Regex_Proofs Verif.RegexRead_Proofs Verif.RegexUse_Model Verif.RegexUse_Proofs Verif.RegexUse2_Proofs.
Import ListNotations.
Local Open Scope nat_scope.

(** REGEX_FLOAT, constants.py:164: a match is a decimal literal, float() of it is the number the
    literal denotes, and no literal that starts there is longer. Without a match, none starts there. *)
Theorem number_pattern : forall s p,
  match match_at (the REGEX_FLOAT) p s with
  | Some (m, r) =>
      (exists l q, lit_ok l /\ s = lit_text l ++ r /\ group0 0 m = lit_text l /\
                   py_float (group0 0 m) = Ok q /\ (q == lit_val l)%Q) /\
      forall l' r', lit_ok l' -> s = lit_text l' ++ r' -> List.length r <= List.length r'
  | None => forall l' r', lit_ok l' -> s <> lit_text l' ++ r'
  end.
Proof.
  intros s p. change (the REGEX_FLOAT) with re_float.
  rewrite (reads_match_at _ _ _ _ p (reads_float s [])).
  destruct (match_float s) as [[f r]|] eqn:M; cbn [option_map fst snd].
  - split.
    + destruct (match_float_is_lit _ _ _ M) as (l & O & E & _). destruct (py_float_lit l O) as (q & P & V).
      assert (group0 0 [(0, grab s r)] = lit_text l) as G.
      { cbn. unfold grab. rewrite E, app_length. replace (_ + _ - _) with (List.length (lit_text l)) by lia.
        rewrite firstn_app, Nat.sub_diag, firstn_all. cbn. apply app_nil_r. }
      exists l, q. rewrite G. auto.
    + intros l' r' O E. destruct (match_float_longest l' r' O) as (f' & r'' & M' & L). rewrite E in M. congruence.
  - intros l' r' O E. destruct (match_float_longest l' r' O) as (f' & r'' & M' & L). congruence.
Qed.
Example number_pattern_ex :
  option_map (fun x => (group0 0 (fst x), snd x)) (match_at (the REGEX_FLOAT) 0 (T "-1.5e3em")) = Some (T "-1.5e3", T "em") /\
  option_map (fun x => (group0 0 (fst x), snd x)) (match_at (the REGEX_FLOAT) 0 (T "1.5.5")) = Some (T "1.5", T ".5") /\
  match_at (the REGEX_FLOAT) 0 (T "e3") = None.
Proof. vm_compute. auto. Qed.
Print Assumptions number_pattern.

(** Length(text), basic.py:54-64. *)
Theorem length_pattern : forall s,
  length_by_pattern s = Ok (match find_length s with Some au => au | None => (0%Q, []) end).
Proof. exact length_by_pattern_find. Qed.
Example length_pattern_ex : rmap snd (length_by_pattern (T "abc 1.5mm rest")) = Ok (T "mm").
Proof. reflexivity. Qed.
Print Assumptions length_pattern.

(** The numbers of a viewBox, basic.py:2564-2568. *)
Theorem viewbox_pattern : forall s, floats_by_pattern s = Ok (find_floats 0 s).
Proof. exact floats_by_pattern_find. Qed.
Example viewbox_pattern_ex : rmap (@List.length Q) (floats_by_pattern (T "0-1.5.5,1e2")) = Ok 4.
Proof. reflexivity. Qed.
Print Assumptions viewbox_pattern.

(** Point(text), basic.py:1452-1454. *)
Theorem point_pattern : forall s, point_by_pattern s = point_of_text s.
Proof. exact point_by_pattern_find. Qed.
Example point_pattern_ex : point_by_pattern (T "1, 2") = Ok (1, 2)%Q /\ point_by_pattern (T "1") = Err IndexError.
Proof. split; reflexivity. Qed.
Print Assumptions point_pattern.

(** The functions and parameters of a transform, basic.py:2085-2088. *)
Theorem transform_pattern : forall s, funcs_by_pattern s = find_funcs 0 s /\ params_by_pattern s = find_params 0 s.
Proof. intros s. split; [apply funcs_by_pattern_find | apply params_by_pattern_find]. Qed.
Example transform_pattern_ex :
  funcs_by_pattern (T "translate(1,2) skewx (3)") = [(T "translate", T "1,2"); (T "skewx", T "3")] /\
  params_by_pattern (T "1mm , 2") = [T "1mm"; T "2"].
Proof. vm_compute. auto. Qed.
Print Assumptions transform_pattern.

(** match.groups() for a colour function, basic.py:664-675. [a] to [c] are the first three groups, the
    fourth is a number if it is there at all. *)
Theorem color_pattern : forall s,
  same_groups (match_rgb s) (groups_by_pattern REGEX_COLOR_RGB s) /\
  same_groups (match_rgbp s) (groups_by_pattern REGEX_COLOR_RGB_PERCENT s) /\
  same_groups (match_hsl s) (groups_by_pattern REGEX_COLOR_HSL s) /\
  match match_at (the REGEX_COLOR_HEX) 0 s with Some _ => true | None => false end = hex_match s.
Proof.
  intros s. split; [apply rgb_by_pattern|]. split; [apply rgbp_by_pattern|]. split; [apply hsl_by_pattern | apply hex_by_pattern].
Qed.
Example color_pattern_ex :
  groups_by_pattern REGEX_COLOR_RGB (T "rgba( 1, 2 ,3, .5)") = Some (Some (T "1"), Some (T "2"), Some (T "3"), Some (T ".5")) /\
  groups_by_pattern REGEX_COLOR_HSL (T "hsl(1, 2%,3%)") = Some (Some (T "1"), Some (T "2"), Some (T "3"), None).
Proof. vm_compute. auto. Qed.
Print Assumptions color_pattern.

(** The id of a url, nodes.py:448-450. *)
Theorem url_pattern : forall s, id_by_pattern s = iri s.
Proof. exact id_by_pattern_iri. Qed.
Example url_pattern_ex : id_by_pattern (T "url(#a b)") = Some (T "a b") /\ id_by_pattern (T "url(#a") = None.
Proof. vm_compute. auto. Qed.
Print Assumptions url_pattern.

(** The lexer of path data, path.py:30-85: its loops give the same tokens and stop at the same place. *)
Theorem path_pattern : forall s n, List.length (rem s) <= n ->
  lex_command s = match command_loop n (rem s) with
                  | (Some (c :: _), r) => Some (c, mkLex r (ic s))
                  | _ => None
                  end /\
  more s = (let '(b, r, z) := more_loop n (rem s) in (b, mkLex r (ic s || z))) /\
  number s = (let '(t, r, z) := number_loop n (rem s) in
              (match t with
               | Some t => match py_float t with Ok q => Some (Q2Qc q) | Err _ => None end
               | None => None
               end, mkLex r (ic s || z))) /\
  flag s = (let '(t, r) := flag_loop n (rem s) in (option_map (fun t => teqb t (T "1")) t, mkLex r (ic s))).
Proof.
  intros s n L. rewrite (command_loop_ok _ _ L), (more_loop_ok _ _ L), (number_loop_ok _ _ L), (flag_loop_ok _ _ L).
  unfold lex_command, more, number, flag. repeat apply conj.
  - destruct (drop_sep (rem s)) as [|c r]; [reflexivity|]. cbn [token_end]. destruct (is_command c); reflexivity.
  - unfold more_end. destruct (match_float (drop_sep (rem s))) as [[f r]|]; [|reflexivity]. now rewrite orb_false_r.
  - unfold number_end. destruct (match_float (drop_sep (rem s))) as [[f r]|] eqn:M; [|reflexivity].
    rewrite (float_of_grab _ _ _ M), orb_false_r. reflexivity.
  - destruct (drop_sep (rem s)) as [|c r]; [reflexivity|]. cbn [token_end]. unfold is_flag.
    destruct (aeqb c "0") eqn:C0; [apply aeqb_true in C0; subst; reflexivity|].
    destruct (aeqb c "1") eqn:C1; [apply aeqb_true in C1; subst; reflexivity|]. cbn. reflexivity.
Qed.
Example path_pattern_ex :
  command_loop 9 (T " ,M1") = (Some (T "M"), T "1") /\ number_loop 9 (T " -1-2") = (Some (T "-1"), T "-2", false) /\
  number_loop 9 (T " zM") = (None, T "zM", true) /\ flag_loop 9 (T ",11") = (Some (T "1"), T "1").
Proof. vm_compute. auto. Qed.
Print Assumptions path_pattern.
