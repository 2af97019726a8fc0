Require Import ZArith QArith Qabs Qround Ascii String List Bool Lia Lqa Qfield.
Require Import Verif.Base Verif.Text_Spec Verif.Text_Proofs Verif.Fmt_Model Verif.Fmt_Proofs Verif.Color_Spec Verif.Color_Proofs
  Verif.Color_Proofs2 Verif.Color_Proofs3 Verif.Length_Model Verif.Length_Spec.
Import ListNotations.
Open Scope Q_scope.

(** * Units *)
Lemma T_inj : forall a b, T a = T b -> a = b.
Proof. intros a b H. rewrite <- (string_of_list_ascii_of_string a), <- (string_of_list_ascii_of_string b). unfold T in H. rewrite H. reflexivity. Qed.

Definition known : list string :=
  [""; "px"; "pt"; "pc"; "cm"; "mm"; "in"; "%"; "em"; "ex"; "vw"; "vh"; "vmin"; "vmax"]%string.

Definition unit_spec (u : string) (x : lunit) : Prop :=
  match x with
  | UNone => u = "" | UPx => u = "px" | UPt => u = "pt" | UPc => u = "pc" | UCm => u = "cm" | UMm => u = "mm"
  | UIn => u = "in" | UPct => u = "%" | UEm => u = "em" | UEx => u = "ex" | UVw => u = "vw" | UVh => u = "vh"
  | UVmin => u = "vmin" | UVmax => u = "vmax" | UOther t => t = T u /\ ~ In u known
  end%string.

Lemma unit_spec_ok : forall u, unit_spec u (unit_of_text (T u)).
Proof.
  intros u. unfold unit_of_text, unit_table. cbn [lookup_unit].
  repeat match goal with
  | |- context [if teqb ?a ?b then _ else _] => let E := fresh "E" in destruct (teqb a b) eqn:E;
       [apply teqb_true in E; apply T_inj in E; exact E | apply teqb_false in E]
  end.
  split; auto. unfold known. intros K. cbn [In] in K.
  repeat (destruct K as [K|K]; [subst u; congruence|]). exact K.
Qed.

Lemma unit_text_of : forall u, unit_text (unit_of_text (T u)) = T u.
Proof.
  intros u. pose proof (unit_spec_ok u) as H. destruct (unit_of_text (T u)); unfold unit_spec in H; subst; try reflexivity.
  simpl. apply H.
Qed.

Lemma unit_eqb_text : forall u v, unit_eqb (unit_of_text (T u)) (unit_of_text (T v)) = true <-> u = v.
Proof.
  intros. unfold unit_eqb. rewrite !unit_text_of, teqb_true. split; intros; [apply T_inj; auto | subst; auto].
Qed.
Lemma unit_eqb_text_f : forall u v, unit_eqb (unit_of_text (T u)) (unit_of_text (T v)) = false <-> u <> v.
Proof. intros. rewrite <- not_true_iff_false, unit_eqb_text. reflexivity. Qed.
Lemma unit_eqb_refl : forall u, unit_eqb u u = true.
Proof. intros. apply teqb_refl. Qed.

Ltac ucase u := let H := fresh "U" in pose proof (unit_spec_ok u) as H; destruct (unit_of_text (T u)) eqn:?; unfold unit_spec in H.

Lemma is0_true : forall q, is0 q = true <-> q == 0.
Proof. intros. apply Qeq_bool_iff. Qed.
Lemma is0_false : forall q, is0 q = false <-> ~ q == 0.
Proof. intros. rewrite <- not_true_iff_false, is0_true. reflexivity. Qed.
Ltac zcase := match goal with |- context [is0 ?q] => let E := fresh "Z" in destruct (is0 q) eqn:E; [apply is0_true in E | apply is0_false in E] end.

(** * Text round trip *)
Lemma unit_no_cont : forall l u, l_exp l = None -> forallb is_unit_char u = true -> no_cont l u.
Proof.
  intros l u X H. 
  assert (D : forall c, is_unit_char c = true -> is_digit c = false /\ c <> "."%char /\ c <> "+"%char /\ c <> "-"%char).
  { intros c Hc.
    assert (K := ascii_all (fun c => negb (is_unit_char c) || (negb (is_digit c) && negb (aeqb c ".") && negb (aeqb c "+") && negb (aeqb c "-"))) eq_refl c).
    cbn beta in K. rewrite Hc in K. cbn [negb orb] in K. rewrite !andb_true_iff, !negb_true_iff in K.
    rewrite !aeqb_false in K. tauto. }
  assert (ND : forall v, forallb is_unit_char v = true -> ~ dig_start v).
  { intros v Hv (d & r & Hd & E). subst v. simpl in Hv. apply andb_true_iff in Hv as [Hv _]. apply D in Hv.
    rewrite dchar_digit in Hv by auto. destruct Hv; discriminate. }
  split; [auto|]. split.
  - intros _ _ r E. subst u. simpl in H. discriminate.
  - intros _ s r [E|E]; subst u; simpl in H; destruct s; simpl in H; try discriminate; auto.
Qed.

Lemma match_float_first : forall s f r, match_float s = Some (f, r) -> find_length s = Some (fnum_val f, fst (span is_unit_char r)).
Proof. intros s f r H. destruct s; [discriminate|]. cbn [find_length]. rewrite H; reflexivity. Qed.

Lemma span_all : forall p s, forallb p s = true -> span p s = (s, []).
Proof. intros. rewrite <- (app_nil_r s) at 1. apply span_app; auto. Qed.

Lemma len_of_lit : forall l u, lit_ok l -> l_exp l = None -> forallb is_unit_char u = true ->
  len_of_text (lit_text l ++ u) = len2 (fnum_val (fnum_of l)) u.
Proof.
  intros l u L X H. unfold len_of_text.
  erewrite match_float_first by (apply match_float_lit; [exact L | apply unit_no_cont; auto]).
  rewrite (span_all _ _ H). reflexivity.
Qed.

Lemma len_text_roundtrip_lemma : forall a k u, a * inject_Z (10 ^ 12) == inject_Z k ->
  forallb is_unit_char (T u) = true ->
  exists a', len_of_text (len_str (len2 a (T u))) = len2 a' (T u) /\ a' == a.
Proof.
  intros a k u H HU. destruct (length_str_exact a k H) as (l & L & X & E & V).
  unfold len_str, len2. cbn [amount units]. rewrite unit_text_of, E, len_of_lit by auto.
  eexists. split; [reflexivity|]. rewrite fnum_val_lit by auto. exact V.
Qed.

(** Any amount: off by at most half of the last printed place. *)
Lemma len_text_near_lemma : forall a u, forallb is_unit_char (T u) = true ->
  exists a', len_of_text (len_str (len2 a (T u))) = len2 a' (T u) /\ Qabs (a' - a) <= (1 # 2) * (1 # 1000000000000).
Proof.
  intros a u HU. destruct (length_str_spec a) as (l & L & X & E & n & N & N0 & V).
  unfold len_str, len2. cbn [amount units]. rewrite unit_text_of, E, len_of_lit by auto.
  eexists. split; [reflexivity|]. rewrite fnum_val_lit, V by auto. clear V L E X.
  destruct N as (N1 & N2 & _). change (inject_Z (10^12)) with (1000000000000 # 1) in *. 
  unfold Qdiv. change (/ (1000000000000 # 1)) with (1 # 1000000000000).
  apply Qabs_case; destruct (Qltb a 0) eqn:S; [apply Qltb_true in S | apply Qltb_false in S | apply Qltb_true in S | apply Qltb_false in S];
  intros; rewrite ?inject_Z_opp in *; revert N1 N2; (rewrite (Qabs_neg a) by lra) || (rewrite (Qabs_pos a) by lra); intros; lra.
Qed.

(** * Resolution *)
Definition num_env (c : ctx) : env :=
  mkEnv (c_ppi c) (match c_rel c with Some (ANum r) => Some r | _ => None end)
    (option_map farg_float (c_size c)) (option_map farg_float (c_height c)) (c_vb c).

Ltac numsolve := unfold Qdiv, pt_px, mm_in, cm_in; try change (/ 100) with (1#100); 
  try change (/ (254#100)) with (100#254); try change (/ (254#10)) with (10#254).

Lemma value_css_lemma : forall c a u f, css_unit (num_env c) u f ->
  ~ In u ["pt"; "cm"; "mm"; "vmin"; "vmax"]%string ->
  exists x, value c (len2 a (T u)) = Ok (VNum x) /\ x == a * f.
Proof.
  intros c a u f H N. inversion H; subst u; try (exfalso; apply N; simpl; tauto);
  unfold num_env in *; cbn [e_ppi e_rel e_font e_xheight e_box] in *; unfold value, len2, value0; cbn [units amount].
  all: try (simpl; eexists; split; [reflexivity|]; subst; unfold Qdiv; ring).
  - simpl. rewrite H0. eexists; split; [reflexivity|]. ring.
  - simpl. destruct (c_rel c) as [[]|]; try discriminate. inversion H0; subst. eexists; split; [reflexivity|]. unfold Qdiv; ring.
  - simpl. destruct (c_size c); try discriminate. inversion H0; subst. eexists; split; [reflexivity|]. ring.
  - simpl. destruct (c_height c); try discriminate. inversion H0; subst. eexists; split; [reflexivity|]. ring.
  - simpl. rewrite H0. eexists; split; [reflexivity|]. unfold Qdiv; ring.
  - simpl. rewrite H0. eexists; split; [reflexivity|]. unfold Qdiv; ring.
Qed.

Lemma within_mult : forall k1 k2 x r, 0 <= r -> Qabs (k1 - k2) <= r * Qabs k2 -> within r (x * k1) (x * k2).
Proof.
  intros. unfold within. setoid_replace (x * k1 - x * k2) with (x * (k1 - k2)) by ring. rewrite !Qabs_Qmult.
  setoid_replace (r * (Qabs x * Qabs k2)) with (Qabs x * (r * Qabs k2)) by ring.
  rewrite !(Qmult_comm (Qabs x)). apply Qmult_le_compat_r; auto. apply Qabs_nonneg.
Qed.

Lemma within_Qeq : forall r x y x' y', x == x' -> y == y' -> within r x' y' -> within r x y.
Proof. unfold within. intros r x y x' y' -> ->. auto. Qed.

Lemma value_css_near_lemma : forall c a u f, css_unit (num_env c) u f -> In u ["pt"; "cm"; "mm"]%string ->
  exists x, value c (len2 a (T u)) = Ok (VNum x) /\ within (1 # 40000) x (a * f).
Proof.
  intros c a u f H N. inversion H; subst u; simpl in N; try (exfalso; intuition discriminate);
  unfold num_env in *; cbn [e_ppi e_rel e_font e_xheight e_box] in *; unfold value, len2, value0; cbn [units amount]; simpl; try rewrite H0.
  - eexists; split; [reflexivity|]. apply within_mult. discriminate. vm_compute. discriminate.
  - eexists; split; [reflexivity|]. 
    apply within_Qeq with (x' := (a * p) * cm_in) (y' := (a * p) * (100 # 254)); [reflexivity | unfold Qdiv; change (/ (254#100)) with (100#254); ring |].
    apply within_mult. discriminate. vm_compute. discriminate.
  - eexists; split; [reflexivity|]. 
    apply within_Qeq with (x' := (a * p) * mm_in) (y' := (a * p) * (10 # 254)); [reflexivity | unfold Qdiv; change (/ (254#10)) with (10#254); ring |].
    apply within_mult. discriminate. vm_compute. discriminate.
Qed.

Lemma value_vmin_lemma : forall c a u w h, c_vb c = Some (w, h) -> (u = "vmin" /\ h <= w \/ u = "vmax" /\ w <= h)%string ->
  exists x f, value c (len2 a (T u)) = Ok (VNum x) /\ css_unit (num_env c) u f /\ x == a * f.
Proof.
  intros c a u w h H [[-> L]|[-> L]]; unfold value, value0, len2; simpl; rewrite H.
  - eexists _, _. split; [reflexivity|]. split. eapply css_vmin_h; [unfold num_env; simpl; eauto | exact L]. destruct (Qltb h h); unfold Qdiv; ring.
  - eexists _, _. split; [reflexivity|]. split. eapply css_vmax_h; [unfold num_env; simpl; eauto | exact L]. destruct (Qltb h h); unfold Qdiv; ring.
Qed.

(** A relative length given as a Length or a text with an absolute (non-%) unit. *)
Lemma value_rel_len_lemma : forall c a b u x, u <> "%"%string -> c_rel c = Some (ALen (len2 b (T u))) ->
  value c (len2 b (T u)) = Ok (VNum x) ->
  exists y, value c (len2 a (T "%")) = Ok (VNum y) /\ y == a * (x / 100).
Proof.
  intros c a b u x N R V. unfold value at 1. unfold len2 at 1. cbn [units]. rewrite R.
  change (unit_of_text (T "%")) with UPct. cbv beta iota.
  unfold len_mul. cbn [to_len]. unfold len2. cbn [amount units].
  assert (V0 : value0 c (len2 b (T u)) = VNum x).
  { unfold value in V. unfold len2 in V at 1. cbn [units] in V.
    destruct (unit_of_text (T u)) eqn:E; try (inversion V; reflexivity).
    pose proof (unit_spec_ok u) as S. rewrite E in S. simpl in S. congruence. }
  assert (B0 : b == 0 -> x == 0).
  { intros Hb. clear V. unfold value0, len2 in V0. cbn [amount units] in V0.
    destruct (unit_of_text (T u)); repeat match type of V0 with context [match ?e with _ => _ end] => destruct e end;
    inversion V0; subst x; unfold Qdiv, len_float; simpl; rewrite ?Hb; ring. }
  zcase. { simpl. eexists; split; [reflexivity|]. rewrite B0 by auto. unfold Qdiv; ring. }
  change (units (mkLen a (unit_of_text (T "%")))) with UPct. change (amount (mkLen a UPct)) with a.
  assert (LIN : forall k, exists y, value0 c (mkLen (b * k) (unit_of_text (T u))) = VNum y /\ y == x * k).
  { intros k. unfold value0, len2 in V0 |- *. cbn [amount units] in V0 |- *.
    destruct (unit_of_text (T u)); repeat match type of V0 with context [match ?e with _ => _ end] => destruct e end;
    inversion V0; subst; eexists; (split; [reflexivity|]); unfold Qdiv, len_float; simpl; ring. }
  assert (LIN0 : forall d k, d == b * k -> exists y, value0 c (mkLen d (unit_of_text (T u))) = VNum y /\ y == x * k).
  { intros d k Hd. clear LIN. unfold value0, len2 in V0 |- *. cbn [amount units] in V0 |- *.
    destruct (unit_of_text (T u)); repeat match type of V0 with context [match ?e with _ => _ end] => destruct e end;
    inversion V0; subst; eexists; (split; [reflexivity|]); unfold Qdiv, len_float; simpl; rewrite Hd; ring. }
  zcase.
  { destruct (LIN0 0 0) as (y & Y1 & Y2); [ring|]. cbn [rbind]. rewrite Y1. eexists; split; [reflexivity|].
    rewrite Y2, Z0. unfold Qdiv; ring. }
  replace (unit_eqb (unit_of_text (T u)) (unit_of_text (T "%"))) with false.
  2:{ symmetry. apply unit_eqb_text_f. auto. }
  change (unit_of_text (T "%")) with UPct.
  destruct (LIN0 (b * a / 100) (a / 100)) as (y & Y1 & Y2). { unfold Qdiv; ring. }
  pose proof (unit_spec_ok u) as S.
  destruct (unit_of_text (T u)) eqn:EU; unfold unit_spec in S; try congruence; cbn [rbind]; rewrite Y1;
  eexists; (split; [reflexivity|]); rewrite Y2; unfold Qdiv; ring.
Qed.

Lemma value_symbolic_lemma : forall c a u, undetermined (mkEnv (c_ppi c) (option_map (fun _ => 0) (c_rel c)) (option_map farg_float (c_size c)) (option_map farg_float (c_height c)) (c_vb c)) u ->
  value c (len2 a (T u)) = Ok (VLen (len2 a (T u))).
Proof.
  intros c a u H. unfold value, value0, len2; cbn [amount units].
  pose proof (unit_spec_ok u) as S.
  destruct (unit_of_text (T u)) eqn:E; unfold unit_spec in S; try (subst u; simpl in H; try contradiction; 
   try rewrite H; try (destruct (c_rel c); try discriminate); try (destruct (c_size c); try discriminate); try (destruct (c_height c); try discriminate); reflexivity).
  exfalso. destruct S as [_ S]. unfold known in S. cbn [In] in S.
  unfold undetermined in H. 
  repeat match type of H with match ?s with _ => _ end => destruct s; try contradiction end; apply S; tauto.
Qed.
