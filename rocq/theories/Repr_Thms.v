(** C92: the text repr() gives is a Python expression whose value equals the object. C93: the constructor of moves. *)
Require Import ZArith QArith Qabs Qcanon List Ascii String Bool Lia Lqa.
Require Import Verif.Base Verif.Text_Spec Verif.Text_Proofs Verif.Fmt_Model Verif.Fmt_Proofs Verif.Length_Model Verif.Length_Thms Verif.Color_Model Verif.Color_Thms
  Verif.Viewbox_Proofs Verif.Path_Model Verif.PathText_Model Verif.PathEdit_Model Verif.PathD_Model Verif.PathSeq_Model.
Require Import Verif.Repr_Spec Verif.Repr_Model Verif.Repr_Proofs.
Import ListNotations.
Open Scope Z_scope.
Notation "1e-12" := (1 # 1000000000000)%Q.

Ltac name_ok := split; [intros ?k; reflexivity|reflexivity].
Lemma eval_call1 f a v : eval a = Ok v -> eval (ECall f [(None, a)]) = construct f [v] [].
Proof. intros A. cbn [eval]. rewrite A. reflexivity. Qed.
Lemma point_lemma p : exists x y, prints (point_repr p) (ECall (T "Point") [(None, ENum x); (None, ENum y)]) /\
  python (point_repr p) = Some (ECall (T "Point") [(None, ENum x); (None, ENum y)]) /\
  near12 x (this (fst p)) /\ near12 y (this (snd p)).
Proof.
  destruct (prints_number (this (fst p))) as (x & X & NX). destruct (prints_number (this (snd p))) as (y & Y & NY). exists x, y.
  assert (R : rest (length_str (this (fst p)) ++ ","%char :: length_str (this (snd p)) ++ [")"%char]) [(None, ENum x); (None, ENum y)]) by (apply rest_comma; [exact X|]; apply rest_last; exact Y).
  assert (N : names (T "Point")) by name_ok.
  assert (PY : python (point_repr p) = Some (ECall (T "Point") [(None, ENum x); (None, ENum y)])) by exact (python_call _ _ _ N R eq_refl).
  split; [exact (prints_call _ _ _ N R eq_refl)|]. auto.
Qed.
Lemma near12_qc x a : near12 x (this a) -> near1 a (Q2Qc x) = true /\ (Qabs (this (Q2Qc x) - this a) <= (1 # 2) * 1e-12)%Q.
Proof.
  intros N. unfold near12 in N. assert (E : (this (Q2Qc x) == x)%Q) by (cbn [Q2Qc this]; apply Qred_correct). split; [|rewrite E; exact N].
  unfold near1. apply Qle_bool_iff. rewrite E. setoid_replace (this a - x)%Q with (- (x - this a))%Q by ring. rewrite Qabs_opp. eapply Qle_trans; [exact N|]. discriminate.
Qed.
Theorem repr_point : forall p, exists q, evaluate (point_repr p) = Ok (OPoint q) /\ near p q = true /\
  (Qabs (this (fst q) - this (fst p)) <= (1 # 2) * 1e-12)%Q /\ (Qabs (this (snd q) - this (snd p)) <= (1 # 2) * 1e-12)%Q.
Proof.
  intros p. destruct (point_lemma p) as (x & y & _ & PY & NX & NY). exists (Q2Qc x, Q2Qc y). unfold evaluate. rewrite PY.
  destruct (near12_qc _ _ NX) as [A B]. destruct (near12_qc _ _ NY) as [C D]. split; [reflexivity|]. unfold near. cbn [fst snd]. rewrite A, C. auto.
Qed.
Example repr_point_ex : point_repr (Q2Qc (-5 # 2), Q2Qc 100) = T "Point(-2.5,100)".
Proof. reflexivity. Qed.
Print Assumptions repr_point.

(** Colours: any colour but None. *)
Lemma hex_digit_strc n : 0 <= n < 16 -> strc (hex_digit n).
Proof.
  intros H. assert (C : n = 0 \/ n = 1 \/ n = 2 \/ n = 3 \/ n = 4 \/ n = 5 \/ n = 6 \/ n = 7 \/ n = 8 \/ n = 9 \/ n = 10 \/ n = 11 \/ n = 12 \/ n = 13 \/ n = 14 \/ n = 15) by lia.
  repeat (destruct C as [-> |C]; [repeat split; discriminate|]). subst. repeat split; discriminate.
Qed.
Lemma byte_range x : 0 <= Z.land x 0xFF < 256.
Proof. change 0xFF with (Z.ones 8). rewrite Z.land_ones by lia. apply Z.mod_pos_bound. lia. Qed.
Lemma hex2_strc n : 0 <= n < 256 -> Forall strc (hex2 n).
Proof. intros H. unfold hex2. apply Forall_cons; [apply hex_digit_strc; split; [apply Z.div_pos; lia|apply Z.div_lt_upper_bound; lia]|]. apply Forall_cons; [apply hex_digit_strc; apply Z.mod_pos_bound; lia|constructor]. Qed.
Lemma hex_strc v : Forall strc (hex v).
Proof.
  unfold hex, hexa. destruct (get_alpha v =? 255); (constructor; [repeat split; discriminate|]); repeat (apply Forall_app; split); apply hex2_strc; apply byte_range.
Qed.
Lemma string_arg f t : names (T f) -> Forall strc t -> python (T f ++ T "('" ++ t ++ T "')") = Some (ECall (T f) [(None, EStr t)]).
Proof.
  intros N F. replace (T f ++ T "('" ++ t ++ T "')")%list with (T f ++ "("%char :: ("'"%char :: t ++ ["'"%char]) ++ [")"%char])%list by (cbn [T app list_ascii_of_string]; rewrite <- app_assoc; reflexivity).
  apply python_call; [exact N| |reflexivity]. apply rest_last. now apply prints_string.
Qed.
Theorem repr_color_partial : forall v, 0 <= v < 2 ^ 32 -> evaluate (color_repr (Some v)) = Ok (OColor (Some v)).
Proof.
  intros v H. unfold evaluate, color_repr. cbn [color_str]. change (T "Color('")%list with (T "Color" ++ T "('")%list. rewrite <- app_assoc. rewrite string_arg; [|name_ok|apply hex_strc].
  cbn [eval rbind]. cbn [app]. unfold construct. change (teqb (T "Color") (T "Point")) with false. change (teqb (T "Color") (T "Length")) with false. change (teqb (T "Color") (T "Color")) with true. cbn iota.
  rewrite (proj1 (color_text_roundtrip v H)). reflexivity.
Qed.
Example repr_color_ex : color_repr (Some 0x12ab3480) = T "Color('#12ab3480')".
Proof. reflexivity. Qed.
Print Assumptions repr_color_partial.
Theorem repr_color_none_refuted : exists c, evaluate (color_repr None) = Ok (OColor (Some c)).
Proof. eexists. vm_compute. reflexivity. Qed.
Print Assumptions repr_color_none_refuted.

(** Lengths: the amount to 12 decimals, and the units. *)
Lemma lit_strc l : Forall strc (lit_text l).
Proof.
  assert (D : forall d, strc (dchar d)). { intros d. unfold dchar. destruct d as [|d|d]; try (repeat split; discriminate). do 4 (try destruct d; try (repeat split; discriminate)). }
  assert (F : forall ds, Forall strc (dtext ds)) by (induction ds; [constructor|constructor; auto]).
  assert (S : forall s, Forall strc (sgn_text s)) by (intros []; repeat constructor; discriminate).
  unfold lit_text. repeat (apply Forall_app; split); auto.
  - destruct (l_frac l); [constructor|]. constructor; [repeat split; discriminate|apply F].
  - destruct (l_exp l) as [[[[] s] ds]|]; [| |constructor]; (constructor; [repeat split; discriminate|]); apply Forall_app; auto.
Qed.
Lemma unit_strc u : forallb is_unit_char u = true -> Forall strc u.
Proof.
  intros H. apply Forall_forall. intros c C. rewrite forallb_forall in H. specialize (H c C). repeat split; intros ->; discriminate.
Qed.
Lemma unit_text_of t : unit_text (unit_of_text t) = t.
Proof.
  unfold unit_of_text. assert (G : forall tb, Forall (fun e => unit_text (snd e) = fst e) tb -> unit_text (lookup_unit tb t) = t).
  { induction tb as [|[k u] tb IH]; intros F; cbn [lookup_unit]; [reflexivity|]. inversion F; subst. destruct (teqb t k) eqn:E; [apply teqb_true in E; now subst|auto]. }
  apply G. repeat constructor.
Qed.
Theorem repr_length : forall a u, forallb is_unit_char (T u) = true -> exists a', evaluate (length_repr (len2 a (T u))) = Ok (OLength (len2 a' (T u))) /\
  (Qabs (a' - a) <= (1 # 2) * 1e-12)%Q /\ ((exists k, (a * inject_Z (10 ^ 12) == inject_Z k)%Q) -> (a' == a)%Q).
Proof.
  intros a u U. destruct (length_text_near a u U) as (a' & E & N). exists a'. split; [|split; [exact N|]].
  - unfold evaluate, length_repr. change (T "Length('")%list with (T "Length" ++ T "('")%list. rewrite <- app_assoc. rewrite string_arg; [|name_ok|].
    + cbn [eval rbind app]. unfold construct. change (teqb (T "Length") (T "Point")) with false. change (teqb (T "Length") (T "Length")) with true. cbn iota. now rewrite E.
    + unfold len_str, len2. cbn [amount units]. rewrite unit_text_of. apply Forall_app. split; [|now apply unit_strc]. destruct (str_plain a) as (l & _ & _ & _ & _ & -> & _). apply lit_strc.
  - intros (k & K). destruct (length_text_roundtrip a k u K U) as (a2 & E2 & A2). rewrite E in E2. injection E2 as ->. exact A2.
Qed.
Example repr_length_ex : length_repr (len2 (-125 # 1000) (T "em")) = T "Length('-0.125em')".
Proof. reflexivity. Qed.
Print Assumptions repr_length.

(** Two matrices of numbers are equal when each entry is, up to 1e-12. *)
Theorem matrix_eq_entries : forall a b c d e f a' b' c' d' e' f', let near x y := (Qabs (x - y) <= 1 # 1000000000000)%Q in
  matrix_eq (mkM a b c d (NVal (VNum e)) (NVal (VNum f))) (mkM a' b' c' d' (NVal (VNum e')) (NVal (VNum f'))) = Ok true <->
  near a a' /\ near b b' /\ near c c' /\ near d d' /\ near e e' /\ near f f'.
Proof.
  intros a b c d e f a' b' c' d' e' f'. cbn zeta. unfold matrix_eq. cbn [m_a m_b m_c m_d m_e m_f]. unfold close12.
  split.
  - intros H. injection H as H. repeat (apply andb_true_iff in H; destruct H as [H ?]). repeat split; apply Qle_bool_iff; assumption.
  - intros (A & B & C & D & E & F). apply Qle_bool_iff in A, B, C, D, E, F. now rewrite A, B, C, D, E, F.
Qed.
Example matrix_eq_entries_ex : matrix_eq (mkM 1 0 0 1 (NVal (VNum 0)) (NVal (VNum 0))) (mkM 1 (1 # 2) 0 1 (NVal (VNum 0)) (NVal (VNum 0))) = Ok false.
Proof. reflexivity. Qed.
Print Assumptions matrix_eq_entries.
(** Matrices of numbers. *)
Lemma close_near x q : near12 x q -> close12 q x = true.
Proof. intros N. unfold near12 in N. unfold close12. apply Qle_bool_iff. setoid_replace (q - x)%Q with (- (x - q))%Q by ring. rewrite Qabs_opp. eapply Qle_trans; [exact N|]. discriminate. Qed.
Theorem repr_matrix_partial : forall a b c d e f, let m := mkM a b c d (NVal (VNum e)) (NVal (VNum f)) in
  exists n, evaluate (matrix_repr m) = Ok (OMatrix n) /\ matrix_eq m n = Ok true.
Proof.
  intros a b c d e f m. destruct (prints_number a) as (a' & PA & NA). destruct (prints_number b) as (b' & PB & NB). destruct (prints_number c) as (c' & PC & NC).
  destruct (prints_number d) as (d' & PD & ND). destruct (prints_number e) as (e' & PE & NE). destruct (prints_number f) as (f' & PF & NF).
  exists (mkM a' b' c' d' (NVal (VNum e')) (NVal (VNum f'))). split.
  - assert (R : rest (length_str a ++ ","%char :: " "%char :: length_str b ++ ","%char :: " "%char :: length_str c ++ ","%char :: " "%char :: length_str d ++ ","%char :: " "%char :: length_str e ++ ","%char :: " "%char :: length_str f ++ [")"%char])
      [(None, ENum a'); (None, ENum b'); (None, ENum c'); (None, ENum d'); (None, ENum e'); (None, ENum f')]) by (repeat (apply rest_space; [assumption|]); apply rest_last; assumption).
    assert (N : names (T "Matrix")) by name_ok. unfold evaluate. replace (python (matrix_repr m)) with (python (T "Matrix" ++ "("%char :: (length_str a ++ ","%char :: " "%char :: length_str b ++ ","%char :: " "%char :: length_str c ++ ","%char :: " "%char :: length_str d ++ ","%char :: " "%char :: length_str e ++ ","%char :: " "%char :: length_str f ++ [")"%char]))) by reflexivity.
    rewrite (python_call _ _ _ N R eq_refl). reflexivity.
  - unfold matrix_eq, m. cbn [m_a m_b m_c m_d m_e m_f]. rewrite !close_near by assumption. reflexivity.
Qed.
Example repr_matrix_ex : matrix_repr (mkM 1 (1 # 3) 0 1 (NVal (VNum (-5 # 2))) (NVal (VNum 0))) = T "Matrix(1, 0.333333333333, 0, 1, -2.5, 0)".
Proof. reflexivity. Qed.
Print Assumptions repr_matrix_partial.
(** A translation by a Length comes back as text, which is no Length and cannot be used in arithmetic. *)
Theorem repr_matrix_length_refuted : exists m n t l, m_e m = NVal (VLen l) /\ evaluate (matrix_repr m) = Ok (OMatrix n) /\ m_e n = NText t.
Proof.
  exists (mkM 1 0 0 1 (NVal (VLen (len2 5 (T "cm")))) (NVal (VNum 0))). eexists. eexists. eexists. split; [reflexivity|]. split; [vm_compute; reflexivity|]. reflexivity.
Qed.
Print Assumptions repr_matrix_length_refuted.

(** * Segments *)
Definition oobj (o : option pt) : obj := match o with None => ONone | Some q => OPoint q end.
Lemma opoint_lemma o : exists e o', prints (opoint_repr o) e /\ eval e = Ok (oobj o') /\ onear o o' = true /\ (o = None <-> o' = None).
Proof.
  destruct o as [p|]; cbn [opoint_repr].
  - destruct (point_lemma p) as (x & y & P & _ & NX & NY). exists (ECall (T "Point") [(None, ENum x); (None, ENum y)]), (Some (Q2Qc x, Q2Qc y)). split; [exact P|]. split; [reflexivity|].
    split; [|split; discriminate]. cbn [onear]. unfold near. cbn [fst snd]. rewrite (proj1 (near12_qc _ _ NX)), (proj1 (near12_qc _ _ NY)). reflexivity.
  - exists ENone, None. split; [exact prints_none|]. repeat split.
Qed.
Lemma as_point_oobj o : as_point (oobj o) = Ok o.
Proof. destruct o; reflexivity. Qed.
Lemma kw_arg n u e : names (T n) -> prints u e -> arg_prints (T n ++ "="%char :: u) (Some (T n), e).
Proof. intros N P. exists u. auto. Qed.
(** Straight and curved segments, with or without points. *)
Definition drawable (s : seg) : Prop := match s_kind s with KArc _ => False | KCubic None (Some _) | KCubic (Some _) None => False | _ => True end.
Lemma seg_lemma solve s : drawable s -> exists t e s', seg_repr s = Ok t /\ prints t e /\ python t = Some e /\ eval e = Ok (OSeg s') /\ seg_eq solve s s' = true.
Proof.
  intros D. destruct s as [k s e rel sm]. destruct (opoint_lemma s) as (es & s' & PS & ES & NS & ZS). destruct (opoint_lemma e) as (ee & e' & PE & EE & NE & ZE).
  assert (CALL : forall f t l, names f -> rest t l -> goods [] l = true -> prints (f ++ "("%char :: t) (ECall f l) /\ python (f ++ "("%char :: t) = Some (ECall f l)) by (intros; split; [now apply prints_call|now apply python_call]).
  assert (KS : arg_prints (T "start" ++ "="%char :: opoint_repr s) (Some (T "start"), es)) by (apply kw_arg; [name_ok|exact PS]).
  assert (KE : arg_prints (T "end" ++ "="%char :: opoint_repr e) (Some (T "end"), ee)) by (apply kw_arg; [name_ok|exact PE]).
  assert (R1 := rest_last _ _ KE). assert (R2 := rest_space _ _ _ _ KS R1).
  unfold drawable in D. cbn [s_kind] in D. unfold seg_repr. cbn [s_kind s_start s_end].
  destruct k as [| | |c|c d|a].
  - destruct s as [p|].
    + destruct (CALL (T "Move") _ _ ltac:(name_ok) R2 eq_refl) as [P Y]. do 3 eexists. split; [reflexivity|]. split; [exact P|]. split; [exact Y|].
      split; [cbn [eval]; rewrite ES; cbn [rbind]; rewrite EE; cbn [rbind app]; unfold construct; cbn; rewrite !as_point_oobj; reflexivity|]. unfold seg_eq. cbn. cbn in NS. rewrite NS, NE. reflexivity.
    + destruct (CALL (T "Move") _ _ ltac:(name_ok) R1 eq_refl) as [P Y]. do 3 eexists. split; [reflexivity|]. split; [exact P|]. split; [exact Y|].
      split; [cbn [eval]; rewrite EE; cbn [rbind app]; unfold construct; cbn; rewrite !as_point_oobj; reflexivity|]. unfold seg_eq. cbn. rewrite NE. reflexivity.
  - destruct s as [p|]; [|destruct e as [p|]].
    + destruct (CALL (T "Close") _ _ ltac:(name_ok) R2 eq_refl) as [P Y]. do 3 eexists. split; [reflexivity|]. split; [exact P|]. split; [exact Y|].
      split; [cbn [eval]; rewrite ES; cbn [rbind]; rewrite EE; cbn [rbind app]; unfold construct; cbn; rewrite !as_point_oobj; reflexivity|]. unfold seg_eq. cbn. cbn in NS. rewrite NS, NE. reflexivity.
    + destruct (CALL (T "Close") _ _ ltac:(name_ok) R2 eq_refl) as [P Y]. do 3 eexists. split; [reflexivity|]. split; [exact P|]. split; [exact Y|].
      split; [cbn [eval]; rewrite ES; cbn [rbind]; rewrite EE; cbn [rbind app]; unfold construct; cbn; rewrite !as_point_oobj; reflexivity|]. unfold seg_eq. cbn. cbn in NE, NS. rewrite NE, NS. reflexivity.
    + destruct (CALL (T "Close") _ _ ltac:(name_ok) rest_nil eq_refl) as [P Y]. do 3 eexists. split; [reflexivity|]. split; [exact P|]. split; [exact Y|]. split; [reflexivity|]. reflexivity.
  - destruct s as [p|].
    + destruct (CALL (T "Line") _ _ ltac:(name_ok) R2 eq_refl) as [P Y]. do 3 eexists. split; [reflexivity|]. split; [exact P|]. split; [exact Y|].
      split; [cbn [eval]; rewrite ES; cbn [rbind]; rewrite EE; cbn [rbind app]; unfold construct; cbn; rewrite !as_point_oobj; reflexivity|]. unfold seg_eq. cbn. cbn in NS. rewrite NS, NE. reflexivity.
    + destruct (CALL (T "Line") _ _ ltac:(name_ok) R1 eq_refl) as [P Y]. do 3 eexists. split; [reflexivity|]. split; [exact P|]. split; [exact Y|].
      split; [cbn [eval]; rewrite EE; cbn [rbind app]; unfold construct; cbn; rewrite !as_point_oobj; reflexivity|]. unfold seg_eq. cbn. rewrite NE. reflexivity.
  - destruct (opoint_lemma c) as (ec & c' & PC & EC & NC & ZC).
    assert (KC : arg_prints (T "control" ++ "="%char :: opoint_repr c) (Some (T "control"), ec)) by (apply kw_arg; [name_ok|exact PC]).
    assert (R3 := rest_space _ _ _ _ KS (rest_space _ _ _ _ KC R1)).
    destruct (CALL (T "QuadraticBezier") _ _ ltac:(name_ok) R3 eq_refl) as [P Y]. do 3 eexists. split; [reflexivity|]. split; [exact (eq_rect _ (fun t => prints t _) P _ ltac:(repeat (rewrite <- ?app_assoc; cbn [app T list_ascii_of_string]); reflexivity))|].
    split; [exact (eq_rect _ (fun t => python t = _) Y _ ltac:(repeat (rewrite <- ?app_assoc; cbn [app T list_ascii_of_string]); reflexivity))|].
    split; [cbn [eval]; rewrite ES; cbn [rbind]; rewrite EC; cbn [rbind]; rewrite EE; cbn [rbind app]; unfold construct; cbn; rewrite !as_point_oobj; reflexivity|]. unfold seg_eq. cbn. rewrite NS, NE, NC. reflexivity.
  - destruct (opoint_lemma c) as (ec & c' & PC & EC & NC & ZC). destruct (opoint_lemma d) as (ed & d' & PD & ED & ND & ZD).
    assert (KC : arg_prints (T "control1" ++ "="%char :: opoint_repr c) (Some (T "control1"), ec)) by (apply kw_arg; [name_ok|exact PC]).
    assert (KD : arg_prints (T "control2" ++ "="%char :: opoint_repr d) (Some (T "control2"), ed)) by (apply kw_arg; [name_ok|exact PD]).
    assert (R3 := rest_space _ _ _ _ KS (rest_space _ _ _ _ KC (rest_space _ _ _ _ KD R1))).
    destruct (CALL (T "CubicBezier") _ _ ltac:(name_ok) R3 eq_refl) as [P Y]. do 3 eexists. split; [reflexivity|]. split; [exact (eq_rect _ (fun t => prints t _) P _ ltac:(repeat (rewrite <- ?app_assoc; cbn [app T list_ascii_of_string]); reflexivity))|].
    split; [exact (eq_rect _ (fun t => python t = _) Y _ ltac:(repeat (rewrite <- ?app_assoc; cbn [app T list_ascii_of_string]); reflexivity))|].
    assert (CK : cubic_kind c' d' = Ok (KCubic c' d')) by (destruct c, d; try contradiction D; destruct c', d'; try reflexivity; try (destruct (proj1 ZC eq_refl); fail); try (destruct (proj1 ZD eq_refl); fail); cbn in NC, ND; try discriminate).
    split; [cbn [eval]; rewrite ES; cbn [rbind]; rewrite EC; cbn [rbind]; rewrite ED; cbn [rbind]; rewrite EE; cbn [rbind app]; unfold construct; cbn; rewrite !as_point_oobj; cbn [rbind]; rewrite CK; reflexivity|]. unfold seg_eq. cbn. rewrite NS, NE, NC, ND. reflexivity.
  - contradiction D.
Qed.
(** A segment that is no arc evaluates to an equal segment; a cubic curve has both control points or none. *)
Theorem repr_segment_partial : forall solve s, drawable s -> exists t s', seg_repr s = Ok t /\ evaluate t = Ok (OSeg s') /\ seg_eq solve s s' = true.
Proof.
  intros solve s D. destruct (seg_lemma solve s D) as (t & e & s' & A & _ & B & C & E). exists t, s'. split; [exact A|]. split; [|exact E]. unfold evaluate. now rewrite B.
Qed.
Definition sample_quad : seg := mkSeg (KQuad (Some (Q2Qc 1, Q2Qc (1 # 2)))) None (Some (Q2Qc 3, Q2Qc (-1))) true false.
Example repr_segment_ex : drawable sample_quad /\ seg_repr sample_quad = Ok (T "QuadraticBezier(start=None, control=Point(1,0.5), end=Point(3,-1))").
Proof. split; [exact I|reflexivity]. Qed.
Print Assumptions repr_segment_partial.
(** == does not look at the flags, and repr forgets them: the copy prints other path data. *)
Theorem repr_relative_refuted : exists s t s', seg_repr s = Ok t /\ evaluate t = Ok (OSeg s') /\ s_rel s' <> s_rel s /\ s_smooth s' <> s_smooth s.
Proof. exists sample_quad. eexists. eexists. split; [reflexivity|]. split; [vm_compute; reflexivity|]. split; discriminate. Qed.
Print Assumptions repr_relative_refuted.
(** A cubic curve with its second control point only, which CubicBezier(None, None, c, e) does not even make. *)
Theorem repr_cubic_control_refuted : exists s t s', seg_repr s = Ok t /\ evaluate t = Ok (OSeg s') /\ forall solve, seg_eq solve s s' = false.
Proof. exists (mkSeg (KCubic None (Some (Q2Qc 1, Q2Qc 1))) None None false true). eexists. eexists. split; [reflexivity|]. split; [vm_compute; reflexivity|]. intros. reflexivity. Qed.
Print Assumptions repr_cubic_control_refuted.

(** * Subpaths print as Path(...) of their segments *)
Lemma goods_positional : forall l pre, Forall (fun a => fst a = None) pre -> Forall (fun a => fst a = None) l -> goods pre l = true.
Proof.
  induction l as [|[k e] l IH]; intros pre P F; [reflexivity|]. inversion F as [|? ? K F']; subst. cbn [fst] in K. subst k. cbn [goods]. unfold can_add. cbn [fst].
  assert (X : existsb keyed pre = false). { induction P as [|[k x] pre K P IHP]; [reflexivity|]. cbn in K. subst k. exact IHP. }
  rewrite X. cbn [negb andb]. apply IH; [|exact F']. apply Forall_app. auto.
Qed.
Lemma reprs_lemma solve : forall l, Forall drawable l -> exists t es l', reprs l = Ok t /\ rest (t ++ T ")") (map (fun e => (None, e)) es) /\
  Forall2 (fun e s => eval e = Ok (OSeg s)) es l' /\ Forall2 (fun a b => seg_eq solve a b = true) l l'.
Proof.
  induction l as [|s l IH]; intros F; [exists [], [], []; repeat split; constructor|]. inversion F as [|? ? D F']; subst.
  destruct (seg_lemma solve s D) as (t & e & s' & A & P & _ & C & E). destruct (IH F') as (u & es & l' & U & R & V & W). destruct l as [|s2 l].
  - exists t, [e], [s']. inversion W; subst. inversion V; subst. split; [exact A|]. split; [apply rest_last; exact P|]. split; repeat constructor; auto.
  - exists (t ++ T ", " ++ u)%list, (e :: es), (s' :: l'). split; [change (reprs (s :: s2 :: l)) with (do a <- seg_repr s; do b <- reprs (s2 :: l); Ok (a ++ T ", " ++ b)%list); rewrite A, U; reflexivity|].
    split; [|split; constructor; auto]. replace ((t ++ T ", " ++ u) ++ T ")")%list with (t ++ ","%char :: " "%char :: (u ++ T ")"))%list by (rewrite <- !app_assoc; reflexivity). apply (rest_space t (None, e)); [exact P|exact R].
Qed.
Lemma eval_segs f : forall es l pos, Forall2 (fun e s => eval e = Ok (OSeg s)) es l ->
  (fix go (args : list (option text * expr)) (pos : list obj) (kw : kwargs) : Res obj :=
         match args with
         | [] => construct f pos kw
         | (k, a) :: r => do v <- eval a; match k with None => go r (pos ++ [v])%list kw | Some n => go r pos (kw ++ [(n, v)])%list end
         end) (map (fun e => (None, e)) es) pos [] = construct f (pos ++ map OSeg l) [].
Proof.
  induction es as [|e es IH]; intros l pos F; inversion F as [|? s ? l' E F']; subst; [now rewrite app_nil_r|]. cbn [map]. rewrite E. cbn [rbind]. rewrite (IH l' _ F'). now rewrite <- app_assoc.
Qed.
Lemma segs_of_map l : segs_of (map OSeg l) = Some l.
Proof. induction l as [|s l IH]; [reflexivity|]. cbn [map segs_of]. now rewrite IH. Qed.
Lemma zip_forall2 solve : forall l l', Forall2 (fun a b => seg_eq solve a b = true) l l' -> zip_eq solve l l' = true /\ List.length l = List.length l'.
Proof. intros l l' F. induction F as [|a b l l' E F [A B]]; [split; reflexivity|]. cbn [zip_eq List.length]. rewrite E, A, B. auto. Qed.
(** Printing any part of a path without arcs gives a path whose segments equal those of the part. *)
Theorem repr_subpath_partial : forall solve p u, Forall drawable (sub_list p u) -> exists t q, sub_repr p u = Ok t /\ evaluate t = Ok (OPath q) /\
  zip_eq solve (sub_list p u) q = true /\ List.length q = List.length (sub_list p u).
Proof.
  intros solve p u F. destruct (reprs_lemma solve _ F) as (t & es & l' & A & R & V & W). exists (T "Path(" ++ t ++ T ")")%list, l'.
  split; [unfold sub_repr; rewrite A; reflexivity|]. destruct (zip_forall2 solve _ _ W) as [Z L]. split; [|auto].
  unfold evaluate. assert (N : names (T "Path")) by name_ok.
  assert (G : goods [] (map (fun e => (None, e)) es) = true) by (apply goods_positional; [constructor|]; apply Forall_forall; intros a H; apply in_map_iff in H; destruct H as (e & <- & _); reflexivity).
  replace (python (T "Path(" ++ t ++ T ")")) with (python (T "Path" ++ "("%char :: (t ++ T ")"))) by reflexivity. rewrite (python_call _ _ _ N R G).
  cbn [eval]. rewrite (eval_segs (T "Path") es l' [] V). cbn [app]. unfold construct. change (teqb (T "Path") (T "Path")) with true.
  do 9 (match goal with |- context [teqb (T "Path") ?x] => change (teqb (T "Path") x) with false end; cbn iota). rewrite segs_of_map. reflexivity.
Qed.
Definition sample_path : path := [mkSeg KMove None (Some (Q2Qc 0, Q2Qc 0)) false true; mkSeg KLine (Some (Q2Qc 0, Q2Qc 0)) (Some (Q2Qc (1 # 3), Q2Qc 2)) false true; mkSeg KClose (Some (Q2Qc (1 # 3), Q2Qc 2)) (Some (Q2Qc 0, Q2Qc 0)) false true].
Example repr_subpath_ex : Forall drawable (sub_list sample_path (mkSub 0 2)) /\
  sub_repr sample_path (mkSub 0 2) = Ok (T "Path(Move(end=Point(0,0)), Line(start=Point(0,0), end=Point(0.333333333333,2)), Close(start=Point(0.333333333333,2), end=Point(0,0)))").
Proof. split; [repeat constructor|reflexivity]. Qed.
Print Assumptions repr_subpath_partial.
(** Paths themselves have no repr. *)
Theorem repr_path_refuted : forall p, path_repr p = Err TypeError.
Proof. reflexivity. Qed.
Print Assumptions repr_path_refuted.

(** * C93: the documented forms of Move *)
(** Keywords that set flags only. *)
Definition flags (kw : kwargs) : Prop := Forall (fun e => fst e = T "relative" \/ fst e = T "smooth") kw.
Lemma flags_get kw n : flags kw -> n <> T "relative" -> n <> T "smooth" -> kget n kw = None.
Proof.
  intros F A B. induction F as [|[k v] kw H F IH]; [reflexivity|]. cbn [kget]. cbn [fst] in H. destruct (teqb k n) eqn:E; [apply teqb_true in E; subst; destruct H; congruence|exact IH].
Qed.
Lemma kget_app k a b : kget k (a ++ b) = match kget k a with Some v => Some v | None => kget k b end.
Proof. induction a as [|[n v] a IH]; [reflexivity|]. cbn [app kget]. destruct (teqb n k); [reflexivity|exact IH]. Qed.
Theorem move_forms_partial : forall s e p kw, flags kw ->
  (exists m, move_init [OPoint s; OPoint e] kw = Ok m /\ s_start m = Some s /\ s_end m = Some e) /\
  (exists m, move_init [OPoint p] (kw ++ [(T "start", OPoint s)]) = Ok m /\ s_start m = Some s /\ s_end m = Some p) /\
  (exists m, move_init [OPoint p] (kw ++ [(T "end", OPoint e)]) = Ok m /\ s_start m = Some p /\ s_end m = Some e) /\
  (exists m, move_init [] (kw ++ [(T "start", OPoint s); (T "end", OPoint e)]) = Ok m /\ s_start m = Some s /\ s_end m = Some e) /\
  (exists m, move_init [OPoint p] [] = Ok m /\ s_start m = None /\ s_end m = Some p).
Proof.
  intros s e p kw F. assert (S := flags_get kw (T "start") F ltac:(discriminate) ltac:(discriminate)). assert (E := flags_get kw (T "end") F ltac:(discriminate) ltac:(discriminate)).
  unfold move_init. rewrite !kget_app, S, E. split; [eexists; split; [reflexivity|split; reflexivity]|].
  split; [destruct kw as [|x kw]; (eexists; split; [reflexivity|split; reflexivity])|]. split; [destruct kw as [|x kw]; (eexists; split; [reflexivity|split; reflexivity])|].
  split; eexists; (split; [reflexivity|split; reflexivity]).
Qed.
Example move_forms_ex : flags [(T "relative", ONum 1)].
Proof. repeat constructor. Qed.
Print Assumptions move_forms_partial.
(** What Python takes for false. *)
Definition falsy (v : obj) : Prop := v = ONone \/ (exists q, v = ONum q /\ (q == 0)%Q) \/ v = OStr [].
Lemma truth_falsy v : truth v = false <-> falsy v.
Proof.
  unfold falsy. destruct v; cbn; split; intros H; try discriminate; try (destruct H as [H|[(q' & H & _)|H]]; discriminate); auto.
  - right. left. eexists. split; [reflexivity|]. apply Qeq_bool_iff. now apply negb_false_iff.
  - destruct H as [H|[(q' & H & E)|H]]; try discriminate. injection H as ->. apply negb_false_iff. now apply Qeq_bool_iff.
  - right. right. destruct t; [reflexivity|discriminate].
  - destruct H as [H|[(q' & H & E)|H]]; try discriminate. now injection H as ->.
Qed.
(** The flags are those given, and absolute and smooth otherwise. *)
Theorem move_flags : forall pos kw m, move_init pos kw = Ok m -> s_kind m = KMove /\
  (kget (T "relative") kw = None -> s_rel m = false) /\ (forall v, kget (T "relative") kw = Some v -> (s_rel m = false <-> falsy v)) /\
  (kget (T "smooth") kw = None -> s_smooth m = true) /\ (forall v, kget (T "smooth") kw = Some v -> (s_smooth m = false <-> falsy v)).
Proof.
  intros pos kw m H. unfold move_init in H. destruct (match pos with [] => _ | _ => _ end) as [a b]. destruct (opt_point a) as [s|]; [|discriminate]. destruct (opt_point b) as [e|]; [|discriminate].
  cbn [rbind] in H. injection H as <-. split; [reflexivity|]. unfold new_seg, flag. cbn [s_rel s_smooth].
  split; [intros ->; reflexivity|]. split; [intros v ->; apply truth_falsy|]. split; [intros ->; reflexivity|intros v ->; apply truth_falsy].
Qed.
Example move_flags_ex : exists m, move_init [] [(T "relative", ONum 1)] = Ok m /\ s_rel m = true.
Proof. eexists. split; reflexivity. Qed.
Print Assumptions move_flags.
(** But Move(p, relative=True) loses its point. *)
Theorem move_forms_refuted : forall p kw, flags kw -> kw <> [] -> exists m, move_init [OPoint p] kw = Ok m /\ s_start m = None /\ s_end m = None.
Proof.
  intros p kw F N. assert (S := flags_get kw (T "start") F ltac:(discriminate) ltac:(discriminate)). assert (E := flags_get kw (T "end") F ltac:(discriminate) ltac:(discriminate)).
  unfold move_init. rewrite S, E. destruct kw as [|x kw]; [congruence|]. eexists. split; [reflexivity|split; reflexivity].
Qed.
Example move_forms_refuted_ex : flags [(T "relative", ONum 1)] /\ [(T "relative", ONum 1)] <> [].
Proof. split; [repeat constructor|discriminate]. Qed.
Print Assumptions move_forms_refuted.
(** The other constructors bind their parameters by position or by name alike. *)
Theorem linear_forms : forall k s e kw, flags kw ->
  exists m, linear_init k [OPoint s; OPoint e] kw = Ok m /\ s_start m = Some s /\ s_end m = Some e /\ s_kind m = k /\
  linear_init k [OPoint s] (kw ++ [(T "end", OPoint e)]) = Ok m /\ linear_init k [] (kw ++ [(T "start", OPoint s); (T "end", OPoint e)]) = Ok m /\
  linear_init k [] (kw ++ [(T "end", OPoint e); (T "start", OPoint s)]) = Ok m.
Proof.
  intros k s e kw F. assert (S := flags_get kw (T "start") F ltac:(discriminate) ltac:(discriminate)). assert (E := flags_get kw (T "end") F ltac:(discriminate) ltac:(discriminate)).
  assert (FS : filter (fun x => negb (teqb (fst x) (T "start"))) kw = kw). { clear S E. induction F as [|[n v] kw H F IH]; [reflexivity|]. cbn [filter fst] in *. destruct H as [-> | ->]; cbn; f_equal; exact IH. }
  assert (FE : filter (fun x => negb (teqb (fst x) (T "end"))) kw = kw). { clear S E FS. induction F as [|[n v] kw H F IH]; [reflexivity|]. cbn [filter fst] in *. destruct H as [-> | ->]; cbn; f_equal; exact IH. }
  exists (new_seg k (Some s) (Some e) kw). unfold linear_init. cbn [bind]. rewrite !kget_app, !S, !E. cbn [rbind]. rewrite !filter_app, FS.
  assert (KE : kget (T "end") (kw ++ [(T "end", OPoint e)]) = Some (OPoint e)) by (rewrite kget_app, E; reflexivity).
  repeat split; cbn [bind rbind fst snd]; rewrite ?filter_app, ?FE, ?FS, ?kget_app, ?E, ?S; cbn; rewrite ?app_nil_r, ?KE, ?filter_app, ?FE; cbn; rewrite ?app_nil_r; reflexivity.
Qed.
Example linear_forms_ex : flags [(T "relative", ONum 1); (T "smooth", ONum 0)].
Proof. constructor; [now left|]. constructor; [now right|constructor]. Qed.
Print Assumptions linear_forms.
