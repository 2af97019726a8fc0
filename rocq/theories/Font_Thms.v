(** C95: the font shorthand. *)
Require Import ZArith QArith Qabs Arith Ascii String List Bool Lia Lqa.
Require Import Verif.Text_Spec Verif.Text_Proofs Verif.Length_Spec Verif.Length_Thms.
Require Import Verif.Base Verif.Length_Model Verif.Regex_Model Verif.Font_Spec Verif.Font_Model Verif.Font_Proofs.
Import ListNotations.
Local Open Scope nat_scope.

(** The size in px; em and % stay lengths. CSS: 1pt is 4/3 px, 1pc is 16 px. *)
Definition size_means (s : Font_Spec.size) (v : lval) : Prop :=
  let n := inject_Z (dval (fst s)) in
  (snd s = str "px" -> exists q, v = VNum q /\ (q == n)%Q) /\
  (snd s = str "pt" -> exists q, v = VNum q /\ within (1 # 10000) q (n * (4 # 3))) /\
  (snd s = str "pc" -> exists q, v = VNum q /\ (q == n * 16)%Q) /\
  (snd s = str "em" -> exists q, v = VLen (mkLen q UEm) /\ (q == n)%Q) /\
  (snd s = str "%" -> exists q, v = VLen (mkLen q UPct) /\ (q == n)%Q).
Lemma size_value_ok : forall s, size_ok s -> exists v, size_value (size_text s) = Ok v /\ size_means s v.
Proof.
  intros [ds u] (F & N & U). cbn [fst snd] in *. unfold size_text. cbn [fst snd].
  assert (lit_ok (mkLit SNone ds [] None)) as LO by (split; [exact F|]; split; [constructor|]; split; [left; exact N | exact I]).
  assert (dtext ds = lit_text (mkLit SNone ds [] None)) as LT by (unfold lit_text; cbn; now rewrite app_nil_r).
  assert (lit_val (mkLit SNone ds [] None) == inject_Z (dval ds))%Q as LV.
  { unfold lit_val. cbn [l_sgn l_int l_frac l_exp sgn_z dval List.length]. change (p10 (- Z.of_nat 0)) with 1%Q. change (p10 0) with 1%Q.
    change (inject_Z 0) with 0%Q. change (inject_Z 1) with 1%Q. ring. }
  rewrite LT. unfold size_value.
  assert (forall w : string, forallb is_unit_char (T w) = true -> exists a,
    len_of_text (lit_text (mkLit SNone ds [] None) ++ T w) = len2 a (T w) /\ (a == inject_Z (dval ds))%Q) as H.
  { intros w W. destruct (length_text_reads _ w LO W) as (a & E & V). exists a. split; [exact E|]. now rewrite V. }
  repeat (destruct U as [<-|U]).
  - destruct (H "em"%string eq_refl) as (a & E & V). change (str "em") with (T "em"). rewrite E. eexists. split; [reflexivity|].
    unfold size_means. cbn [snd fst]. repeat split; try discriminate. intros _. now exists a.
  - destruct (H "pt"%string eq_refl) as (a & E & V). change (str "pt") with (T "pt"). rewrite E. eexists. split; [reflexivity|].
    unfold size_means. cbn [snd fst]. repeat split; try discriminate. intros _. eexists. split; [reflexivity|]. cbn [len2 amount].
    unfold within. rewrite V. set (n := inject_Z (dval ds)).
    setoid_replace (n * pt_px - n * (4 # 3))%Q with (n * (- (1 # 30000)))%Q by (unfold pt_px; ring).
    rewrite !Qabs_Qmult. change (Qabs (- (1 # 30000))) with (1 # 30000). change (Qabs (4 # 3)) with (4 # 3).
    pose proof (Qabs_nonneg n). lra.
  - destruct (H "pc"%string eq_refl) as (a & E & V). change (str "pc") with (T "pc"). rewrite E. eexists. split; [reflexivity|].
    unfold size_means. cbn [snd fst]. repeat split; try discriminate. intros _. eexists. split; [reflexivity|]. cbn [len2 amount]. now rewrite V.
  - destruct (H "px"%string eq_refl) as (a & E & V). change (str "px") with (T "px"). rewrite E. eexists. split; [reflexivity|].
    unfold size_means. cbn [snd fst]. repeat split; try discriminate. intros _. now exists a.
  - destruct (H "%"%string eq_refl) as (a & E & V). change (str "%") with (T "%"). rewrite E. eexists. split; [reflexivity|].
    unfold size_means. cbn [snd fst]. repeat split; try discriminate. intros _. now exists a.
  - destruct U.
Qed.

(** A shorthand of the accepted form sets size, families and generic family as CSS says, whatever was
    set before, and the weight if one is given. Weights relative to the element around raise. *)
Theorem font_shorthand_partial : forall f old, sh_ok f ->
  match last_weight (sh_keys f) with
  | Some None => parse_font old (sh_text f) = Err ValueError
  | w => exists v, size_means (sh_size f) v /\
           parse_font old (sh_text f) =
             Ok (mkFont (match w with Some n => n | None => font_weight old end) (Some v) (Some (sh_face f)) (Some (sh_generic f)))
  end.
Proof.
  intros f old O. unfold parse_font. rewrite (font_findall f O). destruct O as (K & _ & S & _ & _ & _ & _ & _ & _ & I).
  pose proof (caps_weight _ K) as CW. destruct (size_value_ok _ S) as (v & SV & SM).
  assert (exists c r, size_text (sh_size f) = c :: r) as (c5 & r5 & E5).
  { destruct S as (_ & N & _). unfold size_text. destruct (fst (sh_size f)) as [|d ds]; [congruence|]. cbn. eauto. }
  assert (exists c r, sh_generic f = c :: r) as (c8 & r8 & E8).
  { revert I. generalize (sh_generic f). intros g I. repeat (destruct I as [<-|I]; [cbn; eauto|]). destruct I. }
  assert (group0 5 ((0, sh_text f) :: sh_caps f) = size_text (sh_size f)) as G5.
  { unfold sh_caps, group0. destruct (sh_height f); reflexivity. }
  assert (group0 7 ((0, sh_text f) :: sh_caps f) = sh_face f ++ [","%char]) as G7 by reflexivity.
  assert (group0 8 ((0, sh_text f) :: sh_caps f) = sh_generic f) as G8 by reflexivity.
  assert (group 3 ((0, sh_text f) :: sh_caps f) = group 3 (key_caps (sh_keys f) [])) as G3.
  { unfold sh_caps. destruct (sh_height f); reflexivity. }
  rewrite G5, G7, G8. unfold group0. rewrite G3. rewrite E5, E8. rewrite <- E5, <- E8.
  assert (match sh_face f ++ [","%char] with [] => font_face old | g => Some (drop_comma g) end = Some (sh_face f)) as FC.
  { pose proof (drop_comma_app (sh_face f)) as D. destruct (sh_face f ++ [","%char]) eqn:E; [now apply app_eq_nil in E as [_ E] | now rewrite D]. }
  unfold text in *. rewrite FC, SV. clear FC G5 G7 G8 G3.
  destruct (last_weight (sh_keys f)) as [w|].
  - destruct CW as (k & KO & KW & G). rewrite G. destruct (weight_ok k w KO KW) as (PW & NE).
    destruct (key_text k) as [|c r]; [congruence|]. rewrite PW. destruct w as [n|]; [|reflexivity]. exists v. split; [exact SM | reflexivity].
  - rewrite CW. exists v. split; [exact SM | reflexivity].
Qed.
Example font_shorthand_ex :
  let f := mkSh [(KStyle (str "italic"), " "%char); (KNumber 6 0 0, " "%char)] [] ([1; 2]%Z, str "px") (Some ([1; 5]%Z, str "px"))
             (str " ") (str "Arial, ""Foo Bar""") " "%char (str "sans-serif") true in
  sh_ok f /\ sh_text f = str "italic 600 12px/15px Arial, ""Foo Bar"", sans-serif;" /\ last_weight (sh_keys f) = Some (Some 600%Z).
Proof.
  cbv zeta. split; [|split; reflexivity].
  repeat apply conj; cbn [sh_keys sh_lead sh_size sh_height sh_gap sh_face sh_space sh_generic fst snd].
  - repeat constructor; cbn; unfold is_dig; try lia; auto.
  - constructor.
  - repeat constructor; unfold is_dig; lia.
  - discriminate.
  - cbn; auto 9.
  - repeat constructor; unfold is_dig; lia.
  - discriminate.
  - cbn; auto 9.
  - repeat constructor; cbn; auto.
  - discriminate.
  - cbn. intros H. repeat (destruct H as [H|H]; [discriminate H|]). exact H.
  - intros c r E. injection E as <- _. intros [H|H]; repeat (destruct H as [H|H]; [discriminate H|]); exact H.
  - cbn; auto.
  - cbn; auto.
Qed.
Print Assumptions font_shorthand_partial.

Definition unset : font := mkFont None None None None.
Definition same_size (f : Res font) (n : Z) : Prop :=
  match f with Ok x => match font_size x with Some (VNum q) => (q == inject_Z n)%Q | _ => False end | Err _ => False end.
(** Sizes that CSS allows but the pattern does not: of 12.5px only the last digit is read. *)
Theorem font_decimal_refuted : same_size (parse_font unset (T "12.5px Arial, serif")) 5.
Proof. vm_compute. reflexivity. Qed.
Print Assumptions font_decimal_refuted.
(** Keyword sizes are all 0, and the rest of "larger" goes to the family. *)
Theorem font_keyword_refuted :
  same_size (parse_font unset (T "medium Arial, serif")) 0 /\ same_size (parse_font unset (T "large Arial, serif")) 0 /\
  rmap font_face (parse_font unset (T "larger Arial, serif")) = Ok (Some (T "r Arial")).
Proof. repeat split; vm_compute; reflexivity. Qed.
Print Assumptions font_keyword_refuted.
(** A font without a generic family, or with no space in front of it, raises IndexError; so does an unlisted unit. *)
Theorem font_family_refuted :
  parse_font unset (T "12px Arial") = Err IndexError /\ parse_font unset (T "12px Arial,serif") = Err IndexError /\
  parse_font unset (T "1in Arial, serif") = Err IndexError.
Proof. repeat split; vm_compute; reflexivity. Qed.
Print Assumptions font_family_refuted.
(** A line height without a unit becomes part of the family. *)
Theorem font_height_refuted : rmap font_face (parse_font unset (T "12px/1.5 Arial, serif")) = Ok (Some (T "/1.5 Arial")).
Proof. vm_compute. reflexivity. Qed.
Print Assumptions font_height_refuted.
(** Two spaces between keywords lose the first keyword. *)
Theorem font_spaces_refuted :
  rmap font_weight (parse_font unset (T "bold italic 12px Arial, serif")) = Ok (Some 700%Z) /\
  rmap font_weight (parse_font unset (T "bold  italic 12px Arial, serif")) = Ok None.
Proof. split; vm_compute; reflexivity. Qed.
Print Assumptions font_spaces_refuted.
(** The shorthand does not reset what it leaves out: normal leaves the text bold. *)
Theorem font_reset_refuted : exists f,
  parse_font unset (T "bold 12px Arial, serif") = Ok f /\
  rmap font_weight (parse_font f (T "normal 12px Arial, serif")) = Ok (Some 700%Z) /\
  rmap font_weight (parse_font f (T "12px Arial, serif")) = Ok (Some 700%Z).
Proof. eexists. split; [vm_compute; reflexivity|]. split; vm_compute; reflexivity. Qed.
Print Assumptions font_reset_refuted.
(** Two declarations in one text raise TypeError. *)
Theorem font_twice_refuted : parse_font unset (T "12px A, serif; " ++ "010"%char :: T "12px B, serif") = Err TypeError.
Proof. vm_compute. reflexivity. Qed.
Print Assumptions font_twice_refuted.
