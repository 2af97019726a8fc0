(** Property theorems about colours (C01-C12). *)
Require Import ZArith QArith Qround List Ascii String Bool Lia Lqa.
Require Import Verif.Base Verif.Text_Spec Verif.Color_Model Verif.Color_Spec
  Verif.Color_Proofs Verif.Color_Proofs2 Verif.Color_Proofs3 Verif.Color_Proofs4.
Import ListNotations.
Open Scope Z_scope.

(** * C01: printing a colour and parsing the text gives back the same channels *)
Theorem color_text_roundtrip : forall v, 0 <= v < 2^32 ->
  parse (hex v) = Ok (Some v) /\ parse (hexa v) = Ok (Some v) /\ parse (color_str (Some v)) = Ok (Some v).
Proof. exact text_roundtrip_lemma. Qed.
Example color_text_roundtrip_ex : hex 0x12ab3480 = T "#12ab3480" /\ hex 0x12ab34ff = T "#12ab34".
Proof. split; reflexivity. Qed.
Print Assumptions color_text_roundtrip.

(** Any integer, not only 32-bit ones: the channels survive. *)
Theorem color_text_channels : forall v, exists w, parse (hex v) = Ok (Some w) /\ unpack w = unpack v.
Proof. exact text_channels_lemma. Qed.
Print Assumptions color_text_channels.

(** The None colour does not survive: its text "None" parses as opaque black. *)
Theorem color_none_text_refuted : exists v, parse (color_str None) = Ok (Some v) /\ v = pack (mkRGBA 0 0 0 255).
Proof. exact (ex_intro _ _ (conj eq_refl eq_refl)). Qed.
Print Assumptions color_none_text_refuted.

(** * C02: channel setters are independent and saturating *)
Theorem color_set_red : forall v q, exists v', set_red (Some v) q = Ok (Some v') /\
  saturates q (get_red v') /\ get_green v' = get_green v /\ get_blue v' = get_blue v /\ get_alpha v' = get_alpha v.
Proof. exact set_red_lemma. Qed.
Theorem color_set_green : forall v q, exists v', set_green (Some v) q = Ok (Some v') /\
  saturates q (get_green v') /\ get_red v' = get_red v /\ get_blue v' = get_blue v /\ get_alpha v' = get_alpha v.
Proof. exact set_green_lemma. Qed.
Theorem color_set_blue : forall v q, exists v', set_blue (Some v) q = Ok (Some v') /\
  saturates q (get_blue v') /\ get_red v' = get_red v /\ get_green v' = get_green v /\ get_alpha v' = get_alpha v.
Proof. exact set_blue_lemma. Qed.
Theorem color_set_alpha : forall v q, exists v', set_alpha (Some v) q = Ok (Some v') /\
  saturates q (get_alpha v') /\ get_red v' = get_red v /\ get_green v' = get_green v /\ get_blue v' = get_blue v.
Proof. exact set_alpha_lemma. Qed.
(** Opacity is the alpha byte: clamped to [0,1], scaled to 0..255 and rounded to nearest. *)
Theorem color_set_opacity : forall v q, exists v', set_opacity (Some v) q = Ok (Some v') /\
  alpha_byte q (get_alpha v') /\ get_red v' = get_red v /\ get_green v' = get_green v /\ get_blue v' = get_blue v.
Proof. exact set_opacity_lemma. Qed.
Example color_set_ex : set_red (Some 0x11223344) (7003 # 10) = Ok (Some 0xff223344)
  /\ set_blue (Some 0x11223344) (-5) = Ok (Some 0x11220044) /\ set_green (Some 0x11223344) (16 # 3) = Ok (Some 0x11053344).
Proof. repeat split. Qed.
Print Assumptions color_set_red.
Print Assumptions color_set_green.
Print Assumptions color_set_blue.
Print Assumptions color_set_alpha.
Print Assumptions color_set_opacity.
(** The opacity that is read is the alpha byte over 255. *)
Theorem color_get_opacity : forall v, (get_opacity v * 255 == inject_Z (get_alpha v))%Q /\ (0 <= get_opacity v <= 1)%Q.
Proof.
  intros v. unfold get_opacity. split; [field|]. assert (H : (0 <= get_alpha v <= 255)%Z) by (unfold get_alpha; apply byte_land).
  destruct H as [A B]. rewrite Zle_Qle in A, B. change (inject_Z 0) with 0%Q in A. change (inject_Z 255) with 255%Q in B. split; [apply Qle_shift_div_l|apply Qle_shift_div_r]; try reflexivity; lra.
Qed.
Example color_get_opacity_ex : (get_opacity 51 == 1 # 5)%Q. Proof. reflexivity. Qed.
Print Assumptions color_get_opacity.

(** * C03: CSS hex notation *)
Theorem color_css_hex : forall (with_hash : bool) s c, css_hex s c ->
  parse ((if with_hash then ["#"%char] else []) ++ s) = Ok (Some (pack c)) /\ unpack (pack c) = c.
Proof. exact css_hex_lemma. Qed.
Example color_css_hex_ex : css_hex (list_ascii_of_string "F0a8") (mkRGBA 255 0 170 136).
Proof. apply (css_hex4 "F" "0" "a" "8" 15 0 10 8); reflexivity. Qed.
Print Assumptions color_css_hex.

(** * C04: packed views *)
Theorem color_argb_write_read : forall n, 0 <= n < 2^32 -> get_argb (set_argb n) = n.
Proof. exact argb_roundtrip. Qed.
Theorem color_argb_rebuilds : forall v, unpack (set_argb (get_argb v)) = unpack v
  /\ get_argb v = pack_argb (unpack v).
Proof. exact argb_rebuilds_lemma. Qed.
Theorem color_rgb_write_read : forall n, get_rgb (set_rgb n) = n /\ get_alpha (set_rgb n) = 255.
Proof. exact rgb_roundtrip. Qed.
Theorem color_rgb_channels : forall n, 0 <= n < 2^24 ->
  unpack (set_rgb n) = mkRGBA (n / 2^16) ((n / 2^8) mod 256) (n mod 256) 255.
Proof. exact set_rgb_channels. Qed.
Example color_argb_ex : set_argb 0x80112233 = 0x11223380 /\ set_rgb 0x112233 = 0x112233ff.
Proof. split; reflexivity. Qed.
Print Assumptions color_argb_write_read.
Print Assumptions color_argb_rebuilds.
Print Assumptions color_rgb_write_read.
Print Assumptions color_rgb_channels.

(** * C05: equality *)
Theorem color_eq_equivalence :
  (forall a, color_eq a a = true) /\ (forall a b, color_eq a b = color_eq b a) /\
  (forall a b c, color_eq a b = true -> color_eq b c = true -> color_eq a c = true).
Proof. exact color_eq_equiv. Qed.
Theorem color_eq_sees_channels : forall x y, color_eq (Some x) (Some y) = true <-> unpack x = unpack y.
Proof. exact color_eq_channels. Qed.
Theorem color_eq_none : forall c, color_eq c None = true <-> c = None.
Proof. exact eq_none_lemma. Qed.
Example color_eq_ex : color_eq (Some 0x11223344) (Some 0x11223344) = true /\ color_eq (Some 0x11223344) (Some 0x11223345) = false.
Proof. split; reflexivity. Qed.
Print Assumptions color_eq_equivalence.
Print Assumptions color_eq_sees_channels.
Print Assumptions color_eq_none.

(** * C06: keywords. Every SVG 1.1 keyword except aliceblue has the SVG 1.1 value. *)
Theorem color_keywords_partial : forall n rgb s, In (n, rgb) svg11_keywords -> n <> "aliceblue"%string ->
  spelling (T n) s -> parse s = Ok (Some (pack (opaque rgb))).
Proof. exact keyword_lemma. Qed.
Example color_keywords_ex : In ("tomato"%string, 0xFF6347) svg11_keywords /\ spelling (T "tomato") (T " Tom ATO")
  /\ parse (T " Tom ATO") = Ok (Some 0xFF6347FF).
Proof.
  split; [simpl; intuition|]. split; [|reflexivity].
  repeat (first [apply sp_nil | apply sp_space | apply sp_char; [first [left; reflexivity | right; reflexivity]|]]).
Qed.
(** Missing from the full statement: the source has two aliceblue branches and the first one is wrong. *)
Theorem color_keywords_refuted : exists n rgb c, In (n, rgb) svg11_keywords /\ parse (T n) = Ok (Some c) /\ c <> pack (opaque rgb).
Proof. exact aliceblue_lemma. Qed.
(** Text of letters and spaces that is no keyword is black (unless it is hex digits or "none"). *)
Theorem color_unknown_word_black : forall s,
  Forall (fun c => c = " "%char \/ is_lower c = true \/ is_upper c = true) s ->
  (exists c, In c s /\ c <> " "%char /\ xdig c = None) ->
  s <> T "none" -> ~ spelling (T "transparent") s ->
  (forall n rgb, In (n, rgb) svg11_keywords -> ~ spelling (T n) s) ->
  parse s = Ok (Some (pack (mkRGBA 0 0 0 255))).
Proof. exact unknown_black. Qed.
Example color_unknown_word_ex : (forall n rgb, In (n, rgb) svg11_keywords -> ~ spelling (T n) (T "Zig zag"))
  /\ parse (T "Zig zag") = Ok (Some (pack (mkRGBA 0 0 0 255))).
Proof. exact (conj zzz_unknown eq_refl). Qed.
Print Assumptions color_keywords_partial.
Print Assumptions color_keywords_refuted.
Print Assumptions color_unknown_word_black.

(** * C07: functional notation, numbers (integers) and percentages *)
Theorem color_rgb_notation_partial : forall wa w1 s1 d1 w1' w2 s2 d2 w2' w3 s3 d3 w3' o tail,
  Forall wsp w1 -> Forall wsp w1' -> Forall wsp w2 -> Forall wsp w2' -> Forall wsp w3 -> Forall wsp w3' ->
  Forall is_dig d1 -> d1 <> [] -> Forall is_dig d2 -> d2 <> [] -> Forall is_dig d3 -> d3 <> [] -> opt_ok o ->
  exists a, alpha_byte (opt_val o) a /\
  parse (cfun_text (list_ascii_of_string "rgb") wa (int_arg w1 s1 d1 w1') (int_arg w2 s2 d2 w2') (int_arg w3 s3 d3 w3') (opt_text o) tail)
  = Ok (Some (pack (mkRGBA (clamp255 (sgn_z s1 * dval d1)) (clamp255 (sgn_z s2 * dval d2)) (clamp255 (sgn_z s3 * dval d3)) a))).
Proof. exact rgb_text_lemma. Qed.
Theorem color_rgb_percent_notation : forall wa w1 l1 w1' w2 l2 w2' w3 l3 w3' o tail,
  Forall wsp w1 -> Forall wsp w1' -> Forall wsp w2 -> Forall wsp w2' -> Forall wsp w3 -> Forall wsp w3' ->
  lit_ok l1 -> lit_ok l2 -> lit_ok l3 -> opt_ok o ->
  exists a n1 n2 n3, alpha_byte (opt_val o) a /\
    nearest (lit_val l1 * (255#100)) n1 /\ nearest (lit_val l2 * (255#100)) n2 /\ nearest (lit_val l3 * (255#100)) n3 /\
  parse (cfun_text (list_ascii_of_string "rgb") wa (arg_text w1 l1 ["%"%char] w1') (arg_text w2 l2 ["%"%char] w2') (arg_text w3 l3 ["%"%char] w3') (opt_text o) tail)
  = Ok (Some (pack (mkRGBA (clamp255 n1) (clamp255 n2) (clamp255 n3) a))).
Proof. exact rgbp_text_lemma. Qed.
(** Missing from the number form: CSS also allows decimals, which the code rejects. *)
Theorem color_rgb_decimal_refuted : exists s, s = list_ascii_of_string "rgb(1.5,2,3)" /\ parse s = Err ValueError.
Proof. exact rgb_decimals_lemma. Qed.
Example color_rgb_notation_ex :
  cfun_text (T "rgb") true (int_arg [" "%char] SNone [3; 0; 0] []) (int_arg [] SMinus [1] []) (int_arg [] SNone [7] [" "%char])
    (opt_text (Some ([" "%char], mkLit SNone [0] [5] None, []))) [] = T "rgba( 300,-1,7 , 0.5)"
  /\ parse (T "rgba( 300,-1,7 , 0.5)") = Ok (Some 0xff000780)
  /\ parse (T "rgb(50%, 1e2%,.5%)") = Ok (Some 0x80ff01ff).
Proof. repeat split; vm_compute; reflexivity. Qed.
Print Assumptions color_rgb_notation_partial.
Print Assumptions color_rgb_percent_notation.
Print Assumptions color_rgb_decimal_refuted.

(** * C08: over is Porter-Duff source-over *)
Theorem color_over_porter_duff : forall v1 v2,
  (get_alpha v1 = 255 -> over (ACol (Some v1)) (ACol (Some v2)) = Ok (Some v1)) /\
  (get_alpha v1 = 0 -> over (ACol (Some v1)) (ACol (Some v2)) = Ok (Some v2)) /\
  (0 < get_alpha v1 < 255 -> exists c, over (ACol (Some v1)) (ACol (Some v2)) = Ok (Some (pack c)) /\ rgba_ok c /\
     saturates (255 * pd_color (unit (get_red v1)) (unit (get_alpha v1)) (unit (get_red v2)) (unit (get_alpha v2))) (cR c) /\
     saturates (255 * pd_color (unit (get_green v1)) (unit (get_alpha v1)) (unit (get_green v2)) (unit (get_alpha v2))) (cG c) /\
     saturates (255 * pd_color (unit (get_blue v1)) (unit (get_alpha v1)) (unit (get_blue v2)) (unit (get_alpha v2))) (cB c) /\
     nearest (255 * pd_alpha (unit (get_alpha v1)) (unit (get_alpha v2))) (cA c)).
Proof. exact over_lemma. Qed.
Theorem color_over_between : forall v1 v2 c, over (ACol (Some v1)) (ACol (Some v2)) = Ok c -> exists v, c = Some v /\
  get_alpha v1 <= get_alpha v /\ get_alpha v2 <= get_alpha v /\
  Z.min (get_red v1) (get_red v2) <= get_red v <= Z.max (get_red v1) (get_red v2) /\
  Z.min (get_green v1) (get_green v2) <= get_green v <= Z.max (get_green v1) (get_green v2) /\
  Z.min (get_blue v1) (get_blue v2) <= get_blue v <= Z.max (get_blue v1) (get_blue v2).
Proof. exact over_bounds. Qed.
Example color_over_ex : over (ACol (Some 0xff000080)) (ACol (Some 0x0000ffff)) = Ok (Some 0x80007fff).
Proof. reflexivity. Qed.
(** Text arguments, which over() and blend() claim to accept, raise. *)
Theorem color_over_text_refuted : exists s v c1, parse s = Ok (Some c1) /\ over (AStr s) (ACol (Some v)) = Err AttributeError.
Proof. exact over_text_lemma. Qed.
Print Assumptions color_over_porter_duff.
Print Assumptions color_over_between.
Print Assumptions color_over_text_refuted.

(** * C09: distance *)
Theorem color_distance_partial : forall v1 v2,
  0 <= distance_sq v1 v2 /\ distance_sq v1 v2 = distance_sq v2 v1 /\ distance_sq v1 v1 = 0.
Proof. exact distance_lemma. Qed.
(** Missing: "zero only for equal colours" is false; what remains true is that zero means close. *)
Theorem color_distance_zero_close : forall v1 v2, distance_sq v1 v2 = 0 ->
  get_blue v1 = get_blue v2 /\ Z.abs (get_green v1 - get_green v2) < 8 /\ Z.abs (get_red v1 - get_red v2) < 12.
Proof. exact distance_zero_close. Qed.
Theorem color_distance_zero_refuted : exists v1 v2, distance_sq v1 v2 = 0 /\ get_green v1 <> get_green v2.
Proof. exact distance_zero_lemma. Qed.
Example color_distance_ex : distance_sq 0xff0000ff 0x00ff00ff = 1650.
Proof. reflexivity. Qed.
Print Assumptions color_distance_partial.
Print Assumptions color_distance_zero_close.
Print Assumptions color_distance_zero_refuted.

(** * C10: HSL conversion inverts (hue in turns, as the hsl setter takes it) *)
Theorem color_hsl_roundtrip_partial : forall v,
  set_hsl (hue_turns v) (get_saturation v) (get_lightness v)
  = Some (pack (mkRGBA (get_red v) (get_green v) (get_blue v) 255)).
Proof. exact hsl_roundtrip_lemma. Qed.
Example color_hsl_roundtrip_ex : Qeq_bool (hue_turns 0x4080c0ff) (7 # 12) = true /\ set_hsl (7#12) (128#254) (128#255) = Some 0x4080c0ff.
Proof. split; reflexivity. Qed.
(** Missing: writing back a value just read is not the identity (the getter is in degrees, the setter in turns). *)
Theorem color_hsl_writeback_refuted : exists v v' v'' w,
  set_hue (Some v) (get_hue v) = Ok (Some v') /\ unpack v' <> unpack v /\
  set_saturation (Some v) (get_saturation v) = Ok (Some v'') /\ unpack v'' <> unpack v /\
  set_lightness (Some v) (get_lightness v) = Ok (Some w) /\ unpack w <> unpack v.
Proof. exact hsl_writeback_lemma. Qed.
Print Assumptions color_hsl_roundtrip_partial.
Print Assumptions color_hsl_writeback_refuted.

(** * C11: HSL text *)
Theorem color_hsl_text_range : forall wa w1 l1 w1' w2 l2 w2' w3 l3 w3' o tail,
  Forall wsp w1 -> Forall wsp w1' -> Forall wsp w2 -> Forall wsp w2' -> Forall wsp w3 -> Forall wsp w3' ->
  lit_ok l1 -> lit_ok l2 -> lit_ok l3 -> opt_ok o ->
  exists c, rgba_ok c /\
    ((lit_val l2 <= 0)%Q -> cR c = cG c /\ cG c = cB c) /\
    ((lit_val l3 <= 0)%Q -> cR c = 0 /\ cG c = 0 /\ cB c = 0) /\
    ((100 <= lit_val l3)%Q -> cR c = 255 /\ cG c = 255 /\ cB c = 255) /\
  parse (cfun_text (list_ascii_of_string "hsl") wa (arg_text w1 l1 [] w1') (arg_text w2 l2 ["%"%char] w2') (arg_text w3 l3 ["%"%char] w3') (opt_text o) tail)
  = Ok (Some (pack c)).
Proof. exact hsl_text_range. Qed.
(** For hues from -240 to 600 degrees the channels are those of the CSS formula, truncated. *)
Theorem color_hsl_text_css : forall wa w1 l1 w1' w2 l2 w2' w3 l3 w3' o tail,
  Forall wsp w1 -> Forall wsp w1' -> Forall wsp w2 -> Forall wsp w2' -> Forall wsp w3 -> Forall wsp w3' ->
  lit_ok l1 -> lit_ok l2 -> lit_ok l3 -> opt_ok o ->
  (-240 <= lit_val l1)%Q -> (lit_val l1 <= 600)%Q ->
  exists c h s l, rgba_ok c /\ alpha_byte (opt_val o) (cA c) /\ (h * 360 == lit_val l1)%Q /\
    unit_clamp (lit_val l2 / 100) s /\ unit_clamp (lit_val l3 / 100) l /\
    saturates (255 * css_hsl_channel 0 h s l) (cR c) /\
    saturates (255 * css_hsl_channel 8 h s l) (cG c) /\
    saturates (255 * css_hsl_channel 4 h s l) (cB c) /\
  parse (cfun_text (list_ascii_of_string "hsl") wa (arg_text w1 l1 [] w1') (arg_text w2 l2 ["%"%char] w2') (arg_text w3 l3 ["%"%char] w3') (opt_text o) tail)
  = Ok (Some (pack c)).
Proof. exact hsl_text_css. Qed.
Example color_hsl_text_ex :
  cfun_text (T "hsl") false (arg_text [] (mkLit SNone [1;2;0] [] None) [] []) (arg_text [" "%char] (mkLit SNone [1;0;0] [] None) ["%"%char] [])
    (arg_text [" "%char] (mkLit SNone [2;5] [] None) ["%"%char] []) None [] = T "hsl(120, 100%, 25%)"
  /\ parse (T "hsl(120, 100%, 25%)") = Ok (Some 0x007f00ff).
Proof. split; vm_compute; reflexivity. Qed.
(** Beyond that range the hue is not reduced modulo a turn. *)
Theorem color_hsl_wrap_refuted : exists c, parse (T "hsl(720,100%,50%)") = Ok (Some c) /\ c <> pack (mkRGBA 255 0 0 255)
  /\ parse (T "hsl(0,100%,50%)") = Ok (Some (pack (mkRGBA 255 0 0 255))).
Proof. exact hsl_wrap_lemma. Qed.
Print Assumptions color_hsl_text_range.
Print Assumptions color_hsl_text_css.
Print Assumptions color_hsl_wrap_refuted.

(** * C12: distinct() never repeats, given an exact integer cube root *)
Theorem color_distinct_injective_partial : forall icbrt, exact_cbrt icbrt -> forall i j,
  0 <= i < 256 * 256 * 256 -> 0 <= j < 256 * 256 * 256 -> distinct icbrt i = distinct icbrt j -> i = j.
Proof. exact distinct_inj. Qed.
(** Missing: the source computes int(i ** (1.0/3.0)) in floating point. If that rounds down at a
    perfect cube (64 ** (1/3) = 3.9999999999999996 in IEEE doubles) indices collide. *)
Theorem color_distinct_low_root_refuted : forall icbrt, icbrt 64 = 3 -> icbrt 29 = 3 -> distinct icbrt 64 = distinct icbrt 29.
Proof. exact distinct_low_root. Qed.
Example color_distinct_ex : let cb := fun i => Z.of_nat (List.length (filter (fun k => Z.of_nat k * Z.of_nat k * Z.of_nat k <=? i) (seq 1 255))) in
  map (distinct cb) [0; 1; 2; 9; 64] = [Some 0xffffffff; Some 0x000000ff; Some 0xff0000ff; Some 0xff8080ff; Some 0xc0c0c0ff].
Proof. vm_compute. reflexivity. Qed.
Print Assumptions color_distinct_injective_partial.
Print Assumptions color_distinct_low_root_refuted.
