(** Colour lemmas in the shape the property theorems need. *)
Require Import ZArith QArith Qround Qabs List Ascii String Bool Lia Lqa ZifyBool Qfield.
Require Import Verif.Base Verif.Text_Spec Verif.Text_Proofs Verif.Color_Model Verif.Color_Spec
  Verif.Color_Proofs Verif.Color_Proofs2 Verif.Color_Proofs3.
Import ListNotations.
Open Scope Z_scope.

(** ** Setters *)
Lemma alpha_shift : forall v, get_alpha v = Z.land (Z.shiftr v 0) 255.
Proof. intros. rewrite Z.shiftr_0_r. reflexivity. Qed.

Lemma set_chan_lemma : forall v c k, byte c -> k = 0 \/ k = 8 \/ k = 16 \/ k = 24 ->
  let v' := Z.lor (Z.land v (Z.lnot (Z.shiftl 255 k))) (Z.shiftl c k) in
  get_red v' = (if 24 =? k then c else get_red v) /\
  get_green v' = (if 16 =? k then c else get_green v) /\
  get_blue v' = (if 8 =? k then c else get_blue v) /\
  get_alpha v' = (if 0 =? k then c else get_alpha v).
Proof.
  intros v c k B K v'. rewrite !alpha_shift. unfold v', get_red, get_green, get_blue.
  repeat split; apply chan_set; auto; lia.
Qed.

Lemma set_red_lemma : forall v q, exists v', set_red (Some v) q = Ok (Some v') /\
  saturates q (get_red v') /\ get_green v' = get_green v /\ get_blue v' = get_blue v /\ get_alpha v' = get_alpha v.
Proof.
  intros. eexists. split; [reflexivity|].
  pose proof (set_chan_lemma v (crimp q) 24 (crimp_byte q) ltac:(auto)) as (A & B & C & D).
  cbn [Z.eqb Pos.eqb] in *. change (Z.shiftl 255 24) with 0xFF000000 in *.
  rewrite A, B, C, D. split; [apply crimp_saturates | auto].
Qed.
Lemma set_green_lemma : forall v q, exists v', set_green (Some v) q = Ok (Some v') /\
  saturates q (get_green v') /\ get_red v' = get_red v /\ get_blue v' = get_blue v /\ get_alpha v' = get_alpha v.
Proof.
  intros. eexists. split; [reflexivity|].
  pose proof (set_chan_lemma v (crimp q) 16 (crimp_byte q) ltac:(auto)) as (A & B & C & D).
  cbn [Z.eqb Pos.eqb] in *. change (Z.shiftl 255 16) with 0xFF0000 in *.
  rewrite A, B, C, D. split; [apply crimp_saturates | auto].
Qed.
Lemma set_blue_lemma : forall v q, exists v', set_blue (Some v) q = Ok (Some v') /\
  saturates q (get_blue v') /\ get_red v' = get_red v /\ get_green v' = get_green v /\ get_alpha v' = get_alpha v.
Proof.
  intros. eexists. split; [reflexivity|].
  pose proof (set_chan_lemma v (crimp q) 8 (crimp_byte q) ltac:(auto)) as (A & B & C & D).
  cbn [Z.eqb Pos.eqb] in *. change (Z.shiftl 255 8) with 0xFF00 in *.
  rewrite A, B, C, D. split; [apply crimp_saturates | auto].
Qed.
Lemma set_alpha_lemma : forall v q, exists v', set_alpha (Some v) q = Ok (Some v') /\
  saturates q (get_alpha v') /\ get_red v' = get_red v /\ get_green v' = get_green v /\ get_blue v' = get_blue v.
Proof.
  intros. eexists. split; [reflexivity|].
  pose proof (set_chan_lemma v (crimp q) 0 (crimp_byte q) ltac:(auto)) as (A & B & C & D).
  cbn [Z.eqb Pos.eqb] in *. change (Z.shiftl 255 0) with 0xFF in *. rewrite !Z.shiftl_0_r in *.
  rewrite A, B, C, D. split; [apply crimp_saturates | auto].
Qed.
Lemma set_opacity_lemma : forall v q, exists v', set_opacity (Some v) q = Ok (Some v') /\
  alpha_byte q (get_alpha v') /\ get_red v' = get_red v /\ get_green v' = get_green v /\ get_blue v' = get_blue v.
Proof.
  intros. unfold set_opacity. cbn iota.
  destruct (set_alpha_lemma v (inject_Z (crimp (inject_Z (Qround_even (q * 255)))))) as (v' & E & S & R).
  exists v'. split; [exact E|]. split; [|exact R].
  assert (SS : get_alpha v' = crimp (inject_Z (Qround_even (q * 255)))).
  { pose proof (crimp_byte (inject_Z (Qround_even (q * 255)))) as B. unfold byte in B.
    set (n := crimp _) in *. destruct S as (S1 & S2 & S3).
    destruct S3 as [S3 S4].
    - change 0%Q with (inject_Z 0). rewrite <- Zle_Qle. lia.
    - change 255%Q with (inject_Z 255). rewrite <- Zle_Qle. lia.
    - change 1%Q with (inject_Z 1) in S4. rewrite <- inject_Z_plus in S4.
      rewrite <- Zle_Qle in S3. rewrite <- Zlt_Qlt in S4. lia. }
  rewrite SS, crimp_inject.
  pose proof (round_nearest (q * 255)) as N. set (n := Qround_even (q * 255)) in *.
  unfold alpha_byte.
  destruct (Qlt_le_dec q 0); [|destruct (Qlt_le_dec 1 q)].
  - exists 0%Q. split. { unfold unit_clamp. repeat split; intros; lra. }
    assert (n <= 0). { destruct N as (N1 & _). assert (n < 1); [|lia]. rewrite Zlt_Qlt. change (inject_Z 1) with 1%Q. lra. }
    unfold clamp255. replace (Z.max 0 (Z.min 255 n)) with 0 by lia.
    unfold nearest. change (inject_Z 0) with 0%Q. repeat split; lra.
  - exists 1%Q. split. { unfold unit_clamp. repeat split; intros; lra. }
    assert (255 <= n). { destruct N as (_ & N2 & _). assert (254 < n); [|lia]. rewrite Zlt_Qlt. change (inject_Z 254) with 254%Q. lra. }
    unfold clamp255. replace (Z.max 0 (Z.min 255 n)) with 255 by lia.
    unfold nearest. change (inject_Z 255) with 255%Q. repeat split; lra.
  - exists q. split. { unfold unit_clamp. repeat split; intros; lra. }
    replace (clamp255 n) with n; auto.
    destruct N as (N1 & N2 & _). 
    assert (-1 < n). { rewrite Zlt_Qlt. change (inject_Z (-1)) with (-1)%Q. lra. }
    assert (n < 256). { rewrite Zlt_Qlt. change (inject_Z 256) with 256%Q. lra. }
    unfold clamp255. lia.
Qed.

(** ** Packed views *)
Lemma get_argb_arith : forall v, get_argb v = pack_argb (unpack v).
Proof.
  intros. unfold get_argb. rewrite Z.lor_comm.
  rewrite lor_shiftl_add; try lia.
  - rewrite get_alpha_arith. change 0xFFFFFF with (Z.ones 24). rewrite Z.land_ones, Z.shiftr_div_pow2 by lia.
    unfold pack_argb, unpack; cbn [cR cG cB cA]. Z.to_euclidean_division_equations; lia.
  - change 0xFFFFFF with (Z.ones 24). rewrite Z.land_ones by lia. apply Z.mod_pos_bound. lia.
Qed.
Lemma set_argb_arith : forall n, set_argb n = ((n mod 2^24) * 2^8 + (n / 2^24) mod 256).
Proof.
  intros. unfold set_argb.
  replace (Z.land (Z.shiftl n 8) 0xFFFFFF00) with (Z.shiftl (Z.land n 0xFFFFFF) 8).
  2:{ change 0xFFFFFF00 with (Z.shiftl 0xFFFFFF 8). rewrite Z.shiftl_land. reflexivity. }
  rewrite land255. rewrite lor_shiftl_add; try lia.
  - change 0xFFFFFF with (Z.ones 24). rewrite Z.land_ones, Z.shiftr_div_pow2 by lia. reflexivity.
  - change (2^8) with 256. apply Z.mod_pos_bound. lia.
Qed.
Lemma argb_roundtrip : forall n, 0 <= n < 2^32 -> get_argb (set_argb n) = n.
Proof.
  intros n H. rewrite get_argb_arith, set_argb_arith. unfold pack_argb, unpack; cbn [cR cG cB cA].
  Z.to_euclidean_division_equations; lia.
Qed.
Lemma argb_rebuild : forall v, set_argb (get_argb v) = pack (unpack v).
Proof.
  intros v. rewrite set_argb_arith, get_argb_arith. unfold pack, pack_argb, unpack; cbn [cR cG cB cA].
  Z.to_euclidean_division_equations; lia.
Qed.
Lemma rgb_roundtrip : forall n, get_rgb (set_rgb n) = n /\ get_alpha (set_rgb n) = 255.
Proof.
  intros n. unfold set_rgb, get_rgb. rewrite lor_shiftl_add by lia.
  rewrite get_alpha_arith, Z.shiftr_div_pow2 by lia. unfold unpack; cbn [cA].
  Z.to_euclidean_division_equations; lia.
Qed.
Lemma set_rgb_channels : forall n, 0 <= n < 2^24 ->
  unpack (set_rgb n) = mkRGBA (n / 2^16) ((n / 2^8) mod 256) (n mod 256) 255.
Proof.
  intros n H. unfold set_rgb. rewrite lor_shiftl_add by lia. unfold unpack.
  f_equal; Z.to_euclidean_division_equations; lia.
Qed.

(** ** Equality *)
Lemma color_eq_equiv :
  (forall a, color_eq a a = true) /\ (forall a b, color_eq a b = color_eq b a) /\
  (forall a b c, color_eq a b = true -> color_eq b c = true -> color_eq a c = true).
Proof.
  repeat split.
  - intros [v|]; simpl; auto. apply Z.eqb_refl.
  - intros [v|] [w|]; simpl; auto. apply Z.eqb_sym.
  - intros [v|] [w|] [x|]; simpl; auto; try discriminate. rewrite !Z.eqb_eq. congruence.
Qed.

(** ** Functional notation *)
Lemma opacity_lit : forall o : option (list ascii * lit * list ascii), match o with None => True | Some (_, l4, _) => lit_ok l4 end ->
  (opacity_of (match o with None => None | Some (_, l4, _) => Some (fnum_of l4) end)
   == match o with None => 1 | Some (_, l4, _) => lit_val l4 end)%Q.
Proof. intros [[[w l] w']|] H; simpl; [apply fnum_val_lit; auto | reflexivity]. Qed.

Lemma opt_ok_lit : forall o, opt_ok o -> match o with None => True | Some (_, l4, _) => lit_ok l4 end.
Proof. intros [[[? ?] ?]|]; simpl; intuition. Qed.

Lemma alpha_byte_Qeq : forall o o' a, (o == o')%Q -> alpha_byte o a -> alpha_byte o' a.
Proof.
  intros o o' a E (u & (U1 & U2 & U3) & N). exists u. split; auto.
  unfold unit_clamp. repeat split; intros; [apply U1 | apply U2 | rewrite <- E; apply U3]; lra.
Qed.

Lemma int_lit_text : forall s ds, lit_text (mkLit s ds [] None) = sgn_text s ++ dtext ds.
Proof. intros. unfold lit_text. simpl. rewrite !app_nil_r. reflexivity. Qed.
Lemma int_lit_ok : forall s ds, Forall is_dig ds -> ds <> [] -> lit_ok (mkLit s ds [] None).
Proof. intros. unfold lit_ok; simpl. auto. Qed.

Lemma rgb_text_lemma : forall wa w1 s1 d1 w1' w2 s2 d2 w2' w3 s3 d3 w3' o tail,
  Forall wsp w1 -> Forall wsp w1' -> Forall wsp w2 -> Forall wsp w2' -> Forall wsp w3 -> Forall wsp w3' ->
  Forall is_dig d1 -> d1 <> [] -> Forall is_dig d2 -> d2 <> [] -> Forall is_dig d3 -> d3 <> [] -> opt_ok o ->
  exists a, alpha_byte (opt_val o) a /\
  parse (cfun_text (T "rgb") wa (int_arg w1 s1 d1 w1') (int_arg w2 s2 d2 w2') (int_arg w3 s3 d3 w3') (opt_text o) tail)
  = Ok (Some (pack (mkRGBA (clamp255 (sgn_z s1 * dval d1)) (clamp255 (sgn_z s2 * dval d2)) (clamp255 (sgn_z s3 * dval d3)) a))).
Proof.
  intros. unfold parse, match_rgb. rewrite cfun_text_not_none, cfun_text_not_hex. unfold int_arg, opt_text.
  rewrite match_cfun_text by (auto using int_lit_ok).
  unfold parse_color_rgb. cbn [cf_1 cf_2 cf_3 cf_4 fst]. rewrite !int_lit_text, !py_int10_text by auto. cbn [rmap rbind].
  match goal with |- context [rgb_to_int ?r ?g ?b ?o] => destruct (rgb_to_int_spec r g b o) as (a & A & B & E) end.
  exists a. split.
  - eapply alpha_byte_Qeq; [|exact A]. apply opacity_lit, opt_ok_lit; auto.
  - rewrite E, !crimp_inject. reflexivity.
Qed.

Lemma round_clamp : forall q, crimp (inject_Z (Qround_even q)) = clamp255 (Qround_even q).
Proof. intros. apply crimp_inject. Qed.

Lemma nearest_Qeq : forall a b n, (a == b)%Q -> nearest a n -> nearest b n.
Proof. intros a b n E (A & B & C). unfold nearest. rewrite <- E. auto. Qed.

Lemma rgbp_text_lemma : forall wa w1 l1 w1' w2 l2 w2' w3 l3 w3' o tail,
  Forall wsp w1 -> Forall wsp w1' -> Forall wsp w2 -> Forall wsp w2' -> Forall wsp w3 -> Forall wsp w3' ->
  lit_ok l1 -> lit_ok l2 -> lit_ok l3 -> opt_ok o ->
  exists a n1 n2 n3, alpha_byte (opt_val o) a /\
    nearest (lit_val l1 * (255#100)) n1 /\ nearest (lit_val l2 * (255#100)) n2 /\ nearest (lit_val l3 * (255#100)) n3 /\
  parse (cfun_text (T "rgb") wa (arg_text w1 l1 ["%"%char] w1') (arg_text w2 l2 ["%"%char] w2') (arg_text w3 l3 ["%"%char] w3') (opt_text o) tail)
  = Ok (Some (pack (mkRGBA (clamp255 n1) (clamp255 n2) (clamp255 n3) a))).
Proof.
  intros. unfold parse. rewrite cfun_text_not_none, cfun_text_not_hex.
  rewrite match_rgb_percent_none by auto. unfold match_rgbp, percent, opt_text.
  change (T "%") with ["%"%char].
  rewrite match_cfun_text by auto.
  unfold parse_color_rgbp. cbn [cf_1 cf_2 cf_3 cf_4 snd].
  match goal with |- context [rgb_to_int ?r ?g ?b ?o] => destruct (rgb_to_int_spec r g b o) as (a & A & B & E) end.
  exists a. eexists _, _, _. split; [eapply alpha_byte_Qeq; [|exact A]; apply opacity_lit, opt_ok_lit; auto|].
  split; [|split; [|split]].
  4: rewrite E, !round_clamp; reflexivity.
  all: eapply nearest_Qeq; [|apply round_nearest]; rewrite fnum_val_lit by auto; unfold Qdiv; reflexivity.
Qed.

Lemma clamp01_spec : forall q, unit_clamp q (clamp01 q) /\ (0 <= clamp01 q <= 1)%Q.
Proof. intros. unfold unit_clamp, clamp01. repeat split; intros; repeat qcase; lra. Qed.
Lemma unit_clamp_Qeq : forall a b c, (a == b)%Q -> unit_clamp a c -> unit_clamp b c.
Proof. intros a b c E (A & B & C). unfold unit_clamp. repeat split; intros; [apply A|apply B|rewrite <- E; apply C]; lra. Qed.
Lemma saturates_Qeq : forall a b n, (a == b)%Q -> saturates a n -> saturates b n.
Proof. intros a b n E (A & B & C). unfold saturates. rewrite <- E. auto. Qed.

(** What hsl() text evaluates to. *)
Lemma hsl_parse : forall wa w1 l1 w1' w2 l2 w2' w3 l3 w3' o tail,
  Forall wsp w1 -> Forall wsp w1' -> Forall wsp w2 -> Forall wsp w2' -> Forall wsp w3 -> Forall wsp w3' ->
  lit_ok l1 -> lit_ok l2 -> lit_ok l3 -> opt_ok o ->
  exists a h s l, alpha_byte (opt_val o) a /\ byte a /\ (h == lit_val l1 / 360)%Q /\
    unit_clamp (lit_val l2 / 100) s /\ unit_clamp (lit_val l3 / 100) l /\ (0 <= s <= 1)%Q /\ (0 <= l <= 1)%Q /\
  parse (cfun_text (T "hsl") wa (arg_text w1 l1 [] w1') (arg_text w2 l2 ["%"%char] w2') (arg_text w3 l3 ["%"%char] w3') (opt_text o) tail)
  = let '(r, g, b) := hsl_to_rgbq h s l in
    Ok (Some (pack (mkRGBA (crimp r) (crimp g) (crimp b) a))).
Proof.
  intros. unfold parse. rewrite cfun_text_not_none, cfun_text_not_hex.
  unfold match_rgb, match_rgbp, match_hsl. rewrite !rgb_prefix_not_hsl.
  unfold percent, opt_text. change (T "%") with ["%"%char].
  rewrite match_cfun_text by auto.
  unfold parse_color_hsl, hsl_to_int. cbn [cf_1 cf_2 cf_3 cf_4 snd].
  match goal with |- context [hsl_to_rgbq ?h ?s ?l] => destruct (hsl_to_rgbq h s l) as [[r g] b] eqn:R end.
  match goal with |- context [rgb_to_int ?r ?g ?b ?o] => destruct (rgb_to_int_spec r g b o) as (a & A & B & E) end.
  exists a. eexists _, _, _. split; [eapply alpha_byte_Qeq; [|exact A]; apply opacity_lit, opt_ok_lit; auto|].
  split; [exact B|].
  split; [|split; [|split; [|split; [|split]]]].
  6: rewrite R, E; reflexivity.
  4,5: apply clamp01_spec.
  - rewrite fnum_val_lit by auto; reflexivity.
  - eapply unit_clamp_Qeq; [|apply clamp01_spec]. rewrite fnum_val_lit by auto; reflexivity.
  - eapply unit_clamp_Qeq; [|apply clamp01_spec]. rewrite fnum_val_lit by auto; reflexivity.
Qed.

Lemma hsl_text_css : forall wa w1 l1 w1' w2 l2 w2' w3 l3 w3' o tail,
  Forall wsp w1 -> Forall wsp w1' -> Forall wsp w2 -> Forall wsp w2' -> Forall wsp w3 -> Forall wsp w3' ->
  lit_ok l1 -> lit_ok l2 -> lit_ok l3 -> opt_ok o ->
  (-240 <= lit_val l1)%Q -> (lit_val l1 <= 600)%Q ->
  exists c h s l, rgba_ok c /\ alpha_byte (opt_val o) (cA c) /\ (h * 360 == lit_val l1)%Q /\
    unit_clamp (lit_val l2 / 100) s /\ unit_clamp (lit_val l3 / 100) l /\
    saturates (255 * css_hsl_channel 0 h s l) (cR c) /\
    saturates (255 * css_hsl_channel 8 h s l) (cG c) /\
    saturates (255 * css_hsl_channel 4 h s l) (cB c) /\
  parse (cfun_text (T "hsl") wa (arg_text w1 l1 [] w1') (arg_text w2 l2 ["%"%char] w2') (arg_text w3 l3 ["%"%char] w3') (opt_text o) tail)
  = Ok (Some (pack c)).
Proof.
  intros. destruct (hsl_parse wa w1 l1 w1' w2 l2 w2' w3 l3 w3' o tail) as (a & h & s & l & A & Ba & Hh & S & L & S01 & L01 & E); auto.
  assert (HH : (-(2#3) <= h)%Q /\ (h <= 5#3)%Q).
  { rewrite Hh. split; [apply Qle_shift_div_l | apply Qle_shift_div_r]; try reflexivity; lra. }
  pose proof (hsl_css_lemma h s l (proj1 HH) (proj2 HH) S01 L01) as C.
  destruct (hsl_to_rgbq h s l) as [[r g] b]. destruct C as (C1 & C2 & C3).
  exists (mkRGBA (crimp r) (crimp g) (crimp b) a), h, s, l. cbn [cR cG cB cA].
  split. { unfold rgba_ok; cbn. auto using crimp_byte. }
  split; [exact A|]. split. { rewrite Hh. field. }
  split; [exact S|]. split; [exact L|].
  split; [eapply saturates_Qeq; [exact C1|apply crimp_saturates]|].
  split; [eapply saturates_Qeq; [exact C2|apply crimp_saturates]|].
  split; [eapply saturates_Qeq; [exact C3|apply crimp_saturates]|].
  exact E.
Qed.

Lemma hsl_text_range : forall wa w1 l1 w1' w2 l2 w2' w3 l3 w3' o tail,
  Forall wsp w1 -> Forall wsp w1' -> Forall wsp w2 -> Forall wsp w2' -> Forall wsp w3 -> Forall wsp w3' ->
  lit_ok l1 -> lit_ok l2 -> lit_ok l3 -> opt_ok o ->
  exists c, rgba_ok c /\
    ((lit_val l2 <= 0)%Q -> cR c = cG c /\ cG c = cB c) /\
    ((lit_val l3 <= 0)%Q -> cR c = 0 /\ cG c = 0 /\ cB c = 0) /\
    ((100 <= lit_val l3)%Q -> cR c = 255 /\ cG c = 255 /\ cB c = 255) /\
  parse (cfun_text (T "hsl") wa (arg_text w1 l1 [] w1') (arg_text w2 l2 ["%"%char] w2') (arg_text w3 l3 ["%"%char] w3') (opt_text o) tail)
  = Ok (Some (pack c)).
Proof.
  intros. destruct (hsl_parse wa w1 l1 w1' w2 l2 w2' w3 l3 w3' o tail) as (a & h & s & l & A & Ba & Hh & S & L & S01 & L01 & E); auto.
  destruct (hsl_to_rgbq h s l) as [[r g] b] eqn:R.
  exists (mkRGBA (crimp r) (crimp g) (crimp b) a). cbn [cR cG cB cA].
  split. { unfold rgba_ok; cbn. auto using crimp_byte. }
  assert (D : forall x, (x <= 0)%Q -> (x / 100 <= 0)%Q). { intros. apply Qle_shift_div_r; [reflexivity|]; lra. }
  assert (D1 : forall x, (100 <= x)%Q -> (1 <= x / 100)%Q). { intros. apply Qle_shift_div_l; [reflexivity|]; lra. }
  destruct S as (S1 & S2 & S3). destruct L as (L1 & L2 & L3).
  split; [|split; [|split]].
  - intros K. rewrite hsl_grey in R by (apply S1, D, K). inversion R; subst. auto.
  - intros K. pose proof (hsl_black h s l (L1 (D _ K))) as B. rewrite R in B. destruct B as (B1 & B2 & B3).
    rewrite (crimp_Qeq _ _ B1), (crimp_Qeq _ _ B2), (crimp_Qeq _ _ B3). auto.
  - intros K. pose proof (hsl_white h s l (L2 (D1 _ K))) as B. rewrite R in B. destruct B as (B1 & B2 & B3).
    rewrite (crimp_Qeq _ _ B1), (crimp_Qeq _ _ B2), (crimp_Qeq _ _ B3). auto.
  - exact E.
Qed.

(** ** Compositing *)
Lemma mix_unit : forall x a1 y a2, byte a1 -> byte a2 -> a1 <> 0 ->
  (255 * pd_color (unit x) (unit a1) (unit y) (unit a2) == inject_Z (mixn x a1 y a2) / inject_Z (sumw a1 a2))%Q.
Proof.
  intros x a1 y a2 A1 A2 N. pose proof (sa_pos a1 a2 A1 A2 N) as SP.
  assert (NZ : ~ (inject_Z a1 * 255 + inject_Z a2 * (255 - inject_Z a1) == 0)%Q).
  { intros K. assert (Q1 : (inject_Z (a1 * 255 + a2 * (255 - a1)) == 0)%Q).
    { rewrite inject_Z_plus, !inject_Z_mult. unfold Z.sub. rewrite inject_Z_plus, inject_Z_opp. exact K. }
    change 0%Q with (inject_Z 0) in Q1. rewrite inject_Z_injective in Q1. lia. }
  unfold pd_color, pd_alpha, unit, mixn, sumw.
  rewrite !inject_Z_plus, !inject_Z_mult. unfold Z.sub. rewrite !inject_Z_plus, !inject_Z_opp.
  change (inject_Z 255) with 255%Q. field. split; auto.
  intros K. apply NZ. lra.
Qed.

Lemma over_lemma : forall v1 v2,
  (get_alpha v1 = 255 -> over (ACol (Some v1)) (ACol (Some v2)) = Ok (Some v1)) /\
  (get_alpha v1 = 0 -> over (ACol (Some v1)) (ACol (Some v2)) = Ok (Some v2)) /\
  (0 < get_alpha v1 < 255 -> exists c, over (ACol (Some v1)) (ACol (Some v2)) = Ok (Some (pack c)) /\ rgba_ok c /\
     saturates (255 * pd_color (unit (get_red v1)) (unit (get_alpha v1)) (unit (get_red v2)) (unit (get_alpha v2))) (cR c) /\
     saturates (255 * pd_color (unit (get_green v1)) (unit (get_alpha v1)) (unit (get_green v2)) (unit (get_alpha v2))) (cG c) /\
     saturates (255 * pd_color (unit (get_blue v1)) (unit (get_alpha v1)) (unit (get_blue v2)) (unit (get_alpha v2))) (cB c) /\
     nearest (255 * pd_alpha (unit (get_alpha v1)) (unit (get_alpha v2))) (cA c)).
Proof.
  intros v1 v2. unfold over. cbn [over_conv rbind]. unfold over_zz at 1 2.
  split; [|split].
  - intros ->. reflexivity.
  - intros ->. reflexivity.
  - intros R. destruct (over_general v1 v2) as (a & Ba & Na & E); try lia.
    eexists. split. { rewrite E. reflexivity. }
    cbn [cR cG cB cA].
    assert (N0 : get_alpha v1 <> 0) by lia.
    pose proof (sa_pos _ _ (byte_alpha v1) (byte_alpha v2) N0) as SP. fold (sumw (get_alpha v1) (get_alpha v2)) in SP.
    assert (CR : forall x y, byte x -> byte y -> saturates (255 * pd_color (unit x) (unit (get_alpha v1)) (unit y) (unit (get_alpha v2))) (mixn x (get_alpha v1) y (get_alpha v2) / sumw (get_alpha v1) (get_alpha v2))).
    { intros x y X Y. eapply saturates_Qeq. { symmetry. apply mix_unit; auto using byte_alpha. }
      rewrite <- crimp_ratio; auto using crimp_saturates, mix_range, byte_alpha. }
    assert (MB : forall x y, byte x -> byte y -> byte (mixn x (get_alpha v1) y (get_alpha v2) / sumw (get_alpha v1) (get_alpha v2))).
    { intros x y X Y. pose proof (mix_bounds x (get_alpha v1) y (get_alpha v2) X Y (byte_alpha v1) (byte_alpha v2) N0). unfold byte in *. lia. }
    split. { unfold rgba_ok; cbn. auto using byte_red, byte_green, byte_blue. }
    split; [apply CR; [apply byte_red|apply byte_red]|]. split; [apply CR; [apply byte_green|apply byte_green]|].
    split; [apply CR; [apply byte_blue|apply byte_blue]|].
    eapply nearest_Qeq; [|exact Na].
    unfold pd_alpha, unit, sumw. rewrite inject_Z_plus, !inject_Z_mult. unfold Z.sub. rewrite inject_Z_plus, inject_Z_opp.
    change (inject_Z 255) with 255%Q. field.
Qed.

Lemma nearest_ge : forall n d a k, nearest (inject_Z n / inject_Z d) a -> 0 < d -> k * d <= n -> k <= a.
Proof.
  intros n d a k (N1 & N2 & _) D K.
  assert (DQ : (0 < inject_Z d)%Q) by (change 0%Q with (inject_Z 0); rewrite <- Zlt_Qlt; auto).
  assert (KQ : (inject_Z k <= inject_Z n / inject_Z d)%Q).
  { apply Qle_shift_div_l; auto. rewrite <- inject_Z_mult, <- Zle_Qle. auto. }
  assert (k < a + 1); [|lia]. rewrite Zlt_Qlt, inject_Z_plus. change (inject_Z 1) with 1%Q. lra.
Qed.

Lemma over_bounds : forall v1 v2 c, over (ACol (Some v1)) (ACol (Some v2)) = Ok c -> exists v, c = Some v /\
  get_alpha v1 <= get_alpha v /\ get_alpha v2 <= get_alpha v /\
  Z.min (get_red v1) (get_red v2) <= get_red v <= Z.max (get_red v1) (get_red v2) /\
  Z.min (get_green v1) (get_green v2) <= get_green v <= Z.max (get_green v1) (get_green v2) /\
  Z.min (get_blue v1) (get_blue v2) <= get_blue v <= Z.max (get_blue v1) (get_blue v2).
Proof.
  intros v1 v2 c H. unfold over in H. cbn [over_conv rbind] in H. inversion H; subst; clear H.
  eexists. split; [reflexivity|].
  pose proof (byte_alpha v1) as A1. pose proof (byte_alpha v2) as A2. 
  destruct (Z.eq_dec (get_alpha v1) 255) as [E|E]; [|destruct (Z.eq_dec (get_alpha v1) 0) as [E0|E0]].
  - unfold over_zz. rewrite E. cbn [Z.eqb Pos.eqb]. unfold byte in *. lia.
  - unfold over_zz. rewrite E0. cbn [Z.eqb]. unfold byte in *. lia.
  - destruct (over_general v1 v2 E E0) as (a & Ba & Na & EQ). rewrite EQ.
    set (c := mkRGBA _ _ _ _).
    assert (OK : rgba_ok c).
    { unfold rgba_ok, c; cbn [cR cG cB cA].
      repeat split; try apply Ba; 
      match goal with |- context [mixn ?x ?p ?y ?q / _] => 
         pose proof (mix_bounds x p y q ltac:(apply byte_land) ltac:(apply byte_land) A1 A2 E0) as MB;
         pose proof (byte_land 0); unfold get_red, get_green, get_blue, byte in *;
         repeat match goal with |- context [Z.land ?u 255] => pose proof (byte_land u); generalize dependent (Z.land u 255); intros end; unfold byte in *; lia end. }
    rewrite (get_red_arith (pack c)), (get_green_arith (pack c)), (get_blue_arith (pack c)), (get_alpha_arith (pack c)), unpack_pack by auto.
    unfold c; cbn [cR cG cB cA].
    assert (SL := sumw_le _ _ A1 A2).
    split; [|split; [|split; [|split]]]; try (apply mix_bounds; auto; apply byte_land).
    + apply (nearest_ge _ 255 _ _ Na); try lia. unfold sumw, byte in *. nia.
    + apply (nearest_ge _ 255 _ _ Na); try lia. unfold sumw, byte in *. nia.
Qed.

(** ** Distance *)
Lemma ksq : forall k x, 0 <= k -> 0 <= k * x * x.
Proof. intros. rewrite <- Z.mul_assoc. apply Z.mul_nonneg_nonneg; auto. apply Z.square_nonneg. Qed.
Lemma dist_num_nonneg : forall v1 v2, 0 <= dist_num v1 v2.
Proof.
  intros. unfold dist_num. pose proof (byte_red v1). pose proof (byte_red v2). unfold byte in *.
  set (m := (get_red v1 + get_red v2) / 2). assert (0 <= m <= 255) by (unfold m; Z.to_euclidean_division_equations; lia).
  assert (0 <= (512 + m) * (get_red v1 - get_red v2) * (get_red v1 - get_red v2) / 256) by (apply Z.div_pos; [apply ksq; lia|lia]).
  pose proof (ksq 4 (get_green v1 - get_green v2)). pose proof (ksq (767 - m) (get_blue v1 - get_blue v2)). lia.
Qed.
Lemma distance_lemma : forall v1 v2,
  0 <= distance_sq v1 v2 /\ distance_sq v1 v2 = distance_sq v2 v1 /\ distance_sq v1 v1 = 0.
Proof.
  intros. rewrite !distance_num. repeat split.
  - apply Z.div_pos; [apply dist_num_nonneg | lia].
  - unfold dist_num. rewrite (Z.add_comm (get_red v1) (get_red v2)). f_equal. f_equal; [f_equal; [f_equal|]|]; ring.
  - unfold dist_num. rewrite !Z.sub_diag, !Z.mul_0_r. reflexivity.
Qed.
Lemma distance_zero_close : forall v1 v2, distance_sq v1 v2 = 0 ->
  get_blue v1 = get_blue v2 /\ Z.abs (get_green v1 - get_green v2) < 8 /\ Z.abs (get_red v1 - get_red v2) < 12.
Proof.
  intros v1 v2 H. rewrite distance_num in H.
  pose proof (dist_num_nonneg v1 v2) as NN.
  assert (L : dist_num v1 v2 < 256). { Z.to_euclidean_division_equations. lia. }
  unfold dist_num in L.
  pose proof (byte_red v1). pose proof (byte_red v2). unfold byte in *.
  set (m := (get_red v1 + get_red v2) / 2) in *. assert (M : 0 <= m <= 255) by (unfold m; Z.to_euclidean_division_equations; lia).
  set (r := get_red v1 - get_red v2) in *. set (g := get_green v1 - get_green v2) in *. set (b := get_blue v1 - get_blue v2) in *.
  assert (T1 : 0 <= (512 + m) * r * r / 256) by (apply Z.div_pos; [apply ksq; lia|lia]).
  assert (T2 := ksq 4 g ltac:(lia)). assert (T3 := ksq (767 - m) b ltac:(lia)).
  assert (B : b = 0) by nia.
  assert (G : -8 < g < 8) by nia.
  assert (R1 : (512 + m) * r * r < 256 * 256) by (Z.to_euclidean_division_equations; nia).
  assert (R : -12 < r < 12) by nia.
  repeat split; unfold b, g, r in *; lia.
Qed.

Lemma text_roundtrip_lemma : forall v, 0 <= v < 2^32 ->
  parse (hex v) = Ok (Some v) /\ parse (hexa v) = Ok (Some v) /\ parse (color_str (Some v)) = Ok (Some v).
Proof. intros v H. cbn [color_str]. rewrite hex_parse, hexa_parse, pack_unpack by auto. auto. Qed.
Lemma text_channels_lemma : forall v, exists w, parse (hex v) = Ok (Some w) /\ unpack w = unpack v.
Proof. intros v. exists (pack (unpack v)). split; [apply hex_parse | apply unpack_pack, unpack_ok]. Qed.
Lemma css_hex_lemma : forall (with_hash : bool) s c, css_hex s c ->
  parse ((if with_hash then ["#"%char] else []) ++ s) = Ok (Some (pack c)) /\ unpack (pack c) = c.
Proof.
  intros b s c H. split; [exact (hex_notation_lemma b s c H)|].
  apply unpack_pack. destruct (css_hex_props s c H) as (_ & _ & K). exact K.
Qed.
Lemma argb_rebuilds_lemma : forall v, unpack (set_argb (get_argb v)) = unpack v /\ get_argb v = pack_argb (unpack v).
Proof. intros v. rewrite argb_rebuild. split; [apply unpack_pack, unpack_ok | apply get_argb_arith]. Qed.
Lemma eq_none_lemma : forall c, color_eq c None = true <-> c = None.
Proof. intros [v|]; simpl; split; congruence. Qed.
Lemma aliceblue_lemma : exists n rgb c, In (n, rgb) svg11_keywords /\ parse (T n) = Ok (Some c) /\ c <> pack (opaque rgb).
Proof.
  exists "aliceblue"%string, 0xF0F8FF, 0xFAF8FFFF. split; [left; reflexivity|]. split; [reflexivity|].
  vm_compute. discriminate.
Qed.
Lemma zzz_unknown : forall n rgb, In (n, rgb) svg11_keywords -> ~ spelling (T n) (T "Zig zag").
Proof.
  intros n rgb I S. pose proof kw_check_all as K. rewrite forallb_forall in K. pose proof (K _ I) as K'.
  unfold kw_check in K'. rewrite !andb_true_iff in K'. destruct K' as [[[[K1 K2] K3] K4] K5].
  destruct (spelling_props _ _ S K1) as [E _]. 
  assert (X : forallb (fun e => negb (teqb (lower (remove_char " " (T "Zig zag"))) (T (fst e)))) svg11_keywords = true) by (vm_compute; reflexivity).
  rewrite forallb_forall in X. specialize (X _ I). cbn [fst] in X. rewrite E in X.
  rewrite (proj2 (teqb_true _ _) eq_refl) in X. discriminate.
Qed.
Lemma rgb_decimals_lemma : exists s, s = T "rgb(1.5,2,3)" /\ parse s = Err ValueError.
Proof. eexists. split; reflexivity. Qed.
Lemma over_text_lemma : exists s v c1, parse s = Ok (Some c1) /\ over (AStr s) (ACol (Some v)) = Err AttributeError.
Proof. exists (T "#ff000080"), 0xff, 0xff000080. split; reflexivity. Qed.
Lemma distance_zero_lemma : exists v1 v2, distance_sq v1 v2 = 0 /\ get_green v1 <> get_green v2.
Proof. exists 0x000000ff, 0x000700ff. split; [reflexivity|]. vm_compute. discriminate. Qed.
Lemma hsl_writeback_lemma : exists v v' v'' v''',
  set_hue (Some v) (get_hue v) = Ok (Some v') /\ unpack v' <> unpack v /\
  set_saturation (Some v) (get_saturation v) = Ok (Some v'') /\ unpack v'' <> unpack v /\
  set_lightness (Some v) (get_lightness v) = Ok (Some v''') /\ unpack v''' <> unpack v.
Proof.
  exists 0x0000ffff. eexists _, _, _. split; [vm_compute; reflexivity|]. split; [vm_compute; discriminate|].
  split; [vm_compute; reflexivity|]. split; [vm_compute; discriminate|]. split; [vm_compute; reflexivity|]. vm_compute; discriminate.
Qed.
Lemma hsl_wrap_lemma : exists c, parse (T "hsl(720,100%,50%)") = Ok (Some c) /\ c <> pack (mkRGBA 255 0 0 255)
  /\ parse (T "hsl(0,100%,50%)") = Ok (Some (pack (mkRGBA 255 0 0 255))).
Proof. eexists. split; [vm_compute; reflexivity|]. split; [vm_compute; discriminate|reflexivity]. Qed.
Lemma distinct_low_root : forall icbrt, icbrt 64 = 3 -> icbrt 29 = 3 -> distinct icbrt 64 = distinct icbrt 29.
Proof. intros icbrt A B. unfold distinct, pattern. rewrite A, B. reflexivity. Qed.
