(** Colour lemmas: HSL conversion and the distinct() sequence. *)
Require Import ZArith QArith Qround Qabs List Ascii String Bool Lia Lqa ZifyBool Qfield.
Require Import Verif.Base Verif.Text_Spec Verif.Text_Proofs Verif.Color_Model Verif.Color_Spec Verif.Color_Proofs Verif.Color_Proofs2.
Import ListNotations.
Open Scope Q_scope.

Lemma Qleb_false : forall a b, Qle_bool a b = false <-> b < a.
Proof.
  intros. split; intros H.
  - apply Qnot_le_lt. intros K. apply Qle_bool_iff in K. congruence.
  - destruct (Qle_bool a b) eqn:E; auto. apply Qle_bool_iff in E. lra.
Qed.
Ltac lcase := match goal with |- context [Qle_bool ?a ?b] =>
  let E := fresh "E" in destruct (Qle_bool a b) eqn:E; [apply Qle_bool_iff in E | apply Qleb_false in E] end.

Ltac qlra := unfold Qdiv in *; try change (/ 2) with (1#2) in *; try change (/ 6) with (1#6) in *;
  try change (/ 3) with (1#3) in *; try change (/ 12) with (1#12) in *; lra.

Lemma Qmod12_at : forall x (n : Z), inject_Z n * 12 <= x -> x < inject_Z n * 12 + 12 -> Qmod12 x == x - 12 * inject_Z n.
Proof.
  intros x n H1 H2. unfold Qmod12.
  rewrite (Qfloor_unique (x / 12) n). reflexivity.
  - apply Qle_shift_div_l; [reflexivity|]. lra.
  - apply Qlt_shift_div_r; [reflexivity|]. lra.
Qed.

Lemma qmin_cases : forall a b, (a <= b /\ qmin a b = a) \/ (b < a /\ qmin a b = b).
Proof. intros. unfold qmin. lcase; auto. Qed.
Lemma qmax_cases : forall a b, (a <= b /\ qmax a b = b) \/ (b < a /\ qmax a b = a).
Proof. intros. unfold qmax. lcase; auto. Qed.

(** One channel of the CSS formula on the hexagon position [vh]. *)
Definition tri (k : Q) : Q := qmax (-1) (qmin (qmin (k - 3) (9 - k)) 1).

Lemma qmin_Qeq : forall a b c d, a == b -> c == d -> qmin a c == qmin b d.
Proof. intros. unfold qmin. rewrite (Qle_bool_Qeq a b c d) by auto. destruct (Qle_bool b d); auto. Qed.
Lemma qmax_Qeq : forall a b c d, a == b -> c == d -> qmax a c == qmax b d.
Proof. intros. unfold qmax. rewrite (Qle_bool_Qeq a b c d) by auto. destruct (Qle_bool b d); auto. Qed.
Lemma tri_Qeq : forall a b, a == b -> tri a == tri b.
Proof.
  intros. unfold tri. apply qmax_Qeq; [reflexivity|]. apply qmin_Qeq; [|reflexivity].
  apply qmin_Qeq; lra.
Qed.

Lemma tri_pieces : forall k, 0 <= k -> k < 12 ->
  (k <= 2 -> tri k == -1) /\ (2 <= k <= 4 -> tri k == k - 3) /\ (4 <= k <= 8 -> tri k == 1)
     /\ (8 <= k <= 10 -> tri k == 9 - k) /\ (10 <= k -> tri k == -1).
Proof.
  intros k K0 K1. unfold tri. destruct (qmin_cases (k - 3) (9 - k)) as [[A ->]|[A ->]];
    match goal with |- context [qmin ?a ?b] => destruct (qmin_cases a b) as [[B ->]|[B ->]] end;
    match goal with |- context [qmax ?a ?b] => destruct (qmax_cases a b) as [[C ->]|[C ->]] end;
    repeat split; try intros [? ?]; intros; lra.
Qed.

Lemma hue2rgb_tri : forall l a vh x k, 0 <= vh -> vh <= 1 ->
  (k == 12 * vh - 4 \/ k == 12 * vh + 8 \/ k == 12 * vh - 16) -> 0 <= k < 12 -> x == vh ->
  (if Qltb (6 * x) 1 then (l - a) + ((l + a) - (l - a)) * 6 * x
  else if Qltb (2 * x) 1 then l + a
  else if Qltb (3 * x) 2 then (l - a) + ((l + a) - (l - a)) * ((2 # 3) - x) * 6
  else l - a) == l - a * tri k.
Proof.
  intros l a vh x k H0 H1 Hk [K0 K1] Hx.
  assert (K' := tri_pieces k K0 K1).
  assert (K : (k <= 2 /\ tri k == -1) \/ (2 <= k <= 4 /\ tri k == k - 3) \/ (4 <= k <= 8 /\ tri k == 1)
     \/ (8 <= k <= 10 /\ tri k == 9 - k) \/ (10 <= k /\ tri k == -1)).
  { destruct K' as (A & B & C & D & E).
    destruct (Qlt_le_dec k 2); [left; split; [lra|apply A; lra]|].
    destruct (Qlt_le_dec k 4); [right; left; split; [lra|apply B; lra]|].
    destruct (Qlt_le_dec k 8); [right; right; left; split; [lra|apply C; lra]|].
    destruct (Qlt_le_dec k 10); [right; right; right; left; split; [lra|apply D; lra]|].
    right; right; right; right; split; [lra|apply E; lra]. }
  assert (X : x == (k + 4) * (1#12) \/ x == (k - 8) * (1#12) \/ x == (k + 16) * (1#12)) by (destruct Hk as [Hk|[Hk|Hk]]; [left|right;left|right;right]; lra).
  destruct K as [[K ->]|[[K ->]|[[K ->]|[[K ->]|[K ->]]]]]; repeat qcase; try lra; destruct X as [X|[X|X]]; try lra; 
    try (rewrite X; field).
  all: try (assert (T2 : k == 10) by lra; assert (T3 : x == 1#6) by lra; rewrite ?T2, ?T3; ring).
  all: try (assert (T2 : k == 8) by lra; assert (T3 : x == 0) by lra; rewrite ?T2, ?T3; ring).
  all: try (assert (T2 : k == 2) by lra; assert (T3 : x == 1#2) by lra; rewrite ?T2, ?T3; ring).
  all: try (assert (T2 : k == 4) by lra; rewrite ?T2; ring).
  all: try (assert (T2 : k == 8) by lra; rewrite ?T2; ring).
  all: try ring.
Qed.

Lemma hue2rgb_css : forall l a vh y, -1 <= vh -> vh <= 2 -> (exists z : Z, y == 12 * vh - 4 + 12 * inject_Z z) ->
  hue_2_rgb (l - a) (l + a) vh == l - a * tri (Qmod12 y).
Proof.
  intros l a vh y H0 H1 [z Hz].
  set (u := (if Qltb vh 0 then vh + 1 else vh)).
  set (w := (if Qltb 1 u then u - 1 else u)).
  assert (W : 0 <= w <= 1 /\ exists m : Z, w == vh + inject_Z m).
  { unfold w, u. destruct (Qltb vh 0) eqn:E; [apply Qltb_true in E | apply Qltb_false in E].
    - qcase. { split; [lra|]. exists 0%Z. change (inject_Z 0) with 0. lra. } split; [lra|]. exists 1%Z. reflexivity.
    - qcase. { split; [lra|]. exists (-1)%Z. reflexivity. } split; [lra|]. exists 0%Z. change (inject_Z 0) with 0. lra. }
  destruct W as [[W0 W1] [m Hm]].
  assert (Y : y == 12 * w - 4 + 12 * inject_Z (z - m)).
  { unfold Z.sub. rewrite inject_Z_plus, inject_Z_opp. lra. }
  assert (KK : exists n : Z, Qmod12 y == y - 12 * inject_Z n /\ (n = z - m \/ n = z - m - 1)%Z /\ 0 <= Qmod12 y < 12).
  { destruct (Qltb (12 * w - 4) 0) eqn:E; [apply Qltb_true in E | apply Qltb_false in E].
    - exists (z - m - 1)%Z. assert (I : inject_Z (z - m - 1) == inject_Z (z - m) - 1).
      { unfold Z.sub at 1. rewrite inject_Z_plus. reflexivity. }
      assert (Q1 : Qmod12 y == y - 12 * inject_Z (z - m - 1)) by (apply Qmod12_at; lra).
      split; auto. split; auto. lra.
    - exists (z - m)%Z.
      assert (Q1 : Qmod12 y == y - 12 * inject_Z (z - m)) by (apply Qmod12_at; lra).
      split; auto. split; auto. lra. }
  destruct KK as (n & K1 & K2 & K3).
  unfold hue_2_rgb. fold u. fold w.
  apply (hue2rgb_tri l a w w (Qmod12 y)); auto; try reflexivity.
  rewrite K1, Y. destruct K2 as [->| ->].
  - left. ring.
  - right. left. unfold Z.sub at 2. rewrite inject_Z_plus. change (inject_Z (-(1))) with (-1). ring.
Qed.

Lemma Qeq_bool_Qeq : forall a b c d, a == b -> c == d -> Qeq_bool a c = Qeq_bool b d.
Proof.
  intros. destruct (Qeq_bool a c) eqn:E, (Qeq_bool b d) eqn:F; auto.
  - apply Qeq_bool_iff in E. apply Qeq_bool_neq in F. exfalso. apply F. lra.
  - apply Qeq_bool_iff in F. apply Qeq_bool_neq in E. exfalso. apply E. lra.
Qed.
Lemma hue_2_rgb_Qeq : forall a a' b b' c c', a == a' -> b == b' -> c == c' -> hue_2_rgb a b c == hue_2_rgb a' b' c'.
Proof.
  intros. unfold hue_2_rgb.
  set (u := if Qltb c 0 then c + 1 else c). set (u' := if Qltb c' 0 then c' + 1 else c').
  assert (U : u == u'). { unfold u, u'. rewrite (Qltb_Qeq c c' 0 0) by (auto; reflexivity). destruct (Qltb c' 0); lra. }
  set (w := if Qltb 1 u then u - 1 else u). set (w' := if Qltb 1 u' then u' - 1 else u').
  assert (W : w == w'). { unfold w, w'. rewrite (Qltb_Qeq 1 1 u u') by (auto; reflexivity). destruct (Qltb 1 u'); lra. }
  rewrite (Qltb_Qeq (6 * w) (6 * w') 1 1), (Qltb_Qeq (2 * w) (2 * w') 1 1), (Qltb_Qeq (3 * w) (3 * w') 2 2) by lra.
  destruct (Qltb (6 * w') 1), (Qltb (2 * w') 1), (Qltb (3 * w') 2); rewrite ?H, ?H0, ?W; reflexivity.
Qed.

Definition hsl_a (s l : Q) : Q := s * qmin l (1 - l).
Lemma hsl_v : forall s l, 0 <= l <= 1 ->
  (if Qltb l (1 # 2) then l * (1 + s) else (l + s) - (s * l)) == l + hsl_a s l.
Proof. intros s l H. unfold hsl_a, qmin. qcase; lcase; try lra; try ring. assert (l == 1 - l) by lra. assert (l == 1#2) by lra. rewrite H1. ring. Qed.

Lemma hsl_css_lemma : forall h s l, -(2#3) <= h -> h <= 5#3 -> 0 <= s <= 1 -> 0 <= l <= 1 ->
  let '(r, g, b) := hsl_to_rgbq h s l in
  r == 255 * css_hsl_channel 0 h s l /\ g == 255 * css_hsl_channel 8 h s l /\ b == 255 * css_hsl_channel 4 h s l.
Proof.
  intros h s l H0 H1 S L. unfold hsl_to_rgbq.
  destruct (Qeq_bool s 0) eqn:E.
  - apply Qeq_bool_iff in E. unfold css_hsl_channel. cbn zeta. rewrite E. repeat split; ring.
  - cbn zeta.
    set (v2 := if Qltb l (1 # 2) then l * (1 + s) else (l + s) - (s * l)).
    assert (V2 : v2 == l + hsl_a s l) by (apply hsl_v; auto).
    assert (V1 : 2 * l - v2 == l - hsl_a s l) by lra.
    rewrite !(hue_2_rgb_Qeq _ _ _ _ _ _ V1 V2 (Qeq_refl _)).
    rewrite (hue2rgb_css l (hsl_a s l) (h + (1#3)) (0 + 12 * h)) by (try lra; exists 0%Z; change (inject_Z 0) with 0; lra).
    rewrite (hue2rgb_css l (hsl_a s l) h (8 + 12 * h)) by (try lra; exists 1%Z; change (inject_Z 1) with 1; lra).
    rewrite (hue2rgb_css l (hsl_a s l) (h - (1#3)) (4 + 12 * h)) by (try lra; exists 1%Z; change (inject_Z 1) with 1; lra).
    unfold css_hsl_channel, hsl_a, tri. repeat split; reflexivity.
Qed.

(** Any hue: saturation 0, lightness 0, lightness 1. *)
Lemma hsl_grey : forall h s l, s == 0 -> hsl_to_rgbq h s l = (255 * l, 255 * l, 255 * l).
Proof. intros. unfold hsl_to_rgbq. apply Qeq_bool_iff in H. rewrite H. reflexivity. Qed.
Lemma hue_2_rgb_const : forall v1 v2 v vh, v1 == v -> v2 == v -> hue_2_rgb v1 v2 vh == v.
Proof.
  intros. unfold hue_2_rgb. cbn zeta.
  assert (v2 - v1 == 0) by lra.
  repeat match goal with |- context [if ?b then _ else _] => destruct b end; rewrite ?H1, ?H, ?H0; ring.
Qed.
Lemma hsl_black : forall h s l, l == 0 -> let '(r, g, b) := hsl_to_rgbq h s l in r == 0 /\ g == 0 /\ b == 0.
Proof.
  intros h s l L. unfold hsl_to_rgbq. destruct (Qeq_bool s 0) eqn:E. { repeat split; lra. }
  cbn zeta. set (v2 := if Qltb l (1#2) then _ else _).
  assert (v2 == 0). { unfold v2. qcase; try lra. rewrite L. ring. }
  repeat split; rewrite (hue_2_rgb_const _ _ 0); try lra; reflexivity.
Qed.
Lemma hsl_white : forall h s l, l == 1 -> let '(r, g, b) := hsl_to_rgbq h s l in r == 255 /\ g == 255 /\ b == 255.
Proof.
  intros h s l L. unfold hsl_to_rgbq. destruct (Qeq_bool s 0) eqn:E. { repeat split; lra. }
  cbn zeta. set (v2 := if Qltb l (1#2) then _ else _).
  assert (v2 == 1). { unfold v2. qcase; try lra. rewrite L. ring. }
  repeat split; rewrite (hue_2_rgb_const _ _ 1); try lra; reflexivity.
Qed.

(** ** RGB to HSL and back *)
Lemma mm_facts : forall r g b, let mn := Qmin3 r g b in let mx := Qmax3 r g b in
  mn <= r /\ mn <= g /\ mn <= b /\ r <= mx /\ g <= mx /\ b <= mx /\
  (mn == r \/ mn == g \/ mn == b) /\ (mx == r \/ mx == g \/ mx == b).
Proof.
  intros. unfold mn, mx, Qmin3, Qmax3. clear mn mx. cbv zeta.
  destruct (Qltb g r) eqn:E1; [apply Qltb_true in E1 | apply Qltb_false in E1];
  destruct (Qltb r g) eqn:E2; [apply Qltb_true in E2 | apply Qltb_false in E2 | apply Qltb_true in E2 | apply Qltb_false in E2];
  repeat qcase; repeat split; first [lra | left; lra | right; left; lra | right; right; lra].
Qed.

Definition sat_of (mn mx : Q) : Q :=
  if Qeq_bool mx mn then 0 else if Qltb (mx + mn) 1 then (mx - mn) / (mx + mn) else (mx - mn) / (2 - mx - mn).

Lemma Qeq_bool_lt : forall a b, a < b -> Qeq_bool b a = false.
Proof. intros. destruct (Qeq_bool b a) eqn:E; auto. apply Qeq_bool_iff in E. lra. Qed.

Lemma sat_nz : forall mn mx, 0 <= mn -> mn < mx -> mx <= 1 -> Qeq_bool (sat_of mn mx) 0 = false.
Proof.
  intros. unfold sat_of. rewrite (Qeq_bool_lt mn mx) by auto.
  assert (G : forall x y, 0 < x -> 0 < y -> Qeq_bool (x / y) 0 = false).
  { intros. apply Qeq_bool_lt. apply Qlt_shift_div_l; auto; lra. }
  qcase; apply G; lra.
Qed.

Lemma v2_is_max : forall mn mx ll, 0 <= mn -> mn < mx -> mx <= 1 -> ll == (mx + mn) * (1#2) ->
  (if Qltb ll (1 # 2) then ll * (1 + sat_of mn mx) else (ll + sat_of mn mx) - (sat_of mn mx * ll)) == mx.
Proof.
  intros mn mx ll H H0 H1 L. unfold sat_of. rewrite (Qeq_bool_lt mn mx) by auto.
  destruct (Qltb (mx + mn) 1) eqn:E; [apply Qltb_true in E | apply Qltb_false in E]; qcase; try lra;
    rewrite L; field; intros K; lra.
Qed.

(** The CSS channel wave at the three channel offsets, for a hue within one sextant of a primary. *)
Lemma wave0 : forall t y (z : Z), -1 <= t -> t <= 1 -> y == 2 * t + 12 * inject_Z z -> tri (Qmod12 y) == -1.
Proof.
  intros t y z T1 T2 Y. destruct (Qlt_le_dec t 0).
  - assert (I : inject_Z (z - 1) == inject_Z z - 1) by (unfold Z.sub; rewrite inject_Z_plus; reflexivity).
    assert (M : Qmod12 y == y - 12 * inject_Z (z - 1)) by (apply Qmod12_at; lra).
    assert (M' : Qmod12 y == 2 * t + 12) by lra. rewrite (tri_Qeq _ _ M').
    destruct (tri_pieces (2 * t + 12) ltac:(lra) ltac:(lra)) as (A & B & C & D & E). apply E; lra.
  - assert (M : Qmod12 y == y - 12 * inject_Z z) by (apply Qmod12_at; lra).
    assert (M' : Qmod12 y == 2 * t) by lra. rewrite (tri_Qeq _ _ M').
    destruct (tri_pieces (2 * t) ltac:(lra) ltac:(lra)) as (A & B & C & D & E). apply A; lra.
Qed.
Lemma wave8 : forall t y (z : Z), -1 <= t -> t <= 1 -> y == 8 + 2 * t + 12 * inject_Z z ->
  (t <= 0 -> tri (Qmod12 y) == 1) /\ (0 <= t -> tri (Qmod12 y) == 1 - 2 * t).
Proof.
  intros t y z T1 T2 Y.
  assert (M : Qmod12 y == y - 12 * inject_Z z) by (apply Qmod12_at; lra).
  assert (M' : Qmod12 y == 8 + 2 * t) by lra. rewrite (tri_Qeq _ _ M').
  destruct (tri_pieces (8 + 2 * t) ltac:(lra) ltac:(lra)) as (A & B & C & D & E).
  split; intros; [apply C; lra | rewrite D; lra].
Qed.
Lemma wave4 : forall t y (z : Z), -1 <= t -> t <= 1 -> y == 4 + 2 * t + 12 * inject_Z z ->
  (0 <= t -> tri (Qmod12 y) == 1) /\ (t <= 0 -> tri (Qmod12 y) == 1 + 2 * t).
Proof.
  intros t y z T1 T2 Y.
  assert (M : Qmod12 y == y - 12 * inject_Z z) by (apply Qmod12_at; lra).
  assert (M' : Qmod12 y == 4 + 2 * t) by lra. rewrite (tri_Qeq _ _ M').
  destruct (tri_pieces (4 + 2 * t) ltac:(lra) ltac:(lra)) as (A & B & C & D & E).
  split; intros; [apply C; lra | rewrite B; lra].
Qed.

(** The three channels for a hue near the primary whose channel is the maximum [p]; [q] and [s] are
    the next two in the order red, green, blue. *)
Lemma three : forall l a t p q s y0 y8 y4 (z0 z8 z4 : Z), 0 < a ->
  p == l + a -> l - a <= q -> q <= l + a -> l - a <= s -> s <= l + a ->
  (l - a == q \/ l - a == s) -> t * (2 * a) == q - s ->
  y0 == 2 * t + 12 * inject_Z z0 -> y8 == 8 + 2 * t + 12 * inject_Z z8 -> y4 == 4 + 2 * t + 12 * inject_Z z4 ->
  l - a * tri (Qmod12 y0) == p /\ l - a * tri (Qmod12 y8) == q /\ l - a * tri (Qmod12 y4) == s.
Proof.
  intros l a t p q s y0 y8 y4 z0 z8 z4 A P Q1 Q2 S1 S2 M TD Y0 Y8 Y4.
  assert (T : -1 <= t /\ t <= 1).
  { split; apply Qmult_lt_0_le_reg_r with (2 * a); try lra; rewrite TD; lra. }
  destruct T as [T1 T2].
  rewrite (wave0 t y0 z0) by auto.
  destruct (wave8 t y8 z8 T1 T2 Y8) as [W1 W2]. destruct (wave4 t y4 z4 T1 T2 Y4) as [W3 W4].
  destruct (Qlt_le_dec q s).
  - assert (t <= 0). { apply Qmult_lt_0_le_reg_r with (2 * a); try lra; rewrite TD; lra. }
    rewrite W1, W4 by auto. repeat split; try lra.
    all: assert (X : a * (1 + 2 * t) == a + t * (2 * a)) by ring; rewrite X, TD; destruct M; lra.
  - assert (0 <= t). { apply Qmult_lt_0_le_reg_r with (2 * a); try lra; rewrite TD; lra. }
    rewrite W2, W3 by auto. repeat split; try lra.
    all: assert (X : a * (1 - 2 * t) == a - t * (2 * a)) by ring; rewrite X, TD; destruct M; lra.
Qed.

Definition hue_of (r g b : Q) : Q :=
  let mn := Qmin3 r g b in let mx := Qmax3 r g b in let d := mx - mn in
  if Qeq_bool d 0 then 0
  else
    let dr := ((((mx - r) / 6) + d / 2) / d) in
    let dg := ((((mx - g) / 6) + d / 2) / d) in
    let db := ((((mx - b) / 6) + d / 2) / d) in
    let h := if Qeq_bool r mx then (db - dg)
             else if Qeq_bool g mx then ((1 # 3) + dr - db)
             else ((2 # 3) + dg - dr) in
    let h := if Qltb h 0 then (h + 1) else h in
    if Qltb 1 h then (h - 1) else h.

Lemma wrap_hue : forall base h t, -1 <= t <= 1 -> 0 <= base -> base <= 2#3 -> h == base + t * (1#6) ->
  exists z : Z, (let h1 := if Qltb h 0 then h + 1 else h in if Qltb 1 h1 then h1 - 1 else h1) == base + t * (1#6) + inject_Z z
    /\ 0 <= base + t * (1#6) + inject_Z z <= 1.
Proof.
  intros base h t T B0 B1 H. cbn zeta.
  destruct (Qltb h 0) eqn:E; [apply Qltb_true in E | apply Qltb_false in E].
  - exists 1%Z. change (inject_Z 1) with 1. qcase; split; lra.
  - exists 0%Z. change (inject_Z 0) with 0. qcase; split; lra.
Qed.

Lemma hue_of_spec : forall r g b, let mn := Qmin3 r g b in let mx := Qmax3 r g b in mn < mx ->
  exists t (z : Z), -1 <= t <= 1 /\ 0 <= hue_of r g b <= 1 /\
   ((hue_of r g b == 0 + t * (1#6) + inject_Z z /\ r == mx /\ t * (mx - mn) == g - b) \/
    (hue_of r g b == (1#3) + t * (1#6) + inject_Z z /\ g == mx /\ t * (mx - mn) == b - r) \/
    (hue_of r g b == (2#3) + t * (1#6) + inject_Z z /\ b == mx /\ t * (mx - mn) == r - g)).
Proof.
  intros r g b mn mx LT. destruct (mm_facts r g b) as (A1 & A2 & A3 & A4 & A5 & A6 & Mn & Mx).
  fold mn in A1, A2, A3, Mn. fold mx in A4, A5, A6, Mx.
  unfold hue_of. fold mn. fold mx. cbv zeta.
  set (d := mx - mn). assert (D : 0 < d) by (unfold d; lra).
  rewrite (Qeq_bool_lt 0 d) by auto.
  assert (ND : ~ d == 0) by lra.
  assert (BT : forall y, - d <= y -> y <= d -> -1 <= y / d <= 1).
  { intros y Y1 Y2. split. apply Qle_shift_div_l; auto; lra. apply Qle_shift_div_r; auto; lra. }
  assert (W : forall base h t, -1 <= t <= 1 -> 0 <= base -> base <= 2#3 -> h == base + t * (1#6) ->
     exists z : Z, 0 <= (if Qltb 1 (if Qltb h 0 then h + 1 else h) then (if Qltb h 0 then h + 1 else h) - 1 else if Qltb h 0 then h + 1 else h) <= 1 /\
      (if Qltb 1 (if Qltb h 0 then h + 1 else h) then (if Qltb h 0 then h + 1 else h) - 1 else if Qltb h 0 then h + 1 else h) == base + t * (1#6) + inject_Z z).
  { intros base h t T B0 B1 H. destruct (wrap_hue base h t T B0 B1 H) as (z & Z1 & Z2). cbn zeta in Z1.
    exists z. split; auto. rewrite Z1. auto. }
  destruct (Qeq_bool r mx) eqn:E1.
  - apply Qeq_bool_iff in E1.
    assert (T : -1 <= (g - b) / d <= 1) by (apply BT; unfold d; lra).
    match goal with |- context [Qltb ?h 0] => destruct (W 0 h ((g - b) / d) T) as (z & Z1 & Z2); try lra end.
    { field; auto. }
    exists ((g - b) / d), z. split; auto. split; auto. left. repeat split; auto. field; auto.
  - destruct (Qeq_bool g mx) eqn:E2.
    + apply Qeq_bool_iff in E2.
      assert (T : -1 <= (b - r) / d <= 1) by (apply BT; unfold d; lra).
      match goal with |- context [Qltb ?h 0] => destruct (W (1#3) h ((b - r) / d) T) as (z & Z1 & Z2); try lra end.
      { field; auto. }
      exists ((b - r) / d), z. split; auto. split; auto. right. left. repeat split; auto. field; auto.
    + assert (E3 : b == mx).
      { apply Qeq_bool_neq in E1. apply Qeq_bool_neq in E2. destruct Mx as [M|[M|M]]; [exfalso; apply E1; lra | exfalso; apply E2; lra | lra]. }
      assert (T : -1 <= (r - g) / d <= 1) by (apply BT; unfold d; lra).
      match goal with |- context [Qltb ?h 0] => destruct (W (2#3) h ((r - g) / d) T) as (z & Z1 & Z2); try lra end.
      { field; auto. }
      exists ((r - g) / d), z. split; auto. split; auto. right. right. repeat split; auto. field; auto.
Qed.

Lemma roundtrip : forall r g b, 0 <= r <= 1 -> 0 <= g <= 1 -> 0 <= b <= 1 ->
  let mn := Qmin3 r g b in let mx := Qmax3 r g b in
  let '(r', g', b') := hsl_to_rgbq (hue_of r g b) (sat_of mn mx) ((mx + mn) / 2) in
  r' == 255 * r /\ g' == 255 * g /\ b' == 255 * b.
Proof.
  intros r g b Hr Hg Hb mn mx. destruct (mm_facts r g b) as (A1 & A2 & A3 & A4 & A5 & A6 & Mn & Mx).
  fold mn in A1, A2, A3, Mn. fold mx in A4, A5, A6, Mx.
  unfold hsl_to_rgbq.
  destruct (Qlt_le_dec mn mx) as [LT|GE].
  - assert (N0 : 0 <= mn) by (destruct Mn as [M|[M|M]]; rewrite M; lra).
    assert (M1 : mx <= 1) by (destruct Mx as [M|[M|M]]; rewrite M; lra).
    rewrite sat_nz by auto. cbn zeta.
    set (ll := (mx + mn) / 2).
    assert (LL : ll == (mx + mn) * (1#2)) by reflexivity.
    pose proof (v2_is_max mn mx ll N0 LT M1 LL) as V2.
    set (v2 := if Qltb ll (1#2) then _ else _) in *.
    set (a := (mx - mn) * (1#2)).
    assert (V2' : v2 == ll + a) by (rewrite V2, LL; unfold a; lra).
    assert (V1 : 2 * ll - v2 == ll - a) by (rewrite V2', LL; unfold a; lra).
    rewrite !(hue_2_rgb_Qeq _ _ _ _ _ _ V1 V2' (Qeq_refl _)).
    destruct (hue_of_spec r g b LT) as (t & z & T & H & C). fold mn mx in C.
    set (h := hue_of r g b) in *.
    rewrite (hue2rgb_css ll a (h + (1#3)) (0 + 12 * h)) by (try lra; exists 0%Z; change (inject_Z 0) with 0; lra).
    rewrite (hue2rgb_css ll a h (8 + 12 * h)) by (try lra; exists 1%Z; change (inject_Z 1) with 1; lra).
    rewrite (hue2rgb_css ll a (h - (1#3)) (4 + 12 * h)) by (try lra; exists 1%Z; change (inject_Z 1) with 1; lra).
    assert (PA : 0 < a) by (unfold a; lra).
    assert (I1 : inject_Z (z + 1) == inject_Z z + 1) by (rewrite inject_Z_plus; reflexivity).
    assert (TA : t * (2 * a) == t * (mx - mn)) by (unfold a; ring).
    assert (EA : ll - a == mn) by (rewrite LL; unfold a; lra).
    assert (EB : ll + a == mx) by (rewrite LL; unfold a; lra).
    clearbody ll a v2 h. clear Mx V1 V2 V2' LL. destruct Hr as [Hr0 Hr1], Hg as [Hg0 Hg1], Hb as [Hb0 Hb1], T as [Ta Tb], H as [Ha1 Ha2]. clearbody mn mx.
    destruct C as [(C1 & C2 & C3)|[(C1 & C2 & C3)|(C1 & C2 & C3)]].
    + assert (MM : ll - a == g \/ ll - a == b). { destruct Mn as [M|[M|M]]; [exfalso; lra | left; lra | right; lra]. }
      destruct (three ll a t r g b (0 + 12 * h) (8 + 12 * h) (4 + 12 * h) z z z PA ltac:(lra) ltac:(lra) ltac:(lra) ltac:(lra) ltac:(lra) MM ltac:(lra) ltac:(lra) ltac:(lra) ltac:(lra)) as (X & Y & W).
      rewrite X, Y, W. repeat split; reflexivity.
    + assert (MM : ll - a == b \/ ll - a == r). { destruct Mn as [M|[M|M]]; [right; lra | exfalso; lra | left; lra]. }
      destruct (three ll a t g b r (8 + 12 * h) (4 + 12 * h) (0 + 12 * h) (z + 1)%Z z z PA ltac:(lra) ltac:(lra) ltac:(lra) ltac:(lra) ltac:(lra) MM ltac:(lra) ltac:(lra) ltac:(lra) ltac:(lra)) as (X & Y & W).
      rewrite X, Y, W. repeat split; reflexivity.
    + assert (MM : ll - a == r \/ ll - a == g). { destruct Mn as [M|[M|M]]; [left; lra | right; lra | exfalso; lra]. }
      destruct (three ll a t b r g (4 + 12 * h) (0 + 12 * h) (8 + 12 * h) (z + 1)%Z z (z + 1)%Z PA ltac:(lra) ltac:(lra) ltac:(lra) ltac:(lra) ltac:(lra) MM ltac:(lra) ltac:(lra) ltac:(lra) ltac:(lra)) as (X & Y & W).
      rewrite X, Y, W. repeat split; reflexivity.
  - assert (E : mx == mn) by lra. unfold sat_of.
    assert (E' : Qeq_bool mx mn = true) by (apply Qeq_bool_iff; auto).
    rewrite E'. change (Qeq_bool 0 0) with true. cbv iota.
    assert (X : (mx + mn) / 2 == mx). { rewrite E. field. }
    rewrite X. repeat split; apply Qmult_comp; try reflexivity; lra.
Qed.

Lemma chan01_unit : forall n, byte n -> 0 <= chan01 n <= 1.
Proof.
  unfold byte, chan01. intros n [A B]. split.
  - apply Qle_shift_div_l; [reflexivity|]. rewrite Qmult_0_l. change 0 with (inject_Z 0). rewrite <- Zle_Qle. lia.
  - apply Qle_shift_div_r; [reflexivity|]. change (1 * 255) with (inject_Z 255). rewrite <- Zle_Qle. lia.
Qed.

Lemma chan01_back : forall n, 255 * chan01 n == inject_Z n.
Proof. intros. unfold chan01. field. Qed.

Lemma hsl_roundtrip_lemma : forall v,
  set_hsl (hue_turns v) (get_saturation v) (get_lightness v)
  = Some (pack (mkRGBA (get_red v) (get_green v) (get_blue v) 255)).
Proof.
  intros v. unfold set_hsl, hsl_to_int.
  pose proof (roundtrip (chan01 (get_red v)) (chan01 (get_green v)) (chan01 (get_blue v))
     (chan01_unit _ (byte_red v)) (chan01_unit _ (byte_green v)) (chan01_unit _ (byte_blue v))) as R.
  cbv zeta in R.
  change (hue_of (chan01 (get_red v)) (chan01 (get_green v)) (chan01 (get_blue v))) with (hue_turns v) in R.
  change (sat_of _ _) with (get_saturation v) in R.
  change ((_ + _) / 2) with (get_lightness v) in R.
  destruct (hsl_to_rgbq (hue_turns v) (get_saturation v) (get_lightness v)) as [[r' g'] b'].
  destruct R as (R1 & R2 & R3). rewrite chan01_back in R1, R2, R3.
  rewrite rgb_to_int_opaque.
  rewrite (crimp_Qeq _ _ R1), (crimp_Qeq _ _ R2), (crimp_Qeq _ _ R3).
  rewrite !crimp_byte_id by auto using byte_red, byte_green, byte_blue. reflexivity.
Qed.

(** ** distinct() *)
Open Scope Z_scope.
Definition max3 (a b c : Z) : Z := Z.max (Z.max a b) c.
(** Left inverse of the pattern enumeration. *)
Definition unpattern (p : Z * Z * Z) : Z :=
  let '(a, b, c) := p in
  let n := max3 a b c in
  n * n * n +
  (if (a =? n) then
     if (b =? n) then if (c =? n) then 0 else 1 + 3 * c + 2
     else if (c =? n) then 1 + 3 * b + 1 else 1 + 3 * (n + b * n + c) + 1
   else if (b =? n) then if (c =? n) then 1 + 3 * a + 0 else 1 + 3 * (n + c * n + a) + 2
   else 1 + 3 * (n + a * n + b) + 0).

Lemma pattern_range : forall icbrt i, 0 <= icbrt i -> let n := icbrt i in n * n * n <= i < (n+1)*(n+1)*(n+1) ->
  unpattern (pattern icbrt i) = i /\ let '(a, b, c) := pattern icbrt i in (0 <= a <= n /\ 0 <= b <= n /\ 0 <= c <= n).
Proof.
  intros icbrt i N0 n B. unfold pattern. fold n. cbv zeta.
  destruct (i - n * n * n =? 0) eqn:E0.
  { unfold unpattern, max3. rewrite !Z.max_id, !Z.eqb_refl. lia. }
  set (p := i - n * n * n - 1).
  assert (P : 0 <= p < 3 * n * n + 3 * n) by (unfold p; nia).
  pose proof (Z.mod_pos_bound p 3 ltac:(lia)) as V. pose proof (Z.div_mod p 3 ltac:(lia)) as DM.
  set (v := p mod 3) in *. set (k := p / 3) in *.
  assert (K : 0 <= k < n * n + n) by nia.
  assert (NP : 0 < n) by nia.
  assert (IP : i = n * n * n + 1 + 3 * k + v) by (unfold p in DM; lia).
  destruct (k <? n) eqn:E1.
  - rewrite (Z.mod_small k n) by lia.
    assert (V3 : v = 0 \/ v = 1 \/ v = 2) by lia.
    destruct V3 as [V3|[V3|V3]]; rewrite V3 in *; cbn [set3 Z.eqb Pos.eqb];
    unfold unpattern, max3; (split; [|lia]).
    + replace (Z.max (Z.max k n) n) with n by lia. replace (k =? n) with false by lia. rewrite !Z.eqb_refl. lia.
    + replace (Z.max (Z.max n k) n) with n by lia. replace (k =? n) with false by lia. rewrite !Z.eqb_refl. lia.
    + replace (Z.max (Z.max n n) k) with n by lia. replace (k =? n) with false by lia. rewrite !Z.eqb_refl. lia.
  - pose proof (Z.mod_pos_bound (k - n) n NP) as V'. pose proof (Z.div_mod (k - n) n ltac:(lia)) as DM'.
    set (x := (k - n) / n) in *. set (y := (k - n) mod n) in *.
    assert (X : 0 <= x < n) by nia.
    assert (V3 : v = 0 \/ v = 1 \/ v = 2) by lia.
    destruct V3 as [V3|[V3|V3]]; rewrite V3 in *.
    + change ((0 + 1) mod 3) with 1. cbn [set3 Z.eqb Pos.eqb]. unfold unpattern, max3. split; [|lia].
      replace (Z.max (Z.max x y) n) with n by lia. replace (x =? n) with false by lia. replace (y =? n) with false by lia. nia.
    + change ((1 + 1) mod 3) with 2. cbn [set3 Z.eqb Pos.eqb]. unfold unpattern, max3. split; [|lia].
      replace (Z.max (Z.max n x) y) with n by lia. replace (x =? n) with false by lia. replace (y =? n) with false by lia. rewrite Z.eqb_refl. nia.
    + change ((2 + 1) mod 3) with 0. cbn [set3 Z.eqb Pos.eqb]. unfold unpattern, max3. split; [|lia].
      replace (Z.max (Z.max y n) x) with n by lia. replace (x =? n) with false by lia. replace (y =? n) with false by lia. rewrite Z.eqb_refl. nia.
Qed.

Fixpoint zrange (k : nat) : list Z := match k with O => [] | S k' => Z.of_nat k' :: zrange k' end.
Lemma zrange_in : forall k n, 0 <= n < Z.of_nat k -> In n (zrange k).
Proof. induction k; intros; simpl. lia. destruct (Z.eq_dec n (Z.of_nat k)); [left; auto | right; apply IHk; lia]. Qed.
Lemma reverse8_twice : forall n, byte n -> reverse8 (reverse8 n + 1) = (n - 1) mod 256.
Proof.
  assert (forallb (fun n => reverse8 (reverse8 n + 1) =? (n - 1) mod 256) (zrange 256) = true) by (vm_compute; reflexivity).
  intros n B. rewrite forallb_forall in H. apply Z.eqb_eq. apply H. apply zrange_in. unfold byte in B. lia.
Qed.
Lemma reverse8_byte : forall n, byte (reverse8 n).
Proof. intros. apply byte_land. Qed.
Lemma reverse8_inj : forall m n, byte m -> byte n -> reverse8 m = reverse8 n -> m = n.
Proof.
  intros m n M N E. pose proof (reverse8_twice m M) as H1. pose proof (reverse8_twice n N) as H2.
  rewrite E in H1. rewrite H1 in H2. unfold byte in *.
  Z.to_euclidean_division_equations; lia.
Qed.

Lemma distinct_inj : forall icbrt, exact_cbrt icbrt -> forall i j,
  0 <= i < 256 * 256 * 256 -> 0 <= j < 256 * 256 * 256 -> distinct icbrt i = distinct icbrt j -> i = j.
Proof.
  intros icbrt X i j I J E.
  destruct (X i I) as [Xi0 Xi]. destruct (X j J) as [Xj0 Xj].
  destruct (pattern_range icbrt i Xi0 Xi) as [Ui Ri]. destruct (pattern_range icbrt j Xj0 Xj) as [Uj Rj].
  unfold distinct in E.
  destruct (pattern icbrt i) as [[a b] c]. destruct (pattern icbrt j) as [[a' b'] c'].
  assert (Ni : icbrt i <= 255) by nia. assert (Nj : icbrt j <= 255) by nia.
  unfold color_rgb in E. rewrite !rgb_to_int_opaque in E. rewrite !crimp_byte_id in E by apply reverse8_byte.
  assert (P : forall x y z, rgba_ok (mkRGBA (reverse8 x) (reverse8 y) (reverse8 z) 255)).
  { intros. unfold rgba_ok; simpl. repeat split; try apply reverse8_byte; unfold byte; lia. }
  assert (PE : forall A (x y : A), Some x = Some y -> x = y) by congruence.
  apply PE in E. apply pack_inj in E; auto. injection E as E1 E2 E3.
  apply reverse8_inj in E1; [|unfold byte; lia|unfold byte; lia].
  apply reverse8_inj in E2; [|unfold byte; lia|unfold byte; lia].
  apply reverse8_inj in E3; [|unfold byte; lia|unfold byte; lia].
  subst. congruence.
Qed.
