(** Printed path data reads back. *)
Require Import ZArith QArith Qcanon Qabs Ascii String List Bool Lia Lqa.
Require Import Verif.Base Verif.Text_Spec Verif.Text_Proofs Verif.FmtG_Model Verif.FmtG_Proofs Verif.PointText_Spec Verif.Path_Model Verif.PathText_Model
  Verif.PathText_Spec Verif.PathText_Proofs Verif.PathDraw_Spec Verif.PathDraw_Proofs Verif.PathD_Model Verif.PathD_Spec.
Import ListNotations.
Open Scope Z_scope.

(** * Coordinates on a decimal grid print exactly *)
Lemma grid_text : forall g k q, 0 <= g <= 9 -> Z.abs k < 10 ^ 12 -> (q == inject_Z k * p10 (- g))%Q ->
  exists l, lit_ok l /\ coord_str q = lit_text l /\ (lit_val l == q)%Q.
Proof.
  intros g k q G K E. assert (SH : short 12 q) by (exists k, (- g); auto).
  assert (P : (0 < p10 (- g))%Q) by apply p10_pos.
  assert (AQ : (Qabs q == inject_Z (Z.abs k) * p10 (- g))%Q).
  { rewrite E, Qabs_Qmult. rewrite (Qabs_pos (p10 (- g))) by lra. unfold Qabs, inject_Z; cbn. reflexivity. }
  destruct (Z.eq_dec k 0) as [->|NZ].
  { destruct (coord_plain q) as (l & L & _ & S & _ & V); eauto. left. rewrite E. ring. }
  assert (K1 : 1 <= Z.abs k) by lia.
  destruct (Qlt_le_dec (Qabs q) (p10 (-4))) as [LT|GE].
  - assert (QP : (0 < Qabs q)%Q). { rewrite AQ. apply Qmult_lt_0_compat; auto. rewrite <- (Zlt_Qlt 0). lia. }
    destruct (exp10_spec (Qabs q) QP) as [D1 D2]. set (d := exp10 (Qabs q)) in *.
    assert (d < -4) by (apply p10_lt_inv; lra).
    assert (B : (p10 (- g) <= Qabs q)%Q).
    { rewrite AQ. rewrite <- (Qmult_1_l (p10 (- g))) at 1. apply Qmult_le_r; auto. rewrite <- (Zle_Qle 1). lia. }
    assert (- g < d + 1) by (apply p10_lt_inv; lra).
    assert (SC : scientific d q).
    { split; [split; auto|].
      - assert (EX : (p10 (d + 1) == inject_Z (10 ^ (d + 1 + g)) * p10 (- g))%Q).
        { rewrite <- p10_nonneg_Z by lia. rewrite <- p10_plus. replace (d + 1 + g + - g) with (d + 1) by lia. reflexivity. }
        assert (KK : Z.abs k <= 10 ^ (d + 1 + g) - 1).
        { assert (inject_Z (Z.abs k) < inject_Z (10 ^ (d + 1 + g)))%Q; [|rewrite <- Zlt_Qlt in H1; lia].
          rewrite EX, AQ in D2. apply (Qmult_lt_r _ _ (p10 (- g))); auto. }
        assert (S1 : (p10 (d - 11) <= p10 (- g))%Q) by (apply p10_le; lia).
        assert (S2 : (Qabs q <= p10 (d + 1) - p10 (- g))%Q).
        { rewrite EX, AQ. setoid_replace (inject_Z (10 ^ (d + 1 + g)) * p10 (- g) - p10 (- g))%Q with (inject_Z (10 ^ (d + 1 + g) + -1) * p10 (- g))%Q.
          apply Qmult_le_r; auto. rewrite <- Zle_Qle. lia. rewrite inject_Z_plus. change (inject_Z (-1)) with (-1)%Q. ring. }
        lra.
      - split; [lia|]. assert (5 <= Z.abs d <= 9) by lia. rewrite Z.mod_small by lia. lia. }
    destruct (coord_scientific d q SC) as (l & L & S & _ & V). eauto.
  - assert (PL : plain q).
    { right. split; auto. rewrite AQ. assert (p10 (- g) <= p10 0)%Q by (apply p10_le; lia). change (p10 0) with 1%Q in H.
      assert (inject_Z (Z.abs k) <= inject_Z (10 ^ 12 + -1))%Q by (rewrite <- Zle_Qle; lia). rewrite inject_Z_plus in H0. rewrite <- p10_nonneg_Z in H0 by lia. change (inject_Z (-1)) with (-1)%Q in H0.
      assert (inject_Z (Z.abs k) * p10 (- g) <= inject_Z (Z.abs k) * 1)%Q.
      { apply Qmult_le_l; auto. rewrite <- (Zlt_Qlt 0). lia. }
      lra. }
    destruct (coord_plain q PL) as (l & L & _ & S & _ & V); eauto.
Qed.
Definition multiple (g : Z) (x : Qc) : Prop := exists k, (this x == inject_Z k * p10 (- g))%Q.
Lemma on_grid_multiple : forall g x, on_grid g x -> multiple g x. Proof. intros g x (k & _ & E). exists k; auto. Qed.
Lemma this_minus : forall a b : Qc, (this (a - b)%Qc == this a - this b)%Q.
Proof. intros a b. unfold Qcminus, Qcplus, Qcopp, Q2Qc; cbn [this]. rewrite !Qred_correct. ring. Qed.
Lemma multiple_minus : forall g a b, multiple g a -> multiple g b -> multiple g (a - b)%Qc.
Proof. intros g a b (k & K) (j & J). exists (k - j). rewrite this_minus, K, J. unfold Z.sub. rewrite inject_Z_plus, inject_Z_opp. ring. Qed.
Lemma near1_multiple : forall g a b, 0 <= g <= 9 -> multiple g a -> multiple g b -> near1 a b = true -> a = b.
Proof.
  intros g a b G A B N. apply Qle_bool_iff in N. destruct (multiple_minus g a b A B) as (k & K). rewrite this_minus in K. rewrite K in N.
  assert (k = 0).
  { destruct (Z.eq_dec k 0); auto. exfalso. rewrite Qabs_Qmult in N. assert (P := p10_pos (- g)). rewrite (Qabs_pos (p10 (- g))) in N by lra.
    assert (p10 (-9) <= p10 (- g))%Q by (apply p10_le; lia). assert (1 <= Qabs (inject_Z k))%Q.
    { unfold Qabs, inject_Z. cbn. change (1 <= inject_Z (Z.abs k))%Q. rewrite <- (Zle_Qle 1). lia. }
    assert (1 * p10 (- g) <= Qabs (inject_Z k) * p10 (- g))%Q by (apply Qmult_le_r; auto).
    change (p10 (-9)) with (1 # 1000000000)%Q in H. assert ((1 # 1000000000) <= (1 # 1000000000000))%Q by lra. vm_compute in H2. congruence. }
  subst k. apply Qc_is_canon. rewrite Qmult_0_l in K. lra.
Qed.
Lemma near_multiple : forall g p q, 0 <= g <= 9 -> multiple g (fst p) -> multiple g (snd p) -> multiple g (fst q) -> multiple g (snd q) -> near p q = true -> p = q.
Proof.
  intros g [a b] [c d] G A B C D N. cbn [fst snd] in *. unfold near in N; cbn [fst snd] in N. apply andb_true_iff in N as [N1 N2]. f_equal; eapply near1_multiple; eauto.
Qed.
(** One printed coordinate, absolute or relative. *)
Lemma coord_lit : forall g x c (rel : bool), 0 <= g <= 9 -> on_grid g x -> on_grid g c ->
  exists l, lit_ok l /\ coord_str (this (if rel then x - c else x)%Qc) = lit_text l /\ qlit l = (if rel then x - c else x)%Qc.
Proof.
  intros g x c rel G (k & K & E) (j & J & F).
  assert (H : exists l, lit_ok l /\ coord_str (this (if rel then x - c else x)%Qc) = lit_text l /\ (lit_val l == this (if rel then x - c else x)%Qc)%Q).
  { destruct rel.
    - apply (grid_text g (k - j)); auto. lia. rewrite this_minus, E, F. unfold Z.sub. rewrite inject_Z_plus, inject_Z_opp. ring.
    - apply (grid_text g k); auto. lia. }
  destruct H as (l & L & T & V). exists l. split; auto. split; auto. unfold qlit. apply Qc_is_canon. unfold Q2Qc; cbn [this]. rewrite Qred_correct. exact V.
Qed.
Definition less (c p : pt) (rel : bool) : pt := if rel then psub p c else p.
Lemma pt_lit : forall g p c rel, 0 <= g <= 9 -> pt_on_grid g p -> pt_on_grid g c ->
  exists l, lit_ok (fst l) /\ lit_ok (snd l) /\ ptxt (Some c) rel p = lit_text (fst l) ++ ","%char :: lit_text (snd l) /\ on2 qlit l = less c p rel.
Proof.
  intros g p c rel G (P1 & P2) (C1 & C2). destruct (coord_lit g (fst p) (fst c) rel G P1 C1) as (a & A1 & A2 & A3). destruct (coord_lit g (snd p) (snd c) rel G P2 C2) as (b & B1 & B2 & B3).
  exists (a, b). cbn [fst snd]. split; auto. split; auto. split.
  - unfold ptxt. rewrite <- A2, <- B2. destruct rel; reflexivity.
  - unfold on2, less; cbn [fst snd]. rewrite A3, B3. destruct rel; auto. destruct p; auto.
Qed.
Lemma shift_less : forall k rel p, shift k rel (less (here k) p rel) = p.
Proof. intros k rel p. unfold shift, less. destruct rel; auto. destruct p as [x y], (here k) as [a b]. unfold psub; cbn. f_equal; ring. Qed.

(** * Pieces of text *)
Definition ends_number (u : text) : Prop := u = [] \/ exists r, u = " "%char :: r.
Lemma ends_no_cont : forall l u, ends_number u -> no_cont l u.
Proof. intros l u [->|(r & ->)]. apply no_cont_nil. apply no_cont_space. Qed.
Lemma no_cont_comma : forall l r, no_cont l (","%char :: r).
Proof. intros. apply Transform_Proofs.nc_no_cont. cbn. repeat split; discriminate || reflexivity. Qed.
Lemma toks_pair : forall l ts s u, lit_ok (fst l) -> lit_ok (snd l) -> ends_number s -> toks_text ts s u ->
  toks_text (two l ++ ts) (" "%char :: (lit_text (fst l) ++ ","%char :: lit_text (snd l)) ++ s) u.
Proof.
  intros l ts s u A B E H. cbn [two app]. rewrite <- app_assoc. cbn [app].
  apply (tt_num (fst l) [" "%char] (TNum (snd l) :: ts) (","%char :: lit_text (snd l) ++ s)); auto.
  - constructor; [cbn; tauto|constructor].
  - apply no_cont_comma.
  - apply (tt_num (snd l) [","%char] ts s); auto. constructor; [cbn; tauto|constructor]. apply ends_no_cont; auto.
Qed.
Lemma letter_cmd : forall up lo c rel, cmd up lo (Some c) rel = if rel then lo else up.
Proof. intros. unfold cmd, absolute_d. destruct rel; reflexivity. Qed.

(** * Segments *)
(** [prev] is the segment printed last and [k] the pen after it. *)
Definition follows_pen (prev : option seg) (k : pen) : Prop :=
  match prev with
  | None => mem k = NoCurve
  | Some s =>
      match view s with
      | Some (SQuad _ c e) => mem k = AfterQuad c /\ here k = e
      | Some (SCubic _ _ c e) => mem k = AfterCubic c /\ here k = e
      | Some (SArc _ _ _ _ _ _ _) | None => False
      | Some _ => mem k = NoCurve
      end
  end.
Lemma view_quad : forall s f c t, view s = Some (SQuad f c t) -> s_kind s = KQuad (Some c) /\ s_start s = Some f /\ s_end s = Some t.
Proof.
  intros [kd st en r sm] f c t H. unfold view in H; cbn in *. destruct kd as [| | |[q|]|[x|] [y|]|a]; destruct st, en; try discriminate; injection H as <- <- <-; auto.
Qed.
Lemma view_cubic : forall s f c d t, view s = Some (SCubic f c d t) -> s_kind s = KCubic (Some c) (Some d) /\ s_start s = Some f /\ s_end s = Some t.
Proof.
  intros [kd st en r sm] f c d t H. unfold view in H; cbn in *. destruct kd as [| | |[q|]|[x|] [y|]|a]; destruct st, en; try discriminate; injection H as <- <- <- <-; auto.
Qed.
Lemma view_move : forall s f t, view s = Some (SMove f t) -> s_kind s = KMove /\ s_start s = f /\ s_end s = Some t.
Proof.
  intros [kd st en r sm] f t H. unfold view in H; cbn in *. destruct kd as [| | |[q|]|[x|] [y|]|a]; destruct st, en; try discriminate; injection H as <- <-; auto.
Qed.
Lemma view_line : forall s f t, view s = Some (SLine f t) -> s_kind s = KLine /\ s_start s = Some f /\ s_end s = Some t.
Proof.
  intros [kd st en r sm] f t H. unfold view in H; cbn in *. destruct kd as [| | |[q|]|[x|] [y|]|a]; destruct st, en; try discriminate; injection H as <- <-; auto.
Qed.
Lemma view_close : forall s f t, view s = Some (SClose f t) -> s_kind s = KClose /\ s_start s = Some f /\ s_end s = Some t.
Proof.
  intros [kd st en r sm] f t H. unfold view in H; cbn in *. destruct kd as [| | |[q|]|[x|] [y|]|a]; destruct st, en; try discriminate; injection H as <- <-; auto.
Qed.
Definition grid_pt := pt_on_grid.
Lemma near_grid : forall g p q, 0 <= g <= 9 -> pt_on_grid g p -> pt_on_grid g q -> near p q = true -> p = q.
Proof. intros g p q G (A & B) (C & D) N. eapply near_multiple; eauto using on_grid_multiple. Qed.
Lemma mirror_grid : forall g c b e k, 0 <= g <= 9 -> pt_on_grid g c -> pt_on_grid g b -> pt_on_grid g e -> pt_on_grid g k ->
  near b e && near (psub c b) (psub e k) = true -> c = mirror k b /\ b = e.
Proof.
  intros g c b e k G (C1 & C2) B E (K1 & K2) N. apply andb_true_iff in N as [N1 N2]. assert (b = e) as <- by (eapply near_grid; eauto). split; auto. destruct B as (B1 & B2).
  apply (near_multiple g) in N2; cbn [psub fst snd]; auto using multiple_minus, on_grid_multiple.
  assert (H1 := f_equal fst N2). assert (H2 := f_equal snd N2). unfold psub in H1, H2; cbn [fst snd] in H1, H2. destruct c as [c1 c2], b as [b1 b2], k as [k1 k2]. cbn [fst snd] in *. unfold mirror; cbn [fst snd].
  f_equal; [replace c1 with (c1 - b1 + b1)%Qc by ring; rewrite H1|replace c2 with (c2 - b2 + b2)%Qc by ring; rewrite H2]; ring.
Qed.
Definition prev_grid (g : Z) (prev : option seg) : Prop := match prev with None => True | Some s => exists d, view s = Some d /\ Forall (pt_on_grid g) (drawn_points d) end.
Definition prev_mixed (prev : option seg) (d : drawn) : Prop := match prev with None => False | Some s => match view s with Some a => mixed a d | None => False end end.
(** A curve printed smooth has the control the reader will give it. *)
Lemma smooth_quad_ok : forall g prev k s f c t sm, 0 <= g <= 9 -> follows_pen prev k -> prev_grid g prev -> view s = Some (SQuad f c t) -> Forall (pt_on_grid g) (drawn_points (SQuad f c t)) ->
  here k = f -> ~ prev_mixed prev (SQuad f c t) -> is_smooth_from s prev = Ok sm -> sm = true -> c = smooth_quad_control false k.
Proof.
  intros g prev k s f c t sm G FP PG V FG H NM SM ->. destruct (view_quad _ _ _ _ V) as (K & S & E). unfold is_smooth_from in SM. rewrite K, S in SM.
  inversion FG as [|? ? Gf FG1]; subst. inversion FG1 as [|? ? Gc FG2]; subst. inversion FG2 as [|? ? Gt _]; subst.
  assert (PL : mem k = NoCurve -> Ok (onear (Some c) (Some (here k))) = Ok true -> c = smooth_quad_control false k).
  { intros M N. unfold smooth_quad_control. rewrite M. injection N as N. eapply near_grid; eauto. }
  destruct prev as [q|]; [|apply PL; auto]. cbn [follows_pen] in FP. destruct PG as (pd & PV & PG). rewrite PV in FP. cbn [prev_mixed] in NM. rewrite PV in NM.
  destruct pd; try contradiction.
  - apply view_move in PV as (PK & _). rewrite PK in SM. apply PL; auto.
  - apply view_line in PV as (PK & _). rewrite PK in SM. apply PL; auto.
  - apply view_close in PV as (PK & _). rewrite PK in SM. apply PL; auto.
  - apply view_quad in PV as (PK & PS & PE). rewrite PK, PE in SM. unfold continues in SM. rewrite S in SM. destruct FP as (FM & FE).
    inversion PG as [|? ? Pf PG1]; subst. inversion PG1 as [|? ? Pc PG2]; subst. inversion PG2 as [|? ? Pt _]; subst.
    injection SM as SM. apply (mirror_grid g) in SM as (-> & _); auto. unfold smooth_quad_control. rewrite FM. reflexivity.
  - apply view_cubic in PV as (PK & PS & PE). rewrite PK in SM. exfalso. apply NM. cbn. injection SM as SM. eapply near_grid; eauto.
Qed.
Lemma smooth_cubic_ok : forall g prev k s f c d t sm, 0 <= g <= 9 -> follows_pen prev k -> prev_grid g prev -> view s = Some (SCubic f c d t) -> Forall (pt_on_grid g) (drawn_points (SCubic f c d t)) ->
  here k = f -> ~ prev_mixed prev (SCubic f c d t) -> is_smooth_from s prev = Ok sm -> sm = true -> c = smooth_cubic_control false k.
Proof.
  intros g prev k s f c d t sm G FP PG V FG H NM SM ->. destruct (view_cubic _ _ _ _ _ V) as (K & S & E). unfold is_smooth_from in SM. rewrite K, S in SM.
  inversion FG as [|? ? Gf FG1]; subst. inversion FG1 as [|? ? Gc FG2]; subst.
  assert (PL : mem k = NoCurve -> Ok (onear (Some c) (Some (here k))) = Ok true -> c = smooth_cubic_control false k).
  { intros M N. unfold smooth_cubic_control. rewrite M. injection N as N. eapply near_grid; eauto. }
  destruct prev as [q|]; [|apply PL; auto]. cbn [follows_pen] in FP. destruct PG as (pd & PV & PG). rewrite PV in FP. cbn [prev_mixed] in NM. rewrite PV in NM.
  destruct pd; try contradiction.
  - apply view_move in PV as (PK & _). rewrite PK in SM. apply PL; auto.
  - apply view_line in PV as (PK & _). rewrite PK in SM. apply PL; auto.
  - apply view_close in PV as (PK & _). rewrite PK in SM. apply PL; auto.
  - apply view_quad in PV as (PK & PS & PE). rewrite PK in SM. exfalso. apply NM. cbn. injection SM as SM. eapply near_grid; eauto.
  - apply view_cubic in PV as (PK & PS & PE). rewrite PK, PE in SM. unfold continues in SM. rewrite S in SM. destruct FP as (FM & FE).
    inversion PG as [|? ? Pf PG1]; subst. inversion PG1 as [|? ? Pc PG2]; subst. inversion PG2 as [|? ? Pd PG3]; subst. inversion PG3 as [|? ? Pt _]; subst.
    injection SM as SM. apply (mirror_grid g) in SM as (-> & _); auto. unfold smooth_cubic_control. rewrite FM. reflexivity.
Qed.
(** Whether a segment is printed smooth is decided without an exception. *)
Lemma is_smooth_total : forall prev s d, view s = Some d -> (forall q, prev = Some q -> exists e, view q = Some e) -> exists b, is_smooth_from s prev = Ok b.
Proof.
  intros prev s d V P. unfold is_smooth_from. destruct (s_kind s) eqn:K; eauto.
  - destruct prev as [q|]; eauto. destruct (s_kind q) eqn:KQ; eauto. destruct (P q eq_refl) as (e & E).
    unfold view in V, E. rewrite K in V. rewrite KQ in E. destruct c; [|destruct (s_start s), (s_end s); discriminate]. destruct c0; [|destruct (s_start q), (s_end q); discriminate].
    destruct (s_start s) eqn:S; [|destruct (s_end s); discriminate]. destruct (s_end q); [|destruct (s_start q); discriminate]. unfold continues. rewrite S. eauto.
  - destruct prev as [q|]; eauto. destruct (s_kind q) eqn:KQ; eauto. destruct (P q eq_refl) as (e & E).
    unfold view in V, E. rewrite K in V. rewrite KQ in E.
    destruct c1; [|destruct (s_start s), (s_end s); discriminate]. destruct c2; [|destruct (s_start s), (s_end s); discriminate].
    destruct c0; [|destruct (s_start q), (s_end q); discriminate]. destruct c3; [|destruct (s_start q), (s_end q); discriminate].
    destruct (s_start s) eqn:S; [|destruct (s_end s); discriminate]. destruct (s_end q); [|destruct (s_start q); discriminate]. unfold continues. rewrite S. eauto.
Qed.
Definition chain1 (k : pen) (d : drawn) : Prop :=
  match d with
  | SMove f t => f = at_ k
  | SLine f t | SQuad f _ t | SCubic f _ _ t => at_ k = Some f
  | SClose f t => at_ k = Some f /\ t = sub k
  | SArc _ _ _ _ _ _ _ => False
  end.
Definition drawn_end (d : drawn) : point := match d with SMove _ t | SLine _ t | SClose _ t | SQuad _ _ t | SCubic _ _ _ t | SArc _ _ _ _ _ _ t => t end.
Definition after (k : pen) (d : drawn) : pen :=
  mkPen (Some (drawn_end d)) (match d with SMove _ t => t | _ => sub k end) (match d with SQuad _ c _ => AfterQuad c | SCubic _ _ c _ => AfterCubic c | _ => NoCurve end).
(** One segment: what is printed, that it spells one instruction, and that this draws the segment. *)
Lemma seg_prints : forall g prev k s d rel (want : bool) sm, 0 <= g <= 9 -> follows_pen prev k -> prev_grid g prev -> view s = Some d -> Forall (pt_on_grid g) (drawn_points d) ->
  chain1 k d -> pt_on_grid g (here k) -> (want = true -> ~ prev_mixed prev d) -> (if want then is_smooth_from s prev else Ok false) = Ok sm ->
  exists a w, seg_d s (Some (here k)) rel sm = Ok (letter_of rel a :: w) /\
    (forall u, ends_number u -> toks_text (args a) (w ++ u) u) /\ stroke false k rel (map_atom qlit a) = (d, after k d).
Proof.
  intros g prev k s d rel want sm G FP PG V FG C GH NM SM.
  assert (PT : forall p, pt_on_grid g p -> exists l, lit_ok (fst l) /\ lit_ok (snd l) /\ ptxt (Some (here k)) rel p = lit_text (fst l) ++ ","%char :: lit_text (snd l) /\ on2 qlit l = less (here k) p rel).
  { intros p P. eapply pt_lit; eauto. }
  assert (HK : forall f, at_ k = Some f -> here k = f) by (unfold here; intros f ->; auto).
  unfold seg_d. destruct d.
  - destruct (view_move _ _ _ V) as (K & S & E). rewrite K, E. assert (GT : pt_on_grid g to) by (destruct from; cbn in FG; [apply Forall_inv_tail in FG|]; apply Forall_inv in FG; auto).
    destruct (PT to GT) as (l & L1 & L2 & L3 & L4). rewrite L3, letter_cmd. exists (DMove l), (" "%char :: lit_text (fst l) ++ ","%char :: lit_text (snd l)). split; [|split].
    + destruct rel; reflexivity.
    + intros u U. cbn [args]. rewrite <- (app_nil_r (two l)). apply (toks_pair l [] u u); auto. constructor.
    + cbn [map_atom stroke]. rewrite L4, shift_less. cbn in C. subst from. reflexivity.
  - destruct (view_line _ _ _ V) as (K & S & E). rewrite K, E. assert (GT : pt_on_grid g to) by (apply Forall_inv_tail, Forall_inv in FG; auto).
    destruct (PT to GT) as (l & L1 & L2 & L3 & L4). rewrite L3, letter_cmd. exists (DLine l), (" "%char :: lit_text (fst l) ++ ","%char :: lit_text (snd l)). split; [|split].
    + destruct rel; reflexivity.
    + intros u U. cbn [args]. rewrite <- (app_nil_r (two l)). apply (toks_pair l [] u u); auto. constructor.
    + cbn [map_atom stroke]. rewrite L4, shift_less. cbn in C. rewrite (HK _ C). reflexivity.
  - destruct (view_close _ _ _ V) as (K & S & E). rewrite K. rewrite letter_cmd. exists DClose, []. split; [|split].
    + destruct rel; reflexivity.
    + intros u U. constructor.
    + cbn [map_atom stroke]. cbn in C. destruct C as (C & ->). rewrite (HK _ C). reflexivity.
  - destruct (view_quad _ _ _ _ V) as (K & S & E). rewrite K, E. cbn [drawn_points] in FG.
    assert (FG' := FG). inversion FG' as [|? ? Gf FG1]; subst. inversion FG1 as [|? ? Gc FG2]; subst. inversion FG2 as [|? ? Gt _]; subst. cbn in C.
    destruct (PT to Gt) as (l & L1 & L2 & L3 & L4). destruct (PT c Gc) as (m & M1 & M2 & M3 & M4). rewrite L3, M3, !letter_cmd. destruct sm.
    + assert (CT : c = smooth_quad_control false k). { destruct want; [|discriminate SM]. eapply smooth_quad_ok; eauto. }
      exists (DSmoothQuad l), (" "%char :: lit_text (fst l) ++ ","%char :: lit_text (snd l)). split; [|split].
      * destruct rel; reflexivity.
      * intros u U. cbn [args]. rewrite <- (app_nil_r (two l)). apply (toks_pair l [] u u); auto. constructor.
      * cbn [map_atom stroke]. rewrite L4, shift_less, <- CT, (HK _ C). reflexivity.
    + exists (DQuad m l), (" "%char :: (lit_text (fst m) ++ ","%char :: lit_text (snd m)) ++ " "%char :: lit_text (fst l) ++ ","%char :: lit_text (snd l)). split; [|split].
      * cbn [words]. destruct rel; reflexivity.
      * intros u U. cbn [args app]. rewrite <- app_assoc. apply (toks_pair m (two l)); auto. right; eexists; reflexivity.
        cbn [app]. rewrite <- (app_nil_r (two l)). apply (toks_pair l [] u u); auto. constructor.
      * cbn [map_atom stroke]. rewrite L4, M4, !shift_less, (HK _ C). reflexivity.
  - destruct (view_cubic _ _ _ _ _ V) as (K & S & E). rewrite K, E. cbn [drawn_points] in FG.
    assert (FG' := FG). inversion FG' as [|? ? Gf FG1]; subst. inversion FG1 as [|? ? Gc FG2]; subst. inversion FG2 as [|? ? Gd FG3]; subst. inversion FG3 as [|? ? Gt _]; subst. cbn in C.
    destruct (PT to Gt) as (l & L1 & L2 & L3 & L4). destruct (PT c Gc) as (m & M1 & M2 & M3 & M4). destruct (PT d Gd) as (n & N1 & N2 & N3 & N4). rewrite L3, M3, N3, !letter_cmd. destruct sm.
    + assert (CT : c = smooth_cubic_control false k). { destruct want; [|discriminate SM]. eapply smooth_cubic_ok; eauto. }
      exists (DSmoothCubic n l), (" "%char :: (lit_text (fst n) ++ ","%char :: lit_text (snd n)) ++ " "%char :: lit_text (fst l) ++ ","%char :: lit_text (snd l)). split; [|split].
      * cbn [words]. destruct rel; reflexivity.
      * intros u U. cbn [args app]. rewrite <- app_assoc. apply (toks_pair n (two l)); auto. right; eexists; reflexivity.
        cbn [app]. rewrite <- (app_nil_r (two l)). apply (toks_pair l [] u u); auto. constructor.
      * cbn [map_atom stroke]. rewrite L4, N4, !shift_less, <- CT, (HK _ C). reflexivity.
    + exists (DCubic m n l), (" "%char :: (lit_text (fst m) ++ ","%char :: lit_text (snd m)) ++ " "%char :: (lit_text (fst n) ++ ","%char :: lit_text (snd n)) ++ " "%char :: lit_text (fst l) ++ ","%char :: lit_text (snd l)). split; [|split].
      * cbn [words]. destruct rel; reflexivity.
      * intros u U. cbn [args app]. rewrite <- app_assoc. apply (toks_pair m (two n ++ two l)); auto. right; eexists; reflexivity.
        cbn [app]. rewrite <- app_assoc. apply (toks_pair n (two l)); auto. right; eexists; reflexivity.
        cbn [app]. rewrite <- (app_nil_r (two l)). apply (toks_pair l [] u u); auto. constructor.
      * cbn [map_atom stroke]. rewrite L4, M4, N4, !shift_less, (HK _ C). reflexivity.
  - contradiction.
Qed.

(** * Whole paths *)
Lemma follows_after : forall s d k, view s = Some d -> match d with SArc _ _ _ _ _ _ _ => False | _ => True end -> follows_pen (Some s) (after k d).
Proof. intros s d k V A. cbn [follows_pen]. rewrite V. destruct d; cbn; auto. Qed.
Lemma view_end : forall s d, view s = Some d -> s_end s = Some (drawn_end d).
Proof.
  intros s d V. destruct d.
  - apply view_move in V as (_ & _ & V); auto.
  - apply view_line in V as (_ & _ & V); auto.
  - apply view_close in V as (_ & _ & V); auto.
  - apply view_quad in V as (_ & _ & V); auto.
  - apply view_cubic in V as (_ & _ & V); auto.
  - unfold view in V. destruct (s_kind s) as [| | |[q|]|[x|] [y|]|a]; destruct (s_start s), (s_end s); try discriminate. injection V as <- <- <- <- <- <- <-. reflexivity.
Qed.
Lemma chained_after : forall d ds k, chained (at_ k) (sub k) (d :: ds) -> chain1 k d /\ chained (at_ (after k d)) (sub (after k d)) ds.
Proof. intros d ds k C. destruct d; cbn in *; tauto. Qed.
Lemma drawn_end_in : forall d, In (drawn_end d) (drawn_points d).
Proof. destruct d; cbn; auto. destruct from; cbn; auto. Qed.
Definition spaced (ws : list text) : text := concat (map (cons " "%char) ws).
Lemma words_spaced : forall w ws, words (w :: ws) = w ++ spaced ws.
Proof.
  intros w ws. revert w. induction ws as [|x ws IH]; intros w. cbn. rewrite app_nil_r; auto.
  change (words (w :: x :: ws)) with (w ++ " "%char :: words (x :: ws)). rewrite IH. reflexivity.
Qed.
Lemma spaced_ends : forall ws, ends_number (spaced ws).
Proof. intros [|w ws]. left; auto. right. eexists. reflexivity. Qed.
Lemma path_prints : forall g relative smooth p ds prev k pl, 0 <= g <= 9 -> follows_pen prev k -> prev_grid g prev -> map view p = map Some ds -> all_on_grid g ds ->
  chained (at_ k) (sub k) ds -> pt_on_grid g (here k) -> (smooth <> Some false -> unmixed ds /\ match ds with d :: _ => ~ prev_mixed prev d | [] => True end) ->
  exists ws l, svg_d_from prev (Some (here k)) relative smooth p = Ok ws /\ spelled pl l (spaced ws) [] /\ svg false k (values l) = ds /\
    (forall d ds', ds = d :: ds' -> exists rel a l' w ws', l = (rel, a) :: l' /\ ws = (letter_of rel a :: w) :: ws' /\ stroke false k rel (map_atom qlit a) = (d, after k d)).
Proof.
  intros g relative smooth p. induction p as [|s p IH]; intros ds prev k pl G FP PG V AG C GH U.
  - destruct ds as [|d ds]; [|discriminate]. exists [], []. split; [reflexivity|]. split; [constructor|]. split; [reflexivity|]. discriminate.
  - destruct ds as [|d ds]; [discriminate|]. injection V as V VS. inversion AG as [|? ? Gd AG']; subst. apply chained_after in C as (C1 & C2).
    cbn [svg_d_from]. set (rel := match relative with Some r => r | None => s_rel s end). set (want := match smooth with Some b => b | None => s_smooth s end).
    assert (TS : exists sm, (if want then is_smooth_from s prev else Ok false) = Ok sm).
    { destruct want; eauto. eapply is_smooth_total; eauto. intros q ->. destruct PG as (e & E & _). eauto. }
    destruct TS as (sm & SM). rewrite SM. cbn [rbind].
    assert (W : want = true -> smooth <> Some false). { intros W K. unfold want in W. rewrite K in W. discriminate. }
    destruct (seg_prints g prev k s d rel want sm) as (a & w & D & T & ST); auto. { intros E. apply U; auto. }
    rewrite D. cbn [rbind]. rewrite (view_end _ _ V).
    destruct (IH ds (Some s) (after k d) (implied rel a)) as (ws & l & E & SP & SV & _); auto.
    { apply follows_after; auto. destruct d; auto. }
    { exists d. auto. }
    { cbn. rewrite Forall_forall in Gd. apply Gd, drawn_end_in. }
    { intros K. destruct (U K) as [U1 U2]. destruct ds as [|d' ds]; [cbn; auto|]. cbn [unmixed] in U1. destruct U1 as [U1 U3]. split; auto. cbn [prev_mixed]. rewrite V. auto. }
    change (here (after k d)) with (drawn_end d) in E. rewrite E. cbn [rbind]. exists ((letter_of rel a :: w) :: ws), ((rel, a) :: l).
    split; [reflexivity|]. split; [|split].
    + unfold spaced; cbn [map concat]. fold (spaced ws). change ((" "%char :: letter_of rel a :: w) ++ spaced ws) with ([" "%char] ++ letter_of rel a :: (w ++ spaced ws)).
      eapply sp_letter; eauto. constructor; [cbn; tauto|constructor]. apply T, spaced_ends.
    + cbn [values map fst snd svg]. rewrite ST. fold (values l). rewrite SV. reflexivity.
    + intros d0 ds0 K. injection K as <- <-. exists rel, a, l, w, ws. auto.
Qed.
Lemma zero_grid : forall g, pt_on_grid g (0, 0)%Qc.
Proof. intros g. split; exists 0; (split; [lia|]); cbn [fst snd]; rewrite Qmult_0_l; reflexivity. Qed.
(** A spelling may lose the space in front of its first letter. *)
Lemma spelled_strip : forall prev rel a l s t, spelled prev ((rel, a) :: l) s t -> prev = None -> spelled prev ((rel, a) :: l) (drop_sep s) t.
Proof.
  intros prev rel a l s t H E. inversion H; subst.
  - rewrite drop_sep_app by auto. destruct (cmd_letter rel a) as (_ & C2 & _). cbn [drop_sep]. rewrite C2. eapply (sp_letter None rel a []); eauto.
  - discriminate.
Qed.
Lemma path_text_roundtrip : forall g relative smooth p ds, 0 <= g <= 9 -> map view p = map Some ds -> all_on_grid g ds -> chained None (0, 0)%Qc ds -> starts_drawing ds ->
  (smooth <> Some false -> unmixed ds) ->
  exists s q, svg_d p relative smooth = Ok s /\ parse s [] = (q, None) /\ map view q = map view p.
Proof.
  intros g relative smooth p ds G V AG C S U. unfold svg_d.
  destruct (path_prints g relative smooth p ds None pen0 None) as (ws & l & E & SP & SV & FI); auto.
  { reflexivity. } { exact I. } { apply zero_grid. } { intros K. split; [apply U; auto|]. destruct ds; auto. }
  change (here pen0) with (0, 0)%Qc in E. rewrite E. cbn [rmap rbind]. destruct ds as [|d ds].
  - destruct p; [|discriminate]. cbn in E. injection E as <-. exists [], []. repeat split.
  - destruct (FI d ds eq_refl) as (rel & a & l' & w & ws' & -> & -> & ST).
    assert (NS : drop_sep (spaced ((letter_of rel a :: w) :: ws')) = words ((letter_of rel a :: w) :: ws')).
    { rewrite words_spaced. unfold spaced. cbn [map concat app drop_sep]. destruct (cmd_letter rel a) as (_ & C2 & _). rewrite C2. reflexivity. }
    assert (SP' := spelled_strip _ _ _ _ _ _ SP eq_refl). rewrite NS in SP'.
    assert (B : begins_with_move ((rel, a) :: l')).
    { destruct d; try contradiction. destruct a; cbn in ST; try discriminate. repeat eexists. }
    assert (SN : stop []) by (exists [], []; split; [constructor|auto]).
    destruct (parse_svg _ _ _ SP' SN B) as (q & Q1 & Q2). eexists. exists q. split; auto. split; auto. rewrite Q2, SV. auto.
Qed.

(** * What instructions draw is chained *)
Definition no_arc {N} (x : bool * atom N) : Prop := match snd x with DArc _ _ _ _ _ _ => False | _ => True end.
Lemma svg_chained : forall st l k, at_ k = Some (here k) -> Forall no_arc l -> chained (at_ k) (sub k) (svg st k l).
Proof.
  induction l as [|[rel a] l IH]; intros k A F; [exact I|]. inversion F as [|? ? F1 F2]; subst. cbn [svg].
  destruct a; cbn [stroke]; try contradiction; cbn [chained]; repeat split; auto; apply (IH (mkPen _ _ _)); auto.
Qed.
Lemma svg_chained0 : forall st l, begins_with_move l -> Forall no_arc l -> chained None (0, 0)%Qc (svg st pen0 l) /\ starts_drawing (svg st pen0 l).
Proof.
  intros st l (rel & q & l' & ->) F. inversion F; subst. cbn [svg stroke chained starts_drawing]. repeat split; auto. apply (svg_chained st l' (mkPen _ _ _)); auto.
Qed.
Lemma no_arc_values : forall l, Forall no_arc l -> Forall no_arc (values l).
Proof. induction 1 as [|[rel a] l H F IH]; cbn; constructor; auto. destruct a; cbn in *; auto. Qed.
Lemma path_text_stable_lemma : forall l s t g relative smooth p, spelled None l s t -> stop t -> begins_with_move l -> Forall no_arc l -> 0 <= g <= 9 ->
  all_on_grid g (svg false pen0 (values l)) -> (smooth <> Some false -> unmixed (svg false pen0 (values l))) -> parse s [] = (p, None) ->
  exists s' q, svg_d p relative smooth = Ok s' /\ parse s' [] = (q, None) /\ map view q = map view p.
Proof.
  intros l s t g relative smooth p SP ST B NA G AG U P. destruct (parse_svg l s t SP ST B) as (segs & E & V). rewrite P in E. injection E as <-.
  destruct (svg_chained0 false (values l)) as [C S]; auto using values_begin, no_arc_values.
  eapply path_text_roundtrip; eauto.
Qed.
(** * One segment on its own *)
Lemma seg_d_none : forall s c sm, seg_d s None false sm = seg_d s (Some c) false sm.
Proof. intros s c sm. unfold seg_d. destruct (s_kind s) as [| | |[q|]|[x|] [y|]|a]; destruct (s_end s); reflexivity. Qed.
Definition stands_alone (s : seg) : Prop :=
  match s_kind s with KMove | KLine => True | KQuad _ | KCubic _ _ => s_smooth s = false | KClose | KArc _ => False end.
Lemma seg_str_reads : forall g s d b, 0 <= g <= 9 -> view s = Some d -> Forall (pt_on_grid g) (drawn_points d) -> s_start s = Some b -> stands_alone s ->
  exists t m s', seg_str s = Ok t /\ parse t [] = ([m; s'], None) /\ view m = Some (SMove None b) /\ view s' = view s.
Proof.
  intros g s d b G V FG S SA. unfold seg_str. rewrite (seg_d_none s b).
  assert (NS : exists sm, s_smooth s = sm) by eauto. destruct NS as (sm & SM). rewrite SM, S.
  set (k := mkPen (Some b) b NoCurve).
  assert (C : chain1 k d).
  { unfold view in V. rewrite S in V. unfold stands_alone in SA. destruct (s_kind s) as [| | |[q|]|[x|] [y|]|a]; try contradiction; destruct (s_end s); try discriminate; injection V as <-; reflexivity. }
  assert (GB : pt_on_grid g b).
  { rewrite Forall_forall in FG. apply FG. unfold view in V. rewrite S in V. unfold stands_alone in SA. destruct (s_kind s) as [| | |[q|]|[x|] [y|]|a]; try contradiction; destruct (s_end s); try discriminate; injection V as <-; cbn; auto. }
  destruct (seg_prints g None k s d false false false) as (a & w & D & T & ST); auto; try reflexivity; try exact I; try discriminate.
  assert (D' : seg_d s (Some b) false sm = Ok (letter_of false a :: w)).
  { rewrite <- D. change (here k) with b. unfold stands_alone in SA. unfold seg_d. destruct (s_kind s); try contradiction; auto; rewrite <- SM, SA; reflexivity. }
  rewrite D'. cbn [rbind]. destruct (pt_lit g b (0, 0)%Qc false G GB (zero_grid g)) as (l & L1 & L2 & L3 & L4). cbn [ptxt less] in L3, L4.
  set (t := words [[if s_rel s then "m"%char else "M"%char]; pstr b; letter_of false a :: w]).
  assert (SP : spelled None [(s_rel s, DMove l); (false, a)] t []).
  { assert (T0 := T [] (or_introl eq_refl)). rewrite app_nil_r in T0.
    assert (E : t = [] ++ letter_of (s_rel s) (DMove l) :: (" "%char :: (lit_text (fst l) ++ ","%char :: lit_text (snd l)) ++ " "%char :: letter_of false a :: w)).
    { unfold t. cbn [words]. rewrite L3. destruct (s_rel s); reflexivity. }
    rewrite E. apply (sp_letter None (s_rel s) (DMove l) [] _ (" "%char :: letter_of false a :: w)); [constructor| |].
    - cbn [args]. rewrite <- (app_nil_r (two l)). apply (toks_pair l []); auto. right; eexists; reflexivity. constructor.
    - apply (sp_letter _ false a [" "%char] w []); auto. constructor; [cbn; tauto|constructor]. constructor. }
  assert (SN : stop []) by (exists [], []; split; [constructor|auto]).
  destruct (parse_svg _ _ _ SP SN) as (q & Q1 & Q2); [repeat eexists|].
  assert (Q3 : svg false pen0 (values [(s_rel s, DMove l); (false, a)]) = [SMove None b; d]).
  { cbn [values map fst snd map_atom svg]. cbn [stroke]. rewrite L4.
    assert (SH : shift pen0 (s_rel s) b = b). { unfold shift. destruct (s_rel s); auto. destruct b as [x y]. unfold here; cbn. f_equal; ring. }
    rewrite SH. fold k. change (mkPen (Some b) b NoCurve) with k. rewrite ST. reflexivity. }
  rewrite Q3 in Q2. destruct q as [|m [|s' [|x q]]]; try discriminate. injection Q2 as Q2 Q4. exists t, m, s'. rewrite V. auto.
Qed.
