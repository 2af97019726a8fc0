(** Printed path data reads back up to rounding. *)
Require Import ZArith QArith Qcanon Qabs Ascii String List Bool Lia Lqa.
Require Import Verif.Base Verif.Text_Spec Verif.Text_Proofs Verif.FmtG_Model Verif.FmtG_Proofs Verif.PointText_Spec Verif.Path_Model Verif.PathText_Model
  Verif.PathText_Spec Verif.PathText_Proofs Verif.PathDraw_Spec Verif.PathDraw_Proofs Verif.PathD_Model Verif.PathD_Spec Verif.PathD_Proofs Verif.PathRound_Spec.
Import ListNotations.
Open Scope Z_scope.

Section Rounding.
(** [R n]: the relation between a point read back and the point printed after [n] segments; [ok]: the points
    that print legibly. *)
Variable R : nat -> pt -> pt -> Prop.
Variable ok : bool -> pt -> pt -> Prop.
Hypothesis R_mono : forall n p q, R n p q -> R (S n) p q.
Hypothesis R_zero : R 0 (0, 0)%Qc (0, 0)%Qc.
Hypothesis R_lit : forall rel c p, ok rel c p -> exists l, lit_ok (fst l) /\ lit_ok (snd l) /\
  ptxt (Some c) rel p = lit_text (fst l) ++ ","%char :: lit_text (snd l) /\
  forall n k, R n (here k) c -> R (S n) (shift k rel (on2 qlit l)) p.

Definition pen_by (n : nat) (k' k : pen) : Prop := opt_by (R n) (at_ k') (at_ k) /\ R n (sub k') (sub k).
Lemma pen_by_here : forall n k' k, pen_by n k' k -> R n (0, 0)%Qc (0, 0)%Qc -> R n (here k') (here k).
Proof. intros n k' k (A & _) Z. unfold here. destruct (at_ k'), (at_ k); cbn in A; auto; contradiction. Qed.
Lemma R_origin : forall n, R n (0, 0)%Qc (0, 0)%Qc. Proof. induction n; auto. Qed.
Lemma opt_mono : forall n a b, opt_by (R n) a b -> opt_by (R (S n)) a b.
Proof. intros n [a|] [b|]; cbn; auto. Qed.

Lemma seg_rounds : forall n k' k s d rel sm, view s = Some d -> chain1 k d -> pen_by n k' k -> Forall (ok rel (here k)) (written d) -> (curved s -> sm = false) ->
  exists a w d' k2, seg_d s (Some (here k)) rel sm = Ok (letter_of rel a :: w) /\
    (forall u, ends_number u -> toks_text (args a) (w ++ u) u) /\
    stroke false k' rel (map_atom qlit a) = (d', k2) /\ drawn_by (R (S n)) d' d /\ pen_by (S n) k2 (after k d).
Proof.
  intros n k' k s d rel sm V C PB OK SM.
  assert (HH := pen_by_here n k' k PB (R_origin n)).
  assert (HK : forall f, at_ k = Some f -> here k = f) by (unfold here; intros f ->; auto).
  destruct PB as [PA PS].
  assert (HF : forall f, at_ k = Some f -> R (S n) (here k') f). { intros f F. apply R_mono. rewrite <- (HK f F). auto. }
  assert (PS' := R_mono _ _ _ PS).
  unfold seg_d. destruct d; cbn [written] in OK.
  - destruct (view_move _ _ _ V) as (K & S & E). rewrite K, E. apply Forall_inv in OK.
    destruct (R_lit _ _ _ OK) as (l & L1 & L2 & L3 & L4). rewrite L3, letter_cmd.
    exists (DMove l), (" "%char :: lit_text (fst l) ++ ","%char :: lit_text (snd l)). do 2 eexists. split; [destruct rel; reflexivity|]. split.
    + intros u U. cbn [args]. rewrite <- (app_nil_r (two l)). apply (toks_pair l [] u u); auto. constructor.
    + split; [reflexivity|]. cbn in C. subst from. cbn [drawn_by after pen_by at_ sub opt_by drawn_end]. split; [split; auto using opt_mono|]. split; cbn [after drawn_end at_ sub opt_by]; auto.
  - destruct (view_line _ _ _ V) as (K & S & E). rewrite K, E. apply Forall_inv in OK.
    destruct (R_lit _ _ _ OK) as (l & L1 & L2 & L3 & L4). rewrite L3, letter_cmd.
    exists (DLine l), (" "%char :: lit_text (fst l) ++ ","%char :: lit_text (snd l)). do 2 eexists. split; [destruct rel; reflexivity|]. split.
    + intros u U. cbn [args]. rewrite <- (app_nil_r (two l)). apply (toks_pair l [] u u); auto. constructor.
    + split; [reflexivity|]. cbn in C. cbn [drawn_by after drawn_end]. split; [repeat (split; [solve [auto]|]); auto|]. split; cbn [after drawn_end at_ sub opt_by]; auto.
  - destruct (view_close _ _ _ V) as (K & S & E). rewrite K. rewrite letter_cmd. exists DClose, []. do 2 eexists. split; [destruct rel; reflexivity|]. split.
    + intros u U. constructor.
    + split; [reflexivity|]. cbn in C. destruct C as (C & ->). cbn [drawn_by after drawn_end]. split; [repeat (split; [solve [auto]|]); auto|]. split; cbn [after drawn_end at_ sub opt_by]; auto.
  - destruct (view_quad _ _ _ _ V) as (K & S & E). rewrite K, E. assert (sm = false) as -> by (apply SM; unfold curved; rewrite K; exact I).
    inversion OK as [|? ? O1 OK1]; subst. apply Forall_inv in OK1.
    destruct (R_lit _ _ _ OK1) as (l & L1 & L2 & L3 & L4). destruct (R_lit _ _ _ O1) as (m & M1 & M2 & M3 & M4). rewrite L3, M3, !letter_cmd.
    exists (DQuad m l), (" "%char :: (lit_text (fst m) ++ ","%char :: lit_text (snd m)) ++ " "%char :: lit_text (fst l) ++ ","%char :: lit_text (snd l)). do 2 eexists.
    split; [cbn [words]; destruct rel; reflexivity|]. split.
    + intros u U. cbn [args app]. rewrite <- app_assoc. apply (toks_pair m (two l)); auto. right; eexists; reflexivity.
      cbn [app]. rewrite <- (app_nil_r (two l)). apply (toks_pair l [] u u); auto. constructor.
    + split; [reflexivity|]. cbn in C. cbn [drawn_by after drawn_end]. split; [repeat (split; [solve [auto]|]); auto|]. split; cbn [after drawn_end at_ sub opt_by]; auto.
  - destruct (view_cubic _ _ _ _ _ V) as (K & S & E). rewrite K, E. assert (sm = false) as -> by (apply SM; unfold curved; rewrite K; exact I).
    inversion OK as [|? ? O1 OK1]; subst. inversion OK1 as [|? ? O2 OK2]; subst. apply Forall_inv in OK2.
    destruct (R_lit _ _ _ OK2) as (l & L1 & L2 & L3 & L4). destruct (R_lit _ _ _ O1) as (m & M1 & M2 & M3 & M4). destruct (R_lit _ _ _ O2) as (q & N1 & N2 & N3 & N4). rewrite L3, M3, N3, !letter_cmd.
    exists (DCubic m q l), (" "%char :: (lit_text (fst m) ++ ","%char :: lit_text (snd m)) ++ " "%char :: (lit_text (fst q) ++ ","%char :: lit_text (snd q)) ++ " "%char :: lit_text (fst l) ++ ","%char :: lit_text (snd l)). do 2 eexists.
    split; [cbn [words]; destruct rel; reflexivity|]. split.
    + intros u U. cbn [args app]. rewrite <- app_assoc. apply (toks_pair m (two q ++ two l)); auto. right; eexists; reflexivity.
      cbn [app]. rewrite <- app_assoc. apply (toks_pair q (two l)); auto. right; eexists; reflexivity.
      cbn [app]. rewrite <- (app_nil_r (two l)). apply (toks_pair l [] u u); auto. constructor.
    + split; [reflexivity|]. cbn in C. cbn [drawn_by after drawn_end]. split; [repeat (split; [solve [auto]|]); auto|]. split; cbn [after drawn_end at_ sub opt_by]; auto.
  - contradiction.
Qed.

(** The segments correspond, the [i]-th by [R (n + i + 1)]. *)
Fixpoint drawn_all (n : nat) (l' l : list drawn) : Prop :=
  match l', l with [], [] => True | d' :: l', d :: l => drawn_by (R (S n)) d' d /\ drawn_all (S n) l' l | _, _ => False end.
Definition seg_ok (relative : option bool) (s : seg) (d : drawn) : Prop := Forall (ok (rel_of relative s) (drawn_from d)) (written d).
Lemma chain1_from : forall k d, chain1 k d -> drawn_from d = here k.
Proof.
  intros k d C. unfold here. destruct d; cbn in *; try contradiction.
  - subst from. destruct (at_ k); auto.
  - rewrite C; auto.
  - destruct C as [-> _]; auto.
  - rewrite C; auto.
  - rewrite C; auto.
Qed.
Lemma is_smooth_flat : forall s prev, ~ curved s -> is_smooth_from s prev = Ok false.
Proof. intros s prev N. unfold is_smooth_from, curved in *. destruct (s_kind s); auto; exfalso; auto. Qed.
Lemma path_rounds : forall relative smooth p ds prev n k' k pl, map view p = map Some ds -> Forall2 (seg_ok relative) p ds -> chained (at_ k) (sub k) ds -> pen_by n k' k ->
  (forall s, In s p -> curved s -> wants smooth s = false) ->
  exists ws l, svg_d_from prev (Some (here k)) relative smooth p = Ok ws /\ spelled pl l (spaced ws) [] /\ drawn_all n (svg false k' (values l)) ds /\
    (forall d ds', ds = d :: ds' -> exists rel a l' w ws' d' k2, l = (rel, a) :: l' /\ ws = (letter_of rel a :: w) :: ws' /\ stroke false k' rel (map_atom qlit a) = (d', k2) /\ drawn_by (R (S n)) d' d).
Proof.
  intros relative smooth p. induction p as [|s p IH]; intros ds prev n k' k pl V OK C PB W.
  - destruct ds as [|d ds]; [|discriminate]. exists [], []. split; [reflexivity|]. split; [constructor|]. split; [exact I|]. discriminate.
  - destruct ds as [|d ds]; [discriminate|]. injection V as V VS. inversion OK as [|? ? ? ? O1 OK']; subst. apply chained_after in C as (C1 & C2).
    cbn [svg_d_from]. fold (wants smooth s). fold (rel_of relative s). unfold seg_ok in O1. rewrite (chain1_from _ _ C1) in O1.
    assert (SM : exists sm, (if wants smooth s then is_smooth_from s prev else Ok false) = Ok sm /\ (curved s -> sm = false)).
    { destruct (wants smooth s) eqn:WS; [|exists false; auto]. exists false. split; auto. apply is_smooth_flat. intros K. rewrite W in WS; [discriminate|left; auto|auto]. }
    destruct SM as (sm & -> & SM). cbn [rbind].
    destruct (seg_rounds n k' k s d (rel_of relative s) sm) as (a & w & d' & k2 & D & T & ST & DB & PB2); auto.
    rewrite D. cbn [rbind]. rewrite (view_end _ _ V).
    destruct (IH ds (Some s) (S n) k2 (after k d) (implied (rel_of relative s) a)) as (ws & l & E & SP & SV & _); auto.
    { intros s' I'. apply W. right; auto. }
    change (here (after k d)) with (drawn_end d) in E. rewrite E. cbn [rbind]. exists ((letter_of (rel_of relative s) a :: w) :: ws), ((rel_of relative s, a) :: l).
    split; [reflexivity|]. split; [|split].
    + unfold spaced; cbn [map concat]. fold (spaced ws). change ((" "%char :: letter_of (rel_of relative s) a :: w) ++ spaced ws) with ([" "%char] ++ letter_of (rel_of relative s) a :: (w ++ spaced ws)).
      eapply sp_letter; eauto. constructor; [cbn; tauto|constructor]. apply T, spaced_ends.
    + cbn [values map fst snd svg]. rewrite ST. fold (values l). split; auto.
    + intros d0 ds0 K. injection K as <- <-. exists (rel_of relative s), a, l, w, ws, d', k2. auto.
Qed.
Lemma text_rounds : forall relative smooth p ds, map view p = map Some ds -> Forall2 (seg_ok relative) p ds -> chained None (0, 0)%Qc ds -> starts_drawing ds ->
  (forall s, In s p -> curved s -> wants smooth s = false) ->
  exists s q ds', svg_d p relative smooth = Ok s /\ parse s [] = (q, None) /\ map view q = map Some ds' /\ drawn_all 0 ds' ds.
Proof.
  intros relative smooth p ds V OK C S W. unfold svg_d.
  destruct (path_rounds relative smooth p ds None 0 pen0 pen0 None) as (ws & l & E & SP & SV & FI); auto.
  { split; cbn; auto. }
  change (here pen0) with (0, 0)%Qc in E. rewrite E. cbn [rmap rbind]. destruct ds as [|d ds].
  - destruct p; [|discriminate]. cbn in E. injection E as <-. exists [], [], []. repeat split.
  - destruct (FI d ds eq_refl) as (rel & a & l' & w & ws' & d' & k2 & -> & -> & ST & DB).
    assert (NS : drop_sep (spaced ((letter_of rel a :: w) :: ws')) = words ((letter_of rel a :: w) :: ws')).
    { rewrite words_spaced. unfold spaced. cbn [map concat app drop_sep]. destruct (cmd_letter rel a) as (_ & C2 & _). rewrite C2. reflexivity. }
    assert (SP' := spelled_strip _ _ _ _ _ _ SP eq_refl). rewrite NS in SP'.
    assert (B : begins_with_move ((rel, a) :: l')).
    { destruct d; try contradiction. destruct d'; try contradiction. destruct a; cbn in ST; try discriminate. repeat eexists. }
    assert (SN : stop []) by (exists [], []; split; [constructor|auto]).
    destruct (parse_svg _ _ _ SP' SN B) as (q & Q1 & Q2). eexists. exists q. eexists. split; [reflexivity|]. split; [exact Q1|]. split; [exact Q2|]. exact SV.
Qed.
Lemma drawn_all_nth : forall l' l n i d, drawn_all n l' l -> nth_error l i = Some d -> exists d', nth_error l' i = Some d' /\ drawn_by (R (S (n + i))) d' d.
Proof.
  induction l' as [|x l' IH]; intros [|y l] n i d H N; try contradiction. destruct i; discriminate.
  destruct H as [H1 H2]. destruct i as [|i]; cbn [nth_error] in *.
  - injection N as <-. exists x. rewrite Nat.add_0_r. auto.
  - destruct (IH l (S n) i d H2 N) as (d' & A & B). exists d'. split; auto. replace (n + S i)%nat with (S n + i)%nat by lia. auto.
Qed.
Lemma drawn_all_length : forall l' l n, drawn_all n l' l -> List.length l' = List.length l.
Proof. induction l' as [|x l' IH]; intros [|y l] n H; try contradiction; auto. destruct H as [_ H]. cbn. f_equal. eauto. Qed.
End Rounding.

Lemma drawn_all_forall2 : forall R l' l n, drawn_all (fun _ => R) n l' l -> Forall2 (drawn_by R) l' l.
Proof. intros R. induction l' as [|x l' IH]; intros [|y l] n H; try contradiction; constructor; destruct H; eauto. Qed.

(** * The two readings *)
Lemma legible_lit : forall x, legible x -> exists l, lit_ok l /\ coord_str (this x) = lit_text l /\ sig 12 (this (qlit l)) (this x).
Proof.
  intros x [P|(d & P)].
  - destruct (coord_plain _ P) as (l & A & _ & B & C & _). exists l. split; auto. split; auto. unfold qlit, Q2Qc, sig in *; cbn [this]. rewrite Qred_correct. auto.
  - destruct (coord_scientific _ _ P) as (l & A & B & C & _). exists l. split; auto. split; auto. unfold qlit, Q2Qc, sig in *; cbn [this]. rewrite Qred_correct. auto.
Qed.
Definition ok_with (P : Qc -> Prop) (rel : bool) (c p : pt) : Prop :=
  Forall P (if rel then [fst p - fst c; snd p - snd c]%Qc else [fst p; snd p]).
Lemma ok_lit : forall rel c p, ok_with legible rel c p -> exists l, lit_ok (fst l) /\ lit_ok (snd l) /\
  ptxt (Some c) rel p = lit_text (fst l) ++ ","%char :: lit_text (snd l) /\ digits12 (on2 qlit l) (less c p rel).
Proof.
  intros rel c p O. unfold ok_with in O.
  assert (O' : legible (fst (less c p rel)) /\ legible (snd (less c p rel))).
  { destruct rel; inversion O as [|? ? A B]; subst; apply Forall_inv in B; auto. }
  destruct O' as [O1 O2]. destruct (legible_lit _ O1) as (a & A1 & A2 & A3), (legible_lit _ O2) as (b & B1 & B2 & B3).
  exists (a, b). cbn [fst snd]. split; auto. split; auto. split; [|split; auto].
  rewrite <- A2, <- B2. unfold ptxt, less, pstr, point_str. destruct rel; reflexivity.
Qed.
Lemma numbers_ok : forall P rel d, Forall P (numbers rel d) -> Forall (ok_with P rel (drawn_from d)) (written d).
Proof.
  intros P rel d. unfold numbers. generalize (drawn_from d) as f. intros f. induction (written d) as [|p l IH]; intros H; [constructor|].
  cbn [flat_map] in H. apply Forall_app in H as [H1 H2]. constructor; auto.
Qed.

Lemma digits12_zero : digits12 (0, 0)%Qc (0, 0)%Qc.
Proof. split; unfold sig; vm_compute; discriminate. Qed.
Lemma digits12_lit : forall rel c p, rel = false /\ ok_with legible rel c p -> exists l, lit_ok (fst l) /\ lit_ok (snd l) /\
  ptxt (Some c) rel p = lit_text (fst l) ++ ","%char :: lit_text (snd l) /\
  forall (n : nat) k, digits12 (here k) c -> digits12 (shift k rel (on2 qlit l)) p.
Proof.
  intros rel c p (-> & O). destruct (ok_lit _ _ _ O) as (l & A & B & C & D). exists l. split; auto.
Qed.
(** Absolute printing. *)
Lemma text_digits12 : forall relative smooth p ds, map view p = map Some ds -> chained None (0, 0)%Qc ds -> starts_drawing ds ->
  Forall (fun s => rel_of relative s = false) p -> Forall (fun d => Forall legible (numbers false d)) ds ->
  (forall s, In s p -> curved s -> wants smooth s = false) ->
  exists s q ds', svg_d p relative smooth = Ok s /\ parse s [] = (q, None) /\ map view q = map Some ds' /\ Forall2 (drawn_by digits12) ds' ds.
Proof.
  intros relative smooth p ds V C S A L W.
  destruct (text_rounds (fun _ => digits12) (fun rel c p => rel = false /\ ok_with legible rel c p) (fun _ _ _ H => H) digits12_zero digits12_lit relative smooth p ds) as (s & q & ds' & E1 & E2 & E3 & E4); auto.
  { clear - V A L. revert p V A. induction L as [|d ds L1 L IH]; intros [|s p] V A; try discriminate; constructor.
    - apply Forall_inv in A. unfold seg_ok. rewrite A. apply numbers_ok in L1. revert L1. apply Forall_impl. auto.
    - injection V as V VS. inversion A; subst. auto. }
  exists s, q, ds'. split; auto. split; auto. split; auto. eapply drawn_all_forall2; eauto.
Qed.

(** Any printing: the error grows by one rounding with each segment. *)
Lemma drift_S : forall B n, (drift B (S n) == drift B n + B * (1 # 2) * p10 (-11))%Q.
Proof. intros. unfold drift. rewrite Nat2Z.inj_succ, <- Z.add_1_r, inject_Z_plus. change (inject_Z 1) with 1%Q. ring. Qed.
Lemma off_zero : forall e, (0 <= e)%Q -> off e (0, 0)%Qc (0, 0)%Qc.
Proof. intros e H. split; cbn [fst snd]; change (Qabs (this 0%Qc - this 0%Qc)) with 0%Q; auto. Qed.
Lemma drift_pos : forall B n, (0 <= B)%Q -> (0 <= drift B n)%Q.
Proof.
  intros B n H. unfold drift. apply Qmult_le_0_compat. change 0%Q with (inject_Z 0). rewrite <- Zle_Qle. lia.
  apply Qmult_le_0_compat. apply Qmult_le_0_compat; auto. discriminate. assert (P := p10_pos (-11)). lra.
Qed.
Lemma this_plus : forall a b : Qc, (this (a + b)%Qc == this a + this b)%Q.
Proof. intros a b. unfold Qcplus, Q2Qc; cbn [this]. apply Qred_correct. Qed.
Lemma Qabs_sub_add : forall a b c d e f : Q, (Qabs (a - b) <= e)%Q -> (Qabs (c - d) <= f)%Q -> (Qabs (a + c - (b + d)) <= e + f)%Q.
Proof.
  intros a b c d e f H K. setoid_replace (a + c - (b + d))%Q with ((a - b) + (c - d))%Q by ring. eapply Qle_trans; [apply Qabs_triangle|]. lra.
Qed.
Lemma sig_off : forall B v q, sig 12 v q -> (Qabs q <= B)%Q -> (Qabs (v - q) <= B * (1 # 2) * p10 (-11))%Q.
Proof.
  intros B v q S H. unfold sig in S. change (1 - 12) with (-11) in S. eapply Qle_trans; [exact S|].
  assert (P := p10_pos (-11)). apply Qmult_le_compat_r; [|lra]. apply Qmult_le_compat_r; [auto|discriminate].
Qed.
Lemma drift_lit : forall B, (0 <= B)%Q -> forall rel c p, ok_with (size_at_most B) rel c p -> exists l, lit_ok (fst l) /\ lit_ok (snd l) /\
  ptxt (Some c) rel p = lit_text (fst l) ++ ","%char :: lit_text (snd l) /\
  forall (n : nat) k, off (drift B n) (here k) c -> off (drift B (S n)) (shift k rel (on2 qlit l)) p.
Proof.
  intros B HB rel c p O.
  assert (OL : ok_with legible rel c p) by (revert O; apply Forall_impl; intros x (H & _); auto).
  assert (S1 : (Qabs (this (fst (less c p rel))) <= B)%Q /\ (Qabs (this (snd (less c p rel))) <= B)%Q).
  { unfold ok_with in O. destruct rel; inversion O as [|? ? X Y]; subst; apply Forall_inv in Y; destruct X, Y; auto. }
  destruct S1 as (S1 & S2).
  destruct (ok_lit _ _ _ OL) as (l & A1 & A2 & C & (D1 & D2)). exists l. split; auto. split; auto. split; auto. intros n k (K1 & K2).
  assert (P := drift_pos B n HB). assert (E1 := sig_off B _ _ D1 S1). assert (E2 := sig_off B _ _ D2 S2).
  destruct rel; cbn [shift less] in *.
  - split; cbn [fst snd] in *; rewrite this_plus, drift_S.
    + setoid_replace (this (fst p)) with (this (fst p - fst c)%Qc + this (fst c))%Q by (rewrite this_minus; ring).
      rewrite (Qplus_comm (drift B n)). apply Qabs_sub_add; auto.
    + setoid_replace (this (snd p)) with (this (snd p - snd c)%Qc + this (snd c))%Q by (rewrite this_minus; ring).
      rewrite (Qplus_comm (drift B n)). apply Qabs_sub_add; auto.
  - split; rewrite drift_S; cbn [fst snd] in *; [eapply Qle_trans; [exact E1|]|eapply Qle_trans; [exact E2|]]; lra.
Qed.
Lemma off_mono : forall B, (0 <= B)%Q -> forall n p q, off (drift B n) p q -> off (drift B (S n)) p q.
Proof.
  intros B H n p q (X & Y). assert (0 <= B * (1 # 2) * p10 (-11))%Q. { assert (Z := drift_pos B 1 H). unfold drift in Z. change (inject_Z (Z.of_nat 1)) with 1%Q in Z. lra. }
  split; rewrite drift_S; lra.
Qed.
Lemma text_drifts : forall B relative smooth p ds, (0 <= B)%Q -> map view p = map Some ds -> chained None (0, 0)%Qc ds -> starts_drawing ds ->
  Forall2 (fun s d => Forall (size_at_most B) (numbers (rel_of relative s) d)) p ds ->
  (forall s, In s p -> curved s -> wants smooth s = false) ->
  exists s q ds', svg_d p relative smooth = Ok s /\ parse s [] = (q, None) /\ map view q = map Some ds' /\ List.length ds' = List.length ds /\
    forall i d, nth_error ds i = Some d -> exists d', nth_error ds' i = Some d' /\ drawn_by (off (drift B (S i))) d' d.
Proof.
  intros B relative smooth p ds HB V C S L W.
  destruct (text_rounds (fun n => off (drift B n)) (ok_with (size_at_most B)) (off_mono B HB) (off_zero _ (drift_pos B 0 HB)) (drift_lit B HB) relative smooth p ds) as (s & q & ds' & E1 & E2 & E3 & E4); auto.
  { clear - L. induction L; constructor; auto. apply numbers_ok; auto. }
  exists s, q, ds'. split; auto. split; auto. split; auto. split. eapply drawn_all_length; eauto.
  intros i d N. destruct (drawn_all_nth _ _ _ _ _ _ E4 N) as (d' & A & A'). exists d'. auto.
Qed.

(** * One segment on its own *)
Lemma seg_str_rounds : forall s d b, view s = Some d -> Forall legible (numbers false d) -> s_start s = Some b -> legible (fst b) -> legible (snd b) -> stands_alone s ->
  exists t m s' b' d', seg_str s = Ok t /\ parse t [] = ([m; s'], None) /\ view m = Some (SMove None b') /\ digits12 b' b /\ view s' = Some d' /\ drawn_by digits12 d' d.
Proof.
  intros s d b V L S B1 B2 SA. unfold seg_str. rewrite (seg_d_none s b).
  assert (NS : exists sm, s_smooth s = sm) by eauto. destruct NS as (sm & SM). rewrite SM, S.
  assert (OB : ok_with legible false (0, 0)%Qc b) by (constructor; [auto|constructor; auto]).
  destruct (ok_lit _ _ _ OB) as (l & L1 & L2 & L3 & L4). cbn [ptxt less] in L3, L4.
  set (b' := on2 qlit l) in *. set (k := mkPen (Some b) b NoCurve). set (k' := mkPen (Some b') b' NoCurve).
  assert (C : chain1 k d).
  { unfold view in V. rewrite S in V. unfold stands_alone in SA. destruct (s_kind s) as [| | |[q|]|[x|] [y|]|a]; try contradiction; destruct (s_end s); try discriminate; injection V as <-; reflexivity. }
  destruct (seg_rounds (fun _ => digits12) (fun rel c p => rel = false /\ ok_with legible rel c p) (fun _ _ _ H => H) digits12_zero digits12_lit 0 k' k s d false sm) as (a & w & d' & k2 & D & T & ST & DB & _); auto.
  { split; auto. }
  { apply numbers_ok in L. revert L. rewrite (chain1_from _ _ C). apply Forall_impl. auto. }
  { unfold stands_alone, curved in *. destruct (s_kind s); try contradiction; congruence. }
  change (here k) with b in D. rewrite D. cbn [rbind].
  set (t := words [[if s_rel s then "m"%char else "M"%char]; pstr b; letter_of false a :: w]).
  assert (SP : spelled None [(s_rel s, DMove l); (false, a)] t []).
  { assert (T0 := T [] (or_introl eq_refl)). rewrite app_nil_r in T0.
    assert (E : t = [] ++ letter_of (s_rel s) (DMove l) :: (" "%char :: (lit_text (fst l) ++ ","%char :: lit_text (snd l)) ++ " "%char :: letter_of false a :: w)).
    { unfold t. cbn [words]. rewrite L3. destruct (s_rel s); reflexivity. }
    rewrite E. apply (sp_letter None (s_rel s) (DMove l) [] _ (" "%char :: letter_of false a :: w)); [constructor| |].
    - cbn [args]. rewrite <- (app_nil_r (two l)). apply (toks_pair l []); auto. right; eexists; reflexivity. constructor.
    - apply (sp_letter _ false a [" "%char] w []); auto. constructor; [cbn; tauto|constructor]. constructor. }
  assert (SN : stop []) by (exists [], []; split; [constructor|auto]).
  destruct (parse_svg _ _ _ SP SN) as (q & Q1 & Q2); [repeat eexists|].
  assert (Q3 : svg false pen0 (values [(s_rel s, DMove l); (false, a)]) = [SMove None b'; d']).
  { cbn [values map fst snd map_atom svg]. cbn [stroke]. fold b'.
    assert (SH : shift pen0 (s_rel s) b' = b'). { unfold shift. destruct (s_rel s); auto. destruct b' as [x y]. unfold here; cbn. f_equal; ring. }
    rewrite SH. fold k'. change (mkPen (Some b') b' NoCurve) with k'. rewrite ST. reflexivity. }
  rewrite Q3 in Q2. destruct q as [|m [|s' [|x q]]]; try discriminate. injection Q2 as Q2 Q4. exists t, m, s', b', d'. rewrite Q2, Q4. auto 8.
Qed.
