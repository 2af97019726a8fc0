Require Import ZArith QArith Qabs Qminmax Qreals Reals Ascii String List Bool Lia Lqa.
Require Import Verif.Base Verif.Text_Spec Verif.Text_Proofs Verif.Fmt_Model Verif.Fmt_Proofs Verif.Color_Proofs Verif.Length_Model Verif.Length_Proofs
  Verif.Matrix_Model Verif.Matrix_Spec Verif.Matrix_Proofs Verif.Transform_Model Verif.Transform_Spec Verif.Transform_Proofs Verif.Viewbox_Model Verif.Viewbox_Spec.
Import ListNotations.
Open Scope Q_scope.

Lemma aspect_ok : forall a b f par, par_text a b f par ->
  let '(al, ms) := aspect_parts par in
  teqb al (T "none") = false /\ ms = (match f with Meet => T "meet" | Slice => T "slice" end) /\
  contains (T "xmid") (lower al) = (match a with Mid => true | _ => false end) /\
  contains (T "xmax") (lower al) = (match a with Max => true | _ => false end) /\
  contains (T "ymid") (lower al) = (match b with Mid => true | _ => false end) /\
  contains (T "ymax") (lower al) = (match b with Max => true | _ => false end).
Proof. intros a b f par H. destruct H; try destruct a; try destruct b; vm_compute; repeat split. Qed.

Lemma qdiv_ok : forall a b, 0 < b -> qdiv a b = Ok (a / b).
Proof. intros. unfold qdiv. destruct (is0 b) eqn:E; auto. apply is0_true in E. lra. Qed.
Lemma div_mul : forall a b, 0 < b -> b * (a / b) == a.
Proof. intros. field. lra. Qed.

Lemma fit_lemma : forall ex ey ew eh vx vy vw vh a b f par, 0 < vw -> 0 < vh -> par_text a b f par ->
  exists s tx ty, vb_numbers ex ey ew eh vx vy vw vh par = Ok (mkVt s s tx ty) /\
  s == (match f with Meet => Qmin (ew / vw) (eh / vh) | Slice => Qmax (ew / vw) (eh / vh) end) /\
  placed a ex ew vx vw s tx /\ placed b ey eh vy vh s ty.
Proof.
  intros ex ey ew eh vx vy vw vh a b f par W H P. pose proof (aspect_ok _ _ _ _ P) as A.
  unfold vb_numbers. destruct (aspect_parts par) as [al ms]. destruct A as (A1 & -> & A3 & A4 & A5 & A6).
  rewrite !qdiv_ok by auto. cbn [rbind]. rewrite A1, A3, A4, A5, A6.
  destruct f; cbn [negb andb teqb T list_ascii_of_string aeqb Ascii.eqb Bool.eqb].
  - set (s := Qmin (ew / vw) (eh / vh)). clearbody s. eexists. eexists. eexists. split; [reflexivity|]. split; [reflexivity|].
    destruct a, b; cbn [placed]; split; (ring || field).
  - set (s := Qmax (ew / vw) (eh / vh)). clearbody s. eexists. eexists. eexists. split; [reflexivity|]. split; [reflexivity|].
    destruct a, b; cbn [placed]; split; (ring || field).
Qed.

Lemma mul_div_le : forall s e v, 0 < v -> s <= e / v -> s * v <= e.
Proof. intros. setoid_replace e with (e / v * v) by (field; lra). apply Qmult_le_compat_r; lra. Qed.
Lemma mul_div_ge : forall s e v, 0 < v -> e / v <= s -> e <= s * v.
Proof. intros. setoid_replace e with (e / v * v) by (field; lra). apply Qmult_le_compat_r; lra. Qed.
Lemma placed_inside : forall a e el v vl s t, placed a e el v vl s t -> s * vl <= el -> inside e el v vl s t.
Proof. intros a e el v vl s t H L. unfold inside. destruct a; simpl in H; unfold Qdiv in H; change (/ 2) with (1 # 2) in H; split; lra. Qed.
Lemma placed_covers : forall a e el v vl s t, placed a e el v vl s t -> el <= s * vl -> covers e el v vl s t.
Proof. intros a e el v vl s t H L. unfold covers. destruct a; simpl in H; unfold Qdiv in H; change (/ 2) with (1 # 2) in H; split; lra. Qed.

Lemma meet_lemma : forall ex ey ew eh vx vy vw vh a b par, 0 < vw -> 0 < vh -> par_text a b Meet par ->
  exists s tx ty, vb_numbers ex ey ew eh vx vy vw vh par = Ok (mkVt s s tx ty) /\
  inside ex ew vx vw s tx /\ inside ey eh vy vh s ty /\ (s * vw == ew \/ s * vh == eh) /\
  placed a ex ew vx vw s tx /\ placed b ey eh vy vh s ty.
Proof.
  intros ex ey ew eh vx vy vw vh a b par W H P. destruct (fit_lemma ex ey ew eh vx vy vw vh a b Meet par W H P) as (s & tx & ty & E & S & PA & PB).
  exists s, tx, ty. split; [exact E|].
  assert (L1 : s * vw <= ew). { apply mul_div_le; auto. rewrite S. apply Q.le_min_l. }
  assert (L2 : s * vh <= eh). { apply mul_div_le; auto. rewrite S. apply Q.le_min_r. }
  split; [eapply placed_inside; eauto|]. split; [eapply placed_inside; eauto|]. split; [|auto].
  destruct (Q.min_spec (ew / vw) (eh / vh)) as [[_ M]|[_ M]]; rewrite M in S; [left|right]; rewrite S; field; lra.
Qed.
Lemma slice_lemma : forall ex ey ew eh vx vy vw vh a b par, 0 < vw -> 0 < vh -> par_text a b Slice par ->
  exists s tx ty, vb_numbers ex ey ew eh vx vy vw vh par = Ok (mkVt s s tx ty) /\
  covers ex ew vx vw s tx /\ covers ey eh vy vh s ty /\ (s * vw == ew \/ s * vh == eh) /\
  placed a ex ew vx vw s tx /\ placed b ey eh vy vh s ty.
Proof.
  intros ex ey ew eh vx vy vw vh a b par W H P. destruct (fit_lemma ex ey ew eh vx vy vw vh a b Slice par W H P) as (s & tx & ty & E & S & PA & PB).
  exists s, tx, ty. split; [exact E|].
  assert (L1 : ew <= s * vw). { apply mul_div_ge; auto. rewrite S. apply Q.le_max_l. }
  assert (L2 : eh <= s * vh). { apply mul_div_ge; auto. rewrite S. apply Q.le_max_r. }
  split; [eapply placed_covers; eauto|]. split; [eapply placed_covers; eauto|]. split; [|auto].
  destruct (Q.max_spec (ew / vw) (eh / vh)) as [[_ M]|[_ M]]; rewrite M in S; [right|left]; rewrite S; field; lra.
Qed.
Lemma none_lemma : forall ex ey ew eh vx vy vw vh par, 0 < vw -> 0 < vh -> In par [T "none"; T "none meet"; T "none slice"] ->
  exists sx sy tx ty, vb_numbers ex ey ew eh vx vy vw vh (Some par) = Ok (mkVt sx sy tx ty) /\
  onto ex ew vx vw sx tx /\ onto ey eh vy vh sy ty.
Proof.
  intros ex ey ew eh vx vy vw vh par W H P.
  assert (A : fst (aspect_parts (Some par)) = T "none").
  { simpl in P. repeat (destruct P as [<-|P]; [reflexivity|]). contradiction. }
  unfold vb_numbers. destruct (aspect_parts (Some par)) as [al ms]. cbn [fst] in A. subst al. rewrite !qdiv_ok by auto. cbn [rbind].
  replace (teqb (T "none") (T "none")) with true by reflexivity. cbn [negb andb].
  replace (contains (T "xmid") (lower (T "none"))) with false by reflexivity. replace (contains (T "xmax") (lower (T "none"))) with false by reflexivity.
  replace (contains (T "ymid") (lower (T "none"))) with false by reflexivity. replace (contains (T "ymax") (lower (T "none"))) with false by reflexivity.
  eexists. eexists. eexists. eexists. split; [reflexivity|]. unfold onto. repeat split; field; lra.
Qed.
Lemma zero_lemma : forall ex ey ew eh vx vy vw vh par, vw == 0 \/ vh == 0 ->
  viewbox_transform (Some ex) (Some ey) (Some ew) (Some eh) (Some vx) (Some vy) (Some vw) (Some vh) par = Err ZeroDivisionError.
Proof.
  intros ex ey ew eh vx vy vw vh par Z. unfold viewbox_transform, vb_numbers. destruct (aspect_parts par).
  unfold qdiv. destruct (is0 vw) eqn:E1; [reflexivity|]. destruct (is0 vh) eqn:E2; [reflexivity|].
  apply is0_false in E1. apply is0_false in E2. tauto.
Qed.

(** * The text *)
Definition near12 (x y : Q) : Prop := Qabs (x - y) <= (1 # 2) * (1 # 1000000000000).
Lemma str_near : forall q, exists l, lit_ok l /\ length_str q = lit_text l /\ near12 (lit_val l) q /\
  ((exists k, q * inject_Z (10 ^ 12) == inject_Z k) -> lit_val l == q).
Proof.
  intros q. destruct (length_str_spec q) as (l & L & X & E & n & N & N0 & V). exists l. split; [exact L|]. split; [exact E|].
  split.
  - unfold near12. rewrite V. destruct N as (R1 & R2 & _). destruct (Qltb q 0) eqn:S; [apply Qltb_true in S | apply Qltb_false in S].
    + rewrite Qabs_neg in R1, R2 by lra. rewrite inject_Z_opp.
      setoid_replace (- inject_Z n / inject_Z (10 ^ 12) - q) with ((- q * inject_Z (10 ^ 12) - inject_Z n) * (1 # 1000000000000)).
      2:{ change (inject_Z (10 ^ 12)) with (1000000000000 # 1). field. }
      rewrite Qabs_Qmult. apply Qmult_le_compat_r; [|discriminate]. apply Qabs_Qle_condition. split; lra.
    + rewrite Qabs_pos in R1, R2 by lra.
      setoid_replace (inject_Z n / inject_Z (10 ^ 12) - q) with (- (q * inject_Z (10 ^ 12) - inject_Z n) * (1 # 1000000000000)).
      2:{ change (inject_Z (10 ^ 12)) with (1000000000000 # 1). field. }
      rewrite Qabs_Qmult. apply Qmult_le_compat_r; [|discriminate]. apply Qabs_Qle_condition. split; lra.
  - intros [k K]. destruct (length_str_exact q k K) as (l' & L' & X' & E' & V').
    assert (F : fnum_val (fnum_of l) = fnum_val (fnum_of l')).
    { assert (no_cont l [] /\ no_cont l' []) as [C C'] by (split; apply nc_no_cont; exact I).
      pose proof (match_float_lit l [] L C) as M. pose proof (match_float_lit l' [] L' C') as M'.
      rewrite app_nil_r, <- E, E', <- (app_nil_r (lit_text l')), M' in M. assert (fnum_of l = fnum_of l') as -> by congruence. reflexivity. }
    rewrite <- (fnum_val_lit l L), F, (fnum_val_lit l' L'). exact V'.
Qed.
Definition param_of (l : lit) : param := mkParam l [].
Lemma par_num : forall l, lit_ok l -> is_num (param_of l) (Q2R (lit_val l)).
Proof. intros. apply (num_of (param_of l)); auto. Qed.
Lemma par_dist : forall l, lit_ok l -> is_dist (param_of l) (Q2R (lit_val l)).
Proof. intros. apply (dist_of (param_of l)); auto. Qed.
Lemma func2 : forall nm l1 l2, lower (T nm) = T nm -> func_text nm [param_of l1; param_of l2] (T nm ++ T "(" ++ lit_text l1 ++ T ", " ++ lit_text l2 ++ T ")").
Proof.
  intros nm l1 l2 LN.
  replace (T nm ++ T "(" ++ lit_text l1 ++ T ", " ++ lit_text l2 ++ T ")") with (T nm ++ [] ++ "("%char :: [] ++ (param_text (param_of l1) ++ T ", " ++ param_text (param_of l2) ++ []) ++ [")"%char]).
  - apply ft; auto. apply pt_cons.
    + apply Forall_cons; [right; reflexivity | apply Forall_cons; [left; unfold wsp; simpl; auto | constructor]].
    + left. discriminate.
    + apply pt_one. constructor.
  - unfold param_text, param_of. cbn [p_lit p_unit]. rewrite !app_nil_r. simpl. rewrite <- !app_assoc. reflexivity.
Qed.

Lemma vt_text_lemma : forall t, exists sx sy tx ty, mx_of_text (vt_text t) = Ok (M (Q2R sx) 0 0 (Q2R sy) (Q2R tx) (Q2R ty)) /\
  near12 sx (t_sx t) /\ near12 sy (t_sy t) /\ near12 tx (t_tx t) /\ near12 ty (t_ty t) /\
  ((exists k, t_sx t * inject_Z (10 ^ 12) == inject_Z k) -> sx == t_sx t) /\
  ((exists k, t_sy t * inject_Z (10 ^ 12) == inject_Z k) -> sy == t_sy t) /\
  ((exists k, t_tx t * inject_Z (10 ^ 12) == inject_Z k) -> tx == t_tx t) /\
  ((exists k, t_ty t * inject_Z (10 ^ 12) == inject_Z k) -> ty == t_ty t).
Proof.
  intros [sx sy tx ty]. cbn [t_sx t_sy t_tx t_ty].
  destruct (str_near sx) as (l1 & L1 & E1 & N1 & X1). destruct (str_near sy) as (l2 & L2 & E2 & N2 & X2).
  destruct (str_near tx) as (l3 & L3 & E3 & N3 & X3). destruct (str_near ty) as (l4 & L4 & E4 & N4 & X4).
  assert (NQ : forall a b, a == b -> near12 a b).
  { intros a b H. unfold near12. setoid_replace (a - b) with 0 by lra. discriminate. }
  assert (SC : func_text "scale" [param_of l1; param_of l2] (T "scale(" ++ length_str sx ++ T ", " ++ length_str sy ++ T ")")).
  { rewrite E1, E2. apply (func2 "scale"). reflexivity. }
  assert (TR : func_text "translate" [param_of l3; param_of l4] (T "translate(" ++ length_str tx ++ T ", " ++ length_str ty ++ T ")")).
  { rewrite E3, E4. apply (func2 "translate"). reflexivity. }
  assert (DS := d_scale _ _ _ _ (par_num l1 L1) (par_num l2 L2)).
  assert (DT := d_translate _ _ _ _ (par_dist l3 L3) (par_dist l4 L4)).
  assert (FIN : forall s f a b c d, tlist s f -> (forall p, f p = sp_translate (Q2R c) (Q2R d) (sp_scale (Q2R a) (Q2R b) p)) ->
     mx_of_text s = Ok (M (Q2R a) 0 0 (Q2R b) (Q2R c) (Q2R d))).
  { intros s f a b c d TL H. destruct (tlist_lemma s f TL) as (m & -> & A). f_equal. apply act_inj. intros [x y]. rewrite A, H.
    unfold act, sp_translate, sp_scale. simpl. apply pair_eq; ring. }
  assert (Q0 : Q2R 0 = 0%R) by (unfold Q2R; simpl; field). assert (Q1 : Q2R 1 = 1%R) by (unfold Q2R; simpl; field).
  unfold vt_text. cbn [t_sx t_sy t_tx t_ty].
  destruct (Qeq_bool tx 0 && Qeq_bool ty 0) eqn:B0; [apply andb_true_iff in B0 as [B0 B0']; apply Qeq_bool_iff in B0, B0'|];
  (destruct (Qeq_bool sx 1 && Qeq_bool sy 1) eqn:B1; [apply andb_true_iff in B1 as [B1 B1']; apply Qeq_bool_iff in B1, B1'|]).
  - exists 1, 1, 0, 0. split.
    { eapply FIN; [apply tl_nil; constructor|]. intros [x y]. unfold sp_translate, sp_scale. simpl. rewrite Q0, Q1. apply pair_eq; ring. }
    do 4 (split; [apply NQ; symmetry; assumption|]). do 3 (split; [intros _; symmetry; assumption|]). intros _; symmetry; assumption.
  - exists (lit_val l1), (lit_val l2), 0, 0. split.
    { eapply FIN. rewrite <- (app_nil_r (T "scale(" ++ _)). eapply (tl_cons [] _ _ _ _ [] _ (Forall_nil _) SC DS). apply tl_nil. constructor.
      intros [x y]. unfold sp_translate, sp_scale. simpl. rewrite Q0. apply pair_eq; ring. }
    do 2 (split; [assumption|]). do 2 (split; [apply NQ; symmetry; assumption|]). do 2 (split; [assumption|]). split; intros _; symmetry; assumption.
  - exists 1, 1, (lit_val l3), (lit_val l4). split.
    { eapply FIN. rewrite <- (app_nil_r (T "translate(" ++ _)). eapply (tl_cons [] _ _ _ _ [] _ (Forall_nil _) TR DT). apply tl_nil. constructor.
      intros [x y]. unfold sp_translate, sp_scale. simpl. rewrite Q1. apply pair_eq; ring. }
    do 2 (split; [apply NQ; symmetry; assumption|]). do 2 (split; [assumption|]). do 2 (split; [intros _; symmetry; assumption|]). split; assumption.
  - exists (lit_val l1), (lit_val l2), (lit_val l3), (lit_val l4). split.
    { eapply FIN. eapply (tl_cons [] _ _ _ _ (T " " ++ T "scale(" ++ length_str sx ++ T ", " ++ length_str sy ++ T ")") _ (Forall_nil _) TR DT).
      rewrite <- (app_nil_r (T "scale(" ++ _)). eapply (tl_cons (T " ") _ _ _ _ [] _ (Forall_cons _ (or_introl (or_introl eq_refl)) (Forall_nil _)) SC DS).
      apply tl_nil. constructor. intros [x y]. reflexivity. }
    do 7 (split; [assumption|]). assumption.
Qed.

(** * Viewbox text *)
Lemma find_floats_skip : forall n s, find_floats n s = find_floats 0 (skipn n s).
Proof. induction n; intros; auto. destruct s; auto. simpl. auto. Qed.
Lemma find_floats_hit : forall l t, lit_ok l -> nc t -> find_floats 0 (lit_text l ++ t) = fnum_val (fnum_of l) :: find_floats 0 t.
Proof.
  intros l t L N. pose proof (match_float_lit l t L (nc_no_cont l t N)) as M.
  destruct (lit_start _ L) as (c & r & E & _). rewrite E in *. cbn [app find_floats]. rewrite <- app_comm_cons in M. rewrite M.
  f_equal. rewrite find_floats_skip. f_equal. apply (skip_suffix c _ (c :: r)); [reflexivity | discriminate].
Qed.
Lemma find_floats_sep : forall c s, c = " "%char \/ c = ","%char -> find_floats 0 (c :: s) = find_floats 0 s.
Proof. intros c s [-> | ->]; reflexivity. Qed.
Lemma vb_roundtrip_lemma : forall x y w h par, exists x' y' w' h',
  vb_of_text (vb_str x y w h) par = mkVb (Some x') (Some y') (Some w') (Some h') par /\
  near12 x' x /\ near12 y' y /\ near12 w' w /\ near12 h' h.
Proof.
  intros x y w h par.
  destruct (str_near x) as (l1 & L1 & E1 & N1 & _). destruct (str_near y) as (l2 & L2 & E2 & N2 & _).
  destruct (str_near w) as (l3 & L3 & E3 & N3 & _). destruct (str_near h) as (l4 & L4 & E4 & N4 & _).
  exists (fnum_val (fnum_of l1)), (fnum_val (fnum_of l2)), (fnum_val (fnum_of l3)), (fnum_val (fnum_of l4)).
  split.
  - unfold vb_of_text, vb_str. rewrite E1, E2, E3, E4.
    assert (S : forall s, nc (" "%char :: s)) by (intros; simpl; repeat split; discriminate).
    rewrite !find_floats_hit, !find_floats_sep by auto. rewrite !find_floats_hit by auto.
    rewrite !find_floats_sep by auto. rewrite !find_floats_hit by auto. rewrite !find_floats_sep by auto.
    rewrite <- (app_nil_r (lit_text l4)). rewrite find_floats_hit by (auto; exact I). reflexivity.
  - unfold near12 in *. rewrite !fnum_val_lit by auto. auto.
Qed.
