Require Import ZArith QArith Qreals Reals Ascii String List Bool Lia Lra.
Require Import Verif.Base Verif.Text_Spec Verif.Text_Proofs Verif.Length_Model Verif.Length_Proofs
  Verif.Angle_Model Verif.Angle_Spec Verif.Angle_Proofs Verif.Point_Model Verif.Matrix_Model Verif.Matrix_Spec Verif.Matrix_Proofs
  Verif.Transform_Model Verif.Transform_Spec Verif.Transform_Proofs Verif.MatLen_Model Verif.MatLen_Spec.
Import ListNotations.
Open Scope R_scope.

(** * Resolving an entry *)
(** The value of an entry, if the context resolves its unit; linear in the amount. *)
Definition unit_val (c : rctx) (rel : option R) (u : lunit) : option R :=
  match value_r c rel 1 u with EN r => Some r | EL _ _ => None end.
Definition val (c : rctx) (rel : option R) (x : ent) : option R :=
  match x with EN r => Some r | EL a u => option_map (fun k => a * k) (unit_val c rel u) end.
Lemma value_lin : forall c rel a u k, unit_val c rel u = Some k -> value_r c rel a u = EN (a * k).
Proof.
  intros c rel a u k. unfold unit_val, value_r.
  destruct u; try (intros E; injection E as <-; f_equal; lra);
   repeat match goal with |- context [match ?e with Some _ => _ | None => _ end] => destruct e | p : R * R |- _ => destruct p end;
   try discriminate; intros E; injection E as <-; f_equal; lra.
Qed.
Lemma val_value : forall c rel x r, val c rel x = Some r -> ent_value c rel x = EN r.
Proof.
  intros c rel [n|a u] r H; cbn in *; [congruence|]. destruct (unit_val c rel u) as [k|] eqn:K; [|discriminate].
  cbn in H. injection H as <-. apply value_lin. auto.
Qed.
Lemma val_scale : forall c rel k x r, val c rel x = Some r -> val c rel (ent_scale k x) = Some (k * r).
Proof.
  intros c rel k [n|a u] r H; cbn in *; [congruence|]. destruct (unit_val c rel u); [|discriminate].
  cbn in *. injection H as <-. f_equal. ring.
Qed.
Lemma val_neg : forall c rel x r, val c rel x = Some r -> val c rel (ent_neg x) = Some (- r).
Proof.
  intros c rel [n|a u] r H; cbn in *; [congruence|]. destruct (unit_val c rel u); [|discriminate].
  cbn in *. injection H as <-. f_equal. ring.
Qed.
(** Units that occur in a matrix under construction: never px, pt or pc, which value() resolves. *)
Definition kept (u : lunit) : Prop := match u with UPx | UPt | UPc | UOther _ => False | _ => True end.
Definition ent_kept (x : ent) : Prop := match x with EN _ => True | EL _ u => kept u end.
Lemma unit_eqb_kept : forall u v, kept u -> unit_eqb u v = true -> kept v -> u = v.
Proof. intros u v. destruct u, v; cbn; intros; try contradiction; congruence. Qed.
Lemma kept_none : kept UNone. Proof. exact I. Qed.
Lemma cm_in_R : Q2R cm_in = 0.393701. Proof. unfold Q2R. cbn. lra. Qed.
Lemma mm_in_R : Q2R mm_in = 0.0393701. Proof. unfold Q2R. cbn. lra. Qed.
Lemma iadd_val : forall c rel a u b v k l x, kept u -> kept v -> unit_val c rel u = Some k -> unit_val c rel v = Some l ->
  iadd_r a u b v = Ok x -> ent_kept x /\ val c rel x = Some (a * k + b * l).
Proof.
  intros c rel a u b v k l x KU KV U V H. unfold iadd_r in H. destruct (unit_eqb u v) eqn:E.
  - apply unit_eqb_kept in E; auto. subst v. injection H as <-. cbn. rewrite U. split; auto. cbn. f_equal.
    replace l with k by congruence. ring.
  - destruct (Req_EM_T a 0) as [Z|_]. { injection H as <-. cbn. rewrite V. split; auto. cbn. f_equal. subst. ring. }
    destruct (Req_EM_T b 0) as [Z|_]. { injection H as <-. cbn. rewrite U. split; auto. cbn. f_equal. subst. ring. }
    unfold unit_val in *. destruct u; try contradiction; destruct v; try contradiction; try discriminate;
      injection H as <-; cbn in *; unfold unit_val; cbn; destruct (r_ppi c) as [p|]; try discriminate;
      injection U as <-; injection V as <-; rewrite ?cm_in_R, ?mm_in_R; (split; [exact I|]); cbn; f_equal; lra.
Qed.
Lemma add_val : forall c rel x y r s z, ent_kept x -> ent_kept y -> val c rel x = Some r -> val c rel y = Some s -> ent_add x y = Ok z ->
  ent_kept z /\ val c rel z = Some (r + s).
Proof.
  intros c rel [a|a u] [b|b v] r s z KX KY X Y H; cbn in X, Y, H, KX, KY.
  - injection H as <-. split; [exact I|]. cbn. congruence.
  - destruct (unit_val c rel v) as [l|] eqn:V; [|discriminate]. cbn in Y. injection X as <-. injection Y as <-.
    destruct (iadd_val c rel b v a UNone l 1 z KY kept_none V eq_refl H) as [Z1 Z2]. split; auto. rewrite Z2. f_equal. ring.
  - destruct (unit_val c rel u) as [k|] eqn:U; [|discriminate]. cbn in X. injection X as <-. injection Y as <-.
    destruct (iadd_val c rel a u b UNone k 1 z KX kept_none U eq_refl H) as [Z1 Z2]. split; auto. rewrite Z2. f_equal. ring.
  - destruct (unit_val c rel u) as [k|] eqn:U; [|discriminate]. destruct (unit_val c rel v) as [l|] eqn:V; [|discriminate].
    cbn in X, Y. injection X as <-. injection Y as <-. exact (iadd_val c rel a u b v k l z KX KY U V H).
Qed.

(** * Matrices *)
(** The matrix of numbers when percentages refer to [rel]. *)
Definition view (c : rctx) (rel : option R) (m : lmx) : option mx :=
  match val c rel (le m), val c rel (lf m) with
  | Some e, Some f => Some (M (la m) (lb m) (lc m) (ld m) e f)
  | _, _ => None
  end.
Definition mkept (m : lmx) : Prop := ent_kept (le m) /\ ent_kept (lf m).
Lemma kept_scale : forall k x, ent_kept x -> ent_kept (ent_scale k x).
Proof. intros k [r|a u]; auto. Qed.
Lemma lmul_view : forall c rel m s r km ks, mkept m -> mkept s -> view c rel m = Some km -> view c rel s = Some ks ->
  lmul m s = Ok r -> mkept r /\ view c rel r = Some (mul km ks).
Proof.
  intros c rel m s r km ks [Me Mf] [Se Sf] VM VS H. unfold view in VM, VS.
  destruct (val c rel (le m)) as [em|] eqn:E1; [|discriminate]. destruct (val c rel (lf m)) as [fm|] eqn:E2; [|discriminate].
  destruct (val c rel (le s)) as [es|] eqn:E3; [|discriminate]. destruct (val c rel (lf s)) as [fs|] eqn:E4; [|discriminate].
  injection VM as <-. injection VS as <-. unfold lmul in H.
  destruct (ent_add (ent_scale (la s) (le m)) (ent_scale (lc s) (lf m))) as [x1|] eqn:A1; [|discriminate]. cbn [rbind] in H.
  destruct (ent_add x1 (ent_scale 1 (le s))) as [x2|] eqn:A2; [|discriminate]. cbn [rbind] in H.
  destruct (ent_add (ent_scale (lb s) (le m)) (ent_scale (ld s) (lf m))) as [y1|] eqn:A3; [|discriminate]. cbn [rbind] in H.
  destruct (ent_add y1 (ent_scale 1 (lf s))) as [y2|] eqn:A4; [|discriminate]. cbn [rbind] in H. injection H as <-.
  destruct (add_val c rel _ _ _ _ _ (kept_scale _ _ Me) (kept_scale _ _ Mf) (val_scale _ _ (la s) _ _ E1) (val_scale _ _ (lc s) _ _ E2) A1) as [K1 V1].
  destruct (add_val c rel _ _ _ _ _ K1 (kept_scale _ _ Se) V1 (val_scale _ _ 1 _ _ E3) A2) as [K2 V2].
  destruct (add_val c rel _ _ _ _ _ (kept_scale _ _ Me) (kept_scale _ _ Mf) (val_scale _ _ (lb s) _ _ E1) (val_scale _ _ (ld s) _ _ E2) A3) as [K3 V3].
  destruct (add_val c rel _ _ _ _ _ K3 (kept_scale _ _ Sf) V3 (val_scale _ _ 1 _ _ E4) A4) as [K4 V4].
  split; [split; assumption|]. unfold view. cbn [le lf la lb lc ld]. rewrite V2, V4. unfold mul. cbn [ma mb mc md me mf]. f_equal. f_equal; ring.
Qed.
Lemma view_num : forall c rel k, mkept (lmx_num k) /\ view c rel (lmx_num k) = Some k.
Proof. intros c rel k. split; [split; exact I|]. destruct k. reflexivity. Qed.

(** Parameters *)
Definition fresh (x : ent) : Prop := match x with EN _ => True | EL _ u => kept u /\ u <> UNone end.
Lemma fresh_kept : forall x, fresh x -> ent_kept x.
Proof. intros [r|a u]; cbn; tauto. Qed.
Lemma fresh_neg : forall x, fresh x -> fresh (ent_neg x).
Proof. intros [r|a u]; auto. Qed.
Lemma fresh_value : forall rel x, rel = None -> fresh x -> ent_value no_rctx rel x = x.
Proof. intros rel [r|a u] -> H; [reflexivity|]. destruct u, H; cbn in *; try contradiction; try reflexivity; congruence. Qed.
Lemma fresh_zero : forall c rel x r, fresh x -> ent_zero x -> val c rel x = Some r -> r = 0.
Proof.
  intros c rel [n|a u] r F Z V; cbn in *; [congruence|]. destruct (unit_val c rel u); [|discriminate]. cbn in V. injection V as <-.
  destruct F as [F F']. destruct u; try contradiction; try congruence; subst a; ring.
Qed.
Lemma l_translate_fresh : forall x y, fresh x -> fresh y -> l_translate x y = LM 1 0 0 1 x y.
Proof. intros x y X Y. unfold l_translate, lmx_of, render. cbn [le lf la lb lc ld]. rewrite !fresh_value by auto. reflexivity. Qed.
Lemma lpre_translate_view : forall c rel m x y r km tx ty, mkept m -> fresh x -> fresh y -> view c rel m = Some km ->
  val c rel x = Some tx -> val c rel y = Some ty -> lpre_translate m x y = Ok r ->
  mkept r /\ view c rel r = Some (pre_translate km tx ty).
Proof.
  intros c rel m x y r km tx ty K X Y V VX VY H. unfold lpre_translate, lpre_cat in H. rewrite l_translate_fresh in H by auto.
  unfold pre_translate, pre_cat. apply (lmul_view c rel (LM 1 0 0 1 x y) m); auto.
  - split; apply fresh_kept; auto.
  - unfold view. cbn [le lf la lb lc ld]. rewrite VX, VY. reflexivity.
Qed.
Lemma lpre_cat_view : forall c rel m k r km, mkept m -> view c rel m = Some km -> lpre_cat m (lmx_num k) = Ok r ->
  mkept r /\ view c rel r = Some (pre_cat km k).
Proof. intros c rel m k r km K V H. destruct (view_num c rel k) as [N1 N2]. exact (lmul_view c rel _ _ _ _ _ N1 K N2 V H). Qed.
Lemma lpre_about_view : forall c rel m k x y r km tx ty, mkept m -> fresh x -> fresh y -> view c rel m = Some km ->
  val c rel x = Some tx -> val c rel y = Some ty -> lpre_about m k x y = Ok r ->
  mkept r /\ exists kr, view c rel r = Some kr /\ forall p, act kr p = act km (sp_about tx ty (act k) p).
Proof.
  intros c rel m k x y r km tx ty K X Y V VX VY H. unfold lpre_about in H.
  assert (GEN : (do m1 <- lpre_translate m x y; do m2 <- lpre_cat m1 (lmx_num k); lpre_translate m2 (ent_neg x) (ent_neg y)) = Ok r ->
    mkept r /\ exists kr, view c rel r = Some kr /\ forall p, act kr p = act km (sp_about tx ty (act k) p)).
  { clear H. intros H. destruct (lpre_translate m x y) as [m1|] eqn:A1; [|discriminate]. cbn [rbind] in H.
    destruct (lpre_cat m1 (lmx_num k)) as [m2|] eqn:A2; [|discriminate]. cbn [rbind] in H.
    destruct (lpre_translate_view _ _ _ _ _ _ _ _ _ K X Y V VX VY A1) as [K1 V1].
    destruct (lpre_cat_view _ _ _ _ _ _ K1 V1 A2) as [K2 V2].
    destruct (lpre_translate_view _ _ _ _ _ _ _ _ _ K2 (fresh_neg _ X) (fresh_neg _ Y) V2 (val_neg _ _ _ _ VX) (val_neg _ _ _ _ VY) H) as [K3 V3].
    split; auto. eexists. split; [exact V3|]. intros p. apply act_pre. reflexivity. }
  destruct (ent_zero_dec x) as [ZX|_]; [|auto]. destruct (ent_zero_dec y) as [ZY|_]; [|auto].
  apply fresh_zero with (c := c) (rel := rel) (r := tx) in ZX; auto. apply fresh_zero with (c := c) (rel := rel) (r := ty) in ZY; auto. subst tx ty.
  destruct (lpre_cat_view _ _ _ _ _ _ K V H) as [K1 V1]. split; auto. eexists. split; [exact V1|]. intros p. unfold pre_cat. rewrite act_mul.
  rewrite about_0. reflexivity.
Qed.

Definition kn (c : rctx) (rel : option R) : known := mkKnown (r_ppi c) (r_size c) (r_vb c) rel rel.
Lemma pt_px_R : Q2R pt_px = 1.3333. Proof. unfold Q2R. cbn. lra. Qed.
Lemma resolved_param : forall c rel p d, resolved (kn c rel) p d ->
  exists x, len_param (param_text (lowp p)) = Ok x /\ fresh x /\ val c rel x = Some d /\ pok (lowp p) /\ lit_ok (p_lit p).
Proof.
  intros c rel p d (L & u & U & ->). destruct (lower_lit_ok _ L) as [L' V].
  assert (K : uknown (lower (p_unit p))) by (unfold uknown; inversion U; simpl; auto 20).
  assert (PK : pok (lowp p)) by (split; auto).
  enough (X : exists x, len_param (param_text (lowp p)) = Ok x /\ fresh x /\ val c rel x = Some (Q2R (lit_val (p_lit p)) * u)).
  { destruct X as (x & X1 & X2 & X3). exists x. auto. }
  unfold len_param, param_text, lowp. cbn [p_lit p_unit]. rewrite px_of_lit by auto.
  pose proof (Qeq_eqR _ _ (fnum_val_lit _ L')) as E. rewrite V in E.
  set (n := fnum_val (fnum_of (lower_lit (p_lit p)))) in *. clearbody n.
  inversion U as [H|H|H|H|q P H|q P H|q P H|q P H|w h P H|w h P H|q P P' H]; subst;
    (eexists; split; [reflexivity|]); (split; [first [exact I | split; [exact I|discriminate]]|]);
    unfold val, unit_val; cbn -[Q2R cm_in mm_in pt_px Qmult]; try (cbn in P; rewrite P); cbn -[Q2R cm_in mm_in pt_px Qmult];
    rewrite ?Q2R_mult, ?E, ?pt_px_R, ?cm_in_R, ?mm_in_R; f_equal; try lra.
  all: try (unfold Q2R; cbn; lra).
Qed.

(** * Functions *)
Definition any (r : R) : Prop := True.
Lemma fresh_EN : forall r, fresh (EN r). Proof. exact (fun _ => I). Qed.
Lemma val_EN : forall c rel r, val c rel (EN r) = Some r. Proof. reflexivity. Qed.
Ltac low2 := match goal with
  | H : is_num _ _ |- _ => apply num_lowp in H as (? & ? & ?)
  | H : resolved _ _ _ |- _ => apply resolved_param in H as (? & ? & ? & ? & ? & ?)
  | H : is_angle _ _ |- _ => apply angle_lowp in H as (? & ? & ?)
  end.
Ltac teqs := cbn [map teqb T list_ascii_of_string aeqb Ascii.eqb Bool.eqb andb mapM lcentre rbind mx_of].
Lemma lapply_view : forall c rel nm ps f, denotes_by (resolved (kn c rel)) any nm ps f -> forall m km r, mkept m -> view c rel m = Some km ->
  lapply_func m (T nm) (map param_text (map lowp ps)) = Ok r ->
  mkept r /\ exists kr, view c rel r = Some kr /\ forall p, act kr p = act km (f p).
Proof.
  intros c rel nm ps f H. destruct H; intros m km r K V A.
  7:{ assert (LIN : forall k g, lpre_about m k (EN 0) (EN 0) = Ok r -> (forall p, act k p = g p) ->
          mkept r /\ exists kr, view c rel r = Some kr /\ forall p, act kr p = act km (g p)).
      { intros k g AB G. destruct (lpre_about_view _ _ _ _ _ _ _ _ _ _ K (fresh_EN 0) (fresh_EN 0) V (val_EN c rel 0) (val_EN c rel 0) AB) as (K1 & kr & V1 & V2).
        split; auto. exists kr. split; auto. intros p. rewrite V2, about_0, G. reflexivity. }
      destruct H; cbn [In] in H0; repeat (destruct H0 as [H0|H0]; [discriminate H0 || clear H0|]); try contradiction; repeat low2;
        unfold lapply_func in A; revert A; teqs; repeat match goal with H : _ = Ok _ |- _ => rewrite H; clear H; cbn [rbind mx_of mapM] end; intros A;
        eapply LIN; try exact A; intros p; unfold m_scale_x, m_scale_y, m_skew_x, m_skew_y; try apply act_scale; try apply act_skew. }
  all: repeat low2; unfold lapply_func in A; revert A; teqs; repeat match goal with H : _ = Ok _ |- _ => rewrite H; clear H; cbn [rbind mx_of mapM] end; intros A.
  - destruct (lpre_cat_view _ _ _ _ _ _ K V A) as [K1 V1]. split; auto. eexists. split; [exact V1|]. intros p. unfold pre_cat. rewrite act_mul. f_equal.
    unfold act. cbn. apply pair_eq; ring.
  - edestruct (lpre_translate_view c rel) as [K1 V1]; [exact K| | |exact V| | |exact A|]; eauto using fresh_EN, val_EN.
    split; auto. eexists. split; [exact V1|]. intros p. apply pre_translate_ok.
  - edestruct (lpre_translate_view c rel) as [K1 V1]; [exact K| | |exact V| | |exact A|]; eauto using fresh_EN, val_EN.
    split; auto. eexists. split; [exact V1|]. intros p. apply pre_translate_ok.
  - edestruct (lpre_translate_view c rel) as [K1 V1]; [exact K| | |exact V| | |exact A|]; eauto using fresh_EN, val_EN.
    split; auto. eexists. split; [exact V1|]. intros p. apply pre_translate_ok.
  - edestruct (lpre_translate_view c rel) as [K1 V1]; [exact K| | |exact V| | |exact A|]; eauto using fresh_EN, val_EN.
    split; auto. eexists. split; [exact V1|]. intros p. apply pre_translate_ok.
  - edestruct (lpre_about_view c rel) as (K1 & kr & V1 & V2); [exact K| | |exact V| | |exact A|]; eauto.
    split; auto. exists kr. split; auto. intros p. rewrite V2. f_equal. unfold sp_about. rewrite act_rotate. reflexivity.
  - edestruct (lpre_about_view c rel) as (K1 & kr & V1 & V2); [exact K| | |exact V| | |exact A|]; eauto using fresh_EN, val_EN.
    split; auto. exists kr. split; auto. intros p. rewrite V2, about_0, act_rotate. reflexivity.
Qed.

(** * Text *)
Lemma by_ok : forall (D : param -> R -> Prop) N nm ps f, (forall p d, D p d -> lit_ok (p_lit p) /\ pok (lowp p)) -> denotes_by D N nm ps f ->
  Forall (fun p => lit_ok (p_lit p)) ps /\ Forall pok (map lowp ps) /\
  In nm ["matrix"; "translate"; "translatex"; "translatey"; "scale"; "scalex"; "scaley"; "rotate"; "skewx"; "skewy"; "skew"]%string.
Proof.
  intros D N nm ps f DD H. destruct H;
    try (repeat match goal with H : is_num _ _ |- _ => apply num_lowp in H as (? & ? & ?) | H : is_angle _ _ |- _ => apply angle_lowp in H as (? & ? & ?) | H : D _ _ |- _ => apply DD in H as (? & ?) end;
      cbn [map]; split; [|split]; [repeat (apply Forall_cons; [assumption|]); apply Forall_nil..|simpl; auto 20]; fail).
  destruct (denotes_ok _ _ _ H) as [A B]. split; auto. split; auto. eapply name_ok; eauto.
Qed.
Lemma func_tokens : forall w nm ps s rest, Forall sepc w -> func_text nm ps s -> Forall (fun p => lit_ok (p_lit p)) ps -> Forall pok (map lowp ps) ->
  In nm ["matrix"; "translate"; "translatex"; "translatey"; "scale"; "scalex"; "scaley"; "rotate"; "skewx"; "skewy"; "skew"]%string ->
  exists args, find_funcs 0 (lower (w ++ s ++ rest)) = (T nm, args) :: find_funcs 0 (lower rest) /\ find_params 0 args = map param_text (map lowp ps).
Proof.
  intros w nm ps s rest W FT F1 F2 NM. destruct FT as [nm ps n w0 w1 s LN W0 W1 PT].
  pose proof (params_lower _ _ PT F1) as PL. destruct (params_chars _ _ PL F2) as [C1 C2].
  exists (w1 ++ lower s). split; [|rewrite find_params_sep by auto; apply (find_params_text _ _ PL F2)].
  rewrite !lower_app, (sepc_lower w), LN, (wsp_lower w0), tlist_ends_ok by auto.
  change (lower ("("%char :: w1 ++ s ++ [")"%char])) with ("("%char :: lower (w1 ++ s ++ [")"%char])).
  rewrite !lower_app, (sepc_lower w1) by auto. change (lower [")"%char]) with [")"%char].
  replace ((T nm ++ w0 ++ "("%char :: w1 ++ lower s ++ [")"%char]) ++ lower rest) with (T nm ++ w0 ++ "("%char :: (w1 ++ lower s) ++ ")"%char :: lower rest).
  2:{ rewrite <- !app_assoc. simpl. rewrite <- !app_assoc. reflexivity. }
  apply find_funcs_hit. apply match_names_ok; auto.
  - rewrite forallb_app, sep_chars, C1 by auto. reflexivity.
  - destruct w1; [auto|discriminate].
Qed.
Lemma resolved_ok : forall k p d, resolved k p d -> lit_ok (p_lit p) /\ pok (lowp p).
Proof.
  intros k p d (L & u & U & _). split; auto. split; [apply lower_lit_ok; auto|]. unfold uknown, lowp; cbn [p_unit]. inversion U; simpl; auto 20.
Qed.
Lemma tlist_view : forall c rel s f, tlist_by (resolved (kn c rel)) any s f -> forall m km r, mkept m -> view c rel m = Some km ->
  lapply_funcs m (find_funcs 0 (lower s)) = Ok r -> mkept r /\ exists kr, view c rel r = Some kr /\ forall p, act kr p = act km (f p).
Proof.
  intros c rel s f H. induction H; intros m km r K V A.
  - rewrite sepc_lower in A by auto. rewrite <- (app_nil_r w), tlist_ends_ok in A by auto. injection A as <-. split; auto. exists km. auto.
  - destruct (by_ok _ _ _ _ _ (resolved_ok (kn c rel)) H1) as (F1 & F2 & F3).
    destruct (func_tokens w nm ps s rest H H0 F1 F2 F3) as (args & E & P). rewrite E in A. cbn [lapply_funcs] in A. rewrite P in A.
    destruct (lapply_func m (T nm) (map param_text (map lowp ps))) as [m1|] eqn:L; [|discriminate]. cbn [rbind] in A.
    destruct (lapply_view _ _ _ _ _ H1 _ _ _ K V L) as (K1 & k1 & V1 & B1). destruct (IHtlist_by _ _ _ K1 V1 A) as (K2 & k2 & V2 & B2).
    split; auto. exists k2. split; auto. intros p. rewrite B2, B1. reflexivity.
Qed.

(** * Adding lengths of one family succeeds *)
Definition fam (U : lunit -> Prop) (x : ent) : Prop :=
  match x with EN r => r = 0 | EL a u => U u \/ (a = 0 /\ u = UNone) end.
Definition metric (u : lunit) : Prop := u = UCm \/ u = UMm \/ u = UIn.
Definition closed_unit (U : lunit -> Prop) : Prop := (forall u, U u <-> metric u) \/ exists v, (v = UEm \/ v = UVw \/ v = UVh \/ v = UPct) /\ forall u, U u <-> u = v.
Lemma fam_scale : forall U k x, fam U x -> fam U (ent_scale k x).
Proof. intros U k [r|a u]; cbn; [intros ->; ring|]. intros [H|[-> ->]]; [auto|]. right. split; auto. ring. Qed.
Lemma fam_neg : forall U x, fam U x -> fam U (ent_neg x).
Proof. intros U [r|a u]; cbn; [intros ->; ring|]. intros [H|[-> ->]]; [auto|]. right. split; auto. ring. Qed.
Lemma fam_iadd : forall U a u b v, closed_unit U -> fam U (EL a u) -> fam U (EL b v) -> exists z, iadd_r a u b v = Ok z /\ fam U z.
Proof.
  intros U a u b v C A B. unfold iadd_r. destruct (unit_eqb u v) eqn:E.
  { eexists. split; [reflexivity|]. cbn in *. destruct A as [A|[-> ->]]; [auto|]. destruct B as [B|[-> ->]].
    - destruct C as [C|(x & C1 & C2)].
      + apply C in B. destruct B as [-> |[-> | ->]]; discriminate.
      + apply C2 in B. subst v. destruct C1 as [-> |[-> |[-> | ->]]]; discriminate.
    - right. split; auto. ring. }
  destruct (Req_EM_T a 0) as [Z|NZ]; [eauto|]. destruct (Req_EM_T b 0) as [Z|NZ']; [eauto|].
  cbn in A, B. destruct A as [A|[A _]]; [|contradiction]. destruct B as [B|[B _]]; [|contradiction].
  destruct C as [C|(x & C1 & C2)].
  - apply C in A, B. unfold metric in *. destruct A as [-> |[-> | ->]]; destruct B as [-> |[-> | ->]]; try discriminate; eexists; (split; [reflexivity|]); left; apply C; unfold metric; auto.
  - apply C2 in A, B. subst u v. destruct C1 as [-> |[-> |[-> | ->]]]; discriminate.
Qed.
Lemma fam_add : forall U x y, closed_unit U -> fam U x -> fam U y -> exists z, ent_add x y = Ok z /\ fam U z.
Proof.
  intros U [a|a u] [b|b v] C A B; cbn [ent_add].
  - cbn in *. subst. eexists. split; [reflexivity|]. cbn. ring.
  - cbn in A. subst a. apply fam_iadd; auto. right. auto.
  - cbn in B. subst b. apply fam_iadd; auto. right. auto.
  - apply fam_iadd; auto.
Qed.
Definition mfam (U : lunit -> Prop) (m : lmx) : Prop := fam U (le m) /\ fam U (lf m).
Lemma fam_mul : forall U m s, closed_unit U -> mfam U m -> mfam U s -> exists r, lmul m s = Ok r /\ mfam U r.
Proof.
  intros U m s C [A1 A2] [B1 B2]. unfold lmul.
  destruct (fam_add U _ _ C (fam_scale U (la s) _ A1) (fam_scale U (lc s) _ A2)) as (x1 & -> & X1). cbn [rbind].
  destruct (fam_add U _ _ C X1 (fam_scale U 1 _ B1)) as (x2 & -> & X2). cbn [rbind].
  destruct (fam_add U _ _ C (fam_scale U (lb s) _ A1) (fam_scale U (ld s) _ A2)) as (y1 & -> & Y1). cbn [rbind].
  destruct (fam_add U _ _ C Y1 (fam_scale U 1 _ B2)) as (y2 & -> & Y2). cbn [rbind].
  eexists. split; [reflexivity|]. split; auto.
Qed.
Lemma fam_translate : forall U m x y, closed_unit U -> mfam U m -> fresh x -> fresh y -> fam U x -> fam U y -> exists r, lpre_translate m x y = Ok r /\ mfam U r.
Proof. intros U m x y C K X Y FX FY. unfold lpre_translate, lpre_cat. rewrite l_translate_fresh by auto. apply fam_mul; auto. split; auto. Qed.
Lemma fam_about : forall U m k x y, closed_unit U -> me k = 0 -> mf k = 0 -> mfam U m -> fresh x -> fresh y -> fam U x -> fam U y -> exists r, lpre_about m k x y = Ok r /\ mfam U r.
Proof.
  intros U m k x y C E F K X Y FX FY. unfold lpre_about.
  assert (GEN : exists r, (do m1 <- lpre_translate m x y; do m2 <- lpre_cat m1 (lmx_num k); lpre_translate m2 (ent_neg x) (ent_neg y)) = Ok r /\ mfam U r).
  { destruct (fam_translate U m x y) as (m1 & -> & K1); auto. cbn [rbind]. destruct (fam_mul U (lmx_num k) m1) as (m2 & L & K2); auto; [split; cbn; auto|].
    unfold lpre_cat. rewrite L. cbn [rbind]. apply fam_translate; auto using fresh_neg, fam_neg. }
  destruct (ent_zero_dec x); auto. destruct (ent_zero_dec y); auto. apply fam_mul; auto. split; cbn; auto.
Qed.
Definition in_family (us : list string) (u : lunit) : Prop := exists s, In s us /\ u = unit_of_text (T s).
Lemma family_closed : forall us, family us -> closed_unit (in_family us).
Proof.
  intros us [-> |[-> |[-> |[-> | ->]]]]; unfold closed_unit, in_family, metric.
  - left. intros u. split.
    + intros (s & [<-|[<-|[<-|[]]]] & ->); cbn; auto.
    + intros [-> |[-> | ->]]; [exists "cm"%string | exists "mm"%string | exists "in"%string]; split; simpl; auto.
  - right. exists UEm. split; auto. intros u. split; [intros (s & [<-|[]] & ->); reflexivity|intros ->; exists "em"%string; simpl; auto].
  - right. exists UVw. split; auto. intros u. split; [intros (s & [<-|[]] & ->); reflexivity|intros ->; exists "vw"%string; simpl; auto].
  - right. exists UVh. split; auto. intros u. split; [intros (s & [<-|[]] & ->); reflexivity|intros ->; exists "vh"%string; simpl; auto].
  - right. exists UPct. split; auto. intros u. split; [intros (s & [<-|[]] & ->); reflexivity|intros ->; exists "%"%string; simpl; auto].
Qed.
Lemma family_param : forall k us p d, family us -> of_family k us p d ->
  exists x, len_param (param_text (lowp p)) = Ok x /\ fresh x /\ fam (in_family us) x.
Proof.
  intros k us p d FU ((L & u & U & _) & O). destruct (lower_lit_ok _ L) as [L' V].
  assert (K : uknown (lower (p_unit p))) by (unfold uknown; inversion U; simpl; auto 20).
  unfold len_param, param_text, lowp. cbn [p_lit p_unit]. rewrite px_of_lit by auto.
  pose proof (Qeq_eqR _ _ (fnum_val_lit _ L')) as E. rewrite V in E. set (n := fnum_val (fnum_of (lower_lit (p_lit p)))) in *. clearbody n.
  destruct O as [(s & S & ->)|[-> Z]].
  - assert (IF : in_family us (unit_of_text (T s))) by (exists s; auto).
    destruct FU as [-> |[-> |[-> |[-> | ->]]]]; cbn [In] in S; repeat (destruct S as [<-|S]; [eexists; split; [reflexivity|]; split; [split; [exact I|discriminate]|left; exact IF]|]); contradiction.
  - eexists. split; [reflexivity|]. split; [exact I|]. cbn. rewrite E. rewrite (Qeq_eqR _ _ Z). unfold Q2R. cbn. ring.
Qed.
Lemma fam_EN : forall U, fam U (EN 0). Proof. reflexivity. Qed.
Lemma lapply_family : forall k us nm ps f, family us -> denotes_by (of_family k us) (eq 0) nm ps f -> forall m, mfam (in_family us) m ->
  exists r, lapply_func m (T nm) (map param_text (map lowp ps)) = Ok r /\ mfam (in_family us) r.
Proof.
  intros k us nm ps f FU H m K. pose proof (family_closed us FU) as C.
  assert (LIN : forall k, me k = 0 -> mf k = 0 -> exists r, lpre_about m k (EN 0) (EN 0) = Ok r /\ mfam (in_family us) r).
  { intros k0 E F. apply fam_about; auto using fresh_EN, fam_EN. }
  destruct H;
   try (match goal with D : denotes _ _ _, I : In _ _ |- _ => destruct D; cbn [In] in I; repeat (destruct I as [I|I]; [discriminate I || clear I|]); try contradiction end);
   repeat match goal with
    | H : is_num _ _ |- _ => apply num_lowp in H as (? & ? & ?)
    | H : of_family _ _ _ _ |- _ => apply (family_param k us _ _ FU) in H as (? & ? & ? & ?)
    | H : is_angle _ _ |- _ => apply angle_lowp in H as (? & ? & ?) end;
   unfold lapply_func; teqs; repeat match goal with H : _ = Ok _ |- _ => rewrite H; clear H; cbn [rbind mx_of mapM] end;
   try (apply LIN; reflexivity); try (apply fam_translate; auto using fresh_EN, fam_EN); try (apply fam_about; auto; reflexivity).
  apply fam_mul; auto. split; cbn; congruence.
Qed.
Lemma of_family_ok : forall k us p d, of_family k us p d -> lit_ok (p_lit p) /\ pok (lowp p).
Proof. intros k us p d [H _]. eapply resolved_ok; eauto. Qed.
Lemma tlist_family : forall k us s f, family us -> tlist_by (of_family k us) (eq 0) s f -> forall m, mfam (in_family us) m ->
  exists r, lapply_funcs m (find_funcs 0 (lower s)) = Ok r /\ mfam (in_family us) r.
Proof.
  intros k us s f FU H. induction H; intros m K.
  - rewrite sepc_lower by auto. rewrite <- (app_nil_r w), tlist_ends_ok by auto. exists m. auto.
  - destruct (by_ok _ _ _ _ _ (of_family_ok k us) H1) as (F1 & F2 & F3).
    destruct (func_tokens w nm ps s rest H H0 F1 F2 F3) as (args & E & P). rewrite E. cbn [lapply_funcs]. rewrite P.
    destruct (lapply_family _ _ _ _ _ FU H1 m K) as (m1 & -> & K1). cbn [rbind]. apply IHtlist_by; auto.
Qed.
(** Monotonicity *)
Lemma denotes_by_mono : forall (D D' : param -> R -> Prop) (N N' : R -> Prop), (forall p d, D p d -> D' p d) -> (forall r, N r -> N' r) ->
  forall nm ps f, denotes_by D N nm ps f -> denotes_by D' N' nm ps f.
Proof. intros D D' N N' HD HN nm ps f H. destruct H; first [solve [apply db_rotate1; auto] | solve [apply db_linear; auto] | econstructor; eauto]. Qed.
Lemma tlist_by_mono : forall (D D' : param -> R -> Prop) (N N' : R -> Prop), (forall p d, D p d -> D' p d) -> (forall r, N r -> N' r) ->
  forall s f, tlist_by D N s f -> tlist_by D' N' s f.
Proof. intros D D' N N' HD HN s f H. induction H; econstructor; eauto using denotes_by_mono. Qed.

(** * Rendering *)
Definition width_of (c : rctx) : option R := or_else (r_width c) (r_rel c).
Definition height_of (c : rctx) : option R := or_else (r_height c) (r_rel c).
Lemma mkept_ident : mkept lident. Proof. split; exact I. Qed.
Lemma view_ident : forall c rel, view c rel lident = Some ident. Proof. reflexivity. Qed.
Lemma render_view : forall c m kw kh, view c (width_of c) m = Some kw -> view c (height_of c) m = Some kh ->
  render c m = lmx_num (M (la m) (lb m) (lc m) (ld m) (me kw) (mf kh)) /\
  (ma kw = la m /\ mb kw = lb m /\ mc kw = lc m /\ md kw = ld m) /\ (ma kh = la m /\ mb kh = lb m /\ mc kh = lc m /\ md kh = ld m).
Proof.
  intros c m kw kh VW VH. unfold view in *.
  destruct (val c (width_of c) (le m)) as [ew|] eqn:E1; [|discriminate]. destruct (val c (width_of c) (lf m)) as [fw|] eqn:E2; [|discriminate].
  destruct (val c (height_of c) (le m)) as [eh|] eqn:E3; [|discriminate]. destruct (val c (height_of c) (lf m)) as [fh|] eqn:E4; [|discriminate].
  injection VW as <-. injection VH as <-. cbn [ma mb mc md me mf]. split; [|repeat split].
  unfold render. fold (width_of c) (height_of c). rewrite (val_value _ _ _ _ E1), (val_value _ _ _ _ E4). reflexivity.
Qed.
Lemma lengths_axes : forall c s fw fh m, tlist_by (resolved (kn c (width_of c))) any s fw -> tlist_by (resolved (kn c (height_of c))) any s fh ->
  lmx_of_text c s = Ok m -> exists k, m = lmx_num k /\ forall p, act k p = (fst (fw p), snd (fh p)).
Proof.
  intros c s fw fh m W H A. unfold lmx_of_text in A. destruct (lapply_funcs lident (find_funcs 0 (lower s))) as [r|] eqn:L; [|discriminate].
  cbn [rbind] in A. injection A as <-.
  destruct (tlist_view _ _ _ _ W _ _ _ mkept_ident (view_ident c _) L) as (_ & kw & VW & AW).
  destruct (tlist_view _ _ _ _ H _ _ _ mkept_ident (view_ident c _) L) as (_ & kh & VH & AH).
  destruct (render_view c r kw kh VW VH) as (E & (a1 & b1 & c1 & d1) & (a2 & b2 & c2 & d2)). eexists. split; [exact E|].
  intros p. rewrite <- (act_ident (fw p)), <- (act_ident (fh p)), <- AW, <- AH. unfold act. cbn. rewrite a1, c1, b2, d2. reflexivity.
Qed.
Definition known_of (c : rctx) : known := mkKnown (r_ppi c) (r_size c) (r_vb c) (width_of c) (height_of c).
Lemma resolved_both : forall c p d, resolved (known_of c) p d -> resolved (kn c (width_of c)) p d /\ resolved (kn c (height_of c)) p d.
Proof.
  intros c p d (L & u & U & E). split; (split; [exact L|]); exists u; (split; [|exact E]); inversion U; subst; econstructor; cbn in *; eauto.
Qed.
Lemma lengths_sound : forall c s f m, tlist_by (resolved (known_of c)) any s f -> lmx_of_text c s = Ok m ->
  exists k, m = lmx_num k /\ forall p, act k p = f p.
Proof.
  intros c s f m H A. destruct (lengths_axes c s f f m) as (k & E & B); auto.
  - eapply tlist_by_mono; [| |exact H]; auto. intros p d R. apply (resolved_both c p d R).
  - eapply tlist_by_mono; [| |exact H]; auto. intros p d R. apply (resolved_both c p d R).
  - exists k. split; auto. intros p. rewrite B. destruct (f p). reflexivity.
Qed.
(** * Axis-parallel lists *)
Lemma resolved_along : forall c w h p d, resolved (kn c (Some w)) p d -> exists d', resolved (kn c (Some h)) p d'.
Proof.
  intros c w h p d (L & u & U & E). inversion U; subst; cbn in *;
   match goal with H : _ = lower (p_unit p) |- _ => (eexists; split; [exact L|]; eexists; split; [rewrite <- H; econstructor; cbn; eauto|reflexivity]) end.
Qed.
Lemma axis_split : forall c w h nm ps f, axis_by (resolved (kn c (Some w))) (resolved (kn c (Some h))) nm ps f ->
  exists fw fh, denotes_by (resolved (kn c (Some w))) any nm ps fw /\ denotes_by (resolved (kn c (Some h))) any nm ps fh /\
   (forall p q, fst p = fst q -> fst (fw p) = fst (f q)) /\ (forall p q, snd p = snd q -> snd (fh p) = snd (f q)).
Proof.
  intros c w h nm ps f H.
  destruct H;
   repeat match goal with
   | H : resolved (kn c (Some w)) ?p _ |- _ => lazymatch goal with H' : resolved (kn c (Some h)) p _ |- _ => fail | _ => destruct (resolved_along c w h _ _ H) end
   | H : resolved (kn c (Some h)) ?p _ |- _ => lazymatch goal with H' : resolved (kn c (Some w)) p _ |- _ => fail | _ => destruct (resolved_along c h w _ _ H) end
   end.
  1-4: (eexists; eexists; split; [econstructor; eauto|split; [econstructor; eauto|split; intros [? ?] [? ?] E; cbn in *; rewrite E; reflexivity]]).
  all: (eexists; eexists; split; [apply db_linear; [econstructor; eauto|simpl; auto 10]|split; [apply db_linear; [econstructor; eauto|simpl; auto 10]|split; intros [? ?] [? ?] E; cbn in *; rewrite E; reflexivity]]).
Qed.
Lemma alist_split : forall c w h s f, alist_by (resolved (kn c (Some w))) (resolved (kn c (Some h))) s f ->
  exists fw fh, tlist_by (resolved (kn c (Some w))) any s fw /\ tlist_by (resolved (kn c (Some h))) any s fh /\
   (forall p q, fst p = fst q -> fst (fw p) = fst (f q)) /\ (forall p q, snd p = snd q -> snd (fh p) = snd (f q)).
Proof.
  intros c w h s f H. induction H.
  - exists (fun p => p), (fun p => p). repeat split; auto; constructor; auto.
  - destruct (axis_split c w h _ _ _ H1) as (fw & fh & W1 & H3 & P & Q). destruct IHalist_by as (gw & gh & W2 & H4 & P' & Q').
    exists (fun p => fw (gw p)), (fun p => fh (gh p)). split; [econstructor; eauto|]. split; [econstructor; eauto|]. split; intros; eauto.
Qed.
Ltac same := lazymatch goal with |- ?x = ?x => exact eq_refl | _ => idtac end.
(** * The two models of Length.__iadd__ and Length.value agree *)
Definition ent_of (l : length) : ent := EL (Q2R (amount l)) (units l).
Lemma is0_R : forall q, if is0 q then Q2R q = 0 else Q2R q <> 0.
Proof.
  intros q. unfold is0. destruct (Qeq_bool q 0) eqn:E.
  - apply Qeq_bool_eq in E. rewrite (Qeq_eqR _ _ E). unfold Q2R. cbn. ring.
  - intros H. apply Qeq_bool_neq in E. apply E. apply eqR_Qeq. rewrite H. unfold Q2R. cbn. ring.
Qed.
Lemma iadd_agrees : forall s o, iadd_r (Q2R (amount s)) (units s) (Q2R (amount o)) (units o) = rmap ent_of (len_iadd s o).
Proof.
  intros [a u] [b v]. unfold iadd_r, len_iadd. cbn [amount units]. destruct (unit_eqb u v).
  - cbn. unfold ent_of. cbn. rewrite Q2R_plus. reflexivity.
  - pose proof (is0_R a) as A. pose proof (is0_R b) as B. destruct (is0 a).
    { destruct (Req_EM_T (Q2R a) 0); [reflexivity|contradiction]. }
    destruct (Req_EM_T (Q2R a) 0); [contradiction|]. destruct (is0 b).
    { destruct (Req_EM_T (Q2R b) 0); [reflexivity|contradiction]. }
    destruct (Req_EM_T (Q2R b) 0); [contradiction|].
    assert (N : (~ 16 == 0 /\ ~ 12 == 0 /\ ~ 10 == 0 /\ ~ pt_px == 0 /\ ~ cm_in == 0 /\ ~ mm_in == 0)%Q) by (repeat split; discriminate).
    destruct N as (N1 & N2 & N3 & N4 & N5 & N6).
    assert (V : Q2R 16 = 16 /\ Q2R 12 = 12 /\ Q2R 10 = 10) by (unfold Q2R; cbn; repeat split; lra). destruct V as (V1 & V2 & V3).
    destruct u; destruct v; cbn [rmap]; same; unfold ent_of; cbn [amount units]; rewrite Q2R_plus; rewrite ?Q2R_div, ?Q2R_mult, ?V1, ?V2, ?V3 by assumption; same.
Qed.
Definition inq (o : option Q) : option R := option_map Q2R o.
(** The context with rational numbers. *)
Definition rctx_of (ppi rel size fh : option Q) (vb : option (Q * Q)) : rctx :=
  mkR (inq ppi) (inq rel) None None (inq size) (inq fh) (option_map (fun p => (Q2R (fst p), Q2R (snd p))) vb).
Lemma value_agrees : forall ppi rel size fh vb l,
  Ok (value_r (rctx_of ppi rel size fh vb) (inq rel) (Q2R (amount l)) (units l)) =
  rmap (fun v => match v with VNum q => EN (Q2R q) | VLen m => ent_of m end)
    (value (mkCtx ppi (option_map ANum rel) (option_map FNum size) (option_map FNum fh) vb) l).
Proof.
  assert (V : Q2R 16 = 16 /\ Q2R 100 = 100) by (unfold Q2R; cbn; split; lra). destruct V as (V1 & V2).
  assert (N : ~ (100 == 0)%Q) by discriminate.
  intros ppi rel size fh vb [a u]. unfold value, value0, value_r, rctx_of. cbn [amount units r_ppi r_size r_fh r_vb c_ppi c_rel c_size c_height c_vb].
  destruct ppi, rel, size, fh, vb as [[w h]|]; destruct u; cbn [inq option_map rmap fst snd farg_float]; unfold ent_of, len_float; cbn [amount units]; same;
   try match goal with |- context [if Qltb ?x ?x then ?y else ?y] => replace (if Qltb x x then y else y) with y by (destruct (Qltb x x); reflexivity) end;
   rewrite ?Q2R_div, ?Q2R_mult, ?V1, ?V2 by exact N; rewrite ?Q2R_div, ?V2 by exact N; same.
Qed.
