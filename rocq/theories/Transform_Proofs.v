Require Import ZArith QArith Qreals Reals Ascii String List Bool Lia Lra.
Require Import Verif.Base Verif.Text_Spec Verif.Text_Proofs Verif.Length_Model Verif.Length_Proofs
  Verif.Angle_Model Verif.Angle_Spec Verif.Angle_Proofs Verif.Point_Model Verif.Matrix_Model Verif.Matrix_Spec Verif.Matrix_Proofs
  Verif.Transform_Model Verif.Transform_Spec.
Import ListNotations.
Open Scope R_scope.

(** * Scanning *)
Lemma after_spec : forall p s r, after p s = Some r <-> s = p ++ r.
Proof.
  induction p as [|x p IH]; intros s r; simpl.
  - split; congruence.
  - destruct s as [|y s]; [split; discriminate|]. destruct (aeqb x y) eqn:E.
    + apply aeqb_true in E. subst. rewrite IH. split; congruence.
    + apply aeqb_false in E. split; [discriminate|]. intros K; inversion K; congruence.
Qed.
Lemma drop_ws_suffix : forall s, exists w, s = w ++ drop_ws s.
Proof.
  induction s as [|c s [w IH]]; simpl. exists []; auto. destruct (is_ws c); [exists (c :: w); simpl; congruence | exists []; auto].
Qed.
Lemma match_name_spec : forall nm s args rest, match_name nm s = Some (args, rest) ->
  exists w, s = nm ++ w ++ "("%char :: args ++ ")"%char :: rest /\ args <> [].
Proof.
  intros nm s args rest H. unfold match_name in H. destruct (after nm s) as [r|] eqn:A; [|discriminate]. apply after_spec in A.
  destruct (drop_ws_suffix r) as [w W]. destruct (drop_ws r) as [|c r1] eqn:DW; [discriminate|].
  destruct (aeqb c "(") eqn:C; [|discriminate]. apply aeqb_true in C. subst c.
  destruct (span not_close r1) as [a b] eqn:SP. apply span_spec in SP as (S1 & S2 & S3).
  destruct a as [|x a]; [discriminate|]. destruct b as [|y b]; [discriminate|]. inversion H; subst args rest.
  unfold not_close in S3. apply negb_false_iff, aeqb_true in S3. subst y.
  exists w. split; [|discriminate]. rewrite A, W, S1. simpl. reflexivity.
Qed.
Lemma match_names_spec : forall nms s nm args rest, match_names nms s = Some (nm, args, rest) ->
  exists pre, s = pre ++ rest /\ pre <> [].
Proof.
  induction nms as [|n nms IH]; intros s nm args rest H; [discriminate|]. simpl in H.
  destruct (match_name n s) as [[a r]|] eqn:M; [|eapply IH; eauto].
  inversion H; subst. apply match_name_spec in M as (w & E & _).
  exists (nm ++ w ++ "("%char :: args ++ [")"%char]). split.
  - rewrite E. rewrite <- !app_assoc. simpl. rewrite <- app_assoc. reflexivity.
  - destruct nm; [|discriminate]. destruct w; discriminate.
Qed.
Lemma find_funcs_skip : forall n s, find_funcs n s = find_funcs 0 (skipn n s).
Proof. induction n; intros; auto. destruct s; auto. simpl. auto. Qed.
Lemma skip_suffix : forall (c : ascii) s' pre rest, c :: s' = pre ++ rest -> pre <> [] -> skipn (List.length s' - List.length rest) s' = rest.
Proof.
  intros c s' pre rest E N. destruct pre as [|x pre]; [congruence|]. inversion E; subst. rewrite app_length.
  replace (List.length pre + List.length rest - List.length rest)%nat with (List.length pre) by lia.
  rewrite skipn_app, skipn_all, Nat.sub_diag. reflexivity.
Qed.
Lemma find_funcs_hit : forall s nm args rest, match_names t_names s = Some (nm, args, rest) ->
  find_funcs 0 s = (nm, args) :: find_funcs 0 rest.
Proof.
  intros s nm args rest H. destruct (match_names_spec _ _ _ _ _ H) as (pre & E & N).
  destruct s as [|c s']. { destruct pre; [congruence|discriminate]. }
  cbn [find_funcs]. rewrite H. f_equal. rewrite find_funcs_skip. rewrite (skip_suffix c s' pre rest); auto.
Qed.
Lemma find_funcs_miss : forall c s, match_names t_names (c :: s) = None -> find_funcs 0 (c :: s) = find_funcs 0 s.
Proof. intros. cbn [find_funcs]. rewrite H. reflexivity. Qed.

(** * Concatenation *)
Definition ends (s : text) : Prop := s = [] \/ exists u, s = u ++ [")"%char].
Lemma ends_tail : forall c s, ends (c :: s) -> ends s.
Proof.
  intros c s [H|[u H]]; [discriminate|]. destruct u as [|x u]; simpl in H; inversion H; subst; [left|right; exists u]; auto.
Qed.
Lemma ends_suffix : forall a b, ends (a ++ b) -> ends b.
Proof. induction a; simpl; intros; auto. apply IHa. eapply ends_tail; eauto. Qed.
Lemma ends_close : forall c s, ends (c :: s) -> c <> ")"%char -> s <> [].
Proof. intros c s [H|[u H]] N; [discriminate|]. destruct u as [|x u]; simpl in H; inversion H; subst; [congruence|]. destruct u; discriminate. Qed.

Lemma after_app : forall nm s1 s2, ends s1 -> s1 <> [] -> Forall (fun c => c <> ")"%char) nm ->
  after nm (s1 ++ s2) = option_map (fun r => r ++ s2) (after nm s1) /\ forall r, after nm s1 = Some r -> ends r /\ r <> [].
Proof.
  induction nm as [|x nm IH]; intros s1 s2 E N F.
  - simpl. split; auto. intros r H. inversion H; subst; auto.
  - destruct s1 as [|y s1]; [congruence|]. simpl. inversion F; subst. destruct (aeqb x y) eqn:A.
    + apply aeqb_true in A. subst y. apply IH; auto. eapply ends_tail; eauto. eapply ends_close; eauto.
    + split; auto. discriminate.
Qed.
Lemma drop_ws_app2 : forall r s2, ends r -> r <> [] -> drop_ws (r ++ s2) = drop_ws r ++ s2 /\ ends (drop_ws r) /\ drop_ws r <> [].
Proof.
  induction r as [|c r IH]; intros s2 E N; [congruence|]. simpl. destruct (is_ws c) eqn:W.
  - apply IH. eapply ends_tail; eauto. eapply ends_close; eauto. intros ->. discriminate.
  - split; [reflexivity|]. split; [exact E | discriminate].
Qed.
Lemma span_app2 : forall r s2, ends r -> r <> [] -> exists a b, span not_close r = (a, ")"%char :: b) /\ span not_close (r ++ s2) = (a, ")"%char :: b ++ s2) /\ ends b.
Proof.
  induction r as [|c r IH]; intros s2 E N; [congruence|]. simpl. destruct (not_close c) eqn:C.
  - assert (c <> ")"%char). { intros ->. discriminate. }
    destruct (IH s2) as (a & b & H1 & H2 & H3). eapply ends_tail; eauto. eapply ends_close; eauto.
    rewrite H1, H2. exists (c :: a), b. auto.
  - unfold not_close in C. apply negb_false_iff, aeqb_true in C. subst c. exists [], r. repeat split; auto. eapply ends_tail; eauto.
Qed.
Lemma match_name_app : forall nm s1 s2, ends s1 -> s1 <> [] -> Forall (fun c => c <> ")"%char) nm ->
  match_name nm (s1 ++ s2) = option_map (fun '(a, r) => (a, r ++ s2)) (match_name nm s1) /\
  (forall a r, match_name nm s1 = Some (a, r) -> ends r).
Proof.
  intros nm s1 s2 E N F. unfold match_name. destruct (after_app nm s1 s2 E N F) as [-> R].
  destruct (after nm s1) as [r|]; simpl; [|split; auto; discriminate].
  destruct (R r eq_refl) as [E1 N1]. destruct (drop_ws_app2 r s2 E1 N1) as (-> & E2 & N2).
  destruct (drop_ws r) as [|c r1]; [congruence|]. simpl. destruct (aeqb c "(") eqn:C; [|split; auto; discriminate].
  apply aeqb_true in C. subst c. 
  destruct (span_app2 r1 s2) as (a & b & H1 & H2 & H3). eapply ends_tail; eauto. eapply ends_close; eauto. discriminate.
  rewrite H1, H2. destruct a; split; auto; try discriminate. intros a' r' K. inversion K; subst; auto.
Qed.
Lemma match_names_app : forall nms s1 s2, ends s1 -> s1 <> [] -> Forall (Forall (fun c => c <> ")"%char)) nms ->
  match_names nms (s1 ++ s2) = option_map (fun '(n, a, r) => (n, a, r ++ s2)) (match_names nms s1) /\
  (forall n a r, match_names nms s1 = Some (n, a, r) -> ends r).
Proof.
  induction nms as [|nm nms IH]; intros s1 s2 E N F; simpl. { split; auto; discriminate. }
  inversion F; subst. destruct (match_name_app nm s1 s2 E N H1) as [-> R]. destruct (match_name nm s1) as [[a r]|]; simpl.
  - split; auto. intros n a' r' K. inversion K; subst. eapply R; eauto.
  - apply IH; auto.
Qed.
Lemma t_names_ok : Forall (Forall (fun c => c <> ")"%char)) t_names.
Proof. unfold t_names, T. simpl. repeat constructor; discriminate. Qed.
Lemma find_funcs_app : forall n s1 s2, (List.length s1 <= n)%nat -> ends s1 -> find_funcs 0 (s1 ++ s2) = find_funcs 0 s1 ++ find_funcs 0 s2.
Proof.
  induction n; intros s1 s2 L E. { destruct s1; [auto | simpl in L; lia]. }
  destruct s1 as [|c s1]; [auto|]. set (s := c :: s1) in *.
  destruct (match_names_app t_names s s2) as [H R]; auto. { discriminate. } { apply t_names_ok. }
  destruct (match_names t_names s) as [[[nm a] r]|] eqn:M; cbn [option_map] in H.
  - rewrite (find_funcs_hit _ _ _ _ H), (find_funcs_hit _ _ _ _ M). simpl. f_equal. apply IHn; [|eapply R; eauto].
    destruct (match_names_spec _ _ _ _ _ M) as (pre & Q & NE). assert (K : List.length s = List.length (pre ++ r)) by congruence.
    rewrite app_length in K. destruct pre; [congruence|]. simpl in *. lia.
  - unfold s in *. rewrite <- app_comm_cons in *. rewrite (find_funcs_miss _ _ H), (find_funcs_miss _ _ M). apply IHn. simpl in L; lia. eapply ends_tail; eauto.
Qed.
Lemma lower_ends : forall s, ends s -> ends (lower s).
Proof. intros s [->|[u ->]]; [left; auto|]. right. exists (lower u). rewrite lower_app. reflexivity. Qed.

(** * Applying functions to a matrix is multiplying by what they denote *)
Ltac pmul := intros; apply act_inj; intros; rewrite act_mul, ?pre_scale_ok, ?pre_rotate_ok, ?pre_skew_ok, ?pre_translate_ok, !act_ident; reflexivity.
Lemma pre_scale_mul : forall m sx sy x y, pre_scale m sx sy x y = mul (pre_scale ident sx sy x y) m. Proof. pmul. Qed.
Lemma pre_rotate_mul : forall m a x y, pre_rotate m a x y = mul (pre_rotate ident a x y) m. Proof. pmul. Qed.
Lemma pre_skew_mul : forall m a b x y, pre_skew m a b x y = mul (pre_skew ident a b x y) m. Proof. pmul. Qed.
Lemma pre_translate_mul : forall m x y, pre_translate m x y = mul (pre_translate ident x y) m. Proof. pmul. Qed.
Lemma pre_cat_mul : forall m k, pre_cat m k = mul (pre_cat ident k) m.
Proof. intros. unfold pre_cat. rewrite mul_id_r. reflexivity. Qed.

Lemma apply_func_mul : forall m nm ps, apply_func m nm ps = rmap (fun k => mul k m) (apply_func ident nm ps).
Proof.
  intros m nm ps. unfold apply_func, pre_skew_x, pre_skew_y.
  repeat match goal with
  | |- (if ?b then _ else _) = rmap _ (if ?b then _ else _) => destruct b
  | |- rbind ?e _ = rmap _ (rbind ?e _) => destruct e as [?|?]; simpl
  | |- (let '(_, _) := ?e in _) = _ => destruct e
  | |- match ?e with _ => _ end = rmap _ (match ?e with _ => _ end) => destruct e; simpl
  | |- Err _ = _ => reflexivity
  | |- Ok (pre_cat _ _) = _ => cbn [rmap]; rewrite pre_cat_mul; reflexivity
  | |- Ok (pre_scale _ _ _ _ _) = _ => cbn [rmap]; rewrite pre_scale_mul; reflexivity
  | |- Ok (pre_rotate _ _ _ _) = _ => cbn [rmap]; rewrite pre_rotate_mul; reflexivity
  | |- Ok (pre_skew _ _ _ _ _) = _ => cbn [rmap]; rewrite pre_skew_mul; reflexivity
  | |- Ok (pre_translate _ _ _) = _ => cbn [rmap]; rewrite pre_translate_mul; reflexivity
  | |- Ok m = _ => cbn [rmap]; rewrite mul_id_l; reflexivity
  end.
Qed.
Lemma apply_funcs_mul : forall l m, apply_funcs m l = rmap (fun k => mul k m) (apply_funcs ident l).
Proof.
  induction l as [|[nm args] l IH]; intros m; cbn [apply_funcs].
  - cbn [rmap]. rewrite mul_id_l. reflexivity.
  - rewrite apply_func_mul. destruct (apply_func ident nm (find_params 0 args)) as [k|e]; cbn [rmap rbind]; auto.
    rewrite (IH (mul k m)), (IH k). destruct (apply_funcs ident l); cbn [rmap]; auto. rewrite mul_assoc. reflexivity.
Qed.
Lemma apply_funcs_app : forall a b m, apply_funcs m (a ++ b) = rbind (apply_funcs m a) (fun k => apply_funcs k b).
Proof.
  induction a as [|[nm args] a IH]; intros b m; cbn [apply_funcs app]; [reflexivity|].
  destruct (apply_func m nm (find_params 0 args)); cbn [rbind]; auto.
Qed.
Lemma parse_concat : forall s1 s2, ends s1 ->
  mx_of_text (s1 ++ s2) = rbind (mx_of_text s1) (fun m1 => rbind (mx_of_text s2) (fun m2 => Ok (matmul m2 m1))).
Proof.
  intros s1 s2 E. unfold mx_of_text, mx_parse. rewrite lower_app, (find_funcs_app _ _ _ (le_n _)) by (apply lower_ends; auto).
  rewrite apply_funcs_app. destruct (apply_funcs ident (find_funcs 0 (lower s1))) as [m1|]; cbn [rbind]; auto.
  rewrite apply_funcs_mul. destruct (apply_funcs ident (find_funcs 0 (lower s2))); cbn [rmap rbind]; auto.
Qed.

(** * Parameters *)
Definition lowp (p : param) : param := mkParam (lower_lit (p_lit p)) (lower (p_unit p)).
Definition uknown (u : text) : Prop := In u [T ""; T "px"; T "pc"; T "deg"; T "grad"; T "rad"; T "turn"; T "%";
  T "cm"; T "mm"; T "in"; T "pt"; T "em"; T "vw"; T "vh"].
Definition pok (p : param) : Prop := lit_ok (p_lit p) /\ uknown (p_unit p).

Lemma sepc_lower : forall w, Forall sepc w -> lower w = w.
Proof.
  induction 1; auto. unfold lower in *. simpl. rewrite IHForall. f_equal.
  destruct H as [H| ->]; [|reflexivity]. unfold wsp in H; simpl in H. repeat (destruct H as [<-|H]; [reflexivity|]). contradiction.
Qed.
Lemma wsp_lower : forall w, Forall wsp w -> lower w = w.
Proof. intros. apply sepc_lower. eapply Forall_impl; [|eauto]. intros; left; auto. Qed.
Lemma params_lower : forall ps s, params_text ps s -> Forall (fun p => lit_ok (p_lit p)) ps -> params_text (map lowp ps) (lower s).
Proof.
  induction 1; intros F; inversion F; subst; unfold param_text.
  - simpl. rewrite !lower_app, lower_lit_text, (sepc_lower w) by auto. apply (pt_one (lowp p)). auto.
  - simpl. rewrite !lower_app, lower_lit_text, (sepc_lower w) by auto. apply (pt_cons (lowp p) (lowp q)); auto.
Qed.
Lemma lower_idem : forall s, lower (lower s) = lower s.
Proof.
  induction s; auto. unfold lower in *. simpl. rewrite IHs. f_equal. unfold lower1 at 2 3. destruct (is_upper a) eqn:E.
  - unfold lower1. replace (is_upper (chr (code a + 32))) with false; auto. symmetry.
    unfold is_upper in *. apply andb_true_iff in E as [E1 E2]. apply Z.leb_le in E1. apply Z.leb_le in E2.
    rewrite code_chr by lia. apply andb_false_iff. right. apply Z.leb_gt. lia.
  - unfold lower1. rewrite E. reflexivity.
Qed.

Definition nc (rest : text) : Prop := match rest with [] => True | c :: _ => is_digit c = false /\ c <> "."%char /\ c <> "e"%char /\ c <> "E"%char end.
Lemma nc_no_cont : forall l rest, nc rest -> no_cont l rest.
Proof.
  intros l rest H. destruct rest as [|c r]; simpl in H.
  - repeat split. intros (d & r & _ & K); discriminate. intros; discriminate. intros _ s r [K|K]; discriminate.
  - destruct H as (H1 & H2 & H3 & H4). split; [|split].
    + intros (d & r' & D & K). inversion K; subst. rewrite dchar_digit in H1 by auto. discriminate.
    + intros _ _ r' K. inversion K; congruence.
    + intros _ s r' [K|K]; inversion K; congruence.
Qed.
(** What can follow a parameter: nothing, a separator or a sign. *)
Definition tail_ok (t : text) : Prop := match t with [] => True | c :: _ => sepc c \/ c = "+"%char \/ c = "-"%char end.
Lemma tail_nc : forall l u t, uknown u -> tail_ok t -> no_cont l (u ++ t).
Proof.
  intros l u t U H. assert (EM : u = T "em" \/ nc (u ++ t)).
  { unfold uknown in U. simpl in U.
    repeat (destruct U as [<-|U]; [simpl; try (left; reflexivity); right; try (repeat split; discriminate || reflexivity)|]); [|contradiction].
    destruct t as [|c t]; simpl in *; auto. unfold sepc, wsp in H; simpl in H.
    repeat match goal with H : _ \/ _ |- _ => destruct H end; subst; try contradiction; repeat split; discriminate || reflexivity. }
  destruct EM as [-> |N]; [|apply nc_no_cont; auto]. split; [|split].
  - intros (d & r & D & K). assert (K1 := f_equal (hd " "%char) K). cbn in K1. dig_split D; discriminate.
  - intros _ _ r K. discriminate.
  - intros _ s r [K|K]; [|discriminate]. intros (d & r' & D & R). injection K as K. rewrite R in K. destruct s; cbn in K; try discriminate.
    assert (K1 := f_equal (hd " "%char) K). cbn in K1. dig_split D; discriminate.
Qed.
Lemma float_start : forall c r, is_digit c = false -> c <> "."%char -> c <> "+"%char -> c <> "-"%char -> match_float (c :: r) = None.
Proof.
  intros c r D P1 P2 P3. unfold match_float, opt_sign. apply aeqb_false in P1, P2, P3. rewrite P2, P3.
  simpl span. rewrite D. unfold match_frac. rewrite P1. reflexivity.
Qed.
Lemma ws_facts : forall c, is_ws c = true -> is_digit c = false /\ c <> "."%char /\ c <> "+"%char /\ c <> "-"%char.
Proof.
  intros c W. repeat split; try (intros ->; discriminate).
  destruct (is_digit c) eqn:D; auto. apply digit_not_ws in D. congruence.
Qed.
Lemma find_params_skip : forall n s, find_params n s = find_params 0 (skipn n s).
Proof. induction n; intros; auto. destruct s; auto. simpl. auto. Qed.
Lemma find_params_miss : forall c s, match_float (c :: s) = None -> find_params 0 (c :: s) = find_params 0 s.
Proof. intros. cbn [find_params]. unfold match_param. rewrite H. reflexivity. Qed.
Lemma find_params_ws : forall s, find_params 0 (drop_ws s) = find_params 0 s.
Proof.
  induction s as [|c s IH]; auto. cbn [drop_ws]. destruct (is_ws c) eqn:W; auto.
  rewrite IH, find_params_miss; auto. apply ws_facts in W as (A & B & C & D). apply float_start; auto.
Qed.
Lemma find_params_sep : forall w s, Forall sepc w -> find_params 0 (w ++ s) = find_params 0 s.
Proof.
  induction 1; auto. rewrite <- app_comm_cons. rewrite find_params_miss; auto. 
  destruct H as [H| ->]; [|apply float_start; try discriminate; reflexivity].
  apply wsp_is_ws, ws_facts in H as (A & B & C & D). apply float_start; auto.
Qed.
Lemma lit_start : forall l, lit_ok l -> exists c r, lit_text l = c :: r /\ In c ["+"; "-"; "."; "0"; "1"; "2"; "3"; "4"; "5"; "6"; "7"; "8"; "9"]%char.
Proof.
  intros l (Fi & Ff & Ne & Fe). unfold lit_text. destruct (l_sgn l); simpl; [|eexists; eexists; split; [reflexivity | simpl; auto]..].
  destruct (l_int l) as [|d ds].
  - destruct (l_frac l) as [|f fs]; [destruct Ne; congruence|]. simpl. eexists; eexists; split; [reflexivity | simpl; auto 20].
  - simpl. eexists; eexists; split; [reflexivity|]. inversion Fi; subst. dig_split H1; simpl; auto 20.
Qed.
Lemma match_unit_none : forall c r, In c [","; "+"; "-"; "."; "0"; "1"; "2"; "3"; "4"; "5"; "6"; "7"; "8"; "9"]%char ->
  match_unit t_units (c :: r) = ([], c :: r).
Proof. intros c r H. simpl in H. repeat (destruct H as [<-|H]; [reflexivity|]). contradiction. Qed.
Definition after_tail (t : text) : Prop := match drop_ws t with [] => True | c :: _ => In c [","; "+"; "-"; "."; "0"; "1"; "2"; "3"; "4"; "5"; "6"; "7"; "8"; "9"]%char end.
Lemma match_unit_known : forall u t, uknown u -> after_tail t ->
  exists t', match_unit t_units (drop_ws (u ++ t)) = (u, t') /\ find_params 0 t' = find_params 0 t /\ (exists w, t = w ++ t').
Proof.
  intros u t U A. unfold uknown in U. simpl in U.
  destruct U as [<-|U].
  - simpl. unfold after_tail in A. exists (drop_ws t). split; [|split; [apply find_params_ws | apply drop_ws_suffix]].
    destruct (drop_ws t); [reflexivity|]. apply match_unit_none. auto.
  - exists t. split; [|split; [reflexivity | exists []; reflexivity]]. 
    repeat (destruct U as [<-|U]; [reflexivity|]). contradiction.
Qed.
Lemma find_params_hit : forall p t, pok p -> tail_ok t -> after_tail t ->
  find_params 0 (param_text p ++ t) = param_text p :: find_params 0 t.
Proof.
  intros p t [L U] TO AT. unfold param_text. rewrite <- app_assoc.
  assert (MF : match_float (lit_text (p_lit p) ++ p_unit p ++ t) = Some (fnum_of (p_lit p), p_unit p ++ t)).
  { apply match_float_lit; auto. apply tail_nc; auto. }
  destruct (match_unit_known _ _ U AT) as (t' & MU & FP & (w & W)).
  assert (MP : match_param (lit_text (p_lit p) ++ p_unit p ++ t) = Some (lit_text (p_lit p) ++ p_unit p, t')).
  { unfold match_param. rewrite MF, MU. rewrite app_length.
    replace (List.length (lit_text (p_lit p)) + List.length (p_unit p ++ t) - List.length (p_unit p ++ t))%nat with (List.length (lit_text (p_lit p))) by lia.
    rewrite firstn_app, firstn_all, Nat.sub_diag. simpl. rewrite app_nil_r. reflexivity. }
  destruct (lit_start _ L) as (c & r & E & _). rewrite E in *. cbn [app find_params]. rewrite <- app_comm_cons in MP. rewrite MP.
  f_equal. rewrite find_params_skip. rewrite <- FP. f_equal.
  apply (skip_suffix c _ ((c :: r) ++ p_unit p ++ w)); [|discriminate].
  rewrite W. rewrite <- !app_assoc. reflexivity.
Qed.
Lemma sep_tail_ok : forall w s, Forall sepc w -> (w <> [] \/ tail_ok s) -> tail_ok (w ++ s).
Proof. intros w s F [N|H]; destruct w; simpl; auto; try congruence; inversion F; auto. Qed.
Lemma sep_after_tail : forall w s, Forall sepc w -> after_tail s -> after_tail (w ++ s).
Proof.
  induction 1; auto. intros A. unfold after_tail. simpl. destruct H as [H| ->].
  - rewrite (wsp_is_ws _ H). apply IHForall; auto.
  - replace (is_ws ","%char) with false by reflexivity. simpl; auto.
Qed.
Lemma params_start : forall ps s, params_text ps s -> Forall pok ps -> after_tail s /\ match ps with p :: _ => l_sgn (p_lit p) <> SNone -> tail_ok s | [] => True end.
Proof.
  intros ps s H F. assert (G : forall p t, pok p -> after_tail (param_text p ++ t) /\ (l_sgn (p_lit p) <> SNone -> tail_ok (param_text p ++ t))).
  { intros p t [L U]. unfold param_text. split.
    - destruct (lit_start _ L) as (c & r & E & I). rewrite E. unfold after_tail. cbn [app drop_ws].
      replace (is_ws c) with false. { simpl in *; intuition. } simpl in I. repeat (destruct I as [<-|I]; [reflexivity|]). contradiction.
    - intros N. unfold lit_text. destruct (l_sgn (p_lit p)); [congruence| |]; simpl; auto. }
  inversion H; subst; inversion F; subst; split; try apply G; auto.
Qed.
Lemma find_params_text : forall ps s, params_text ps s -> Forall pok ps -> find_params 0 s = map param_text ps.
Proof.
  induction 1; intros F; inversion F; subst.
  - rewrite find_params_hit; auto.
    + simpl. f_equal. rewrite <- (app_nil_r w), find_params_sep by auto. reflexivity.
    + rewrite <- (app_nil_r w). apply sep_tail_ok; auto. right; simpl; auto.
    + rewrite <- (app_nil_r w). apply sep_after_tail; auto. unfold after_tail; simpl; auto.
  - destruct (params_start _ _ H1 H5) as [S1 S2].
    rewrite find_params_hit; auto.
    + simpl. f_equal. rewrite find_params_sep by auto. rewrite IHparams_text by auto. reflexivity.
    + apply sep_tail_ok; auto. destruct H0; auto.
    + apply sep_after_tail; auto.
Qed.

(** * Values *)
Lemma px_of_lit : forall l u, lit_ok l -> uknown u -> len_of_text (lit_text l ++ u) = len2 (fnum_val (fnum_of l)) u.
Proof.
  intros l u L U. unfold len_of_text. rewrite (match_float_first _ (fnum_of l) u).
  - rewrite span_all; auto. unfold uknown in U; simpl in U. repeat (destruct U as [<-|U]; [reflexivity|]). contradiction.
  - apply match_float_lit; auto. rewrite <- (app_nil_r u). apply tail_nc; simpl; auto.
Qed.
Lemma num_lowp : forall p v, is_num p v -> num_param (param_text (lowp p)) = Ok v /\ pok (lowp p) /\ lit_ok (p_lit p).
Proof.
  intros p v H. destruct H as [p L U]. destruct (lower_lit_ok _ L) as [L' V]. unfold num_param, param_text, lowp, pok. simpl. rewrite U. simpl.
  rewrite app_nil_r. destruct (py_float_lit _ L') as (q & -> & E). split; [|repeat split; simpl; auto; unfold uknown; simpl; auto].
  simpl. f_equal. rewrite <- V. apply Qeq_eqR. auto.
  all: try apply L'. all: try apply L.
Qed.
Lemma dist_lowp : forall p v, is_dist p v -> px_param (param_text (lowp p)) = Ok v /\ pok (lowp p) /\ lit_ok (p_lit p).
Proof.
  intros p v H.
  assert (G : lit_ok (p_lit p) -> uknown (lower (p_unit p)) -> pok (lowp p)).
  { intros L U. split; simpl; auto. apply lower_lit_ok; auto. }
  destruct H as [p L U|p L U]; destruct (lower_lit_ok _ L) as [L' V]; (split; [|split; [apply G; auto; unfold uknown; simpl; intuition|auto]]);
    unfold px_param, param_text, lowp; simpl; rewrite px_of_lit by (auto; unfold uknown; simpl; intuition);
    pose proof (Qeq_eqR _ _ (fnum_val_lit _ L')) as E; rewrite V in E.
  - destruct U as [-> | ->]; simpl; rewrite E; reflexivity.
  - rewrite U. simpl. rewrite Q2R_mult, E. f_equal. unfold Q2R at 2. simpl. lra.
Qed.
Lemma angle_lowp : forall p v, is_angle p v -> angle_parse (param_text (lowp p)) = Ok v /\ pok (lowp p) /\ lit_ok (p_lit p).
Proof.
  intros p v H. destruct H as [p u n L C U]. destruct (lower_lit_ok _ L) as [L' V]. unfold param_text, lowp, pok. simpl.
  destruct (angle_parse_lemma _ u n L' C (lower (p_unit p))) as (a & A & E). { rewrite lower_idem. auto. }
  rewrite A, E, V. split; [reflexivity|]. split; [split|]; auto. rewrite U. unfold uknown. inversion C; simpl; auto 10.
Qed.

(** * One function *)
Lemma name_ok : forall nm ps f, denotes nm ps f -> In nm ["matrix"; "translate"; "translatex"; "translatey"; "scale"; "scalex"; "scaley"; "rotate"; "skewx"; "skewy"; "skew"]%string.
Proof. intros nm ps f H. destruct H; simpl; auto 20. Qed.
Lemma match_name_ok : forall nm w args rest, Forall wsp w -> forallb not_close args = true -> args <> [] ->
  match_name nm (nm ++ w ++ "("%char :: args ++ ")"%char :: rest) = Some (args, rest).
Proof.
  intros nm w args rest W A N. unfold match_name.
  assert (E : after nm (nm ++ w ++ "("%char :: args ++ ")"%char :: rest) = Some (w ++ "("%char :: args ++ ")"%char :: rest)) by (apply after_spec; reflexivity).
  rewrite E, drop_ws_app by (auto). rewrite aeqb_refl. rewrite span_app by (auto). destruct args; [congruence|reflexivity].
Qed.
Lemma match_names_ok : forall nm w args rest, In nm ["matrix"; "translate"; "translatex"; "translatey"; "scale"; "scalex"; "scaley"; "rotate"; "skewx"; "skewy"; "skew"]%string ->
  Forall wsp w -> forallb not_close args = true -> args <> [] ->
  match_names t_names (T nm ++ w ++ "("%char :: args ++ ")"%char :: rest) = Some (T nm, args, rest).
Proof.
  intros nm w args rest I W A N. pose proof (match_name_ok (T nm) w args rest W A N) as M. revert M.
  set (tl := w ++ "("%char :: args ++ ")"%char :: rest). clearbody tl. simpl in I.
  repeat (destruct I as [<-|I]; [intros M; unfold t_names; cbn [match_names];
     repeat match goal with |- context [match_name (T ?a) (T ?b ++ tl)] =>
       lazymatch a with b => fail | _ => replace (match_name (T a) (T b ++ tl)) with (@None (text * text)) by reflexivity end end;
     try rewrite M; reflexivity|]). contradiction.
Qed.
Lemma lit_chars : forall l, lit_ok l -> forallb not_close (lit_text l) = true.
Proof.
  intros l (Fi & Ff & Ne & Fe). unfold lit_text.
  assert (G : forall ds, Forall is_dig ds -> forallb not_close (dtext ds) = true).
  { induction 1; auto. simpl. rewrite IHForall, andb_true_r. dig_split H; reflexivity. }
  rewrite !forallb_app, (G _ Fi). replace (forallb not_close (sgn_text (l_sgn l))) with true by (destruct (l_sgn l); reflexivity).
  simpl. apply andb_true_iff. split.
  - destruct (l_frac l); auto. change (forallb not_close (dtext (z :: l0)) = true). apply G; auto.
  - destruct (l_exp l) as [[[b s] ds]|]; auto. simpl. rewrite forallb_app, G by tauto. destruct b, s; reflexivity.
Qed.
Lemma sep_chars : forall w, Forall sepc w -> forallb not_close w = true.
Proof.
  induction 1; auto. simpl. rewrite IHForall, andb_true_r. destruct H as [H| ->]; [|reflexivity].
  unfold wsp in H; simpl in H. repeat (destruct H as [<-|H]; [reflexivity|]). contradiction.
Qed.
Lemma params_chars : forall ps s, params_text ps s -> Forall pok ps -> forallb not_close s = true /\ s <> [].
Proof.
  assert (G : forall p, pok p -> forallb not_close (param_text p) = true /\ param_text p <> []).
  { intros p [L U]. unfold param_text. rewrite forallb_app, lit_chars by auto. split.
    - unfold uknown in U; simpl in U. repeat (destruct U as [<-|U]; [reflexivity|]). contradiction.
    - destruct (lit_start _ L) as (c & r & E & _). rewrite E. discriminate. }
  induction 1; intros F; inversion F; subst; destruct (G p) as [G1 G2]; auto;
   rewrite !forallb_app, (sep_chars w), G1 by auto.
  - split; auto. destruct (param_text p); [congruence|discriminate].
  - split. simpl. apply IHparams_text; auto. destruct (param_text p); [congruence|discriminate].
Qed.

Ltac low1 := match goal with
  | H : is_num _ _ |- _ => apply num_lowp in H as (? & ? & ?)
  | H : is_dist _ _ |- _ => apply dist_lowp in H as (? & ? & ?)
  | H : is_angle _ _ |- _ => apply angle_lowp in H as (? & ? & ?)
  end.
Lemma denotes_ok : forall nm ps f, denotes nm ps f -> Forall (fun p => lit_ok (p_lit p)) ps /\ Forall pok (map lowp ps).
Proof.
  intros nm ps f H. destruct H; repeat low1; cbn [map]; split; repeat (apply Forall_cons; [assumption|]); apply Forall_nil.
Qed.
Lemma apply_denotes : forall nm ps f, denotes nm ps f ->
  exists k, apply_func ident (T nm) (map param_text (map lowp ps)) = Ok k /\ forall p, act k p = f p.
Proof.
  intros nm ps f H. destruct H; repeat low1; unfold apply_func; cbn [map teqb T list_ascii_of_string aeqb Ascii.eqb Bool.eqb andb mapM centre rbind mx_of];
   repeat match goal with H : _ = Ok _ |- _ => rewrite H; clear H; cbn [rbind mx_of mapM] end;
   (eexists; split; [reflexivity|]); intros p0; unfold pre_skew_x, pre_skew_y;
   rewrite ?pre_scale_ok, ?pre_rotate_ok, ?pre_skew_ok, ?pre_translate_ok, ?act_ident; cbn [c0 dflt]; rewrite ?about_0; try reflexivity.
  unfold pre_cat. rewrite mul_id_r. unfold act. simpl. apply pair_eq; ring.
Qed.

Lemma tlist_ends_ok : forall w, Forall sepc w -> forall s, find_funcs 0 (w ++ s) = find_funcs 0 s.
Proof.
  induction 1; intros; auto. rewrite <- app_comm_cons. rewrite find_funcs_miss; auto.
  destruct H as [H| ->]; [|reflexivity]. unfold wsp in H; simpl in H. repeat (destruct H as [<-|H]; [reflexivity|]). contradiction.
Qed.
Lemma tlist_lemma : forall s f, tlist s f -> exists m, mx_of_text s = Ok m /\ forall p, act m p = f p.
Proof.
  unfold mx_of_text, mx_parse. induction 1.
  - rewrite sepc_lower by auto. rewrite <- (app_nil_r w), tlist_ends_ok by auto. exists ident. split; auto. apply act_ident.
  - destruct IHtlist as (m & M & A). destruct (denotes_ok _ _ _ H1) as [F1 F2]. destruct (apply_denotes _ _ _ H1) as (k & K & KA).
    destruct H0 as [nm ps n w0 w1 s LN W0 W1 PT].
    pose proof (params_lower _ _ PT F1) as PL. destruct (params_chars _ _ PL F2) as [C1 C2].
    rewrite !lower_app, (sepc_lower w), LN, (wsp_lower w0), tlist_ends_ok by auto.
    assert (E : find_funcs 0 ((T nm ++ w0 ++ lower ("("%char :: w1 ++ s ++ [")"%char])) ++ lower rest) = (T nm, w1 ++ lower s) :: find_funcs 0 (lower rest)).
    { change (lower ("("%char :: w1 ++ s ++ [")"%char])) with ("("%char :: lower (w1 ++ s ++ [")"%char])).
      rewrite !lower_app, (sepc_lower w1) by auto. change (lower [")"%char]) with [")"%char].
      replace ((T nm ++ w0 ++ "("%char :: w1 ++ lower s ++ [")"%char]) ++ lower rest) with (T nm ++ w0 ++ "("%char :: (w1 ++ lower s) ++ ")"%char :: lower rest).
      2:{ rewrite <- !app_assoc. simpl. rewrite <- !app_assoc. reflexivity. }
      apply find_funcs_hit. apply match_names_ok; auto.
      - eapply name_ok; eauto.
      - rewrite forallb_app, sep_chars, C1 by auto. reflexivity.
      - destruct w1; [auto|discriminate]. }
    rewrite E. cbn [apply_funcs]. rewrite find_params_sep by auto. rewrite (find_params_text _ _ PL F2), K. cbn [rbind].
    rewrite apply_funcs_mul, M. cbn [rmap]. exists (mul m k). split; auto. intros p. rewrite act_mul, A, KA. reflexivity.
Qed.
