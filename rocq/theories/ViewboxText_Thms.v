(** C109: the viewBox attribute. *)
Require Import ZArith QArith Qabs Qreals Reals Ascii String List Bool Lia Lqa.
Require Import Verif.Base Verif.Text_Spec Verif.Text_Proofs Verif.Fmt_Model Verif.Fmt_Proofs Verif.Matrix_Model Verif.Transform_Model Verif.Transform_Proofs Verif.Viewbox_Model Verif.Viewbox_Spec
  Verif.Viewbox_Proofs Verif.Viewbox_Thms.
Require Import Verif.ViewboxText_Model Verif.ViewboxText_Spec.
Import ListNotations.
Open Scope Q_scope.

Definition skipc (c : ascii) : Prop := ws c \/ c = ","%char.
Lemma skip_one c s : skipc c -> find_floats 0 (c :: s) = find_floats 0 s.
Proof. intros [[-> | [-> | [-> | ->]]] | ->]; reflexivity. Qed.
Lemma skip_all : forall a s, Forall skipc a -> find_floats 0 (a ++ s) = find_floats 0 s.
Proof. induction a; intros s F; [reflexivity|]. inversion F; subst. cbn [app]. rewrite skip_one by assumption. auto. Qed.
Lemma skipc_nc c s : skipc c -> nc (c :: s).
Proof. intros [[-> | [-> | [-> | ->]]] | ->]; simpl; repeat split; discriminate. Qed.
Lemma ws_skip a : Forall ws a -> Forall skipc a.
Proof. intros F. eapply Forall_impl; [|exact F]. intros c H. now left. Qed.
Lemma cw_skip s : comma_wsp s -> Forall skipc s /\ exists c r, s = c :: r.
Proof.
  intros [c r C F|a b A B]; [split; [constructor; [now left|now apply ws_skip]|eauto]|].
  split; [apply Forall_app; split; [now apply ws_skip|constructor; [now right|now apply ws_skip]]|]. destruct a; cbn [app]; eauto.
Qed.
Lemma numbers_read : forall ls t c, numbers ls t -> Forall ws c -> find_floats 0 (t ++ c) = map (fun l => fnum_val (fnum_of l)) ls.
Proof.
  intros ls t c H C. induction H as [l L|l s r t L S H IH].
  - assert (N : nc c) by (destruct c; [exact I|]; inversion C; subst; apply skipc_nc; now left).
    rewrite find_floats_hit by assumption. rewrite <- (app_nil_r c), (skip_all c []) by now apply ws_skip. reflexivity.
  - destruct (cw_skip s S) as (F & x & y & E). rewrite <- !app_assoc. rewrite find_floats_hit; [|assumption|subst s; cbn [app]; apply skipc_nc; now inversion F].
    rewrite skip_all by exact F. rewrite IH. reflexivity.
Qed.
Lemma attribute_read ls t : attribute ls t -> find_floats 0 t = map (fun l => fnum_val (fnum_of l)) ls.
Proof.
  intros (a & b & c & -> & A & C & [[-> ->]|H]); rewrite skip_all by now apply ws_skip.
  - cbn [app map]. rewrite <- (app_nil_r c). rewrite skip_all by now apply ws_skip. reflexivity.
  - now apply numbers_read.
Qed.
Lemma numbers_ok ls t : numbers ls t -> Forall lit_ok ls.
Proof. intros H. induction H; auto. Qed.

(** Four numbers are the four numbers. *)
Theorem viewbox_attribute : forall l1 l2 l3 l4 s par, attribute [l1; l2; l3; l4] s ->
  exists x y w h, vb_init (AText s) par = mkVb (Some x) (Some y) (Some w) (Some h) par /\
  x == lit_val l1 /\ y == lit_val l2 /\ w == lit_val l3 /\ h == lit_val l4.
Proof.
  intros l1 l2 l3 l4 s par A. pose proof (attribute_read _ _ A) as E. destruct A as (a & b & c & _ & _ & _ & [[K _]|H]); [discriminate|].
  apply numbers_ok in H. inversion H as [|? ? O1 H1]; subst. inversion H1 as [|? ? O2 H2]; subst. inversion H2 as [|? ? O3 H3]; subst. inversion H3 as [|? ? O4 _]; subst.
  unfold vb_init, vb_set, vb_of_text. rewrite E. cbn [map nth_error]. do 4 eexists. split; [reflexivity|]. rewrite !fnum_val_lit by assumption. repeat split; reflexivity.
Qed.
Definition sample_box : text := T " -1.5e1,.25	100 , 5E+1 ".
Definition l_a := mkLit SMinus [1]%Z [5]%Z (Some (false, SNone, [1]%Z)).
Definition l_b := mkLit SNone [] [2; 5]%Z None.
Definition l_c := mkLit SNone [1; 0; 0]%Z [] None.
Definition l_d := mkLit SNone [5]%Z [] (Some (true, SPlus, [1]%Z)).
Ltac digs := repeat (apply Forall_cons; [unfold is_dig; lia|]); apply Forall_nil.
Ltac lit_tac := unfold lit_ok; cbn [l_int l_frac l_exp l_a l_b l_c l_d]; split; [digs|]; split; [digs|];
  split; [first [left; discriminate|right; discriminate]|]; first [exact I|split; [digs|discriminate]].
Example viewbox_attribute_ex : attribute [l_a; l_b; l_c; l_d] sample_box.
Proof.
  exists (T " "), (T "-1.5e1,.25	100 , 5E+1"), (T " "). split; [reflexivity|]. split; [repeat constructor|]. split; [repeat constructor|]. right.
  apply (nums_more l_a (T ",") _ (T ".25	100 , 5E+1")); [lit_tac|exact (cw_comma [] [] (Forall_nil _) (Forall_nil _))|].
  apply (nums_more l_b (T "	") _ (T "100 , 5E+1")); [lit_tac|constructor; [right; left; reflexivity|constructor]|].
  apply (nums_more l_c (T " , ") _ (T "5E+1")); [lit_tac|apply (cw_comma (T " ") (T " ")); repeat constructor|].
  apply (nums_one l_d). lit_tac.
Qed.
Print Assumptions viewbox_attribute.

(** With fewer than four there is no transform. *)
Theorem viewbox_incomplete : forall ls s par ex ey ew eh, attribute ls s -> (List.length ls < 4)%nat ->
  vb_transform (vb_init (AText s) par) ex ey ew eh = Ok [].
Proof.
  intros ls s par ex ey ew eh A L. pose proof (attribute_read _ _ A) as E. unfold vb_transform, vb_init, vb_set, vb_of_text. rewrite E. cbn [vb_x vb_y vb_w vb_h vb_par].
  assert (N : nth_error (map (fun l => fnum_val (fnum_of l)) ls) 3 = None) by (apply nth_error_None; rewrite map_length; lia).
  rewrite N. unfold viewbox_transform. set (d := map _ ls). destruct ex, ey, ew, eh; try reflexivity. destruct (nth_error d 0), (nth_error d 1), (nth_error d 2); reflexivity.
Qed.
Example viewbox_incomplete_ex : attribute [l_c] (T "100") /\ (List.length [l_c] < 4)%nat.
Proof.
  split; [|cbn; lia]. exists [], (T "100"), []. split; [reflexivity|]. split; [constructor|]. split; [constructor|]. right. apply (nums_one l_c). lit_tac.
Qed.
Print Assumptions viewbox_incomplete.
(** Neither is there one with more, in SVG; here the first four are taken, *)
Theorem viewbox_five_refuted : exists s ls, attribute ls s /\ List.length ls = 5%nat /\ vb_transform (vb_init (AText s) None) (Some 0) (Some 0) (Some 50) (Some 50) = Ok (T "scale(0.5, 0.5)").
Proof.
  exists (T "0 0 100 100 7"). exists [mkLit SNone [0]%Z [] None; mkLit SNone [0]%Z [] None; l_c; l_c; mkLit SNone [7]%Z [] None].
  split; [|split; reflexivity].
  assert (O : lit_ok (mkLit SNone [0]%Z [] None) /\ lit_ok l_c /\ lit_ok (mkLit SNone [7]%Z [] None)).
  { split; [lit_tac|split; lit_tac]. }
  destruct O as (O1 & O2 & O3). assert (SP : comma_wsp (T " ")) by (constructor; [left; reflexivity|constructor]).
  exists [], (T "0 0 100 100 7"), []. split; [reflexivity|]. split; [constructor|]. split; [constructor|]. right.
  apply (nums_more (mkLit SNone [0]%Z [] None) (T " ") _ (T "0 100 100 7") O1 SP). apply (nums_more (mkLit SNone [0]%Z [] None) (T " ") _ (T "100 100 7") O1 SP).
  apply (nums_more l_c (T " ") _ (T "100 7") O2 SP). apply (nums_more l_c (T " ") _ (T "7") O2 SP). apply (nums_one (mkLit SNone [7]%Z [] None) O3).
Qed.
Print Assumptions viewbox_five_refuted.
(** and numbers are found in text that is no list of numbers at all. *)
Theorem viewbox_noise_refuted : vb_transform (vb_init (AText (T "auto 0px;x0 (100) 1e2em")) None) (Some 0) (Some 0) (Some 50) (Some 50) = Ok (T "scale(0.5, 0.5)").
Proof. vm_compute. reflexivity. Qed.
Print Assumptions viewbox_noise_refuted.

(** The attributes of an element as a dictionary, and another viewbox. *)
Theorem viewbox_forms : forall d v s par,
  vb_init (AObj v) par = v /\
  (dget (T "viewBox") d = Some s -> dget (T "preserveAspectRatio") d = par -> vb_init (ADict d) None = vb_init (AText s) par) /\
  (dget (T "viewBox") d = None -> forall ex ey ew eh, vb_transform (vb_init (ADict d) par) ex ey ew eh = Ok []) /\
  (dget (T "preserveAspectRatio") d = None -> vb_par (vb_init (ADict d) par) = par).
Proof.
  intros d v s par. split; [destruct v; reflexivity|]. unfold vb_init, vb_by_values. repeat split.
  - intros -> ->. destruct par; reflexivity.
  - intros -> ex ey ew eh. destruct ex, ey, ew, eh; reflexivity.
  - intros ->. destruct (dget (T "viewBox") d); reflexivity.
Qed.
Example viewbox_forms_ex : let d := [(T "width", T "10"); (T "viewBox", T "0 0 1 1"); (T "preserveAspectRatio", T "none")] in
  dget (T "viewBox") d = Some (T "0 0 1 1") /\ dget (T "preserveAspectRatio") d = Some (T "none").
Proof. split; reflexivity. Qed.
Print Assumptions viewbox_forms.

(** From the attributes to the matrix: viewBox in SVG's notation, preserveAspectRatio with one space, sizes that are numbers. The text the library makes of
    them is, read as a transform, within the 12 printed decimals of one that fits (meet) or covers (slice) the viewport, aligned as named. *)
Theorem viewbox_attributes_fit : forall l1 l2 l3 l4 s a b f par ex ey ew eh, attribute [l1; l2; l3; l4] s -> 0 < lit_val l3 -> 0 < lit_val l4 -> par_text a b f par ->
  exists t sc sc' sx tx ty tx' ty', vb_transform (vb_init (AText s) par) (Some ex) (Some ey) (Some ew) (Some eh) = Ok t /\
  mx_of_text t = Ok (M (Q2R sc) 0 0 (Q2R sc') (Q2R tx) (Q2R ty)) /\ near12 sc sx /\ near12 sc' sx /\ near12 tx tx' /\ near12 ty ty' /\
  placed a ex ew (lit_val l1) (lit_val l3) sx tx' /\ placed b ey eh (lit_val l2) (lit_val l4) sx ty' /\
  (sx * lit_val l3 == ew \/ sx * lit_val l4 == eh) /\
  match f with
  | Meet => inside ex ew (lit_val l1) (lit_val l3) sx tx' /\ inside ey eh (lit_val l2) (lit_val l4) sx ty'
  | Slice => covers ex ew (lit_val l1) (lit_val l3) sx tx' /\ covers ey eh (lit_val l2) (lit_val l4) sx ty'
  end.
Proof.
  intros l1 l2 l3 l4 s a b f par ex ey ew eh A W H P. destruct (viewbox_attribute _ _ _ _ _ par A) as (x & y & w & h & E & X & Y & EW & EH).
  rewrite <- EW in W. rewrite <- EH in H.
  assert (N : exists k tx' ty', vb_numbers ex ey ew eh x y w h par = Ok (mkVt k k tx' ty') /\ placed a ex ew x w k tx' /\ placed b ey eh y h k ty' /\ (k * w == ew \/ k * h == eh) /\
    match f with Meet => inside ex ew x w k tx' /\ inside ey eh y h k ty' | Slice => covers ex ew x w k tx' /\ covers ey eh y h k ty' end).
  { destruct f.
    - destruct (viewbox_meet_fits ex ey ew eh x y w h a b par W H P) as (k & tx & ty & E1 & I1 & I2 & F & P1 & P2). exists k, tx, ty. auto 10.
    - destruct (viewbox_slice_covers ex ey ew eh x y w h a b par W H P) as (k & tx & ty & E1 & I1 & I2 & F & P1 & P2). exists k, tx, ty. auto 10. }
  destruct N as (k & tx' & ty' & E1 & P1 & P2 & F & IN).
  destruct (viewbox_text_matrix _ _ _ _ _ _ _ _ _ _ E1) as (t & sc & sc' & tx & ty & E2 & MX & N1 & N2 & N3 & N4 & _). cbn [t_sx t_sy t_tx t_ty] in *.
  exists t, sc, sc', k, tx, ty, tx', ty'. split; [unfold vb_transform; rewrite E; cbn [vb_x vb_y vb_w vb_h vb_par]; exact E2|]. split; [exact MX|]. do 4 (split; [assumption|]).
  assert (PL : forall al e el v v' vl vl' s t, v == v' -> vl == vl' -> placed al e el v vl s t -> placed al e el v' vl' s t).
  { intros al e el v v' vl vl' s0 t0 V VL Q. unfold placed in *. destruct al; rewrite <- ?V, <- ?VL; exact Q. }
  split; [eapply PL; [exact X|exact EW|exact P1]|]. split; [eapply PL; [exact Y|exact EH|exact P2]|].
  split; [rewrite <- EW, <- EH; exact F|].
  destruct f; (destruct IN as [[I1 I2] [I3 I4]]; unfold inside, covers; rewrite <- X, <- Y, <- EW, <- EH; auto).
Qed.
Example viewbox_attributes_fit_ex : attribute [l_a; l_b; l_c; l_d] sample_box /\ 0 < lit_val l_c /\ 0 < lit_val l_d /\ par_text Mid Max Slice (Some (T "xMidYMax slice")).
Proof. split; [apply viewbox_attribute_ex|]. split; [reflexivity|]. split; [reflexivity|apply (par_slice Mid Max)]. Qed.
Print Assumptions viewbox_attributes_fit.
