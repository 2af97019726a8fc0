Require Import ZArith QArith Qabs Qreals Reals Ascii String List Bool Lqa Lia Lra.
From Flocq Require Import Core BinarySingleNaN.
Require Import Verif.Base Verif.Text_Spec Verif.Text_Proofs Verif.Length_Model Verif.Length_Spec Verif.Length_Proofs
  Verif.Float_Model Verif.Float_Spec Verif.Float_Proofs Verif.FloatAngle_Proofs Verif.FloatWalk_Proofs Verif.FloatBox_Proofs Verif.FloatView_Model Verif.FloatView_Proofs Verif.FloatText_Model Verif.FloatText_Spec Verif.FloatText_Proofs
  Verif.FloatLength_Model Verif.FloatLength_Spec Verif.FloatLength_Proofs.
Import ListNotations.
Open Scope R_scope.

Ltac lok := unfold lit_ok; cbn; repeat match goal with
  | |- is_dig _ => unfold is_dig; lia | |- _ /\ _ => split | |- Forall _ _ => constructor | |- True => exact I
  | |- _ <> _ => discriminate | |- _ \/ _ => first [left; discriminate | right; discriminate] end.
Lemma moderate_int : forall z, (Z.abs z <= 2 ^ 53)%Z -> moderate (fz z).
Proof.
  intros z H. destruct (fz_is z H) as [F V]. split; auto. rewrite V. destruct (Z.eq_dec z 0) as [->|N]; [left; reflexivity|right]. rewrite <- abs_IZR.
  assert (1 <= IZR (Z.abs z) <= IZR (2 ^ 53)) by (split; apply IZR_le; lia). assert (bpow radix2 (-300) <= bpow radix2 0) by (apply bpow_le; lia). change (bpow radix2 0) with 1 in *.
  assert (IZR (2 ^ 53) <= bpow radix2 300) by (change (2 ^ 53)%Z with (Zpower radix2 53); rewrite IZR_Zpower by lia; apply bpow_le; lia). lra.
Qed.
Definition nothing : fctx := mkFctx None None None None None.
(** * C113: lengths in floating point *)
(** The value of a length is right but for four roundings' worth, whatever its unit; if what it depends on is missing it is returned as it is. *)
Theorem float_length_value : forall c a u, moderate a -> moderate_ctx c ->
  match pixels_in c u with
  | Some k => exists y, fvalue c (mkFlen a u) = FNumber y /\ finite y /\ Rabs (value y - value a * k) <= 4 * roundoff * Rabs (value a * k)
  | None => fvalue c (mkFlen a u) = FLength (mkFlen a u)
  end.
Proof.
  intros c a u0 MA MC. pose proof (fvalue_rel c a u0 MA MC) as H. destruct (pixels_in c u0) as [k|]; auto. destruct H as (y & E & R & _). exists y. split; auto. split; [apply R|].
  apply rel_about, (rel_weaken (31 / 10)); auto. lra.
Qed.
(** 12mm at 96 pixels to the inch, and 50% of 30. *)
Example float_length_value_ex : moderate (fz 12) /\ moderate_ctx (mkFctx (Some (fz 96)) (Some (fz 30)) None None None) /\
  pixels_in (mkFctx (Some (fz 96)) (Some (fz 30)) None None None) UMm = Some (393701 / 10000000 * value (fz 96)) /\
  pixels_in (mkFctx (Some (fz 96)) (Some (fz 30)) None None None) UPct = Some (1 / 100 * value (fz 30)) /\ pixels_in nothing UEm = None.
Proof. repeat split; try (apply moderate_int; lia). Qed.
Print Assumptions float_length_value.
(** float(length): points and picas in pixels but for roundings, any other unit as it stands. *)
Theorem float_length_float : forall a u, moderate a -> let k := match u with UPt => 13333 / 10000 | UPc => 16 | _ => 1 end in
  finite (flen_float (mkFlen a u)) /\ Rabs (value (flen_float (mkFlen a u)) - value a * k) <= 3 * roundoff * Rabs (value a * k).
Proof.
  intros a u0 MA k. destruct (mod_rel a MA) as [RA SA]. pose proof pt_rel as PT. pose proof (int_rel 16 ltac:(lia)) as I16.
  assert (R : rel 3 (flen_float (mkFlen a u0)) (value a * k)).
  { unfold flen_float, k. destruct u0; cbn [funits famount]; try (rewrite Rmult_1_r; eapply rel_weaken; [|exact RA]; lra).
    - eapply rel_weaken; [|eapply rel_mul; [| |exact RA|exact PT|]]; try lra; size.
    - eapply rel_weaken; [|eapply rel_mul; [| |exact RA|exact I16|]]; try lra; size. }
  split; [apply R|apply rel_about; auto].
Qed.
Example float_length_float_ex : moderate (fz 3) /\ value (fz 3) * 16 = 48.
Proof. split; [apply moderate_int; lia|]. destruct (fz_is 3 ltac:(lia)) as [_ V]. rewrite V. lra. Qed.
Print Assumptions float_length_float.
(** A sum is in the unit of the first length, and right but for the rounding of the sum and three of the converted length; lengths of the same
    unit are added with the rounding of the sum only. A zero of another unit is left out. Units that do not compare are refused. *)
Theorem float_length_add : forall a us b uo, moderate a -> moderate b ->
  match units_in us uo with
  | Some k => exists d, (value a <> 0 \/ unit_eqb us uo = true -> flen_iadd (mkFlen a us) (mkFlen b uo) = Ok (mkFlen d us) /\ finite d /\
                Rabs (value d - (value a + value b * k)) <= roundoff * Rabs (value a + value b * k) + 3 * roundoff * Rabs (value b * k) /\
                (us = uo -> Rabs (value d - (value a + value b)) <= roundoff * Rabs (value a + value b)))
  | None => value a <> 0 -> value b <> 0 -> flen_iadd (mkFlen a us) (mkFlen b uo) = Err ValueError
  end /\ (unit_eqb us uo = false -> value a = 0 -> flen_iadd (mkFlen a us) (mkFlen b uo) = Ok (mkFlen b uo)).
Proof.
  intros a us b uo MA MB. change roundoff with u. pose proof u_tiny as [UP US]. pose proof (fis0_true a (proj1 MA)) as ZA. pose proof (fis0_true b (proj1 MB)) as ZB.
  split; [|intros U A; apply ZA in A; unfold flen_iadd; cbn [famount funits]; rewrite U, A; reflexivity].
  destruct (units_in us uo) as [k|] eqn:K.
  2:{ intros A B. apply iadd_none; auto; apply not_true_is_false; intros H; [apply ZA in H|apply ZB in H]; auto. }
  assert (ONE : exists d, is d (rnd (value a + value b)) /\ fadd a b = d /\ Rabs (value d - (value a + value b)) <= u * Rabs (value a + value b)).
  { exists (fadd a b). destruct (mod_rel b MB) as [RB SB]. assert (BG : Rabs (value a + value b) <= big). { apply (sum_big b (value b) 0 a RB ltac:(lra)); auto. apply (sized_widen (-300) 300); auto; lia. }
    destruct (fadd_rel a b (proj1 MA) (proj1 MB) BG) as (e & E & [F V]). split; [apply fadd_rnd; auto; [apply MA|apply MB]|]. split; auto. rewrite V. replace ((value a + value b) * (1 + e) - (value a + value b)) with (e * (value a + value b)) by ring.
    rewrite Rabs_mult. apply Rmult_le_compat_r; [apply Rabs_pos|auto]. }
  destruct (unit_eqb us uo) eqn:U.
  - assert (k = 1) as ->. { unfold units_in in K. rewrite U in K. injection K as <-. reflexivity. } destruct ONE as (d & [F V] & E & B). exists d. intros _. unfold flen_iadd. cbn [famount funits]. rewrite U, E. split; auto. split; auto. rewrite Rmult_1_r.
    pose proof (Rabs_pos (value b)). split; [|auto]. assert (0 <= 3 * u * Rabs (value b)) by nra. lra.
  - assert (NE : us <> uo) by (intros ->; rewrite unit_eqb_refl in U; discriminate). destruct (fis0 a) eqn:A; [exists a; intros [H|H]; [exfalso; apply H, ZA; auto|discriminate]|]. destruct (fis0 b) eqn:B.
    + exists a. intros _. unfold flen_iadd. cbn [famount funits]. rewrite U, A, B. split; auto. split; [apply MA|]. split; [|congruence]. rewrite (proj1 ZB eq_refl), Rmult_0_l, Rplus_0_r, Rabs_R0. unfold Rminus at 1. rewrite Rplus_opp_r, Rabs_R0. pose proof (Rabs_pos (value a)). nra.
    + destruct (iadd_rel a us b uo k MA MB K U A B) as (y & E & RY & SY & _). assert (BG : Rabs (value a + value y) <= big) by (apply (sum_big y (value b * k) (21 / 10) a RY ltac:(lra)); auto; apply (sized_widen (-320) 320); auto; lia).
      destruct (fadd_rel a y (proj1 MA) (proj1 RY) BG) as (e & Ee & [F V]). exists (fadd a y). intros _. split; auto. split; auto. split; [|congruence]. rewrite V. set (s := value a + value b * k).
      pose proof (rel_about _ _ _ RY) as NY. set (q := value b * k) in *. replace ((value a + value y) * (1 + e) - s) with ((value y - q) * (1 + e) + e * s) by (unfold s; ring).
      eapply Rle_trans; [apply Rabs_triang|]. rewrite !Rabs_mult. assert (Rabs e * Rabs s <= u * Rabs s) by (apply Rmult_le_compat_r; [apply Rabs_pos|auto]).
      destruct (one_off 1 e ltac:(lra) ltac:(lra)) as [O O2]. assert (O3 : Rabs (1 + e) <= 1 + / 1000) by (apply abs_ge in O2; apply abs_le; lra).
      assert (Rabs (value y - q) * Rabs (1 + e) <= 21 / 10 * u * Rabs q * (1 + / 1000)) by (apply Rmult_le_compat; auto; apply Rabs_pos). pose proof (Rabs_pos q). nra.
Qed.
(** 1px + 3pt. *)
Example float_length_add_ex : moderate (fz 1) /\ moderate (fz 3) /\ units_in UPx UPt = Some (13333 / 10000 / 1) /\ value (fz 1) <> 0 /\ units_in UPx UMm = None.
Proof. split; [apply moderate_int; lia|]. split; [apply moderate_int; lia|]. split; [reflexivity|]. split; [rewrite (proj2 fz1); lra|reflexivity]. Qed.
Print Assumptions float_length_add.
(** Lengths of the same unit compare as their amounts do, for all finite amounts, even if the difference overflows or is the smallest number. *)
Theorem float_length_order : forall c a b u, finite a -> finite b -> answers (flen_cmp c (mkFlen a u) (mkFlen b u)) (holds c (value a) (value b)).
Proof.
  intros c a b u0 A B. apply (cmp_sign c _ _ (mkFlen (fadd a (fneg b)) u0)).
  - unfold flen_sub, flen_neg, flen_iadd. cbn [famount funits]. rewrite unit_eqb_refl. reflexivity.
  - cbn [famount]. assert (V : value (fneg b) = - value b) by (unfold value, fneg; apply B2R_Bopp). assert (F : finite (fneg b)) by (unfold finite, fneg; rewrite is_finite_Bopp; exact B).
    unfold Rminus. rewrite <- V. apply sum_sign; auto.
Qed.
(** The largest number and its negative, the difference of which overflows. *)
Example float_length_order_ex : exists x, finite x /\ ~ finite (fadd x x) /\ flen_lt (mkFlen (fneg x) UMm) (mkFlen x UMm) = Ok true.
Proof. exists (fratio false (2 ^ 1023) 1). split; [vm_compute; reflexivity|]. split; [vm_compute; discriminate|vm_compute; reflexivity]. Qed.
Print Assumptions float_length_order.
(** Lengths of different units compare rightly if they differ by more than three roundings. *)
Theorem float_length_order_units : forall c a us b uo k, moderate a -> moderate b -> units_in us uo = Some k -> 3 * roundoff * Rabs (value b * k) < Rabs (value a - value b * k) ->
  answers (flen_cmp c (mkFlen a us) (mkFlen b uo)) (holds c (value a) (value b * k)).
Proof.
  intros c a us b uo k MA MB K H. change roundoff with u in H. pose proof (units_pos _ _ _ K) as KP. destruct (neg_moderate b MB) as [MN VN]. pose proof (fis0_true a (proj1 MA)) as ZA. pose proof (fis0_true (fneg b) (proj1 MN)) as ZB.
  destruct (unit_eqb us uo) eqn:U.
  - apply (cmp_sign c _ _ (mkFlen (fadd a (fneg b)) us)); [unfold flen_sub, flen_neg, flen_iadd; cbn [famount funits]; rewrite U; reflexivity|]. cbn [famount].
    assert (k = 1) as ->. { unfold units_in in K. rewrite U in K. injection K as <-. reflexivity. } rewrite Rmult_1_r. unfold Rminus. rewrite <- VN. apply sum_sign; [apply MA|apply MN].
  - unfold flen_cmp. destruct (fis0 a) eqn:A.
    { apply (cmp_sign c _ _ (mkFlen (fneg b) uo)); [unfold flen_sub, flen_neg, flen_iadd; cbn [famount funits]; rewrite U, A; reflexivity|]. cbn [famount]. rewrite (proj1 ZA eq_refl).
      apply (sign_same _ (value (fneg b))); [apply sign_finite, MN| |]; rewrite VN; split; intros; nra. }
    destruct (fis0 (fneg b)) eqn:B.
    { apply (cmp_sign c _ _ (mkFlen a us)); [unfold flen_sub, flen_neg, flen_iadd; cbn [famount funits]; rewrite U, A, B; reflexivity|]. cbn [famount]. assert (value b = 0) as -> by (pose proof (proj1 ZB eq_refl); lra).
      rewrite Rmult_0_l, Rminus_0_r. apply sign_finite, MA. }
    destruct (iadd_rel a us (fneg b) uo k MA MN K U A B) as (y & E & RY & _). apply (cmp_sign c _ _ (mkFlen (fadd a y) us)); [exact E|]. cbn [famount].
    apply (sign_same _ (value a + value y)); [apply sum_sign; [apply MA|apply RY]| |]; replace (value a - value b * k) with (value a + value (fneg b) * k) in * by (rewrite VN; ring);
      apply near_sign; eapply Rle_lt_trans; try (apply (rel_about _ _ _ RY)); replace (Rabs (value (fneg b) * k)) with (Rabs (value b * k)) by (rewrite VN, <- Rabs_Ropp; f_equal; ring);
      pose proof (Rabs_pos (value b * k)); pose proof u_pos; nra.
Qed.
(** 3pc and 40pt. *)
Example float_length_order_units_ex : moderate (fz 3) /\ moderate (fz 40) /\ units_in UPt UPc = Some (12 / 1) /\ 3 * roundoff * Rabs (value (fz 3) * (12 / 1)) < Rabs (value (fz 40) - value (fz 3) * (12 / 1)).
Proof.
  split; [apply moderate_int; lia|]. split; [apply moderate_int; lia|]. split; [reflexivity|]. rewrite (proj2 (fz_is 3 ltac:(lia))), (proj2 (fz_is 40 ltac:(lia))). change roundoff with u. pose proof u_tiny. rewrite !Rabs_pos_eq by lra. lra.
Qed.
Print Assumptions float_length_order_units.
(** Closer than that, 29pt is less than 38.6657px though 38.6657px is not more than 29pt. *)
Theorem float_length_order_refuted : exists s o, flen_lt s o = Ok true /\ flen_gt o s = Ok false.
Proof. exists (mkFlen (fz 29) UPt), (mkFlen (fratio false 386657 10000) UPx). split; vm_compute; reflexivity. Qed.
Print Assumptions float_length_order_refuted.
(** to_mm, to_cm and to_inch are right to 1e-12 and seven roundings; and converting again, at any resolution, does not change what was converted, up to 599. *)
Theorem float_to_unit_settles : forall t p c a u k, moderate a -> moderate p -> value p <> 0 -> moderate_ctx c ->
  pixels_in (at_ppi p c) u = Some k -> exists b,
    fconvert t p c (mkFlen a u) = Ok (mkFlen b (target_unit t)) /\ finite b /\
    (forall k', pixels_in (at_ppi p c) (target_unit t) = Some k' -> Rabs (value b - value a * k / k') <= / 1000000000000 + 7 * roundoff * Rabs (value a * k / k')) /\
    (Rabs (value b) <= 599 -> forall p' c', moderate p' -> value p' <> 0 -> moderate_ctx c' -> exists b', fconvert t p' c' (mkFlen b (target_unit t)) = Ok (mkFlen b' (target_unit t)) /\ value b' = value b).
Proof.
  intros t p c a u0 k MA MP NP MC K. change roundoff with u. destruct (convert_number t p c a u0 k MA MP NP MC K) as (w & E & RW). destruct (read_some w (proj1 RW)) as (l & n & L & X & TX & G & N & V).
  rewrite TX, target_read in E by auto. set (b := ffnum (fnum_of l)) in *. exists b. split; [exact E|]. split; auto. split.
  - intros k' K'. assert (k' = value p * per_inch t) as -> by (destruct t; cbn in K'; injection K' as <-; cbn [per_inch]; ring). pose proof (rel_about _ _ _ RW) as A. set (q := value a * k / (value p * per_inch t)) in *.
    replace (value b - q) with ((value b - value w) + (value w - q)) by ring. eapply Rle_trans; [apply Rabs_triang|]. pose proof (Rabs_pos q). pose proof u_pos. nra.
  - intros B p' c' MP' NP' MC'. apply (convert_same t p' c' b n); auto. apply le_IZR. rewrite abs_IZR. change (600 * 10 ^ 12)%Z with 600000000000000%Z.
    destruct (decimal_rel n) as (e & Ee & R). rewrite <- V in R. destruct (one_off 1 e ltac:(lra) ltac:(lra)) as [_ O]. apply abs_ge in O.
    assert (Q : IZR n = IZR n / 1000000000000 * 1000000000000) by field. set (r := IZR n / 1000000000000) in *. rewrite Q, Rabs_mult, (Rabs_pos_eq 1000000000000) by lra.
    assert (Rabs r <= 600); [|lra]. rewrite R, Rabs_mult in B. assert (O3 : 1 - / 1000000000 <= Rabs (1 + e)). { pose proof u_tiny. apply abs_ge in Ee. rewrite Rabs_pos_eq; lra. } pose proof (Rabs_pos r). nra.
Qed.
(** 2in in millimetres at 96 pixels to the inch. *)
Example float_to_unit_settles_ex : moderate (fz 2) /\ moderate (fz 96) /\ value (fz 96) <> 0 /\ moderate_ctx nothing /\ pixels_in (at_ppi (fz 96) nothing) UIn = Some (1 * value (fz 96)).
Proof. split; [apply moderate_int; lia|]. split; [apply moderate_int; lia|]. split; [rewrite (proj2 (fz_is 96 ltac:(lia))); lra|]. repeat split. Qed.
Print Assumptions float_to_unit_settles.
(** A length of at most 12 decimals, up to 600, in the unit asked for is returned as it is. *)
Theorem float_to_unit_same : forall t l n p c, lit_ok l -> l_exp l = None -> (lit_val l * inject_Z (10 ^ 12) == inject_Z n)%Q -> (Z.abs n <= 600 * 10 ^ 12)%Z ->
  moderate p -> value p <> 0 -> moderate_ctx c -> exists a b, flen_of_text (lit_text l ++ unit_text (target_unit t)) = mkFlen a (target_unit t) /\
    fconvert t p c (mkFlen a (target_unit t)) = Ok (mkFlen b (target_unit t)) /\ value b = value a.
Proof.
  intros t l n p c L X N B MP NP MC. replace (unit_text (target_unit t)) with (target_text t) by (destruct t; reflexivity).
  exists (ffnum (fnum_of l)). assert (Q : Q2R (lit_val l) = IZR n / 1000000000000). { apply Qeq_eqR in N. rewrite Q2R_mult in N. replace (Q2R (inject_Z (10 ^ 12))) with 1000000000000 in N by (unfold Q2R, inject_Z; cbn [Qnum Qden]; change (10 ^ 12)%Z with 1000000000000%Z; lra). replace (Q2R (inject_Z n)) with (IZR n) in N by (unfold Q2R, inject_Z; cbn [Qnum Qden]; lra). lra. }
  assert (SZ : Rabs (IZR n / 1000000000000) <= 600). { unfold Rdiv. rewrite Rabs_mult, <- abs_IZR, (Rabs_pos_eq (/ 1000000000000)) by lra. apply IZR_le in B. change (600 * 10 ^ 12)%Z with 600000000000000%Z in B. lra. }
  destruct (ffnum_spec l (Qabs (lit_val l)) L ltac:(reflexivity)) as (F & V & _).
  { apply rnd_big. rewrite Q2R_abs, Rabs_Rabsolu, Q. eapply Rle_trans; [exact SZ|]. apply Rle_trans with (bpow radix2 10); [change (bpow radix2 10) with 1024; lra|apply bpow_le; lia]. }
  rewrite <- rnd_signed, <- lit_signed, Q in V by auto. destruct (convert_same t p c _ n MP NP MC F V B) as (b & E & VB). exists b. split; [apply target_read; auto|]. auto.
Qed.
(** 12.7cm at 72 pixels to the inch. *)
Example float_to_unit_same_ex : lit_ok (mkLit SNone [1; 2]%Z [7]%Z None) /\ (lit_val (mkLit SNone [1; 2]%Z [7]%Z None) * inject_Z (10 ^ 12) == inject_Z (127 * 10 ^ 11))%Q /\ moderate (fz 72) /\ value (fz 72) <> 0.
Proof. split; [lok|]. split; [reflexivity|]. split; [apply moderate_int; lia|]. rewrite (proj2 (fz_is 72 ltac:(lia))). lra. Qed.
Print Assumptions float_to_unit_same.
Lemma says_ok : forall r t, match r with Ok v => flength_str v = t | Err _ => False end -> exists w, r = Ok w /\ flength_str w = t.
Proof. intros [w|] t H; [eauto|contradiction]. Qed.
(** Larger ones may change: 1370.6mm becomes 1370.599999999999mm. *)
Theorem float_to_unit_same_refuted : exists a b, fto_mm (fz 96) nothing (mkFlen a UMm) = Ok (mkFlen b UMm) /\ flength_str a = T "1370.6" /\ flength_str b = T "1370.599999999999".
Proof.
  exists (fratio false 13706 10), (ffnum (fnum_of (mkLit SNone [1;3;7;0]%Z [5;9;9;9;9;9;9;9;9;9;9;9]%Z None))). split; [|split; vm_compute; reflexivity].
  unfold fto_mm, fto_unit. cbn [fvalue funits famount fc_ppi fc_rel fc_size fc_height fc_vb nothing].
  destruct (says_ok (fdivide (fmul (fmul (fratio false 13706 10) (fz 96)) fmm_in) (fmul (fz 96) fmm_in)) (lit_text (mkLit SNone [1;3;7;0]%Z [5;9;9;9;9;9;9;9;9;9;9;9]%Z None))) as (w & EW & TW); [vm_compute; reflexivity|].
  rewrite EW. cbn [rbind]. rewrite TW. apply f_equal, (target_read Mm); [lok|reflexivity].
Qed.
Print Assumptions float_to_unit_same_refuted.
