(** Proofs about paths with arcs on the reals. *)
Require Import Reals ZArith List Bool Lra Lia Psatz.
Require Import Verif.Base Verif.Angle_Model Verif.Angle_Proofs Verif.Point_Model Verif.Point_Proofs Verif.Matrix_Model Verif.Curve_Model Verif.Curve_Spec.
Require Import Verif.Arc_Model Verif.Arc_Spec Verif.Arc_Proofs Verif.ArcCurves_Proofs Verif.ArcClose_Spec Verif.ArcClose_Proofs Verif.Arc_Thms Verif.ArcClose_Thms.
Require Import Verif.PathBox_Model Verif.RealPath_Model Verif.RealPath_Spec.
Import ListNotations.
Open Scope R_scope.

(** * Connections *)
Lemma eqb_together : forall p q, pt_eqb p q = true <-> together p q.
Proof. intros p q. unfold pt_eqb, together. destruct (Rle_dec _ _); [destruct (Rle_dec _ _)|]; split; intros; try tauto; discriminate. Qed.
Lemma together_refl : forall p, together p p.
Proof. intros p. unfold together. rewrite !Rminus_eq_0, Rabs_R0. assert (0 < / 10 ^ 12) by (apply Rinv_0_lt_compat; lra). split; lra. Qed.

Definition znext (z : pt) (s : aseg) : pt := if r_is_move s then r_end s else z.
Fixpoint J (z : pt) (e : pt) (p : list aseg) : Prop :=
  match p with
  | [] => True
  | s :: p' => (exists q, r_start s = Some q /\ together e q) /\ (r_is_close s = true -> together (r_end s) (znext z s)) /\ J (znext z s) (r_end s) p'
  end.
Lemma J_connect : forall p z prev, J z (r_end prev) p -> r_connect z prev p = p.
Proof.
  induction p as [|s p IH]; intros z prev H; [reflexivity|]. destruct H as ((q & Q & E) & C & N). cbn [r_connect]. rewrite Q. apply eqb_together in E. rewrite E. fold (znext z s).
  destruct (r_is_close s) eqn:CL; [pose proof (proj2 (eqb_together _ _) (C eq_refl)) as K; rewrite K|]; now rewrite (IH _ _ N).
Qed.
Definition zof (z : pt) (p : list aseg) : pt := fold_left znext p z.
Definition eof (e : pt) (p : list aseg) : pt := fold_left (fun _ s => r_end s) p e.
Lemma J_app : forall a b z e, J z e (a ++ b) <-> J z e a /\ J (zof z a) (eof e a) b.
Proof. induction a as [|s a IH]; intros b z e; cbn [app J zof eof fold_left]; [tauto|]. rewrite IH. unfold zof, eof. tauto. Qed.

Lemma no_move_is : forall s, no_move s <-> r_is_move s = false.
Proof. intros [[o e| | | |]|A]; cbn; split; intros H; try reflexivity; try discriminate; try (intros o' e' K; discriminate K). exfalso. apply (H o e). reflexivity. Qed.
Lemma zof_stays : forall b z, Forall no_move b -> zof z b = z.
Proof. induction b as [|s b IH]; intros z F; [reflexivity|]. inversion F as [|? ? A B]; subst. cbn [zof fold_left]. unfold znext at 2. apply no_move_is in A. rewrite A. apply IH. auto. Qed.
Lemma moves_split : forall b, Forall no_move b \/ exists c o e d, b = c ++ ASeg (GMove o e) :: d /\ Forall no_move d.
Proof.
  induction b as [|s b [H|(c & o & e & d & E & D)]]; [left; constructor| |right; exists (s :: c), o, e, d; split; [rewrite E; reflexivity|auto]].
  destruct (r_is_move s) eqn:M; [|left; constructor; auto; now apply no_move_is]. right. destruct s as [[o e| | | |]|A]; try discriminate M. exists [], o, e, b. auto.
Qed.
Lemma zof_app : forall a b z, zof z (a ++ b) = zof (zof z a) b.
Proof. intros. unfold zof. apply fold_left_app. Qed.
Lemma eof_app : forall a b z, eof z (a ++ b) = eof (eof z a) b.
Proof. intros. unfold eof. apply fold_left_app. Qed.
Lemma began_zof : forall f a z, began (f :: a) z <-> z = zof (r_end f) a.
Proof.
  intros f a z. split.
  - intros H. inversion H as [a0 o e b F E|s b F E]; subst.
    + destruct a0 as [|g a0]; injection E as <- <-; [symmetry; now apply zof_stays|]. rewrite zof_app. cbn [zof fold_left]. unfold znext at 2. cbn [r_is_move r_end g_end]. symmetry. now apply zof_stays.
    + symmetry. apply zof_stays. now inversion F.
  - intros ->. destruct (moves_split a) as [F|(c & o & e & d & -> & F)].
    + rewrite zof_stays by auto. destruct (r_is_move f) eqn:M.
      * destruct f as [[o e| | | |]|A]; try discriminate M. apply (began_move [] o e a F).
      * apply began_first. constructor; auto. now apply no_move_is.
    + rewrite zof_app. cbn [zof fold_left]. unfold znext at 2. cbn [r_is_move r_end g_end]. fold (zof e d). rewrite zof_stays by auto. apply (began_move (f :: c) o e d F).
Qed.
Lemma J_connected : forall f p, J (r_end f) (r_end f) p <-> connected (f :: p).
Proof.
  intros f p. split.
  - intros H. split.
    + intros a g s b E. destruct a as [|x a].
      * injection E as <- ->. destruct H as (Q & _). exact Q.
      * injection E as <- ->. apply J_app in H. destruct H as (_ & H). cbn [J] in H. destruct H as (_ & _ & Q & _). exact Q.
    + intros a x y b E NE. destruct a as [|g a]; [contradiction|]. injection E as <- ->. exists (zof (r_end f) a). split; [now apply began_zof|]. apply J_app in H. destruct H as (_ & _ & C & _). specialize (C eq_refl). exact C.
  - intros [H1 H2]. assert (K : forall b a, p = a ++ b -> J (zof (r_end f) a) (eof (r_end f) a) b).
    { induction b as [|s b IH]; intros a E; [exact I|]. cbn [J]. split; [|split].
      - destruct (exists_last (l := f :: a)) as (c & l & EL); [discriminate|]. destruct (H1 c l s b) as (q & Q & T).
        { rewrite E. change (f :: a ++ s :: b) with ((f :: a) ++ s :: b). rewrite EL, <- app_assoc. reflexivity. }
        exists q. split; auto. replace (eof (r_end f) a) with (r_end l); auto. destruct a as [|x a] using rev_ind; [destruct c as [|? [|]]; inversion EL; reflexivity|]. rewrite eof_app. cbn [eof fold_left]. change (f :: a ++ [x]) with ((f :: a) ++ [x]) in EL. apply app_inj_tail in EL. now destruct EL as [_ ->].
      - intros C. destruct s as [[| |x y| |]|A]; try discriminate C. cbn [znext r_is_move]. destruct (H2 (f :: a) x y b) as (z & B & T); [rewrite E; reflexivity|discriminate|]. apply began_zof in B. subst z. exact T.
      - pose proof (IH (a ++ [s])) as Q. rewrite zof_app, eof_app in Q. apply Q. rewrite <- app_assoc. exact E. }
    exact (K p [] eq_refl).
Qed.

(** * Replacing arcs *)
Definition curve (g : gseg) : Prop := match g with GQuad _ _ _ | GCubic _ _ _ _ => True | _ => False end.
Lemma chain_J : forall l p e z q, Forall curve l -> chain p l q -> together e p -> l <> [] -> J z e (map ASeg l) /\ zof z (map ASeg l) = z /\ eof e (map ASeg l) = q.
Proof.
  induction l as [|g l IH]; intros p e z q F C T NE; [contradiction|]. inversion F as [|? ? G F']; subst. destruct C as [S C].
  assert (ZN : znext z (ASeg g) = z) by (destruct g; try contradiction; reflexivity). assert (NC : r_is_close (ASeg g) = false) by (destruct g; try contradiction; reflexivity).
  cbn [map J zof eof fold_left]. rewrite ZN, NC. destruct l as [|h l].
  - cbn [map fold_left J]. cbn in C. split; [|auto]. split; [exists p; auto|]. split; [discriminate|exact I].
  - destruct (IH (g_end g) (g_end g) z q F' C (together_refl _)) as (J1 & Z1 & E1); [discriminate|]. split; [|split; auto]. split; [exists p; auto|]. split; [discriminate|]. exact J1.
Qed.
Definition sub_arcs (conv : arc -> list gseg) (s : aseg) : list aseg := match s with AArc A => map ASeg (conv A) | _ => [s] end.
Definition good_conv (conv : arc -> list gseg) (p : list aseg) : Prop := forall A, In (AArc A) p -> conv A <> [] /\ Forall curve (conv A) /\ chain (a_start A) (conv A) (a_end A).
Lemma sub_J : forall conv A z e rest, conv A <> [] -> Forall curve (conv A) -> chain (a_start A) (conv A) (a_end A) -> J z e (AArc A :: rest) -> J z e (map ASeg (conv A) ++ rest).
Proof.
  intros conv A z e rest NE F C ((q & Q & T) & _ & H). injection Q as <-. destruct (chain_J _ _ e z _ F C T NE) as (J1 & Z1 & E1). apply J_app. split; auto. rewrite Z1, E1. exact H.
Qed.
Lemma skipn_past : forall {A} (a : list A) x r, skipn (S (length a)) (a ++ x :: r) = r.
Proof. induction a as [|y a IH]; intros x r; [reflexivity|]. apply (IH x r). Qed.
Lemma approx_S : forall conv k p, r_approx_from conv (S k) p =
  match nth_error p k with
  | Some (AArc A) => r_approx_from conv k (r_validate (firstn k p ++ map ASeg (conv A) ++ skipn (S k) p))
  | _ => r_approx_from conv k p
  end.
Proof. reflexivity. Qed.
(** No close comes before the first move. *)
Fixpoint closes_late (p : list aseg) : Prop := match p with [] => True | s :: r => r_is_move s = true \/ (r_is_close s = false /\ closes_late r) end.
Definition plain (s : aseg) : Prop := r_is_move s = false /\ r_is_close s = false.
Lemma late_plain : forall l a b, Forall plain l -> closes_late (a ++ l ++ b) <-> closes_late (a ++ b).
Proof.
  intros l a b F. induction a as [|s a IH]; cbn [app closes_late]; [|rewrite IH; tauto]. induction F as [|s l [M C] F IH]; cbn [app closes_late]; [tauto|]. rewrite M, C, IH. intuition discriminate.
Qed.
Lemma late_J : forall p z z' e, closes_late p -> J z e p -> J z' e p.
Proof.
  induction p as [|s p IH]; intros z z' e L H; [exact I|]. destruct H as (Q & C & N). cbn [closes_late] in L. unfold znext in *. cbn [J]. unfold znext. split; [exact Q|]. destruct L as [M | [CL L]].
  - rewrite M in *. split; auto.
  - rewrite CL. split; [discriminate|]. destruct (r_is_move s); auto. apply (IH z); auto.
Qed.
Lemma curves_plain : forall l, Forall curve l -> Forall plain (map ASeg l).
Proof. induction 1 as [|g l G F IH]; cbn; constructor; auto. destruct g; try contradiction; split; reflexivity. Qed.
Lemma connected_validate : forall p, connected p -> r_validate p = p.
Proof. intros [|s p] C; [reflexivity|]. apply J_connected in C. cbn [r_validate]. now rewrite (J_connect _ _ _ C). Qed.
Definition may_begin (p : list aseg) : Prop := match p with AArc _ :: r => closes_late r | _ => True end.
Lemma first_sub : forall conv f rest, good_conv conv [f] -> may_begin (f :: rest) -> J (r_end f) (r_end f) rest -> connected (sub_arcs conv f ++ rest).
Proof.
  intros conv f rest G B H. destruct f as [g|A]; [now apply J_connected|]. cbn [sub_arcs may_begin r_end] in *. destruct (G A) as (NE & F & C); [left; reflexivity|]. destruct (conv A) as [|c cs]; [contradiction|].
  cbn [map app]. apply J_connected. inversion F as [|? ? G1 F']; subst. cbn [chain] in C. destruct C as [_ C]. cbn [r_end] in *. destruct cs as [|d cs].
  - cbn [map app]. cbn [chain] in C. rewrite C. exact H.
  - destruct (chain_J (d :: cs) (g_end c) (g_end c) (g_end c) (a_end A) F' C (together_refl _)) as (J1 & Z1 & E1); [discriminate|]. apply J_app. split; [exact J1|]. rewrite Z1, E1. apply (late_J _ (a_end A)); auto.
Qed.
Lemma approx_at : forall conv a f rest, good_conv conv (f :: a) -> may_begin (f :: a ++ rest) -> J (r_end f) (r_end f) (a ++ rest) ->
  r_approx_from conv (length (f :: a)) ((f :: a) ++ rest) = flat_map (sub_arcs conv) (f :: a) ++ rest /\ connected (flat_map (sub_arcs conv) (f :: a) ++ rest).
Proof.
  intros conv a f. induction a as [|s a IH] using rev_ind; intros rest G B H.
  - cbn [app flat_map length] in *. rewrite app_nil_r. pose proof (first_sub conv f rest G B H) as C. split; [|exact C]. rewrite approx_S. cbn [nth_error]. destruct f as [g|A]; [reflexivity|]. cbn [firstn skipn app r_approx_from]. apply connected_validate. exact C.
  - assert (G' : good_conv conv (f :: a)) by (intros A [I|I]; apply G; [left; auto|right; apply in_or_app; auto]). cbn [length]. rewrite app_length. cbn [length]. replace (length a + 1)%nat with (S (length a)) by lia.
    rewrite approx_S. change ((f :: a ++ [s]) ++ rest) with (f :: (a ++ [s]) ++ rest). rewrite <- app_assoc. cbn [app nth_error]. rewrite nth_error_app2, Nat.sub_diag by lia. cbn [nth_error].
    rewrite <- app_assoc in H, B. cbn [app] in H, B. cbn [flat_map]. rewrite flat_map_app. cbn [flat_map]. rewrite app_nil_r.
    assert (ST : forall l, may_begin (f :: a ++ l ++ rest) -> J (r_end f) (r_end f) (a ++ l ++ rest) -> r_approx_from conv (S (length a)) (f :: a ++ l ++ rest) = (sub_arcs conv f ++ flat_map (sub_arcs conv) a ++ l) ++ rest /\ connected ((sub_arcs conv f ++ flat_map (sub_arcs conv) a ++ l) ++ rest)).
    { intros l BL HL. destruct (IH (l ++ rest) G' BL HL) as [E1 E2]. cbn [flat_map] in E1, E2. rewrite <- !app_assoc in E1. rewrite <- !app_assoc in E2. replace ((sub_arcs conv f ++ flat_map (sub_arcs conv) a ++ l) ++ rest) with (sub_arcs conv f ++ flat_map (sub_arcs conv) a ++ l ++ rest) by now rewrite <- !app_assoc. split; [|exact E2]. change (S (length a)) with (length (f :: a)). exact E1. }
    destruct s as [g|A].
    + apply (ST [ASeg g]); [exact B|exact H].
    + destruct (G A) as (NE & F & C); [right; apply in_or_app; cbn; auto|]. apply J_app in H. destruct H as (Ha & Hs). assert (H' : J (r_end f) (r_end f) (a ++ map ASeg (conv A) ++ rest)) by (apply J_app; split; auto; now apply sub_J).
      rewrite firstn_cons, skipn_cons. rewrite firstn_app, Nat.sub_diag, firstn_all. cbn [firstn]. rewrite app_nil_r. replace (skipn (S (length a)) (a ++ AArc A :: rest)) with rest by (symmetry; apply skipn_past).
      assert (V : r_validate (f :: a ++ map ASeg (conv A) ++ rest) = f :: a ++ map ASeg (conv A) ++ rest) by (cbn [r_validate]; now rewrite (J_connect _ _ _ H')).
      assert (B' : may_begin (f :: a ++ map ASeg (conv A) ++ rest)). { destruct f as [g|A0]; [exact I|]. cbn [may_begin] in B |- *. apply late_plain; [now apply curves_plain|]. apply (late_plain [AArc A] a rest); [repeat constructor|]. exact B. }
      cbn [app]. rewrite V. apply ST; [exact B'|exact H'].
Qed.
Lemma approximate_at : forall conv p, connected p -> good_conv conv p -> may_begin p ->
  r_approx_from conv (length p) p = flat_map (sub_arcs conv) p /\ connected (flat_map (sub_arcs conv) p).
Proof.
  intros conv [|f p] C G N; [split; [reflexivity|exact C]|]. apply J_connected in C.
  destruct (approx_at conv p f [] G) as [A B]; rewrite ?app_nil_r; auto. rewrite !app_nil_r in A. rewrite !app_nil_r in B. split; [exact A|exact B].
Qed.
