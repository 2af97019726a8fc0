(** C65: fill and stroke of any element of any document. *)
Require Import ZArith QArith List Ascii String Bool Lia Arith.
Require Import Verif.Base Verif.Color_Model Verif.Color_Spec Verif.Color_Proofs4 Verif.Dom_Model Verif.Dom_Spec Verif.Dom_Proofs Verif.Dom_Inv_Proofs Verif.Dom_Thms Verif.Paint_Model.
Import ListNotations.
Open Scope nat_scope.

(** The text of a property at an element: its own or that of the nearest ancestor that has one. *)
Definition text_at (d : dom) (i : nat) (key : string) (t : text) : Prop := Dom_Spec.nearest d (T key) i (VText t).
Definition unset (d : dom) (i : nat) (key : string) : Prop := forall v, ~ Dom_Spec.nearest d (T key) i v.
(** An element of a document after any history; its ancestors have attributes (see values_raise). *)
Definition placed (l : list action) (i : nat) : Prop :=
  Forall sane l /\ (exists n, get (history l) i = Some n) /\ forall j m, up (history l) i j -> get (history l) j = Some m -> n_attrs m <> None.
Lemma placed_values : forall l i, placed l i -> exists v, get_values (history l) i = Ok v /\ forall k x, dget k v = Some x <-> Dom_Spec.nearest (history l) k i x.
Proof. intros l i (S & [n G] & A). eapply values_nearest; eauto. Qed.
Lemma value_text : forall d i v key t, (forall k x, dget k v = Some x <-> Dom_Spec.nearest d k i x) -> text_at d i key t -> value_of v (T key) = Some (VText t).
Proof. intros d i v key t V H. apply V in H. unfold value_of. now rewrite H. Qed.
Lemma value_unset : forall d i v key, (forall k x, dget k v = Some x <-> Dom_Spec.nearest d k i x) -> unset d i key -> value_of v (T key) = None.
Proof. intros d i v key V H. unfold value_of. destruct (dget (T key) v) as [x|] eqn:E; [|reflexivity]. apply V in E. now apply H in E. Qed.
Lemma paint_text : forall d i v key t, (forall k x, dget k v = Some x <-> Dom_Spec.nearest d k i x) -> text_at d i key t ->
  paint_color v (T key) = rmap Some (Color_Model.parse t).
Proof. intros d i v key t V H. unfold paint_color. rewrite (value_text _ _ _ _ _ V H). cbn. destruct (Color_Model.parse t); reflexivity. Qed.
Lemma paint_unset : forall d i v key, (forall k x, dget k v = Some x <-> Dom_Spec.nearest d k i x) -> unset d i key -> paint_color v (T key) = Ok None.
Proof. intros d i v key V H. unfold paint_color. now rewrite (value_unset _ _ _ _ V H). Qed.

(** The fill is that of the nearest element that has one, with the opacity of the nearest that has one. [pyfloat] is float() of a
    text. Partial: texts that are no colour raise (fill_bad), as does an infinite opacity. *)
Theorem fill_partial : forall pyfloat l i, placed l i ->
  (unset (history l) i "fill" -> fill pyfloat (history l) i = Ok None) /\
  (forall s c, text_at (history l) i "fill" s -> Color_Model.parse s = Ok c -> unset (history l) i "fill-opacity" -> fill pyfloat (history l) i = Ok (Some c)) /\
  (forall s o, text_at (history l) i "fill" s -> Color_Model.parse s = Ok None -> text_at (history l) i "fill-opacity" o -> fill pyfloat (history l) i = Ok (Some None)) /\
  (forall s v o q, text_at (history l) i "fill" s -> Color_Model.parse s = Ok (Some v) -> text_at (history l) i "fill-opacity" o -> pyfloat o = FNum q ->
     exists w, fill pyfloat (history l) i = Ok (Some (Some w)) /\ alpha_byte q (get_alpha w) /\ get_red w = get_red v /\ get_green w = get_green v /\ get_blue w = get_blue v) /\
  (forall s v o, text_at (history l) i "fill" s -> Color_Model.parse s = Ok (Some v) -> text_at (history l) i "fill-opacity" o -> pyfloat o = FBad \/ pyfloat o = FNan ->
     fill pyfloat (history l) i = Ok (Some (Some v))).
Proof.
  intros pyfloat l i PL. destruct (placed_values l i PL) as (v & G & V). unfold fill. rewrite G. cbn [rbind]. repeat split.
  - intros U. rewrite (paint_unset _ _ _ _ V U). cbn. destruct (value_of v _); reflexivity.
  - intros s c S P U. rewrite (paint_text _ _ _ _ _ V S), P, (value_unset _ _ _ _ V U). reflexivity.
  - intros s o S P O. rewrite (paint_text _ _ _ _ _ V S), P, (value_text _ _ _ _ _ V O). reflexivity.
  - intros s z o q S P O F. rewrite (paint_text _ _ _ _ _ V S), P, (value_text _ _ _ _ _ V O). cbn [rmap rbind]. unfold try_opacity. rewrite F.
    destruct (set_opacity_lemma z q) as (w & -> & W). exists w. split; [reflexivity|exact W].
  - intros s z o S P O F. rewrite (paint_text _ _ _ _ _ V S), P, (value_text _ _ _ _ _ V O). cbn [rmap rbind]. unfold try_opacity. destruct F as [-> | ->]; reflexivity.
Qed.
Definition painted : list action := [Build 0 (T "g"%string) [] [(T "fill"%string, VText (T "red"%string)); (T "fill-opacity"%string, VText (T "0.5"%string))];
  Build 1 (T "rect"%string) [] [(T "fill"%string, VText (T "#00f"%string)); (T "stroke"%string, VText (T "none"%string))]].
Definition floats (t : text) : pyf :=
  if teqb t (T "0.5"%string) then FNum (1 # 2) else if teqb t (T "inf"%string) then FInf else if teqb t (T "nan"%string) then FNan else FBad.
Lemma placed_painted : placed painted 2.
Proof.
  split.
  - constructor; [|constructor; [|constructor]]; cbn [sane]; unfold keyed; cbn; repeat (apply NoDup_cons || apply NoDup_nil); cbn; intuition discriminate.
  - split; [eexists; vm_compute; reflexivity|]. intros j m _ G. assert (H : forallb (fun n => match n_attrs n with Some _ => true | None => false end) (heap (history painted)) = true) by (vm_compute; reflexivity).
    rewrite forallb_forall in H. apply nth_error_In in G. specialize (H m G). now destruct (n_attrs m).
Qed.
Example fill_ex : placed painted 2 /\ text_at (history painted) 2 "fill" (T "#00f"%string) /\ text_at (history painted) 2 "fill-opacity" (T "0.5"%string) /\
  Color_Model.parse (T "#00f"%string) = Ok (Some 0x0000ffff%Z) /\ fill floats (history painted) 2 = Ok (Some (Some 0x0000ff80%Z)).
Proof.
  split; [exact placed_painted|]. split; [eapply near_own; vm_compute; reflexivity|].
  split; [eapply near_up; try (vm_compute; reflexivity); eapply near_own; vm_compute; reflexivity|]. split; vm_compute; reflexivity.
Qed.
Print Assumptions fill_partial.
(** A fill that is no colour raises what Color raises. *)
Theorem fill_bad : forall pyfloat l i s e, placed l i -> text_at (history l) i "fill" s -> Color_Model.parse s = Err e -> fill pyfloat (history l) i = Err e.
Proof. intros pyfloat l i s e PL S P. destruct (placed_values l i PL) as (v & G & V). unfold fill. rewrite G. cbn [rbind]. rewrite (paint_text _ _ _ _ _ V S), P. reflexivity. Qed.
Definition sole (key value : string) : list action := [Build 0 (T "rect"%string) [] [(T key, VText (T value))]].
Definition pair_of (k1 v1 k2 v2 : string) : list action := [Build 0 (T "rect"%string) [] [(T k1, VText (T v1)); (T k2, VText (T v2))]].
Lemma placed_pair : forall k1 v1 k2 v2, T k1 <> T k2 -> teqb (T k1) (T "id"%string) = false -> teqb (T k2) (T "id"%string) = false ->
  (exists n, get (history (pair_of k1 v1 k2 v2)) 1 = Some n) -> forallb (fun n => match n_attrs n with Some _ => true | None => false end) (heap (history (pair_of k1 v1 k2 v2))) = true ->
  placed (pair_of k1 v1 k2 v2) 1.
Proof.
  intros k1 v1 k2 v2 N _ _ G H. split; [|split; [exact G|]].
  - constructor; [|constructor]. cbn [sane]. unfold keyed. cbn [map fst]. apply NoDup_cons; [|apply NoDup_cons; [intros []|apply NoDup_nil]]. cbn. intros [E|[]]. now apply N.
  - intros j m _ J. rewrite forallb_forall in H. apply nth_error_In in J. specialize (H m J). now destruct (n_attrs m).
Qed.
Definition bad_fill := pair_of "fill" "rgb(1.5,2,3)" "x" "1".
Example fill_bad_ex : placed bad_fill 1 /\ text_at (history bad_fill) 1 "fill" (T "rgb(1.5,2,3)"%string) /\ Color_Model.parse (T "rgb(1.5,2,3)"%string) = Err ValueError.
Proof.
  split; [apply placed_pair; try discriminate; try reflexivity; eexists; vm_compute; reflexivity|]. split; [eapply near_own; vm_compute; reflexivity|vm_compute; reflexivity].
Qed.
Print Assumptions fill_bad.
(** A number given to a builder is a colour if it is a whole one; any other raises. *)
Theorem fill_number : forall pyfloat l i q, placed l i -> Dom_Spec.nearest (history l) (T "fill"%string) i (VNum q) -> unset (history l) i "fill-opacity" ->
  (forall z, (q == inject_Z z)%Q -> fill pyfloat (history l) i = rmap Some (color_of (AInt z))) /\
  ((forall z, ~ (q == inject_Z z)%Q) -> fill pyfloat (history l) i = Err TypeError).
Proof.
  intros pyfloat l i q PL N U. destruct (placed_values l i PL) as (v & G & V). apply V in N.
  assert (F : fill pyfloat (history l) i = rmap Some (value_color (VNum q))).
  { unfold fill. rewrite G. cbn [rbind]. unfold paint_color, value_of at 1. rewrite N. destruct (value_color (VNum q)); cbn [rbind rmap]; [|reflexivity]. rewrite (value_unset _ _ _ _ V U). reflexivity. }
  rewrite F. unfold value_color. split.
  - intros z E. apply Qred_complete in E. assert (Z : Qred (inject_Z z) = inject_Z z) by (unfold inject_Z, Qred; pose proof (Z.ggcd_gcd z 1) as A; pose proof (Z.ggcd_correct_divisors z 1) as B; destruct (Z.ggcd z 1) as [g [a b]]; cbn in *; rewrite Z.gcd_1_r in A; subst g; destruct B as [B1 B2]; f_equal; [lia|]; rewrite Z.mul_1_l in B2; subst b; reflexivity).
    rewrite E, Z. reflexivity.
  - intros NW. destruct (Pos.eqb_spec (Qden (Qred q)) 1) as [E|E]; [|reflexivity]. exfalso. apply (NW (Qnum (Qred q))). rewrite <- (Qred_correct q) at 1. unfold Qeq, inject_Z. cbn. rewrite E. lia.
Qed.
Definition number_fill (q : Q) : list action := [Build 0 (T "rect"%string) [] [(T "fill"%string, VNum q)]].
Example fill_number_ex : Dom_Spec.nearest (history (number_fill 255)) (T "fill"%string) 1 (VNum 255) /\ fill (fun _ => FBad) (history (number_fill 255)) 1 = rmap Some (color_of (AInt 255)) /\
  fill (fun _ => FBad) (history (number_fill (1 # 2))) 1 = Err TypeError.
Proof. split; [eapply near_own; vm_compute; reflexivity|]. split; vm_compute; reflexivity. Qed.
Print Assumptions fill_number.
(** An opacity of "inf" is not among the texts that are ignored. *)
Theorem fill_infinite_refuted : exists l i s v o, placed l i /\ text_at (history l) i "fill" s /\ Color_Model.parse s = Ok (Some v) /\ text_at (history l) i "fill-opacity" o /\
  floats o = FInf /\ fill floats (history l) i = Err OverflowError.
Proof.
  exists (pair_of "fill" "red" "fill-opacity" "inf"), 1, (T "red"%string), 0xff0000ff%Z, (T "inf"%string).
  split; [apply placed_pair; try discriminate; try reflexivity; eexists; vm_compute; reflexivity|]. split; [eapply near_own; vm_compute; reflexivity|].
  split; [vm_compute; reflexivity|]. split; [eapply near_own; vm_compute; reflexivity|]. split; vm_compute; reflexivity.
Qed.
Print Assumptions fill_infinite_refuted.

(** The stroke of an element without stroke-opacity, at any depth of recursion. *)
Theorem stroke_partial : forall pyfloat fuel l i, placed l i -> unset (history l) i "stroke-opacity" ->
  (unset (history l) i "stroke" -> stroke pyfloat (S fuel) (history l) i = Ok None) /\
  (forall s, text_at (history l) i "stroke" s -> stroke pyfloat (S fuel) (history l) i = rmap Some (Color_Model.parse s)).
Proof.
  intros pyfloat fuel l i PL U. destruct (placed_values l i PL) as (v & G & V). cbn [stroke]. rewrite G. cbn [rbind]. rewrite (value_unset _ _ _ _ V U). split.
  - intros N. now rewrite (paint_unset _ _ _ _ V N).
  - intros s S. rewrite (paint_text _ _ _ _ _ V S). destruct (Color_Model.parse s); reflexivity.
Qed.
Definition stroked := pair_of "stroke" "red" "stroke-width" "1".
Example stroke_ex : placed stroked 1 /\ unset (history stroked) 1 "stroke-opacity" /\ text_at (history stroked) 1 "stroke" (T "red"%string) /\ stroke floats 1 (history stroked) 1 = Ok (Some (Some 0xff0000ff%Z)).
Proof.
  assert (PL : placed stroked 1) by (apply placed_pair; try discriminate; try reflexivity; eexists; vm_compute; reflexivity).
  split; [exact PL|]. split; [|split; [eapply near_own; vm_compute; reflexivity|vm_compute; reflexivity]].
  intros x H. destruct (placed_values _ _ PL) as (v & G & V). apply V in H. vm_compute in G. injection G as <-. vm_compute in H. discriminate.
Qed.
Print Assumptions stroke_partial.
(** With a stroke-opacity, whatever it is, the stroke never comes to an end: at every depth of recursion it raises. *)
Theorem stroke_diverges : forall pyfloat fuel l i o, placed l i -> text_at (history l) i "stroke-opacity" o ->
  (unset (history l) i "stroke" \/ exists s c, text_at (history l) i "stroke" s /\ Color_Model.parse s = Ok c) -> stroke pyfloat fuel (history l) i = Err RecursionError.
Proof.
  intros pyfloat fuel l i o PL O P. destruct (placed_values l i PL) as (v & G & V). assert (C : exists r, paint_color v (T "stroke"%string) = Ok r).
  { destruct P as [U|(s & c & S & P)]; [rewrite (paint_unset _ _ _ _ V U)|rewrite (paint_text _ _ _ _ _ V S), P]; cbn; eauto. }
  destruct C as [r C]. induction fuel as [|fuel IH]; [reflexivity|]. cbn [stroke]. rewrite G. cbn [rbind]. rewrite C. cbn [rbind]. rewrite (value_text _ _ _ _ _ V O), IH. reflexivity.
Qed.
Definition opaque := pair_of "stroke" "red" "stroke-opacity" "0.5".
Example stroke_diverges_ex : placed opaque 1 /\ text_at (history opaque) 1 "stroke-opacity" (T "0.5"%string) /\ text_at (history opaque) 1 "stroke" (T "red"%string) /\
  Color_Model.parse (T "red"%string) = Ok (Some 0xff0000ff%Z).
Proof.
  split; [apply placed_pair; try discriminate; try reflexivity; eexists; vm_compute; reflexivity|]. split; [eapply near_own; vm_compute; reflexivity|].
  split; [eapply near_own; vm_compute; reflexivity|vm_compute; reflexivity].
Qed.
Print Assumptions stroke_diverges.
(** So reading the stroke does not always end. *)
Theorem stroke_ends_refuted : exists l i o, placed l i /\ text_at (history l) i "stroke-opacity" o /\ floats o = FNum (1 # 2) /\ forall fuel, stroke floats fuel (history l) i = Err RecursionError.
Proof.
  exists opaque, 1, (T "0.5"%string). destruct stroke_diverges_ex as (PL & O & S & P). repeat split; try apply PL; auto. intros fuel. eapply stroke_diverges; eauto.
Qed.
Print Assumptions stroke_ends_refuted.
