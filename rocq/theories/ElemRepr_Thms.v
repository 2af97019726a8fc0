(** Property theorems about repr() of elements (C123). *)
Require Import ZArith QArith List Ascii String Bool.
Require Import Verif.Base Verif.Dom_Model Verif.ElemRepr_Model Verif.ElemRepr_Proofs.
Import ListNotations.

(** Attributes as most files have them: text, keys without = and comma, values without comma. *)
Definition plain_attributes (a : dict value) : Prop :=
  forall k v, In (k, v) a -> ~ In "="%char k /\ ~ In ","%char k /\ exists t, v = VText t /\ ~ In ","%char t.
(** The classes that have no repr. *)
Definition unprintable (c : cls) : Prop := c = CText \/ c = CTSpan \/ c = CMask.

(** What repr() says: the class, and each attribute in order. *)
Inductive item_list : dict value -> text -> Prop :=
| items_none : item_list [] []
| items_one k t : item_list [(k, VText t)] (k ++ T "="%string ++ t)
| items_more k t k' v r x : item_list ((k', v) :: r) x -> item_list ((k, VText t) :: (k', v) :: r) (k ++ T "="%string ++ t ++ T ", "%string ++ x).
Theorem elem_repr_form : forall str n a, n_attrs n = Some a -> ~ unprintable (n_cls n) -> (forall k v, In (k, v) a -> exists t, v = VText t) ->
  exists x, item_list a x /\ node_repr str n = Ok (class_name (n_cls n) ++ T "("%string ++ x ++ T ")"%string).
Proof.
  intros str n a A N V. exists (comma_join (map (fun p => fst p ++ T "="%string ++ value_str str (snd p)) a)). split.
  - clear A. induction a as [|[k v] r IH]; [constructor|]. destruct (V k v (or_introl eq_refl)) as [t ->]. destruct r as [|[k' v'] r]; [constructor|].
    set (f := fun p => fst p ++ T "="%string ++ value_str str (snd p)) in *.
    change (comma_join (map f ((k, VText t) :: (k', v') :: r))) with ((k ++ T "="%string ++ t) ++ T ", "%string ++ comma_join (map f ((k', v') :: r))). rewrite <- !app_assoc. constructor. apply IH. intros k2 v2 I. apply (V k2 v2). now right.
  - unfold node_repr. rewrite A. unfold unprintable in N. destruct (n_cls n); try reflexivity; exfalso; apply N; auto.
Qed.
Print Assumptions elem_repr_form.
Example elem_repr_form_ex : node_repr (fun _ => []) (mkNode CRect (Some [(T "x"%string, VText (T "1"%string)); (T "id"%string, VText (T "r"%string))]) None None []) = Ok (T "Rect(x=1, id=r)"%string).
Proof. reflexivity. Qed.

(** Full statement: elements that print alike are of the same class and have the same attributes. It holds for plain attributes ... *)
Theorem elem_repr_tells_partial : forall str n m a b t, n_attrs n = Some a -> n_attrs m = Some b -> plain_attributes a -> plain_attributes b ->
  node_repr str n = Ok t -> node_repr str m = Ok t -> n_cls n = n_cls m /\ a = b.
Proof.
  intros str n m a b t A B PA PB EN EM.
  assert (F : forall n a, n_attrs n = Some a -> node_repr str n = Ok t -> t = class_name (n_cls n) ++ "("%char :: (comma_join (map (fun p => fst p ++ T "="%string ++ value_str str (snd p)) a) ++ [")"%char])).
  { intros n0 a0 A0 E0. unfold node_repr in E0. rewrite A0 in E0. destruct (n_cls n0); try discriminate E0; injection E0 as <-; reflexivity. }
  pose proof (F n a A EN) as H. rewrite (F m b B EM) in H. clear F EN EM A B.
  apply cut in H; try apply class_name_plain. destruct H as [C H]. split; [symmetry; now apply class_name_inj|].
  apply app_inj_tail in H. destruct H as [H _].
  assert (I : forall a, plain_attributes a -> forall x, In x (map (fun p => fst p ++ T "="%string ++ value_str str (snd p)) a) -> x <> [] /\ ~ In ","%char x).
  { intros a0 P x IN. apply in_map_iff in IN. destruct IN as ([k v] & <- & IN). destruct (P k v IN) as (_ & K & t' & -> & V). cbn [fst snd value_str]. split.
    - destruct k; discriminate.
    - intros Q. apply in_app_or in Q. destruct Q as [Q|[Q|Q]]; [auto|discriminate|auto]. }
  apply join_inj in H; [|apply I; auto|apply I; auto]. clear I C n m. symmetry in H.
  revert b PB H. induction a as [|[k v] a IH]; intros b PB H; destruct b as [|[k' v'] b]; try discriminate; [reflexivity|].
  cbn [map fst snd] in H. injection H as E H.
  destruct (PA k v (or_introl eq_refl)) as (K & _ & x & -> & _). destruct (PB k' v' (or_introl eq_refl)) as (K' & _ & y & -> & _). cbn [value_str] in E.
  apply cut in E; auto. destruct E as [-> ->]. f_equal. apply IH; auto; intros k2 v2 IN; [apply PA|apply PB]; now right.
Qed.
Print Assumptions elem_repr_tells_partial.
Example elem_repr_tells_ex : plain_attributes [(T "x"%string, VText (T "1"%string)); (T "style"%string, VText (T "fill:red;stroke:blue"%string))].
Proof.
  intros k v [E|[E|[]]]; injection E as <- <-; (split; [|split; [|eexists; split; [reflexivity|]]]); cbn; intros H; repeat (destruct H as [H|H]; [discriminate|]); exact H.
Qed.
(** ... but a value with a comma may read as a further attribute, and a number as its text. *)
Theorem elem_repr_tells_refuted : forall str, exists a b t,
  node_repr str (mkNode CPath (Some a) None None []) = Ok t /\ node_repr str (mkNode CPath (Some b) None None []) = Ok t /\ List.length a <> List.length b /\
  (forall k v, In (k, v) (a ++ b) -> exists s, v = VText s).
Proof.
  intros str. exists [(T "d"%string, VText (T "M0,0, id=a"%string))], [(T "d"%string, VText (T "M0,0"%string)); (T "id"%string, VText (T "a"%string))], (T "Path(d=M0,0, id=a)"%string).
  repeat split; [discriminate|]. intros k v [E|[E|[E|[]]]]; injection E as <- <-; eauto.
Qed.
Print Assumptions elem_repr_tells_refuted.
(** Every Text and TSpan raises, and every Image made by a call. *)
Theorem elem_repr_text_refuted : forall str n, n_cls n = CText \/ n_cls n = CTSpan \/ (n_cls n = CImage /\ exists args kw, construct CImage args kw = Ok (n_attrs n)) -> node_repr str n = Err AttributeError.
Proof.
  intros str n [E|[E|[E (args & kw & H)]]]; unfold node_repr; rewrite E; try reflexivity. cbn in H. destruct args; [|discriminate]. destruct kw; [|discriminate]. injection H as <-. reflexivity.
Qed.
Print Assumptions elem_repr_text_refuted.
Example elem_repr_text_ex : construct CImage [] [] = Ok None. Proof. reflexivity. Qed.
