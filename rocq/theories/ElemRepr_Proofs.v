(** Lemmas about repr() of elements. *)
Require Import ZArith QArith List Ascii String Bool.
Require Import Verif.Base Verif.Dom_Model Verif.ElemRepr_Model.
Import ListNotations.

(** The first of a sign that is not in what precedes it tells the parts. *)
Lemma cut (c : ascii) : forall a b x y, ~ In c a -> ~ In c b -> a ++ c :: x = b ++ c :: y -> a = b /\ x = y.
Proof.
  induction a as [|d a IH]; intros b x y A B E.
  - destruct b as [|e b]; [injection E as ->; auto|]. injection E as <- _. exfalso. apply B. now left.
  - destruct b as [|e b]; [injection E as -> _; exfalso; apply A; now left|]. injection E as -> E.
    destruct (IH b x y) as [-> ->]; auto; intros H; [apply A|apply B]; now right.
Qed.
Lemma class_name_plain c : ~ In "("%char (class_name c).
Proof. destruct c; cbn; intros H; repeat (destruct H as [H|H]; [discriminate|]); exact H. Qed.
Lemma class_name_inj c d : class_name c = class_name d -> c = d.
Proof. destruct c, d; intros H; try reflexivity; discriminate H. Qed.
(** Joined items that are not empty and have no comma can be told apart. *)
Lemma join_inj : forall l m, (forall x, In x l -> x <> [] /\ ~ In ","%char x) -> (forall x, In x m -> x <> [] /\ ~ In ","%char x) -> comma_join l = comma_join m -> l = m.
Proof.
  induction l as [|a l IH]; intros m L M E.
  - destruct m as [|b m]; [reflexivity|]. exfalso. destruct (M b (or_introl eq_refl)) as [N _]. destruct m; cbn in E; destruct b; try discriminate; now apply N.
  - destruct m as [|b m].
    + exfalso. destruct (L a (or_introl eq_refl)) as [N _]. destruct l; cbn in E; destruct a; try discriminate; now apply N.
    + destruct (L a (or_introl eq_refl)) as [_ A]. destruct (M b (or_introl eq_refl)) as [_ B].
      destruct l as [|a' l], m as [|b' m].
      * cbn in E. now rewrite E.
      * exfalso. cbn [comma_join] in E. apply A. rewrite E. apply in_or_app. right. now left.
      * exfalso. cbn [comma_join] in E. apply B. rewrite <- E. apply in_or_app. right. now left.
      * cbn [comma_join] in E. change (T ", "%string ++ ?x) with (","%char :: " "%char :: x) in E.
        apply cut in E; auto. destruct E as [-> E]. injection E as E. f_equal. apply IH; auto; intros x I; [apply L|apply M]; now right.
Qed.
