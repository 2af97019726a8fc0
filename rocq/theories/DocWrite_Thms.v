(** Property theorems about writing a document (C124). *)
Require Import ZArith QArith List Ascii String Bool Arith.
Require Import Verif.Base Verif.Dom_Model Verif.Dom_Spec Verif.Dom_Proofs Verif.Dom_Tree_Proofs Verif.Dom_Inv_Proofs Verif.Dom_Thms Verif.ElemRepr_Model Verif.DocWrite_Model Verif.DocWrite_Proofs.
Import ListNotations.
Open Scope nat_scope.

(** XML: a document begins with <, after white space at most. *)
Definition xml_white (c : ascii) : Prop := In c [ascii_of_nat 32; ascii_of_nat 9; ascii_of_nat 13; ascii_of_nat 10].
Definition begins_xml (t : text) : Prop := exists w r, t = w ++ "<"%char :: r /\ Forall xml_white w.

(** Full statement: what write() writes is the document. The file holds the document's first element, within other text. *)
Theorem document_write_partial : forall str tostring wd ht ppi co tr evs t, reports evs t -> legible t -> (forall e, element t e -> In (svg_name (tag_name e)) kept) ->
  svg_class (tag_name t) <> CText -> svg_class (tag_name t) <> CTSpan ->
  exists d, parse new_document 0 evs = (d, Ok tt) /\ exists fuel, forall f, fuel <= f ->
    document_write str tostring wd ht ppi co tr f d =
    Ok (T "Document(data='"%string ++ tostring (unqualified t) ++ T "', width="%string ++ wd ++ T ", height="%string ++ ht ++ T ", pixels_per_inch="%string ++ ppi
        ++ T ", color="%string ++ co ++ T ", transform="%string ++ tr ++ T ")"%string).
Proof.
  intros str tostring wd ht ppi co tr evs t R L K NT NS.
  assert (G : get (history []) 0 = Some (mkNode CDocument (Some []) None (Some 0) [])) by reflexivity.
  destruct (parse_rebuilds_partial [] 0 _ evs t G ltac:(discriminate) R L) as (d & n & r & P & G' & KD & C & A & RP & _).
  exists d. split; [exact P|].
  destruct (write_back_partial str [] 0 _ evs t G ltac:(discriminate) R L K) as (d2 & n2 & r2 & P2 & G2 & KD2 & fuel & F).
  rewrite P in P2. injection P2 as <-. rewrite G' in G2. injection G2 as <-. rewrite KD in KD2. cbn [n_kids app] in KD, KD2. injection KD2 as <-.
  exists fuel. intros f LE. specialize (F f LE).
  assert (RC : exists m, get d r = Some m /\ n_cls m = svg_class (tag_name t)) by (destruct t as [tag at_ b ks]; cbn [represents] in RP; destruct RP as (m & GM & CM & _); exists m; auto).
  destruct RC as (m & GM & CM).
  assert (KT : In (svg_name (tag_name t)) kept) by (apply K; constructor).
  assert (ES : elem_str str tostring f d r = Ok (tostring (unqualified t))).
  { unfold elem_str. rewrite GM, CM. rewrite F. cbn [rbind].
    destruct (svg_class (tag_name t)) eqn:E; try reflexivity; try congruence; exfalso; revert E; unfold svg_class; intros E;
      cbn in KT; repeat (destruct KT as [KT|KT]; [rewrite <- KT in E; vm_compute in E; discriminate E|]); exact KT. }
  unfold document_write, document_str. rewrite G', A, C, KD. cbn [n_attrs n_cls map app]. rewrite ES. cbn [rbind app]. f_equal.
  cbn [comma_join class_name]. repeat rewrite <- app_assoc. reflexivity.
Qed.
Print Assumptions document_write_partial.
Example document_write_case : reports (events plain_sample) plain_sample /\ svg_class (tag_name plain_sample) = CSVG.
Proof. split; reflexivity. Qed.

(** It is never XML, so that no document that is written can be read. *)
Theorem document_write_refuted : forall str tostring wd ht ppi co tr f l t, document_write str tostring wd ht ppi co tr f (history l) = Ok t -> ~ begins_xml t.
Proof.
  intros str tostring wd ht ppi co tr f l t E (w & r & B & W). destruct (doc0_history l) as (n & G & C & _). unfold document_write, document_str in E. rewrite G, C in E.
  destruct (n_attrs n); [|discriminate]. match type of E with rbind ?x _ = _ => destruct x end; [|discriminate]. cbn [rbind] in E. injection E as <-.
  destruct w as [|c w]; [discriminate B|]. injection B as <- _. inversion W as [|? ? H]. unfold xml_white in H. cbn in H. repeat (destruct H as [H|H]; [discriminate|]). exact H.
Qed.
Print Assumptions document_write_refuted.
Example document_write_refuted_ex : document_write (fun _ => []) (fun _ => T "<svg />"%string) (T "1000.000000"%string) (T "1000.000000"%string) (T "96.000000"%string) (T "black"%string) (T "None"%string) 10 (history [Read 0 (events plain_sample)]) =
  Ok (T "Document(data='<svg />', width=1000.000000, height=1000.000000, pixels_per_inch=96.000000, color=black, transform=None)"%string).
Proof. vm_compute. reflexivity. Qed.
(** Of several elements only the first is written, and a document that begins with a text cannot be written. *)
Theorem document_write_first_refuted : exists evs evs', parse new_document 0 evs = (history [Read 0 evs], Ok tt) /\ parse (history [Read 0 evs]) 0 evs' = (history [Read 0 evs; Read 0 evs'], Ok tt) /\
  history [Read 0 evs; Read 0 evs'] <> history [Read 0 evs] /\
  forall str tostring wd ht ppi co tr f, document_write str tostring wd ht ppi co tr (S f) (history [Read 0 evs; Read 0 evs']) = document_write str tostring wd ht ppi co tr (S f) (history [Read 0 evs]).
Proof.
  exists (events (leaf "svg"%string [])), (events (leaf "rect"%string [])). split; [vm_compute; reflexivity|]. split; [vm_compute; reflexivity|]. split; [intros H; vm_compute in H; discriminate H|].
  intros. reflexivity.
Qed.
Print Assumptions document_write_first_refuted.
Theorem document_write_text_refuted : forall str tostring wd ht ppi co tr f l n k r m, get (history l) 0 = Some n -> n_kids n = k :: r -> get (history l) k = Some m -> n_cls m = CText \/ n_cls m = CTSpan ->
  document_write str tostring wd ht ppi co tr f (history l) = Err AttributeError.
Proof.
  intros str tostring wd ht ppi co tr f l n k r m G K M C. destruct (doc0_history l) as (n' & G' & _ & A). rewrite G in G'. injection G' as <-. unfold document_write, document_str, elem_str. rewrite G, A, K, M. destruct C as [-> | ->]; reflexivity.
Qed.
Print Assumptions document_write_text_refuted.
Example document_write_text_ex : map n_cls (heap (history [Read 0 (events (leaf "text"%string []))])) = [CDocument; CText].
Proof. reflexivity. Qed.
