(** Property theorems about images (C122). *)
Require Import Reals Lra List Ascii String Bool.
Require Import Verif.Base Verif.Point_Model Verif.Matrix_Model Verif.Shape_Model Verif.Image_Model Verif.Image_Proofs.
Import ListNotations.
Open Scope R_scope.

(** The four corners of the picture. *)
Definition corner_of (w h : R) (p : pt) : Prop := p = P 0 0 \/ p = P w 0 \/ p = P w h \/ p = P 0 h.
(** [b] = (min_x, min_y, max_x, max_y) is the least box of the picture of [w] times [h] that [f] puts in place. *)
Definition box_of (f : pt -> pt) (w h : R) (b : R * R * R * R) : Prop :=
  match b with
  | (x0, y0, x1, y1) =>
      (forall s t, 0 <= s <= 1 -> 0 <= t <= 1 -> x0 <= px (f (P (s * w) (t * h))) <= x1 /\ y0 <= py (f (P (s * w) (t * h))) <= y1) /\
      (exists p, corner_of w h p /\ px (f p) = x0) /\ (exists p, corner_of w h p /\ py (f p) = y0) /\
      (exists p, corner_of w h p /\ px (f p) = x1) /\ (exists p, corner_of w h p /\ py (f p) = y1)
  end.

Lemma box_mx m w h : forall p0 p1 p2 p3, p0 = apply_mx m (P 0 0) -> p1 = apply_mx m (P w 0) -> p2 = apply_mx m (P w h) -> p3 = apply_mx m (P 0 h) ->
  box_of (apply_mx m) w h (min4 (px p0) (px p1) (px p2) (px p3), min4 (py p0) (py p1) (py p2) (py p3),
                           max4 (px p0) (px p1) (px p2) (px p3), max4 (py p0) (py p1) (py p2) (py p3)).
Proof.
  intros p0 p1 p2 p3 E0 E1 E2 E3. unfold box_of. split.
  - intros s t S T. split.
    + replace (px (apply_mx m (P (s * w) (t * h)))) with ((ma m * w) * s + (mc m * h) * t + me m) by (unfold apply_mx; cbn [px py]; ring).
      pose proof (min4_le (px p0) (px p1) (px p2) (px p3)) as L. pose proof (max4_ge (px p0) (px p1) (px p2) (px p3)) as G.
      revert L G. generalize (min4 (px p0) (px p1) (px p2) (px p3)) (max4 (px p0) (px p1) (px p2) (px p3)). rewrite E0, E1, E2, E3. unfold apply_mx. cbn [px py].
      intros lo hi L G. apply between; auto; lra.
    + replace (py (apply_mx m (P (s * w) (t * h)))) with ((mb m * w) * s + (md m * h) * t + mf m) by (unfold apply_mx; cbn [px py]; ring).
      pose proof (min4_le (py p0) (py p1) (py p2) (py p3)) as L. pose proof (max4_ge (py p0) (py p1) (py p2) (py p3)) as G.
      revert L G. generalize (min4 (py p0) (py p1) (py p2) (py p3)) (max4 (py p0) (py p1) (py p2) (py p3)). rewrite E0, E1, E2, E3. unfold apply_mx. cbn [px py].
      intros lo hi L G. apply between; auto; lra.
  - unfold corner_of. subst p0 p1 p2 p3.
    repeat split;
      match goal with
      | |- exists p, _ /\ _ = min4 ?a ?b ?c ?d => destruct (min4_in a b c d) as [E|[E|[E|E]]]; rewrite E
      | |- exists p, _ /\ _ = max4 ?a ?b ?c ?d => destruct (max4_in a b c d) as [E|[E|[E|E]]]; rewrite E
      end; eexists; (split; [|reflexivity]); auto.
Qed.
Lemma apply_ident p : apply_mx ident p = p.
Proof. destruct p. unfold apply_mx, ident. cbn. f_equal; ring. Qed.

(** Full statement: bbox of an image is the least box of its picture where the transform puts it. It holds where the sizes and the
    transform, a Matrix or its text, are set; without the sizes, the box is where the transform puts the origin. *)
Theorem image_bbox_partial : forall matrix href url tr m, tr = SMatrix m \/ (exists t, tr = SText t /\ matrix t = Ok m) ->
  (forall w h, exists b, image_bbox matrix (mkImage href url (Ok tr) (Some w) (Some h)) true = Ok b /\ box_of (apply_mx m) w h b) /\
  (forall w h tr', exists b, image_bbox matrix (mkImage href url tr' (Some w) (Some h)) false = Ok b /\ box_of (fun p => p) w h b) /\
  (forall w h transformed, w = None \/ h = None -> image_bbox matrix (mkImage href url (Ok tr) w h) transformed = Ok (me m, mf m, me m, mf m)).
Proof.
  intros matrix href url tr m H.
  assert (PT : forall p, point_times matrix p tr = Ok (apply_mx m p)).
  { intros p. destruct H as [->|(t & -> & E)]; [reflexivity|]. cbn. now rewrite E. }
  split; [|split].
  - intros w h. unfold image_bbox. cbn [i_width i_height i_transform rbind]. rewrite !PT. cbn [rbind]. eexists. split; [reflexivity|].
    now apply box_mx.
  - intros w h tr'. unfold image_bbox. cbn [i_width i_height i_transform rbind]. eexists. split; [reflexivity|].
    pose proof (box_mx ident w h (P 0 0) (P w 0) (P w h) (P 0 h)) as B. rewrite !apply_ident in B. specialize (B eq_refl eq_refl eq_refl eq_refl).
    unfold box_of in *. destruct B as (B & C). split; [|].
    + intros s t S T. specialize (B s t S T). rewrite apply_ident in B. exact B.
    + destruct C as ((a & A1 & A2) & (b & B1 & B2) & (c & C1 & C2) & (d & D1 & D2)). rewrite apply_ident in A2, B2, C2, D2. repeat split; eexists; eauto.
  - intros w h transformed [-> | ->]; unfold image_bbox; cbn [i_width i_height i_transform]; [|destruct w]; cbn [rbind]; rewrite PT; cbn [rbind]; unfold apply_mx; cbn [px py]; repeat f_equal; ring.
Qed.
Print Assumptions image_bbox_partial.
(** A picture of 2 times 1 turned by a quarter has the box from -1 to 0 and from 0 to 2. *)
Example image_bbox_case : image_bbox (fun _ => Err ValueError) (mkImage (Ok None) (Err AttributeError) (Ok (SMatrix (M 0 1 (-1) 0 0 0))) (Some 2) (Some 1)) true = Ok (-1, 0, 0, 2).
Proof.
  unfold image_bbox. cbn. unfold min4, max4, apply_mx. cbn. unfold Rmin, Rmax. repeat f_equal; repeat destruct (Rle_dec _ _); lra.
Qed.
(** An Image made by a call has no attributes, and its box raises; that of one read from a file raises where nothing gives a transform.
    Nothing in the library sets the sizes, so that the box of an image with a transform is a point, as said above. *)
Theorem image_bbox_refuted : forall matrix transformed, image_bbox matrix image_repo transformed = Err AttributeError /\
  forall href, image_bbox matrix (image_attributes href SNone) transformed = Err TypeError.
Proof. intros matrix transformed. split; reflexivity. Qed.
Print Assumptions image_bbox_refuted.

(** The kinds of picture that may be within the document, and the text that holds one. *)
Definition picture_kind (k : text) : Prop := In k [T "png"; T "jpg"; T "jpeg"; T "svg+xml"]%string.
Definition data_url (k payload : text) : text := T "data:image/"%string ++ k ++ T ";base64,"%string ++ payload.
Lemma data_url_cases k payload : picture_kind k -> data_url k payload = T "data:image/png;base64,"%string ++ payload \/ data_url k payload = T "data:image/jpg;base64,"%string ++ payload \/
  data_url k payload = T "data:image/jpeg;base64,"%string ++ payload \/ data_url k payload = T "data:image/svg+xml;base64,"%string ++ payload.
Proof. intros [<-|[<-|[<-|[<-|[]]]]]; auto. Qed.

(** Full statement: data is what the part behind the comma encodes, for the four kinds, and None for other texts. It would be, if the
    attribute url were the text of href. *)
Theorem image_data_partial : forall b64 h tr w g,
  (forall k payload, picture_kind k -> h = data_url k payload ->
     image_data b64 (mkImage (Ok (Some h)) (Ok h) tr w g) = rmap Some (b64 payload)) /\
  ((forall k payload, picture_kind k -> h <> data_url k payload) -> forall url, image_data b64 (mkImage (Ok (Some h)) url tr w g) = Ok None).
Proof.
  intros b64 h tr w g. split.
  - intros k payload K ->. destruct K as [<-|[<-|[<-|[<-|[]]]]]; cbn; destruct (b64 payload); reflexivity.
  - intros N url. unfold image_data. cbn [i_href i_url rbind].
    destruct (startswith (T "data:image/"%string) h); [|reflexivity].
    destruct (startswith (T "data:image/png;base64,"%string) h) eqn:E1; [exfalso; destruct (startswith_inv _ _ E1) as [r R]; apply (N (T "png"%string) r); [cbn; auto|exact R]|].
    destruct (startswith (T "data:image/jpg;base64,"%string) h) eqn:E2; [exfalso; destruct (startswith_inv _ _ E2) as [r R]; apply (N (T "jpg"%string) r); [cbn; auto|exact R]|].
    destruct (startswith (T "data:image/jpeg;base64,"%string) h) eqn:E3; [exfalso; destruct (startswith_inv _ _ E3) as [r R]; apply (N (T "jpeg"%string) r); [cbn; auto|exact R]|].
    destruct (startswith (T "data:image/svg+xml;base64,"%string) h) eqn:E4; [exfalso; destruct (startswith_inv _ _ E4) as [r R]; apply (N (T "svg+xml"%string) r); [cbn; auto 6|exact R]|].
    reflexivity.
Qed.
Print Assumptions image_data_partial.
Example image_data_case : picture_kind (T "svg+xml"%string) /\ data_url (T "svg+xml"%string) (T "PHN2Zy8+"%string) = T "data:image/svg+xml;base64,PHN2Zy8+"%string /\
  forall k payload, picture_kind k -> T "data:image/gif;base64,R0lG"%string <> data_url k payload.
Proof. split; [cbn; auto 6|]. split; [reflexivity|]. intros k p [<-|[<-|[<-|[<-|[]]]]]; discriminate. Qed.
(** It is not: data never gives a picture. It raises where there is one in the text, and where href is None. *)
Theorem image_data_refuted : forall b64 tr,
  (forall k payload, picture_kind k -> image_data b64 (image_attributes (Some (data_url k payload)) tr) = Err AttributeError) /\
  image_data b64 (image_attributes None tr) = Err AttributeError /\ image_data b64 image_repo = Err AttributeError /\
  forall href v, image_data b64 (image_attributes href tr) <> Ok (Some v).
Proof.
  intros b64 tr. split; [|split; [reflexivity|split; [reflexivity|]]].
  - intros k payload K. destruct K as [<-|[<-|[<-|[<-|[]]]]]; reflexivity.
  - intros href v. unfold image_data, image_attributes. cbn [i_href i_url rbind]. destruct href as [h|]; [|discriminate].
    repeat match goal with |- context [startswith ?a ?b] => destruct (startswith a b) end; discriminate.
Qed.
Print Assumptions image_data_refuted.

(** Full statement: load opens the picture. It opens the file that href names, there or in the directory, and then raises, so that no call
    with PIL ends well; without PIL it does nothing. *)
Theorem image_load_refuted : forall b64 ob of_ jn s directory,
  (exists e, image_load_repo b64 ob of_ jn true s directory = Err e) /\ image_load_repo b64 ob of_ jn false s directory = Ok tt.
Proof.
  intros b64 ob of_ jn s directory. split; [|reflexivity]. unfold image_load_repo, image_load.
  destruct (image_data b64 s) as [d|e]; cbn [rbind]; [|now exists e].
  match goal with |- exists e, rbind ?r _ = Err e => destruct r as [o|e] end; cbn [rbind]; eexists; reflexivity.
Qed.
Print Assumptions image_load_refuted.
(** Where set_values_by_image does nothing more than look at what is opened: load opens the file, and there is nothing to open if neither
    the name nor the name in the directory can be read. *)
Theorem image_load_partial : forall b64 ob of_ jn h tr directory, (forall r, h <> T "data:image/"%string ++ r) ->
  let opened := image_load b64 ob of_ jn (fun o => if o then Ok tt else Err KeyError) true (image_attributes (Some h) tr) directory in
  (of_ h = Opened -> opened = Ok tt) /\
  (forall d, directory = Some d -> of_ h = IOError -> of_ (jn d h) = Opened -> opened = Ok tt) /\
  (opened = Ok tt -> of_ h = Opened \/ exists d, directory = Some d /\ of_ (jn d h) = Opened).
Proof.
  intros b64 ob of_ jn h tr directory N. cbn zeta. unfold image_load, image_data, image_attributes, load_file. cbn [i_href i_url rbind].
  destruct (startswith (T "data:image/"%string) h) eqn:E; [exfalso; destruct (startswith_inv _ _ E) as [r R]; exact (N r R)|]. cbn [rbind].
  split; [|split].
  - intros ->. reflexivity.
  - intros d -> -> ->. reflexivity.
  - destruct (of_ h); [now left| |discriminate]. destruct directory as [d|]; [|discriminate]. destruct (of_ (jn d h)) eqn:O; [|discriminate|discriminate]. right. eauto.
Qed.
Print Assumptions image_load_partial.
Example image_load_case : forall r, T "pictures/a.png"%string <> T "data:image/"%string ++ r.
Proof. intros r. discriminate. Qed.
(** Where moreover url is the text of href, load opens the picture that the text holds. *)
Theorem image_load_data_partial : forall b64 ob of_ jn k payload b tr w g directory, picture_kind k -> b64 payload = Ok b ->
  let h := data_url k payload in
  let opened := image_load b64 ob of_ jn (fun o => if o then Ok tt else Err KeyError) true (mkImage (Ok (Some h)) (Ok h) tr w g) directory in
  opened = Ok tt <-> ob b = Opened.
Proof.
  intros b64 ob of_ jn k payload b tr w g directory K B. cbn zeta. unfold image_load, load_data.
  rewrite (proj1 (image_data_partial b64 (data_url k payload) tr w g) k payload K eq_refl), B. cbn [rmap rbind].
  destruct (ob b); cbn [rbind]; split; intros H; try discriminate; reflexivity.
Qed.
Print Assumptions image_load_data_partial.
Example image_load_data_case : picture_kind (T "png"%string) /\ (fun t : text => Ok t) (T "iVBO"%string) = Ok (T "iVBO"%string).
Proof. split; [cbn; auto|reflexivity]. Qed.
