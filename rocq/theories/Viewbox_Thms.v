(** Property theorems about Viewbox (C32, C33, C73). *)
Require Import ZArith QArith Qabs Qminmax Qreals Reals Ascii String List Bool Lia Lqa.
Require Import Verif.Base Verif.Fmt_Model Verif.Length_Model Verif.Matrix_Model Verif.Matrix_Spec Verif.Transform_Model
  Verif.Viewbox_Model Verif.Viewbox_Spec Verif.Viewbox_Proofs.
Import ListNotations.
Open Scope Q_scope.

(** * C32 *)
Theorem viewbox_meet_fits : forall ex ey ew eh vx vy vw vh a b par, 0 < vw -> 0 < vh -> par_text a b Meet par ->
  exists s tx ty, vb_numbers ex ey ew eh vx vy vw vh par = Ok (mkVt s s tx ty) /\
  inside ex ew vx vw s tx /\ inside ey eh vy vh s ty /\ (s * vw == ew \/ s * vh == eh) /\
  placed a ex ew vx vw s tx /\ placed b ey eh vy vh s ty.
Proof. exact meet_lemma. Qed.
Theorem viewbox_slice_covers : forall ex ey ew eh vx vy vw vh a b par, 0 < vw -> 0 < vh -> par_text a b Slice par ->
  exists s tx ty, vb_numbers ex ey ew eh vx vy vw vh par = Ok (mkVt s s tx ty) /\
  covers ex ew vx vw s tx /\ covers ey eh vy vh s ty /\ (s * vw == ew \/ s * vh == eh) /\
  placed a ex ew vx vw s tx /\ placed b ey eh vy vh s ty.
Proof. exact slice_lemma. Qed.
Theorem viewbox_none_stretches : forall ex ey ew eh vx vy vw vh par, 0 < vw -> 0 < vh ->
  In par [T "none"; T "none meet"; T "none slice"] ->
  exists sx sy tx ty, vb_numbers ex ey ew eh vx vy vw vh (Some par) = Ok (mkVt sx sy tx ty) /\
  onto ex ew vx vw sx tx /\ onto ey eh vy vh sy ty.
Proof. exact none_lemma. Qed.
Example viewbox_fit_ex :
  par_text Mid Max Slice (Some (T "xMidYMax slice")) /\
  (exists t, vb_numbers 0 0 100 50 0 0 10 10 None = Ok t /\ vt_text t = T "translate(25, 0) scale(5, 5)").
Proof. split. apply (par_slice Mid Max). eexists. split; reflexivity. Qed.
Print Assumptions viewbox_meet_fits.
Print Assumptions viewbox_slice_covers.
Print Assumptions viewbox_none_stretches.
(** A viewBox of zero size raises, whatever the rest. *)
Theorem viewbox_zero_raises : forall ex ey ew eh vx vy vw vh par, vw == 0 \/ vh == 0 ->
  viewbox_transform (Some ex) (Some ey) (Some ew) (Some eh) (Some vx) (Some vy) (Some vw) (Some vh) par = Err ZeroDivisionError.
Proof. exact zero_lemma. Qed.
Print Assumptions viewbox_zero_raises.
(** Two spaces before slice, which SVG allows, lose the uniform scaling. *)
Theorem viewbox_spaces_refuted : exists t, vb_numbers 0 0 100 50 0 0 10 10 (Some (T "xMidYMid  slice")) = Ok t /\ ~ t_sx t == t_sy t.
Proof. eexists. split; [reflexivity|]. vm_compute. discriminate. Qed.
Print Assumptions viewbox_spaces_refuted.

(** * C33: the returned text parses to that transform, to the 12 printed decimals, and exactly when the
    numbers have no more than 12 decimals. *)
Theorem viewbox_text_matrix : forall ex ey ew eh vx vy vw vh par t,
  vb_numbers ex ey ew eh vx vy vw vh par = Ok t ->
  exists s sx sy tx ty,
  viewbox_transform (Some ex) (Some ey) (Some ew) (Some eh) (Some vx) (Some vy) (Some vw) (Some vh) par = Ok s /\
  mx_of_text s = Ok (M (Q2R sx) 0 0 (Q2R sy) (Q2R tx) (Q2R ty)) /\
  near12 sx (t_sx t) /\ near12 sy (t_sy t) /\ near12 tx (t_tx t) /\ near12 ty (t_ty t) /\
  ((exists k, t_sx t * inject_Z (10 ^ 12) == inject_Z k) -> sx == t_sx t) /\
  ((exists k, t_sy t * inject_Z (10 ^ 12) == inject_Z k) -> sy == t_sy t) /\
  ((exists k, t_tx t * inject_Z (10 ^ 12) == inject_Z k) -> tx == t_tx t) /\
  ((exists k, t_ty t * inject_Z (10 ^ 12) == inject_Z k) -> ty == t_ty t).
Proof.
  intros ex ey ew eh vx vy vw vh par t E. destruct (vt_text_lemma t) as (sx & sy & tx & ty & H).
  exists (vt_text t), sx, sy, tx, ty. split; [|exact H]. unfold viewbox_transform. rewrite E. reflexivity.
Qed.
Example viewbox_text_ex : viewbox_transform (Some 0) (Some 0) (Some 100) (Some 50) (Some 0) (Some 0) (Some 10) (Some 10) None
  = Ok (T "translate(25, 0) scale(5, 5)").
Proof. reflexivity. Qed.
Print Assumptions viewbox_text_matrix.

(** * C73: str(viewbox) reads back *)
Theorem viewbox_str_roundtrip : forall x y w h par, exists x' y' w' h',
  vb_of_text (vb_str x y w h) par = mkVb (Some x') (Some y') (Some w') (Some h') par /\
  near12 x' x /\ near12 y' y /\ near12 w' w /\ near12 h' h.
Proof. exact vb_roundtrip_lemma. Qed.
Example viewbox_str_ex : vb_of_text (T "0 -1.5,100 50") None = mkVb (Some (0 * 1)) (Some (- (15 * / 10))) (Some (100 * 1)) (Some (50 * 1)) None.
Proof. reflexivity. Qed.
Print Assumptions viewbox_str_roundtrip.
