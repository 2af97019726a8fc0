(** Which commands path data is printed with (C40, C84). *)
Require Import ZArith QArith Qcanon Ascii String List Bool.
Require Import Verif.Base Verif.Path_Model Verif.PathEdit_Model Verif.PathText_Spec Verif.PathD_Model Verif.PathSeq_Model Verif.PathD_Thms Verif.PathLetters_Spec Verif.PathLetters_Proofs.
Import ListNotations.

(** One command per segment, in order; relative or absolute as asked, or else as the segment is marked; short forms only if
    they are allowed. For all coordinates. *)
Theorem path_text_letters : forall p relative smooth t, Forall (fun s => s_end s <> None) p -> svg_d p relative smooth = Ok t ->
  Forall2 (fun s k => stands_for (wanted relative (s_rel s)) (wanted smooth (s_smooth s)) s k) p (commands_of t).
Proof.
  intros p relative smooth t E H. unfold svg_d in H. destruct (svg_d_from _ _ relative smooth p) as [ws|] eqn:W; [|discriminate]. injection H as <-. rewrite commands_words. eapply svg_letters; eauto.
Qed.
Example path_text_letters_ex : Forall (fun s => s_end s <> None) ex_path /\ exists t, svg_d ex_path (Some true) None = Ok t /\ commands_of t = T "mqtlszm".
Proof. split; [repeat constructor; discriminate|]. eexists. split; vm_compute; reflexivity. Qed.
Print Assumptions path_text_letters.
(** The same for a subpath; whatever its smooth argument, the marks decide on the short forms. *)
Theorem subpath_d_letters : forall p u relative smooth t, Forall (fun s => s_end s <> None) (sub_segments p u) -> sub_d p u relative smooth = Ok t ->
  Forall2 (fun s k => stands_for (wanted relative (s_rel s)) (s_smooth s) s k) (sub_segments p u) (commands_of t).
Proof. intros p u relative smooth t E H. exact (path_text_letters _ relative None t E H). Qed.
Example subpath_d_letters_ex : Forall (fun s => s_end s <> None) (sub_segments ex_path (mkSub 0 5)) /\ exists t, sub_d ex_path (mkSub 0 5) (Some false) None = Ok t /\ commands_of t = T "MQTLSZ".
Proof. split; [repeat constructor; discriminate|]. eexists. split; vm_compute; reflexivity. Qed.
Print Assumptions subpath_d_letters.
