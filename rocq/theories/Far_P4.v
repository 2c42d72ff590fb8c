(** GENN predictions are bounded. *)
From Coq Require Import Reals Arith Bool List Lia Lra.
From Coquelicot Require Import Coquelicot.
From Verif Require Import RSum Genn_M Genn_S Genn_P4.
Import ListNotations.
Open Scope list_scope.
Open Scope R_scope.
Lemma net_app a b x : net (a ++ b) x = net b (net a x).
Proof. revert x. induction a as [|l a IH]; intros x; [reflexivity|]. cbn [net app]. apply IH. Qed.
Lemma phi_bound g z : g <> Linear -> Rabs (phi g z) <= 1.
Proof.
  intros H. destruct g; cbn [phi]; [| |congruence].
  - pose proof (exp_pos (- z)). rewrite Rabs_pos_eq by (apply Rlt_le, Rinv_0_lt_compat; lra). rewrite <- Rinv_1. apply Rinv_le_contravar; lra.
  - unfold tanh, sinh, cosh. pose proof (exp_pos z). pose proof (exp_pos (- z)). replace ((exp z - exp (- z)) / 2 / ((exp z + exp (- z)) / 2)) with ((exp z - exp (- z)) / (exp z + exp (- z))) by (field; lra).
    unfold Rdiv. rewrite Rabs_mult, (Rabs_pos_eq (/ _)) by (apply Rlt_le, Rinv_0_lt_compat; lra). apply Rmult_le_reg_r with (exp z + exp (- z)); [lra|]. rewrite Rmult_assoc, Rinv_l by lra. rewrite Rmult_1_r, Rmult_1_l. apply Rabs_le. lra.
Qed.
Definition out_bound (o : layer) (s : scaling) (k : nat) : R := (rsum (n_in o) (fun q => Rabs (weight o k q)) + Rabs (bias o k)) * Rabs (sigma_y s k) + Rabs (mu_y s k).
Lemma scaled_bound hs h o s x k : act h <> Linear -> act o = Linear -> Rabs (scaled (hs ++ [h; o]) s x k) <= out_bound o s k.
Proof.
  intros Hh Ho. unfold scaled, out_bound. rewrite net_app. cbn [net]. rewrite Ho. cbn [phi]. set (z := net hs _). eapply Rle_trans; [apply Rabs_triang|]. apply Rplus_le_compat_r. rewrite Rabs_mult. apply Rmult_le_compat_r; [apply Rabs_pos|].
  eapply Rle_trans; [apply Rabs_triang|]. apply Rplus_le_compat_r. eapply Rle_trans; [apply rsum_abs|]. apply rsum_le. intros q _. rewrite Rabs_mult. rewrite <- (Rmult_1_r (Rabs (weight o k q))) at 2. apply Rmult_le_compat_l; [apply Rabs_pos|]. apply phi_bound. exact Hh.
Qed.
Lemma genn_bounded hs h o s nx ny m (x : arr) : act h <> Linear -> act o = Linear ->
  exists Y, predict_values (hs ++ [h; o]) s nx ny m x = Some Y /\ forall e k, (e < m)%nat -> (k < ny)%nat ->
    Rabs (Y e k) <= (rsum (n_in o) (fun q => Rabs (weight o k q)) + Rabs (bias o k)) * Rabs (sigma_y s k) + Rabs (mu_y s k).
Proof.
  intros Hh Ho. unfold predict_values. destruct (evaluate_ok (hs ++ [h; o]) s nx ny nx m (fun i e => x e i) eq_refl) as (Y & E & _ & D). rewrite E. cbn [option_map]. eexists. split; [reflexivity|].
  intros e k He Hk. cbv beta. rewrite D by assumption. apply scaled_bound; assumption.
Qed.
