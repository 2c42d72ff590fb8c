(** C125: what the surrogates predict is a continuous function of the query point. *)
From Coq Require Import Reals Arith Bool List Lia Lra ZArith.
From Verif Require Import RSum Mat Idw_M Poly_M Rbf_M Krg_M Moe_M Rmtb_M Rmtc_M Rmtc_S Rmtc_P4 Cont_S Cont_P Cont_P2 Cont_P3 Cont_P4 Cont_P5 Cont_P6.
Import ListNotations.
Open Scope list_scope.
Open Scope R_scope.

Theorem C125_ls : forall nx m x, continuous_at nx (ls_value nx m) x.
Proof. exact ls_cont. Qed.
Print Assumptions C125_ls.

Theorem C125_qp : forall dim c x, continuous_at dim (qp_value dim c) x.
Proof. exact qp_cont. Qed.
Print Assumptions C125_qp.

Theorem C125_rbf : forall nx nt deg d0 xt sol x, continuous_at nx (rbf_value nx nt deg d0 xt sol) x.
Proof. exact rbf_cont. Qed.
Print Assumptions C125_rbf.

(** IDW, also at the training points, where a different branch of the code answers *)
Theorem C125_idw : forall nx nt p xt yt x, 0 < p ->
  (forall i j, (i < nt)%nat -> (j < nt)%nat -> i <> j -> ~ (forall k, (k < nx)%nat -> xt i k = xt j k)) ->
  continuous_at nx (idw_value nx nt p xt yt) x.
Proof. exact idw_cont. Qed.
Print Assumptions C125_idw.

Theorem C125_kriging_value : forall m x, continuous_at (m_nx m) (predict_value m) x.
Proof. exact krg_cont. Qed.
Print Assumptions C125_kriging_value.

Theorem C125_kriging_variance : forall m x, continuous_at (m_nx m) (predict_variance m) x.
Proof. exact krg_var_cont. Qed.
Print Assumptions C125_kriging_variance.

(** RMTB with spline orders of at least 2, extrapolating or not *)
Theorem C125_rmtb : forall orders ncps lo up coef ext x, Forall2 (fun o m => (2 <= o <= m)%nat) orders ncps ->
  (forall k, (k < length orders)%nat -> lo k < up k) ->
  continuous_at (length orders) (rmtb_value orders ncps lo up ext coef) x.
Proof. exact (fun orders ncps lo up coef ext x H B => match ext with true => rmtb_ext_cont orders ncps lo up coef H B x | false => rmtb_cont orders ncps lo up coef x H end). Qed.
Print Assumptions C125_rmtb.

(** RMTC, for any degrees of freedom, extrapolating or not; [inv] is what numpy.linalg.inv returns (rmtc.py) *)
Theorem C125_rmtc : forall nelems lo up inv dof,
  (forall k, (k < length nelems)%nat -> lo k < up k) -> (forall k, (k < length nelems)%nat -> (0 < nth k nelems 0)%nat) ->
  is_inverse (nterm nelems) (coeff2nodal nelems) inv ->
  forall ext x, continuous_at (length nelems) (rmtc_value nelems lo up ext inv dof) x.
Proof. exact (fun nelems lo up inv dof Hb He Hi ext => match ext with true => rmtc_ext_cont nelems lo up inv dof Hb He (inverse_left nelems inv Hi) | false => rmtc_cont nelems lo up inv dof Hb He (inverse_left nelems inv Hi) end). Qed.
Print Assumptions C125_rmtc.
(** ... and so are the derivatives it predicts *)
Theorem C125_rmtc_derivatives : forall nelems lo up inv dof,
  (forall k, (k < length nelems)%nat -> lo k < up k) -> (forall k, (k < length nelems)%nat -> (0 < nth k nelems 0)%nat) ->
  is_inverse (nterm nelems) (coeff2nodal nelems) inv ->
  forall kx x, (kx < length nelems)%nat -> continuous_at (length nelems) (rmtc_derivative nelems lo up false inv dof kx) x.
Proof. exact (fun nelems lo up inv dof Hb He Hi => rmtc_deriv_cont nelems lo up inv dof Hb He (inverse_left nelems inv Hi)). Qed.
Print Assumptions C125_rmtc_derivatives.

(** with spline order 1 RMTB predictions jump *)
Theorem C125_rmtb_order1_refuted : ~ continuous_at 1 (rmtb_value [1%nat] [2%nat] (fun _ => 0) (fun _ => 1) false IZR) (fun _ => 1 / 2).
Proof. exact rmtb_order1_jumps. Qed.
Print Assumptions C125_rmtb_order1_refuted.

(** smooth recombination of experts: continuous whenever the densities and the experts are *)
Theorem C125_moe_smooth : forall n k w (rv e : vec -> nat -> R) x,
  (forall j, (j < k)%nat -> continuous_at n (fun y => rv y j) x) -> (forall j, (j < k)%nat -> continuous_at n (fun y => e y j) x) ->
  0 < rsum k (fun j => w j * rv x j) ->
  continuous_at n (fun y => smooth_value k w (rv y) (e y)) x /\ continuous_at n (fun y => smooth_variance k w (rv y) (e y)) x.
Proof. exact moe_smooth_cont. Qed.
Print Assumptions C125_moe_smooth.

(** hard recombination jumps even with continuous positive densities and continuous experts *)
Theorem C125_moe_hard_refuted : exists (rv : vec -> nat -> R) (e : vec -> nat -> R), (forall j x, continuous_at 1 (fun y => rv y j) x) /\ (forall j x, continuous_at 1 (fun y => e y j) x) /\
  (forall x, 0 < rsum 2 (fun j => 1 / 2 * rv x j)) /\ ~ continuous_at 1 (fun y => hard_value 2 (fun _ => 1 / 2) (rv y) (e y)) (fun _ => 0).
Proof. exact moe_hard_jumps. Qed.
Print Assumptions C125_moe_hard_refuted.

Example C125_nonvacuous :
  Forall2 (fun o m => (2 <= o <= m)%nat) [2%nat; 4%nat] [3%nat; 7%nat] /\
  (forall i j, (i < 3)%nat -> (j < 3)%nat -> i <> j -> ~ (forall k, (k < 1)%nat -> (fun a (_ : nat) => INR a) i k = (fun a (_ : nat) => INR a) j k)) /\
  (exists inv, is_inverse (nterm [2%nat; 3%nat]) (coeff2nodal [2%nat; 3%nat]) inv) /\ 0 < rsum 2 (fun j => 1 / 2 * INR (S j)) /\ ~ continuous_at 1 (fun y => if Rlt_dec (y 0%nat) 0 then 0 else 1) (fun _ => 0).
Proof.
  split; [repeat constructor; lia|]. split; [|split; [exact (ex_intro _ _ (inverse_exists _))|split]].
  - intros i j _ _ D E. apply D, INR_eq, (E 0%nat). lia.
  - cbn. lra.
  - intros C. destruct (C 1 ltac:(lra)) as (d & Hd & K). specialize (K (fun _ => - d / 2)). cbv beta in K.
    assert (Q : Rabs ((if Rlt_dec (- d / 2) 0 then 0 else 1) - (if Rlt_dec 0 0 then 0 else 1)) < 1) by (apply K; intros; rewrite Rabs_left1 by lra; lra).
    destruct (Rlt_dec (- d / 2) 0); [|lra]. destruct (Rlt_dec 0 0); [lra|]. rewrite Rabs_left1 in Q by lra. lra.
Qed.
