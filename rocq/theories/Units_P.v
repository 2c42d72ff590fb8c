(** C112: change of units, IDW and RBF. *)
From Coq Require Import Reals Arith Bool List Lia Lra.
From Verif Require Import RSum Mat Idw_M Idw_P Rbf_M Rbf_S Rbf_P Psd2.
Import ListNotations.
Open Scope list_scope.
Open Scope R_scope.

Section IdwUnits.
Variables (nx nt : nat) (p : R) (xt : nat -> nat -> R).
Lemma idw_djac_sum x kx : (0 < nt)%nat -> rsum nt (idw_djac nx nt p xt x kx) = 0.
Proof.
  intros N. unfold idw_djac. destruct (Req_EM_T _ _); [apply rsum_zero; reflexivity|].
  set (W := rsum nt (idw_w nx p xt x)). set (D := rsum nt (idw_dw nx p xt x kx)).
  rewrite (rsum_ext nt _ (fun it => (idw_dw nx p xt x kx it * W - idw_w nx p xt x it * D) * / W ^ 2)) by reflexivity.
  rewrite rsum_scal_r, rsum_minus, rsum_scal_r, rsum_scal_r. fold W D. ring.
Qed.
Lemma idw_outputs yt a b x : (0 < nt)%nat -> idw_value nx nt p xt (fun i => a * yt i + b) x = a * idw_value nx nt p xt yt x + b /\
  forall kx, idw_derivative nx nt p xt (fun i => a * yt i + b) kx x = a * idw_derivative nx nt p xt yt kx x.
Proof.
  intros N. split.
  - unfold idw_value. rewrite (rsum_ext nt _ (fun it => a * (idw_jac nx nt p xt x it * yt it) + idw_jac nx nt p xt x it * b)) by (intros; ring).
    rewrite rsum_plus, rsum_scal_l, rsum_scal_r. rewrite (proj2 (jac_convex nx nt p xt x N)). ring.
  - intros kx. unfold idw_derivative. rewrite (rsum_ext nt _ (fun it => a * (idw_djac nx nt p xt x kx it * yt it) + idw_djac nx nt p xt x kx it * b)) by (intros; ring).
    rewrite rsum_plus, rsum_scal_l, rsum_scal_r. rewrite (idw_djac_sum x kx N). ring.
Qed.
Variables (s : R) (t : vec).
Hypothesis Hs : s <> 0.
Let xt' : nat -> nat -> R := fun i k => s * xt i k + t k.
Let mv' (x : vec) : vec := fun k => s * x k + t k.
Lemma r2_units x it : idw_r2 nx xt' (mv' x) it = s ^ 2 * idw_r2 nx xt x it.
Proof. unfold idw_r2, xt', mv'. rewrite <- rsum_scal_l. apply rsum_ext. intros k _. ring. Qed.
Lemma on_units x i : on_data nx xt' (mv' x) i <-> on_data nx xt x i.
Proof.
  unfold on_data, xt', mv'. split; intros E k Hk; specialize (E k Hk); [|rewrite E; reflexivity].
  apply (Rmult_eq_reg_l s); [|exact Hs]. lra.
Qed.
Lemma min_units x : (fst (idw_min nx nt xt' (mv' x)) = 0 <-> fst (idw_min nx nt xt x) = 0) /\ (fst (idw_min nx nt xt x) = 0 -> snd (idw_min nx nt xt' (mv' x)) = snd (idw_min nx nt xt x)).
Proof.
  destruct (first_or_none nx xt x nt) as [N|(i & Hi & Hon & Hf)].
  - assert (forall i, (i < nt)%nat -> ~ on_data nx xt' (mv' x) i) as N' by (intros i Hi O; apply (N i Hi); apply on_units; exact O).
    pose proof (min_off nx nt xt x N) as F. pose proof (min_off nx nt xt' (mv' x) N') as F'. tauto.
  - destruct (min_on nx nt xt x i Hi Hon Hf) as [A B]. destruct (min_on nx nt xt' (mv' x) i Hi) as [A' B']; [apply on_units; exact Hon|intros j Hj O; apply (Hf j Hj); apply on_units; exact O|].
    rewrite A, A', B, B'. tauto.
Qed.
Lemma s2_pos : 0 < s ^ 2. Proof. cbn. rewrite Rmult_1_r. destruct (Rdichotomy _ _ Hs); nra. Qed.
Lemma off_pos x it : fst (idw_min nx nt xt x) <> 0 -> (it < nt)%nat -> 0 < idw_r2 nx xt x it.
Proof.
  intros F Hi. destruct (Rle_lt_or_eq_dec 0 _ (r2_nonneg nx xt x it)) as [L|E]; [exact L|]. exfalso. symmetry in E. apply r2_zero in E.
  destruct (first_or_none nx xt x nt) as [N|(i & Hi' & Hon & Hf)]; [exact (N it Hi E)|]. apply F. exact (proj1 (min_on nx nt xt x i Hi' Hon Hf)).
Qed.
Lemma w_units x it : 0 < idw_r2 nx xt x it -> idw_w nx p xt' (mv' x) it = Rpower (s ^ 2) (- p / 2) * idw_w nx p xt x it.
Proof. intros L. unfold idw_w. rewrite r2_units. rewrite Rpower_mult_distr; [reflexivity|apply s2_pos|exact L]. Qed.
Lemma dw_units x kx it : 0 < idw_r2 nx xt x it -> idw_dw nx p xt' (mv' x) kx it = Rpower (s ^ 2) (- p / 2) / s * idw_dw nx p xt x kx it.
Proof.
  intros L. unfold idw_dw. rewrite r2_units, <- Rpower_mult_distr by (exact L || exact s2_pos).
  replace (Rpower (s ^ 2) (- p / 2 - 1)) with (Rpower (s ^ 2) (- p / 2) * / s ^ 2).
  - unfold xt', mv'. field. exact Hs.
  - unfold Rminus. rewrite Rpower_plus. f_equal. rewrite Rpower_Ropp, Rpower_1 by exact s2_pos. reflexivity.
Qed.
Lemma idw_inputs yt x : (0 < nt)%nat -> idw_value nx nt p xt' yt (mv' x) = idw_value nx nt p xt yt x /\
  forall kx, idw_derivative nx nt p xt' yt kx (mv' x) = / s * idw_derivative nx nt p xt yt kx x.
Proof.
  intros N. destruct (min_units x) as [Mz Ml]. unfold idw_value, idw_derivative, idw_jac, idw_djac.
  set (c := Rpower (s ^ 2) (- p / 2)). assert (0 < c) as Hc by apply exp_pos.
  destruct (Req_EM_T (fst (idw_min nx nt xt x)) 0) as [E|E].
  - destruct (Req_EM_T (fst (idw_min nx nt xt' (mv' x))) 0) as [_|N0]; [|tauto]. rewrite (Ml E). split; [reflexivity|].
    intros kx. rewrite !rsum_zero by (intros; ring). ring.
  - destruct (Req_EM_T (fst (idw_min nx nt xt' (mv' x))) 0) as [E'|_]; [tauto|].
    assert (rsum nt (idw_w nx p xt' (mv' x)) = c * rsum nt (idw_w nx p xt x)) as EW.
    { rewrite <- rsum_scal_l. apply rsum_ext. intros i Hi. apply w_units. exact (off_pos x i E Hi). }
    pose proof (sum_pos nx nt p xt x N) as HW. set (W := rsum nt (idw_w nx p xt x)) in *. split.
    + apply rsum_ext. intros i Hi. rewrite EW, (w_units x i (off_pos x i E Hi)). fold c. field. split; lra.
    + intros kx. assert (rsum nt (idw_dw nx p xt' (mv' x) kx) = c / s * rsum nt (idw_dw nx p xt x kx)) as ED.
      { rewrite <- rsum_scal_l. apply rsum_ext. intros i Hi. apply dw_units. exact (off_pos x i E Hi). }
      rewrite <- rsum_scal_l. apply rsum_ext. intros i Hi. rewrite EW, ED, (w_units x i (off_pos x i E Hi)), (dw_units x kx i (off_pos x i E Hi)). fold c. field. repeat split; try lra; exact Hs.
Qed.
End IdwUnits.

(** variables scaled by different factors: another model *)
Lemma idw_anisotropic : let xt := fun i k => if Nat.eqb i k then 1 else 0 in let x := fun _ : nat => 0 in
  idw_value 2 2 2 xt INR x = 1 / 2 /\ idw_value 2 2 2 (fun i k => (if Nat.eqb k 0 then 2 else 1) * xt i k) INR (fun k => (if Nat.eqb k 0 then 2 else 1) * x k) = 4 / 5.
Proof.
  assert (Q : forall a, 0 < a -> Rpower (a ^ 2) (- (2) / 2) = / a ^ 2).
  { intros a Ha. replace (- (2) / 2) with (- (1)) by field. rewrite Rpower_Ropp, Rpower_1; [reflexivity|]. cbn. nra. }
  assert (G : forall (a : R), 0 < a -> idw_value 2 2 2 (fun i k => (if Nat.eqb k 0 then a else 1) * (if Nat.eqb i k then 1 else 0)) INR (fun k => (if Nat.eqb k 0 then a else 1) * 0) = a ^ 2 / (1 + a ^ 2)).
  { intros a Ha. rewrite value_off.
    - cbn [rsum INR]. unfold idw_w, idw_r2. cbn [rsum Nat.eqb].
      replace (0 + (a * 0 - a * 1) ^ 2 + (1 * 0 - 1 * 0) ^ 2) with (a ^ 2) by ring. replace (0 + (a * 0 - a * 0) ^ 2 + (1 * 0 - 1 * 1) ^ 2) with (1 ^ 2) by ring.
      rewrite !Q by lra. assert (0 < a ^ 2) by (cbn; nra). field. split; [nra|]. lra.
    - intros [|[|i]] Hi O; [specialize (O 0%nat ltac:(lia)); cbn in O; lra|specialize (O 1%nat ltac:(lia)); cbn in O; lra|lia]. }
  cbv zeta. split.
  - pose proof (G 1 Rlt_0_1) as G1. replace (1 / 2) with (1 ^ 2 / (1 + 1 ^ 2)) by field. rewrite <- G1. unfold idw_value, idw_jac, idw_min, idw_w, idw_r2. cbn [rsum seq fold_left Nat.eqb].
    rewrite !Rmult_1_l, !Rmult_0_r. reflexivity.
  - rewrite (G 2) by lra. field.
Qed.
