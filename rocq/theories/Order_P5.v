(** IDW, RBF, LS and QP on reordered data. *)
From Coq Require Import Reals Arith Bool List Lia Lra FunctionalExtensionality.
From Verif Require Import RSum Mat Idw_M Idw_P Rbf_M Rbf_S Rbf_P Poly_M Poly_P Poly_P2 Psd Psd2 Het_S Het_P4 Order_P1 Order_P2.
Import ListNotations.
Open Scope list_scope.
Open Scope R_scope.
(** ** IDW *)
Lemma idw_reorder nx nt p xt yt f x : reorder nt f ->
  (forall i j, (i < nt)%nat -> (j < nt)%nat -> (forall k, (k < nx)%nat -> xt i k = x k) -> (forall k, (k < nx)%nat -> xt j k = x k) -> yt i = yt j) ->
  idw_value nx nt p (fun i => xt (f i)) (fun i => yt (f i)) x = idw_value nx nt p xt yt x.
Proof.
  intros RO H. destruct (first_or_none nx xt x nt) as [N|(i & Hi & Oi & Fi)].
  - rewrite (value_off nx nt p xt yt x N). rewrite (value_off nx nt p (fun i => xt (f i)) (fun i => yt (f i)) x).
    + f_equal; [apply (rsum_reorder nt f (fun it => idw_w nx p xt x it * yt it) RO)|apply (rsum_reorder nt f (idw_w nx p xt x) RO)].
    + intros i Hi O. apply (N (f i) (proj1 RO i Hi)). exact O.
  - rewrite (value_on nx nt p xt yt x i Hi Oi Fi). destruct (first_or_none nx (fun i => xt (f i)) x nt) as [N|(j & Hj & Oj & Fj)].
    + exfalso. destruct (reorder_surj nt f RO i Hi) as (j & Hj & E). apply (N j Hj). unfold on_data. rewrite E. exact Oi.
    + rewrite (value_on nx nt p (fun i => xt (f i)) (fun i => yt (f i)) x j Hj Oj Fj). apply H; [apply RO; exact Hj|exact Hi| |]; intros k Hk; symmetry; [apply Oj|apply Oi]; exact Hk.
Qed.
(** with two different outputs at the same input the first one given wins *)
Lemma idw_duplicates nx nt p xt yt i x : (i < nt)%nat -> (forall k, (k < nx)%nat -> xt i k = x k) -> (forall j, (j < i)%nat -> exists k, (k < nx)%nat /\ xt j k <> x k) -> idw_value nx nt p xt yt x = yt i.
Proof.
  intros Hi E F. apply value_on; [exact Hi|intros k Hk; symmetry; apply E; exact Hk|]. intros j Hj O. destruct (F j Hj) as (k & Hk & N). apply N. symmetry. apply O. exact Hk.
Qed.
(** ** RBF *)
Section Rbf.
Variables (nx nt : nat) (deg : degree) (d0 : vec) (xt : nat -> vec) (reg : R) (f : nat -> nat).
Hypothesis RO : reorder nt f.
Let h (j : nat) : nat := if Nat.ltb j nt then f j else j.
Let xt' : nat -> vec := fun i => xt (f i).
Lemma jac_h x j : rbf_jac nx nt deg d0 xt' x j = rbf_jac nx nt deg d0 xt x (h j).
Proof.
  unfold rbf_jac, h. destruct (Nat.ltb_spec j nt) as [L|L].
  - replace (Nat.ltb (f j) nt) with true by (symmetry; apply Nat.ltb_lt; apply RO; exact L). reflexivity.
  - replace (Nat.ltb j nt) with false by (symmetry; apply Nat.ltb_ge; exact L). reflexivity.
Qed.
Lemma val_h (g : vec) (sol : vec) : dot (num_dof nx nt deg) (fun j => g (h j)) (fun j => sol (h j)) = dot (num_dof nx nt deg) g sol.
Proof.
  unfold dot, num_dof. rewrite !rsum_app. f_equal.
  - rewrite (rsum_ext nt _ (fun j => (fun j => g j * sol j) (f j))); [apply (rsum_reorder nt f (fun j => g j * sol j) RO)|]. intros j Hj. unfold h. replace (Nat.ltb j nt) with true by (symmetry; apply Nat.ltb_lt; exact Hj). reflexivity.
  - apply rsum_ext. intros j Hj. unfold h. replace (Nat.ltb (nt + j) nt) with false by (symmetry; apply Nat.ltb_ge; lia). reflexivity.
Qed.
Lemma rbf_val_h sol x : rbf_value nx nt deg d0 xt' (fun j => sol (h j)) x = rbf_value nx nt deg d0 xt sol x.
Proof. unfold rbf_value. rewrite <- (val_h (rbf_jac nx nt deg d0 xt x) sol). apply dot_ext; [intros; apply jac_h|reflexivity]. Qed.
Lemma rbf_der_h sol kx x : rbf_derivative nx nt deg d0 xt' (fun j => sol (h j)) kx x = rbf_derivative nx nt deg d0 xt sol kx x.
Proof.
  unfold rbf_derivative. rewrite <- (val_h (rbf_djac nx nt deg d0 xt kx x) sol). apply dot_ext; [|reflexivity]. intros j Hj. unfold rbf_djac, h. destruct (Nat.ltb_spec j nt) as [L|L].
  - replace (Nat.ltb (f j) nt) with true by (symmetry; apply Nat.ltb_lt; apply RO; exact L). reflexivity.
  - replace (Nat.ltb j nt) with false by (symmetry; apply Nat.ltb_ge; exact L). reflexivity.
Qed.
Lemma solves_h yt sol : rbf_solves nx nt deg d0 xt reg yt sol -> rbf_solves nx nt deg d0 xt' reg (fun i => yt (f i)) (fun j => sol (h j)).
Proof.
  intros S i Hi. destruct (lt_dec i nt) as [L|L].
  - rewrite (mv_row nx nt deg d0 xt' reg _ i L). rewrite rbf_val_h. unfold xt'. pose proof (S (f i)) as Q. rewrite (mv_row nx nt deg d0 xt reg sol (f i) (proj1 RO i L)) in Q.
    unfold h. pose proof (proj2 (Nat.ltb_lt i nt) L) as LB. rewrite LB. unfold rbf_rhs in *. pose proof (proj1 RO i L) as Lf. apply Nat.ltb_lt in Lf. rewrite LB. rewrite Lf in Q. apply Q. apply Nat.ltb_lt in Lf. unfold num_dof. lia.
  - assert (G : (nt <= i)%nat) by lia. rewrite (mv_low nx nt deg d0 xt' reg _ i G). pose proof (S i Hi) as Q. rewrite (mv_low nx nt deg d0 xt reg sol i G) in Q. unfold rbf_rhs in *. pose proof (proj2 (Nat.ltb_ge i nt) G) as GB. rewrite GB in *.
    rewrite <- Q. rewrite <- (rsum_reorder nt f (fun j => rbf_jac nx nt deg d0 xt (xt j) i * sol j) RO). apply rsum_ext. intros j Hj. rewrite jac_h. unfold h. rewrite GB. replace (Nat.ltb j nt) with true by (symmetry; apply Nat.ltb_lt; exact Hj). reflexivity.
Qed.
Lemma rbf_reorder yt sol sol' : (forall k, (k < nx)%nat -> d0 k <> 0) -> 0 <= reg -> (reg = 0 -> distinct nx nt xt) -> trend_full_rank nx nt deg xt ->
  rbf_solves nx nt deg d0 xt reg yt sol -> rbf_solves nx nt deg d0 xt' reg (fun i => yt (f i)) sol' ->
  forall x, rbf_value nx nt deg d0 xt' sol' x = rbf_value nx nt deg d0 xt sol x /\ forall kx, rbf_derivative nx nt deg d0 xt' sol' kx x = rbf_derivative nx nt deg d0 xt sol kx x.
Proof.
  intros Hd Hr Di Fr S S' x.
  assert (U : forall i, (i < num_dof nx nt deg)%nat -> sol' i = sol (h i)).
  { apply (unique nx nt deg d0 xt' reg (fun i => yt (f i)) sol' (fun j => sol (h j)) Hd Hr); [| |exact S'|exact (solves_h yt sol S)].
    - intros Z. specialize (Di Z). intros i j Hi Hj Nij. apply (Di (f i) (f j)); [apply RO; exact Hi|apply RO; exact Hj|]. intros E. apply Nij. apply RO; assumption.
    - intros a b. specialize (Fr a b). destruct deg; [exact I| |].
      + intros H. apply Fr. intros i Hi. destruct (reorder_surj nt f RO i Hi) as (j & Hj & _). apply (H j Hj).
      + intros H. apply Fr. intros i Hi. destruct (reorder_surj nt f RO i Hi) as (j & Hj & <-). apply (H j Hj). }
  split.
  - rewrite <- rbf_val_h. unfold rbf_value. apply dot_ext; [reflexivity|exact U].
  - intros kx. rewrite <- rbf_der_h. unfold rbf_derivative. apply dot_ext; [reflexivity|exact U].
Qed.
End Rbf.
(** ** QP: the same coefficients *)
Lemma qp_reorder inv dim nt xt yt f : reorder nt f -> qp_train inv dim nt (fun i => xt (f i)) (fun i => yt (f i)) = qp_train inv dim nt xt yt.
Proof.
  intros RO. unfold qp_train. cbv zeta. destruct (Nat.ltb (2 * nt) ((dim + 1) * (dim + 2))); [reflexivity|].
  assert (E1 : mm nt (tr (fun e a => qp_row dim (xt (f e)) a)) (fun e a => qp_row dim (xt (f e)) a) = mm nt (tr (fun e a => qp_row dim (xt e) a)) (fun e a => qp_row dim (xt e) a)).
  { apply functional_extensionality. intros a. apply functional_extensionality. intros b. unfold mm, tr. apply (rsum_reorder nt f (fun e => qp_row dim (xt e) a * qp_row dim (xt e) b) RO). }
  assert (E2 : mv nt (tr (fun e a => qp_row dim (xt (f e)) a)) (fun i => yt (f i)) = mv nt (tr (fun e a => qp_row dim (xt e) a)) yt).
  { apply functional_extensionality. intros a. unfold mv, tr. apply (rsum_reorder nt f (fun e => qp_row dim (xt e) a * yt e) RO). }
  rewrite E1, E2. reflexivity.
Qed.
(** ** LS *)
Section Ls.
Variables (lstsq : nat -> nat -> mat -> vec -> vec) (nx nt : nat) (xt : nat -> vec) (yt : vec) (f : nat -> nat).
Hypothesis lstsq_ok : forall (X : mat) (y : vec) k, (k < nx)%nat -> mv nt (tr X) (fun e => mv nx X (lstsq nt nx X y) e - y e) k = 0.
Hypotheses (P : (0 < nt)%nat) (RO : reorder nt f).
Let m := ls_fit lstsq nx nt xt yt.
Let m' := ls_fit lstsq nx nt (fun i => xt (f i)) (fun i => yt (f i)).
Lemma ls_train_reorder e : (e < nt)%nat -> ls_value nx m' (xt e) = ls_value nx m (xt e).
Proof.
  assert (TE : forall g : vec -> R, train_err nt g (fun i => xt (f i)) (fun i => yt (f i)) = train_err nt g xt yt) by (intros g; apply (rsum_reorder nt f (fun e => (g (xt e) - yt e) ^ 2) RO)).
  pose proof (ls_optimal lstsq nx nt (fun i => xt (f i)) (fun i => yt (f i)) lstsq_ok P (fst m) (snd m)) as A. rewrite !TE in A. fold m' in A.
  pose proof (ls_diff lstsq nx nt xt yt lstsq_ok P (fst m') (snd m')) as B. fold m in B. rewrite <- !surjective_pairing in A, B.
  assert (Z : rsum nt (fun e => (ls_value nx m' (xt e) - ls_value nx m (xt e)) ^ 2) = 0).
  { apply Rle_antisym; [lra|]. apply rsum_nonneg. intros; apply pow2_ge_0. }
  intros He. pose proof (rsum_zero_inv nt (fun e => (ls_value nx m' (xt e) - ls_value nx m (xt e)) ^ 2) (fun e _ => pow2_ge_0 _) Z e He) as Q. cbn beta in Q. nra.
Qed.
Lemma ls_reorder : (forall a' (b' : vec), (forall i, (i < nt)%nat -> a' + rsum nx (fun k => b' k * xt i k) = 0) -> a' = 0 /\ forall k, (k < nx)%nat -> b' k = 0) ->
  forall x, ls_value nx m' x = ls_value nx m x.
Proof.
  intros F x. destruct (F (snd m' - snd m) (fun k => fst m' k - fst m k)) as [F1 F2].
  - intros i Hi. pose proof (ls_train_reorder i Hi) as E. unfold ls_value, dot in E. rewrite (rsum_ext nx _ (fun k => xt i k * fst m' k - xt i k * fst m k)) by (intros; ring). rewrite rsum_minus. lra.
  - unfold ls_value. f_equal; [|lra]. apply dot_ext; [reflexivity|]. intros k Hk. pose proof (F2 k Hk). lra.
Qed.
End Ls.
Lemma idw_deriv_reorder nx nt p xt yt f kx x : reorder nt f -> idw_derivative nx nt p (fun i => xt (f i)) (fun i => yt (f i)) kx x = idw_derivative nx nt p xt yt kx x.
Proof.
  intros RO. unfold idw_derivative, idw_djac. destruct (first_or_none nx xt x nt) as [N|(i & Hi & Oi & Fi)].
  - pose proof (min_off nx nt xt x N) as A. assert (N' : forall i, (i < nt)%nat -> ~ on_data nx (fun i => xt (f i)) x i) by (intros i Hi O; apply (N (f i) (proj1 RO i Hi)); exact O).
    pose proof (min_off nx nt (fun i => xt (f i)) x N') as A'. destruct (Req_EM_T (fst (idw_min nx nt xt x)) 0); [contradiction|]. destruct (Req_EM_T (fst (idw_min nx nt (fun i => xt (f i)) x)) 0); [contradiction|].
    assert (E1 : rsum nt (idw_w nx p (fun i => xt (f i)) x) = rsum nt (idw_w nx p xt x)) by apply (rsum_reorder nt f (idw_w nx p xt x) RO).
    assert (E2 : rsum nt (idw_dw nx p (fun i => xt (f i)) x kx) = rsum nt (idw_dw nx p xt x kx)) by apply (rsum_reorder nt f (idw_dw nx p xt x kx) RO).
    rewrite E1, E2. apply (rsum_reorder nt f (fun it => (idw_dw nx p xt x kx it * rsum nt (idw_w nx p xt x) - idw_w nx p xt x it * rsum nt (idw_dw nx p xt x kx)) / rsum nt (idw_w nx p xt x) ^ 2 * yt it) RO).
  - destruct (min_on nx nt xt x i Hi Oi Fi) as [A _]. destruct (Req_EM_T (fst (idw_min nx nt xt x)) 0); [|contradiction].
    destruct (first_or_none nx (fun i => xt (f i)) x nt) as [N|(j & Hj & Oj & Fj)].
    + exfalso. destruct (reorder_surj nt f RO i Hi) as (j & Hj & E). apply (N j Hj). unfold on_data. rewrite E. exact Oi.
    + destruct (min_on nx nt (fun i => xt (f i)) x j Hj Oj Fj) as [A' _]. destruct (Req_EM_T (fst (idw_min nx nt (fun i => xt (f i)) x)) 0); [|contradiction]. rewrite !rsum_zero; [reflexivity| |]; intros; ring.
Qed.
