From Coq Require Import Reals Arith Bool List ZArith Lia Lra.
From Coquelicot Require Import Coquelicot.
From Verif Require Import RSum Mat Poly_M Poly_P Rbf_P.
Import ListNotations.
Open Scope R_scope.

Definition train_err (nt : nat) (f : vec -> R) (xt : nat -> vec) (yt : vec) : R := rsum nt (fun e => (f (xt e) - yt e) ^ 2).
Lemma train_err_qp dim nt xt yt coef : train_err nt (qp_value dim coef) xt yt = sq_res nt (qp_napp dim) (fun e a => qp_row dim (xt e) a) yt coef.
Proof. unfold train_err, sq_res, dot. apply rsum_ext. intros e He. unfold qp_value, dot, mv. ring. Qed.

Lemma qp_train_none inv dim nt xt yt : qp_train inv dim nt xt yt = None <-> (nt < qp_napp dim)%nat.
Proof.
  unfold qp_train, qp_napp.
  assert (E : ((dim + 2) * (dim + 1))%nat = (2 * ((dim + 2) * (dim + 1) / 2))%nat).
  { apply Nat.div_exact; [lia|]. destruct (Nat.Even_or_Odd dim) as [[k ->]|[k ->]].
    - replace ((2 * k + 2) * (2 * k + 1))%nat with ((k + 1) * (2 * k + 1) * 2)%nat by lia. apply Nat.mod_mul. lia.
    - replace ((2 * k + 1 + 2) * (2 * k + 1 + 1))%nat with ((2 * k + 3) * (k + 1) * 2)%nat by lia. apply Nat.mod_mul. lia. }
  destruct (Nat.ltb_spec (2 * nt) ((dim + 1) * (dim + 2))) as [L|L]; split; intros H; try reflexivity; try discriminate; nia.
Qed.
Lemma qp_optimal inv dim nt xt yt coef :
  let n := qp_napp dim in let XtX := mm nt (tr (fun e a => qp_row dim (xt e) a)) (fun e a => qp_row dim (xt e) a) in
  (forall i j, (i < n)%nat -> (j < n)%nat -> mm n XtX (inv XtX) i j = idm i j) ->
  qp_train inv dim nt xt yt = Some coef -> forall coef', train_err nt (qp_value dim coef) xt yt <= train_err nt (qp_value dim coef') xt yt.
Proof.
  cbv zeta. intros I T coef'. unfold qp_train in T. destruct (Nat.ltb (2 * nt) ((dim + 1) * (dim + 2))); [discriminate|]. injection T as <-.
  rewrite !train_err_qp. apply normal_optimal. apply inv_normal. exact I.
Qed.
Lemma qp_reproduces inv dim nt xt yt coef c0 :
  let n := qp_napp dim in let XtX := mm nt (tr (fun e a => qp_row dim (xt e) a)) (fun e a => qp_row dim (xt e) a) in
  (forall i j, (i < n)%nat -> (j < n)%nat -> mm n (inv XtX) XtX i j = idm i j) ->
  qp_train inv dim nt xt yt = Some coef -> (forall e, (e < nt)%nat -> yt e = qp_value dim c0 (xt e)) ->
  forall x, qp_value dim coef x = qp_value dim c0 x.
Proof.
  cbv zeta. intros I T Y x. unfold qp_train in T. destruct (Nat.ltb (2 * nt) ((dim + 1) * (dim + 2))); [discriminate|]. injection T as <-.
  set (n := qp_napp dim) in *. set (X := fun e a => qp_row dim (xt e) a) in *. set (XtX := mm nt (tr X) X) in *.
  unfold qp_value. fold n. apply dot_ext; [reflexivity|]. intros a Ha.
  rewrite (mv_ext n (inv XtX) (inv XtX) (mv nt (tr X) yt) (mv n XtX c0) a).
  - rewrite <- mv_mm. rewrite (mv_ext n (mm n (inv XtX) XtX) idm c0 c0 a) by (intros; try apply I; auto). apply mv_id. exact Ha.
  - reflexivity.
  - intros j Hj. unfold XtX. rewrite mv_mm. apply mv_ext; [reflexivity|]. intros e He. rewrite Y by exact He. unfold qp_value, dot, mv. apply rsum_ext. intros. reflexivity.
Qed.

(** linear regression *)
Section LS.
Variables (lstsq : nat -> nat -> mat -> vec -> vec) (nx nt : nat) (xt : nat -> vec) (yt : vec).
Hypothesis lstsq_ok : forall (X : mat) (y : vec) k, (k < nx)%nat -> mv nt (tr X) (fun e => mv nx X (lstsq nt nx X y) e - y e) k = 0.
Hypothesis nt_pos : (0 < nt)%nat.
Let m := ls_fit lstsq nx nt xt yt.
Let r := fun e => ls_value nx m (xt e) - yt e.
Lemma mean_sum f : rsum nt (fun e => f e - mean nt f) = 0.
Proof. rewrite rsum_minus, rsum_const. unfold mean. field. apply not_0_INR. lia. Qed.
Lemma r_eq e : r e = mv nx (fun e k => xt e k - mean nt (fun e => xt e k)) (fst m) e - (yt e - mean nt yt).
Proof.
  unfold r, ls_value, m, ls_fit. cbn [fst snd]. set (c := lstsq _ _ _ _). unfold mv, dot.
  rewrite (rsum_ext nx (fun j => (xt e j - _) * c j) (fun j => xt e j * c j - mean nt (fun e => xt e j) * c j)) by (intros; ring).
  rewrite rsum_minus. ring.
Qed.
Lemma r_sum : rsum nt r = 0.
Proof.
  rewrite (rsum_ext nt r (fun e => rsum nx (fun k => fst m k * (xt e k - mean nt (fun e => xt e k))) - (yt e - mean nt yt))).
  - rewrite rsum_minus, (mean_sum yt), rsum_swap, (rsum_zero nx); [ring|]. intros k Hk. rewrite rsum_scal_l, (mean_sum (fun e => xt e k)). ring.
  - intros e He. rewrite r_eq. f_equal. unfold mv. apply rsum_ext. intros. ring.
Qed.
Lemma r_orth k : (k < nx)%nat -> rsum nt (fun e => xt e k * r e) = 0.
Proof.
  intros Hk. pose proof (lstsq_ok (fun e k => xt e k - mean nt (fun e => xt e k)) (fun e => yt e - mean nt yt) k Hk) as N.
  transitivity (rsum nt (fun e => (xt e k - mean nt (fun e => xt e k)) * r e) + mean nt (fun e => xt e k) * rsum nt r).
  - rewrite <- rsum_scal_l, <- rsum_plus. apply rsum_ext. intros. ring.
  - rewrite r_sum, Rmult_0_r, Rplus_0_r. rewrite <- N. unfold mv at 1. apply rsum_ext. intros e He. rewrite r_eq. reflexivity.
Qed.
Lemma ls_diff b a : train_err nt (ls_value nx (b, a)) xt yt = train_err nt (ls_value nx m) xt yt
  + rsum nt (fun e => (ls_value nx (b, a) (xt e) - ls_value nx m (xt e)) ^ 2).
Proof.
  unfold train_err. rewrite <- rsum_plus.
  transitivity (rsum nt (fun e => (ls_value nx m (xt e) - yt e) ^ 2 + (ls_value nx (b, a) (xt e) - ls_value nx m (xt e)) ^ 2) + 2 * rsum nt (fun e => (ls_value nx (b, a) (xt e) - ls_value nx m (xt e)) * r e)).
  - rewrite <- rsum_scal_l, <- rsum_plus. apply rsum_ext. intros e He. unfold r. ring.
  - enough (Z : rsum nt (fun e => (ls_value nx (b, a) (xt e) - ls_value nx m (xt e)) * r e) = 0) by lra.
    rewrite (rsum_ext nt _ (fun e => rsum nx (fun k => (b k - fst m k) * (xt e k * r e)) + (a - snd m) * r e)).
    + rewrite rsum_plus, rsum_scal_l, r_sum, rsum_swap, (rsum_zero nx); [ring|]. intros k Hk. rewrite rsum_scal_l, r_orth by exact Hk. ring.
    + intros e He. unfold ls_value. cbn [fst snd]. unfold dot.
      transitivity ((rsum nx (fun k => (b k - fst m k) * xt e k) + (a - snd m)) * r e).
      * f_equal. rewrite (rsum_ext nx (fun k => (b k - fst m k) * xt e k) (fun k => xt e k * b k - xt e k * fst m k)) by (intros; ring). rewrite rsum_minus. ring.
      * rewrite Rmult_plus_distr_r. f_equal. rewrite <- rsum_scal_r. apply rsum_ext. intros. ring.
Qed.
Lemma ls_optimal b a : train_err nt (ls_value nx m) xt yt <= train_err nt (ls_value nx (b, a)) xt yt.
Proof. rewrite (ls_diff b a). pose proof (rsum_nonneg nt (fun e => (ls_value nx (b, a) (xt e) - ls_value nx m (xt e)) ^ 2) (fun e _ => pow2_ge_0 _)). lra. Qed.
Lemma ls_exact b a : (forall e, (e < nt)%nat -> yt e = a + rsum nx (fun k => b k * xt e k)) -> forall e, (e < nt)%nat -> ls_value nx m (xt e) = yt e.
Proof.
  intros Y e He. pose proof (ls_diff b a) as D.
  assert (Z : train_err nt (ls_value nx (b, a)) xt yt = 0).
  { apply rsum_zero. intros f Hf. rewrite Y by exact Hf. unfold ls_value, dot. cbn [fst snd].
    rewrite (rsum_ext nx (fun k => b k * xt f k) (fun k => xt f k * b k)) by (intros; ring). ring. }
  rewrite Z in D. pose proof (rsum_nonneg nt (fun e => (ls_value nx (b, a) (xt e) - ls_value nx m (xt e)) ^ 2) (fun e _ => pow2_ge_0 _)) as P1.
  assert (P2 : 0 <= train_err nt (ls_value nx m) xt yt) by (apply rsum_nonneg; intros; apply pow2_ge_0).
  assert (E0 : train_err nt (ls_value nx m) xt yt = 0) by lra.
  pose proof (rsum_zero_inv nt (fun e => (ls_value nx m (xt e) - yt e) ^ 2) (fun e _ => pow2_ge_0 _) E0 e He) as Q. cbn beta in Q. nra.
Qed.
Lemma ls_exact_everywhere b a : (forall a' (b' : vec), (forall i, (i < nt)%nat -> a' + rsum nx (fun k => b' k * xt i k) = 0) -> a' = 0 /\ forall k, (k < nx)%nat -> b' k = 0) ->
  (forall e, (e < nt)%nat -> yt e = a + rsum nx (fun k => b k * xt e k)) -> forall x, ls_value nx m x = a + rsum nx (fun k => b k * x k).
Proof.
  intros F Y x. specialize (F (snd m - a) (fun k => fst m k - b k)). destruct F as [F1 F2].
  - intros e He. pose proof (ls_exact b a Y e He) as E. rewrite Y in E by exact He. unfold ls_value, dot in E.
    rewrite (rsum_ext nx _ (fun k => xt e k * fst m k - b k * xt e k)) by (intros; ring). rewrite rsum_minus. lra.
  - unfold ls_value, dot. rewrite (rsum_ext nx _ (fun k => b k * x k)) by (intros k Hk; rewrite (Rminus_diag_uniq _ _ (F2 k Hk)); ring). lra.
Qed.
End LS.
Lemma ls_partial nx m x kx : (kx < nx)%nat -> is_partial (ls_value nx m) x kx (ls_derivative m kx x).
Proof.
  intros Hk. unfold is_partial. apply (is_derive_ext (fun t : R => (dot nx x (fst m) + snd m) + fst m kx * (t - x kx))).
  - intros t. unfold ls_value. rewrite dot_upd by exact Hk. match goal with |- ?a = ?b => change (@eq R a b) end. ring.
  - unfold ls_derivative. auto_derive; [exact I|]. ring.
Qed.
