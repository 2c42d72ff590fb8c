From Coq Require Import Reals Arith Bool List Lia Lra.
From Verif Require Import RSum Mat RmtsTrain_M RmtsMulti_M RmtsMulti_P RmtsTrain_P3.
Import ListNotations.
Open Scope list_scope.
Open Scope R_scope.

Lemma newton_one n H blocks yt solve search p tol sol m s' : tol < opt_norm n H blocks p yt sol ->
  search sol (solve (opt_hess n H blocks p yt sol) (fun k => - opt_grad n H blocks p yt sol k)) (opt_func n H blocks p yt) (opt_grad n H blocks p yt) = Some s' ->
  newton n H blocks yt solve search p tol 1 (sol, m) = Some (s', Some (opt_hess n H blocks p yt sol)).
Proof. intros L E. cbn [newton fst]. destruct (Rlt_dec _ _) as [_|N]; [|contradiction]. rewrite E. reflexivity. Qed.
Lemma newton_stop n H blocks yt solve search p tol k sol m : opt_norm n H blocks p yt sol <= tol -> newton n H blocks yt solve search p tol k (sol, m) = Some (sol, m).
Proof. intros L. destruct k; [reflexivity|]. cbn [newton fst]. destruct (Rlt_dec _ _) as [N|_]; [lra|reflexivity]. Qed.
Lemma norm1 H blocks p yt sol : opt_grad 1 H blocks p yt sol 0%nat <> 0 -> 0 < opt_norm 1 H blocks p yt sol.
Proof. intros N. unfold opt_norm. apply sqrt_lt_R0. unfold dot, rsum. set (g := opt_grad 1 H blocks p yt sol 0%nat) in *. assert (0 < g * g) by nra. lra. Qed.

(** one degree of freedom, one training point with Jacobian [a] *)
Definition sv (M : mat) (r : vec) : vec := fun k => r k / M 0%nat 0%nat.
Definition full (x d : vec) (f : vec -> R) (g : vec -> vec) : option vec := Some (fun k => x k + d k).
Definition bl (a : R) : list block := [mkB 0 1 (fun _ _ => a) 1].
Definition ob (y : R) : nat -> nat -> R := fun _ _ => y.
Lemma grad_val a y p sol : opt_grad 1 (reg_hess 1) (bl a) p (ob y) sol 0%nat = sol 0%nat + 1 / 2 * a * INR p * (a * sol 0%nat - y) ^ (p - 1).
Proof.
  unfold opt_grad, bl, fold_left, resid, mv, reg_hess, rsum, tr, ob. cbn [b_nt b_c b_J b_kx Nat.eqb].
  replace (0 + a * sol 0%nat - y) with (a * sol 0%nat - y) by ring. ring.
Qed.
Lemma hess_val a y p sol : opt_hess 1 (reg_hess 1) (bl a) p (ob y) sol 0%nat 0%nat = 1 + 1 / 2 * a * a * (INR p * (INR p - 1)) * (a * sol 0%nat - y) ^ (p - 2).
Proof.
  unfold opt_hess, bl, fold_left, resid, mv, reg_hess, rsum, tr, ob. cbn [b_nt b_c b_J b_kx Nat.eqb].
  replace (0 + a * sol 0%nat - y) with (a * sol 0%nat - y) by ring. ring.
Qed.
Lemma step1 a y p sol m : opt_grad 1 (reg_hess 1) (bl a) p (ob y) sol 0%nat <> 0 -> exists s' M, newton 1 (reg_hess 1) (bl a) (ob y) sv full p 0 1 (sol, m) = Some (s', Some M) /\
  s' 0%nat = sol 0%nat - opt_grad 1 (reg_hess 1) (bl a) p (ob y) sol 0%nat / opt_hess 1 (reg_hess 1) (bl a) p (ob y) sol 0%nat 0%nat /\ M 0%nat 0%nat = opt_hess 1 (reg_hess 1) (bl a) p (ob y) sol 0%nat 0%nat.
Proof.
  intros N. eexists _, _. split; [apply newton_one; [apply norm1; exact N|reflexivity]|]. split; [|reflexivity]. unfold sv. unfold Rdiv. ring.
Qed.
Lemma alone_step y : y <> 0 -> y * y <> 2 -> exists s0 M0 s1 M1,
  newton 1 (reg_hess 1) (bl 1) (ob y) sv full 2 0 1 (fun _ => 0, None) = Some (s0, Some M0) /\ newton 1 (reg_hess 1) (bl 1) (ob y) sv full 4 0 1 (s0, None) = Some (s1, Some M1) /\
  M1 0%nat 0%nat = 1 + 3 / 2 * y ^ 2 /\ s1 0%nat = y / 2 - (y / 2 - y ^ 3 / 4) / (1 + 3 / 2 * y ^ 2).
Proof.
  intros N N2.
  destruct (step1 1 y 2 (fun _ => 0) None) as (s0 & M0 & E0 & S0 & _); [rewrite grad_val; cbn; intros E; apply N; lra|].
  rewrite grad_val, hess_val in S0. cbn in S0. assert (s0 0%nat = y / 2) as Es by (rewrite S0; field). clear S0.
  destruct (step1 1 y 4 s0 None) as (s1 & M1 & E1 & S1 & H1).
  { rewrite grad_val, Es. cbn. intros E. apply N2. assert (y * (2 - y * y) = 0) as E' by (field_simplify in E; field_simplify; lra). apply Rmult_integral in E'. destruct E' as [E'|E']; [contradiction|lra]. }
  exists s0, M0, s1, M1. split; [exact E0|]. split; [exact E1|]. rewrite grad_val, hess_val, Es in S1. rewrite hess_val, Es in H1.
  assert (1 / 2 * 1 * 1 * (INR 4 * (INR 4 - 1)) * (1 * (y / 2) - y) ^ (4 - 2) = 3 / 2 * y ^ 2) as Q by (cbn; field).
  rewrite Q in S1, H1. split; [exact H1|]. rewrite S1. f_equal. f_equal. cbn. field.
Qed.
Lemma dgrad_val y w t : opt_dgrad_dyt 1 4 (ob y) w (mkB 0 1 (fun _ _ => 1) 1) 0%nat t = - (6 * (w 0%nat - y) ^ 2).
Proof. unfold opt_dgrad_dyt, tr, resid, mv, rsum, ob. cbn [b_c b_J b_kx]. replace (0 + 1 * w 0%nat - y) with (w 0%nat - y) by ring. cbn. field. Qed.
(** two outputs, approximation order 4: the first output's derivative is computed with the second output's matrix *)
Lemma order4_wrong : exists sols M M1, train_all 1 (reg_hess 1) (bl 1) sv full 4 1 0 [ob 1; ob 2] None = TrainedAll sols M /\
  rmts_train 1 (reg_hess 1) (bl 1) (ob 1) sv full 4 1 0 = Trained (nth 0 sols (fun _ => 0)) M1 /\
  output_derivative_all 1 (bl 1) sv M 4 [ob 1; ob 2] sols 0 (mkB 0 1 (fun _ _ => 1) 1) (fun _ => 1) 0 <>
  output_derivative 1 sv M1 (bl 1) 4 (ob 1) (nth 0 sols (fun _ => 0)) (mkB 0 1 (fun _ _ => 1) 1) (fun _ => 1) 0.
Proof.
  destruct (alone_step 1) as (a0 & A0 & a1 & A1 & E0 & E1 & HA & Ha); [lra|lra|].
  destruct (alone_step 2) as (b0 & B0 & b1 & B1 & F0 & F1 & HB & _); [lra|lra|].
  exists [a1; b1], B1, A1. split.
  - unfold train_all. rewrite (solve_all_some _ _ _ _ _ _ _ _ _ [(a0, Some A0); (b0, Some B0)] [(a1, Some A1); (b1, Some B1)]); [reflexivity|].
    constructor; [split; assumption|]. constructor; [split; assumption|constructor].
  - split.
    + unfold rmts_train. rewrite (phases_solve _ _ _ _ _ _ _ _ _ (a0, Some A0) (a1, Some A1)); [reflexivity|split; assumption].
    + unfold output_derivative_all, output_derivative. cbn [nth rsum]. unfold sv. rewrite dgrad_val, HA, HB. rewrite Ha. intros E. apply Rminus_diag_eq in E. field_simplify in E. lra.
Qed.
(** retrained with outputs for which nothing needs solving: the matrix of the earlier training data is used *)
Lemma stale_wrong : exists sols M sols2, train_all 1 (reg_hess 1) (bl 1) sv full 2 1 0 [ob 1] None = TrainedAll sols M /\
  train_all 1 (reg_hess 1) (bl 2) sv full 2 1 0 [ob 0] (Some M) = TrainedAll sols2 M /\
  opt_grad 1 (reg_hess 1) (bl 2) 2 (ob 0) (nth 0 sols2 (fun _ => 0)) 0%nat = 0 /\
  output_derivative_all 1 (bl 2) sv M 2 [ob 0] sols2 0 (mkB 0 1 (fun _ _ => 2) 1) (fun _ => 1) 0 <>
  output_derivative 1 sv (opt_hess 1 (reg_hess 1) (bl 2) 2 (ob 0) (nth 0 sols2 (fun _ => 0))) (bl 2) 2 (ob 0) (nth 0 sols2 (fun _ => 0)) (mkB 0 1 (fun _ _ => 2) 1) (fun _ => 1) 0.
Proof.
  destruct (step1 1 1 2 (fun _ => 0) None) as (s0 & M0 & E0 & S0 & H0); [rewrite grad_val; cbn; lra|].
  rewrite grad_val, hess_val in S0. cbn in S0. rewrite hess_val in H0. cbn in H0.
  assert (opt_norm 1 (reg_hess 1) (bl 1) 2 (ob 1) s0 <= 0) as N1.
  { unfold opt_norm, dot, rsum. rewrite grad_val. replace (s0 0%nat) with (1 / 2) by (rewrite S0; field). cbn. match goal with |- sqrt ?x <= 0 => replace x with 0 by field end. rewrite sqrt_0. lra. }
  assert (newton 1 (reg_hess 1) (bl 1) (ob 1) sv full 2 0 1 (s0, None) = Some (s0, None)) as E1 by (apply newton_stop; exact N1).
  assert (opt_norm 1 (reg_hess 1) (bl 2) 2 (ob 0) (fun _ => 0) <= 0) as N2.
  { unfold opt_norm, dot, rsum. rewrite grad_val. cbn. match goal with |- sqrt ?x <= 0 => replace x with 0 by field end. rewrite sqrt_0. lra. }
  exists [s0], M0, [fun _ => 0]. split.
  - unfold train_all. rewrite (solve_all_some _ _ _ _ _ _ _ _ _ [(s0, Some M0)] [(s0, None)]); [reflexivity|]. constructor; [split; assumption|constructor].
  - split.
    + rewrite (stale 1 (reg_hess 1) (bl 2) sv full 2 1 0 [ob 0] M0); [reflexivity|]. intros yt [<- |[]].
      unfold rmts_train. rewrite (phases_solve _ _ _ _ _ _ _ _ _ (fun _ => 0, None) (fun _ => 0, None)); [reflexivity|]. split; apply newton_stop; exact N2.
    + split; [rewrite grad_val; cbn; ring|].
      unfold output_derivative_all, output_derivative. cbn [nth rsum]. unfold sv. rewrite hess_val, H0. unfold opt_dgrad_dyt, tr. cbn. intros E. apply Rminus_diag_eq in E. field_simplify in E. lra.
Qed.
(** order 2: retraining moves the prediction of every output by its predicted output derivatives *)
Lemma order2_exact n H blocks solve search : msym n H -> mpd n H -> (forall b, In b blocks -> 0 <= b_c b) ->
  forall dsolve, (forall M r, msym n M -> mpd n M -> forall k, (k < n)%nat -> mv n M (dsolve M r) k = r k) ->
  forall maxiter tol yts sols M, train_all n H blocks solve search 2 maxiter tol yts None = TrainedAll sols M ->
  forall iy yt sol yt' sol' dy, nth_error yts iy = Some yt -> nth_error sols iy = Some sol ->
  (forall k, (k < n)%nat -> opt_grad n H blocks 2 yt sol k = 0) -> (forall k, (k < n)%nat -> opt_grad n H blocks 2 yt' sol' k = 0) ->
  rsum n (fun j => dy j * sol' j) - rsum n (fun j => dy j * sol j) =
  lsum (fun b => rsum (b_nt b) (fun t => output_derivative_all n blocks dsolve M 2 yts sols iy b dy t * (yt' (b_kx b) t - yt (b_kx b) t))) blocks.
Proof.
  intros Hs Hp Hc dsolve Hd maxiter tol yts sols M T iy yt sol yt' sol' dy Ey Es G G'. unfold output_derivative_all.
  rewrite (nth_error_nth _ _ _ Ey), (nth_error_nth _ _ _ Es). rewrite (kept2 _ _ _ _ _ _ _ _ _ _ yt sol T). exact (sensitivity n H blocks yt dsolve Hs Hp Hc Hd yt' sol sol' sol dy G G').
Qed.
