From Coq Require Import Reals Arith Bool List Lia Lra FunctionalExtensionality.
From Coquelicot Require Import Coquelicot.
From Verif Require Import RSum Mat Psd Psd2 Tri_M Tri_P Kernels_M Kernels_P Kernels_P2 Kernels_P3 Krg_M Krg_S Krg_P Krg_P2 Krg_P3 Krg_P4.
Import ListNotations.
Open Scope list_scope.
Open Scope R_scope.

Lemma chol_ext n A A' : (forall i j, (i < n)%nat -> (j <= i)%nat -> A i j = A' i j) -> cholesky n A = cholesky n A'.
Proof.
  induction n as [|n IH]; intros H; [reflexivity|]. cbn [cholesky]. rewrite IH by (intros; apply H; lia). destruct (cholesky n A') as [L|]; [|reflexivity].
  assert (E : fsub L (fun j => A n j) n = fsub L (fun j => A' n j) n). { apply functional_extensionality. intros i. apply fsub_ext; [reflexivity|]. intros j Hj. apply H; lia. }
  rewrite E, (H n n) by lia. reflexivity.
Qed.
Definition set_s2 (pr : par) (v : R) : par :=
  {| p_sigma2 := v; p_beta := p_beta pr; p_gamma := p_gamma pr; p_C := p_C pr; p_Ft := p_Ft pr; p_G := p_G pr; p_Q := p_Q pr |}.
Definition map_fit (k : R) (o : rlf) : rlf := match o with Fit v pr => Fit v (set_s2 pr (p_sigma2 pr * k)) | o => o end.
Lemma rl_ext qr rcond condF nt p dof Rm Rm' F F' y y' ys ys' : ys <> 0 ->
  (forall i j, (i < nt)%nat -> (j < nt)%nat -> Rm i j = Rm' i j) -> (forall i j, (i < nt)%nat -> F i j = F' i j) -> (forall i, (i < nt)%nat -> y i = y' i) -> condF nt p F = condF nt p F' ->
  reduced_likelihood qr rcond condF nt p dof Rm' F' y' ys' = map_fit (ys' ^ 2 / ys ^ 2) (reduced_likelihood qr rcond condF nt p dof Rm F y ys).
Proof.
  intros Z HR HF HY HC. unfold reduced_likelihood. rewrite <- (chol_ext nt Rm Rm') by (intros i j Hi Hj; apply HR; lia). destruct (cholesky nt Rm) as [C|]; [|reflexivity]. cbv zeta. unfold solve_triangular.
  assert (EF : (fun i j => fsub C (fun a => F' a j) nt i) = (fun i j => fsub C (fun a => F a j) nt i)).
  { apply functional_extensionality. intros i. apply functional_extensionality. intros j. apply fsub_ext; [reflexivity|]. intros a Ha. symmetry. apply HF. exact Ha. }
  assert (EY : fsub C y' nt = fsub C y nt). { apply functional_extensionality. intros i. apply fsub_ext; [reflexivity|]. intros a Ha. symmetry. apply HY. exact Ha. }
  rewrite EF, EY, HC. destruct (qr nt p (fun i j => fsub C (fun a => F a j) nt i)) as [Q G]. destruct (Rlt_dec _ _); [destruct (Rlt_dec _ _); reflexivity|].
  cbn [map_fit]. f_equal. unfold set_s2. cbn [p_sigma2 p_beta p_gamma p_C p_Ft p_G p_Q]. f_equal. match goal with |- ?a * _ = _ => generalize a end. intros q. field. exact Z.
Qed.
Section Affine.
Variables (qr : nat -> nat -> mat -> mat * mat) (rcond : nat -> mat -> R) (condF : nat -> nat -> mat -> R).
Hypothesis condF_ext : forall n p F F', (forall i j, (i < n)%nat -> F i j = F' i j) -> condF n p F = condF n p F'.
Variables (nx nt : nat) (po : poly) (s : kspec) (nugget : R) (noise : vec) (X : nat -> vec) (y : vec).
Variables (A B : vec) (a b : R).
Hypotheses (Ht : (2 <= nt)%nat) (HA : forall c, (c < nx)%nat -> 0 < A c) (Ha : 0 < a).
Let X' : nat -> vec := fun i c => A c * X i c + B c.
Let y' : vec := fun i => a * y i + b.
Lemma Xnorm_affine i c : (i < nt)%nat -> (c < nx)%nat -> Xnorm nt X' i c = Xnorm nt X i c.
Proof. intros Hi Hc. unfold Xnorm, X'. apply (norm_affine nt (A c) (B c) (fun a => X a c)); auto. Qed.
Lemma R_affine i j : (i < nt)%nat -> (j < nt)%nat -> corr_matrix s nx nt (Xnorm nt X) nugget noise i j = corr_matrix s nx nt (Xnorm nt X') nugget noise i j.
Proof. intros Hi Hj. rewrite !corr_matrix_spec by assumption. destruct (Nat.eqb i j); [reflexivity|]. apply kd_ext. intros c Hc. rewrite !Xnorm_affine by assumption. reflexivity. Qed.
(** the likelihood of every theta is the same for both data sets *)
Lemma rl_affine : reduced_likelihood qr rcond condF nt (n_regr po nx) (INR nt) (corr_matrix s nx nt (Xnorm nt X') nugget noise) (fun i j => fvec po nx (Xnorm nt X' i) j) (ynorm nt y') (scale1 nt y')
  = map_fit (scale1 nt y' ^ 2 / scale1 nt y ^ 2) (reduced_likelihood qr rcond condF nt (n_regr po nx) (INR nt) (corr_matrix s nx nt (Xnorm nt X) nugget noise) (fun i j => fvec po nx (Xnorm nt X i) j) (ynorm nt y) (scale1 nt y)).
Proof.
  assert (HF : forall i j, (i < nt)%nat -> fvec po nx (Xnorm nt X i) j = fvec po nx (Xnorm nt X' i) j) by (intros i j Hi; apply fvec_ext; intros c Hc; symmetry; apply Xnorm_affine; assumption).
  apply rl_ext; [apply scale1_nz|exact R_affine|exact HF| |apply condF_ext; exact HF].
  intros i Hi. symmetry. unfold ynorm, y'. apply (norm_affine nt a b y); assumption.
Qed.
Definition value_of (o : rlf) : option R := match o with Fit v _ => Some v | _ => None end.
Variable m : model.
Hypotheses (HQ : qr_contract qr) (HR : rcond_contract rcond) (Hm : krg_train qr rcond condF nx nt po s nugget noise X y = Some m).
Definition m' : model := {| m_nx := nx; m_nt := nt; m_poly := po; m_k := s; m_Xn := Xnorm nt X';
               m_off := (fun c => mean nt (fun i => X' i c)); m_scale := (fun c => scale1 nt (fun i => X' i c));
               m_ymean := mean nt y'; m_ystd := scale1 nt y'; m_par := set_s2 (m_par m) (p_sigma2 (m_par m) * (scale1 nt y' ^ 2 / scale1 nt y ^ 2)) |}.
Lemma train_affine : krg_train qr rcond condF nx nt po s nugget noise X' y' = Some m'.
Proof.
  unfold krg_train in *. cbv zeta in *. destruct (Nat.leb nt 1); [discriminate|]. destruct (Nat.ltb nt (n_regr po nx)); [discriminate|]. rewrite rl_affine.
  destruct (reduced_likelihood _ _ _ _ _ _ _ _ _ _) as [v pr| |]; try discriminate. cbn [map_fit]. injection Hm as E. unfold m'. rewrite <- E. reflexivity.
Qed.
Hypothesis Hstd : forall c, (c < nx)%nat -> std1 nt (fun i => X i c) <> 0.
Let T : trained nx nt po s nugget noise X y m := train_inv _ _ _ _ _ _ _ _ _ _ _ _ HQ HR Hm.
Let T' : trained nx nt po s nugget noise X' y' m' := train_inv _ _ _ _ _ _ _ _ _ _ _ _ HQ HR train_affine.
Lemma xq_affine x c : (c < nx)%nat -> xq nt X' (fun c => A c * x c + B c) c = xq nt X x c.
Proof.
  intros Hc. unfold xq, X'. rewrite mean_affine by lia. rewrite scale_affine by (try apply Hstd; auto; lia). field. split; [apply scale1_nz|]. apply Rgt_not_eq, HA, Hc.
Qed.
Lemma rq_affine x i : (i < nt)%nat -> rq nx nt s X' (fun c => A c * x c + B c) i = rq nx nt s X x i.
Proof. intros Hi. unfold rq. apply kd_ext. intros c Hc. rewrite xq_affine, Xnorm_affine by assumption. reflexivity. Qed.
Lemma std_zero_y : std1 nt y = 0 -> forall i, (i < nt)%nat -> ynorm nt y i = 0.
Proof. intros E i Hi. unfold ynorm. rewrite (std_zero nt y Ht E i Hi). unfold Rdiv. ring. Qed.
Lemma value_affine x : predict_value m' (fun c => A c * x c + B c) = a * predict_value m x + b.
Proof.
  rewrite (value_eq nx nt po s nugget noise X' y' m' T'), (value_eq nx nt po s nugget noise X y m T). cbn [m' m_par set_s2 p_beta p_gamma].
  set (S := dot (n_regr po nx) (fvec po nx (xq nt X x)) (p_beta (m_par m)) + dot nt (rq nx nt s X x) (p_gamma (m_par m))).
  assert (E : dot (n_regr po nx) (fvec po nx (xq nt X' (fun c => A c * x c + B c))) (p_beta (m_par m)) + dot nt (rq nx nt s X' (fun c => A c * x c + B c)) (p_gamma (m_par m)) = S).
  { unfold S. f_equal; apply dot_ext; try reflexivity; intros i Hi; [apply fvec_ext; intros; apply xq_affine; assumption|apply rq_affine; exact Hi]. }
  rewrite E. unfold y'. rewrite mean_affine by lia. fold y'.
  assert (Q : scale1 nt y' * S = a * scale1 nt y * S); [|unfold y' in *; rewrite Q; ring].
  destruct (Req_dec (std1 nt y) 0) as [Z|N].
  - assert (S0 : S = 0); [|rewrite S0; ring]. unfold S. rewrite <- (w_mean nt (n_regr po nx) _ _ (ynorm nt y) (m_par m) (t_fit _ _ _ _ _ _ _ _ _ T)). apply dot_zero_r. apply std_zero_y. exact Z.
  - unfold y'. rewrite scale_affine by (assumption || lia). reflexivity.
Qed.
Lemma s2_zero : std1 nt y = 0 -> p_sigma2 (m_par m) = 0.
Proof.
  intros Z. rewrite (t_s2 _ _ _ _ _ _ _ _ _ T). assert (E : dot nt (rho_of nt (n_regr po nx) (ynorm nt y) (m_par m)) (rho_of nt (n_regr po nx) (ynorm nt y) (m_par m)) = 0); [|rewrite E; unfold Rdiv; ring].
  apply Rle_antisym; [|apply dot_self_nonneg]. apply (gls_min nt _ _ _ (ynorm nt y) (m_par m) (corr_matrix_sym _ _ _ _ _ _) (t_fit _ _ _ _ _ _ _ _ _ T) (fun _ => 0)).
  exists (fun _ => 0). split.
  - intros i Hi. rewrite (std_zero_y Z i Hi). rewrite !mv_zero by reflexivity. ring.
  - unfold dot. symmetry. apply rsum_zero. intros; ring.
Qed.
Lemma variance_affine x : k_ok s nx -> (forall i, (i < nt)%nat -> 0 <= nugget + noise i) -> predict_variance m' (fun c => A c * x c + B c) = a ^ 2 * predict_variance m x.
Proof.
  intros K Nn. rewrite (variance_eq nx nt po s nugget noise X' y' m' T' K Nn), (variance_eq nx nt po s nugget noise X y m T K Nn).
  assert (ER : forall i, fsub (p_C (m_par m)) (rq nx nt s X' (fun c => A c * x c + B c)) nt i = fsub (p_C (m_par m)) (rq nx nt s X x) nt i) by (apply fsub_ext; [reflexivity|]; intros; apply rq_affine; assumption).
  assert (EU : forall j, u_rhs m' (fun c => A c * x c + B c) j = u_rhs m x j).
  { intros j. rewrite (u_rhs_eq nx nt po s nugget noise X' y' m' T'), (u_rhs_eq nx nt po s nugget noise X y m T). cbn [m' m_par set_s2 p_Ft p_C]. f_equal; [apply mv_ext; [reflexivity|]; intros; apply ER|apply fvec_ext; intros; apply xq_affine; assumption]. }
  rewrite (dot_ext nt (rt m' (fun c => A c * x c + B c)) (rt m' (fun c => A c * x c + B c)) (rt m x) (rt m x)) by (intros i Hi; rewrite (rt_fsub nx nt po s nugget noise X' y' m' T'), (rt_fsub nx nt po s nugget noise X y m T); apply ER).
  rewrite (rsum_ext (n_regr po nx) (fun j => (u_rhs m' (fun c => A c * x c + B c) j / p_G (m_par m') j j) ^ 2) (fun j => (u_rhs m x j / p_G (m_par m) j j) ^ 2)) by (intros j Hj; rewrite EU; reflexivity).
  cbn [m' m_par set_s2 p_sigma2]. destruct (Req_dec (std1 nt y) 0) as [Z|N]; [rewrite (s2_zero Z); ring|].
  assert (SC : scale1 nt y' = a * scale1 nt y) by (apply scale_affine; (assumption || lia)). rewrite SC. field. apply scale1_nz.
Qed.
End Affine.
