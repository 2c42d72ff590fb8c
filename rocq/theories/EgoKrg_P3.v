(** C113: when the estimated process variance is zero; a concrete EGO run. *)
From Coq Require Import Reals QArith Qreals Arith Bool List Lia Lra.
From Verif Require Import RSum Mat Tri_P Kernels_M Krg_M Krg_S Krg_P Krg_P2 Krg_P3 Krg_P8 Krg_Qr EgoEI_M EgoEI_S EgoEI_P Gauss_P EgoKrg_M EgoKrg_P EgoKrg_P2 Ego_M Ego_P.
Import ListNotations.
Open Scope list_scope.
Open Scope R_scope.
Lemma n_pos po nx : (0 < n_regr po nx)%nat. Proof. apply n_regr_pos. Qed.
Lemma sigma2_zero_iff qr rcond condF nx nt po s nugget noise X y m : qr_contract qr -> rcond_contract rcond -> krg_train qr rcond condF nx nt po s nugget noise X y = Some m ->
  (p_sigma2 (m_par m) = 0 <-> exists b : vec, forall i, (i < nt)%nat -> y i = rsum (n_regr po nx) (fun j => b j * q_trend nx nt po X (X i) j)).
Proof.
  intros HQ HR Hm. pose proof (train_inv qr rcond condF nx nt po s nugget noise X y m HQ HR Hm) as T.
  pose proof (chol_pd _ _ _ (corr_matrix_sym _ _ _ _ _ _) (fo_C _ _ _ _ _ _ (t_fit _ _ _ _ _ _ _ _ _ T))) as PD.
  destruct (sigma2_gls nx nt po s nugget noise X y m T) as (v & Gv & Mv & E).
  pose proof (scale1_nz nt y) as SN. assert (N0 : 0 < INR nt) by (apply lt_0_INR; pose proof (t_nt _ _ _ _ _ _ _ _ _ T); lia). pose proof (n_pos po nx) as P0. split.
  - intros Z. rewrite Z in E. assert (V : v = 0).
    { destruct (Req_dec v 0) as [V|V]; [exact V|exfalso]. symmetry in E. apply Rmult_integral in E. destruct E as [E|E]; [|exact (pow_nonzero _ 2 SN E)]. apply Rmult_integral in E. destruct E as [E|E]; [contradiction|]. pose proof (Rinv_0_lt_compat _ N0). lra. }
    destruct Gv as (g & Hg & Ev). rewrite V in Ev.
    assert (G0 : forall i, (i < nt)%nat -> g i = 0).
    { intros i Hi. destruct (Req_dec (g i) 0) as [Q|Q]; [exact Q|exfalso]. pose proof (PD g (ex_intro _ i (conj Hi Q))) as P. rewrite (dot_ext nt g (mv nt _ g) g (fun i => ynorm nt y i - mv (n_regr po nx) (Fmat po nx nt X) (p_beta (m_par m)) i)) in P by (intros; try reflexivity; apply Hg; assumption). lra. }
    set (be := p_beta (m_par m)) in *. exists (fun j => scale1 nt y * be j + (if Nat.eqb j 0 then mean nt y else 0)). intros i Hi. specialize (Hg i Hi).
    assert (R0 : mv nt (corr_matrix s nx nt (Xnorm nt X) nugget noise) g i = 0) by (unfold mv; apply rsum_zero; intros j Hj; rewrite (G0 j Hj); ring). rewrite R0 in Hg.
    rewrite <- (ynorm_eq nt y i). replace (ynorm nt y i) with (mv (n_regr po nx) (Fmat po nx nt X) be i) by lra.
    rewrite (rsum_ext _ _ (fun j => scale1 nt y * (Fmat po nx nt X i j * be j) + (if Nat.eqb j 0 then mean nt y * fvec po nx (Xnorm nt X i) j else 0))) by (intros j _; unfold Fmat, q_trend; change (q_std nt X (X i)) with (Xnorm nt X i); destruct (Nat.eqb j 0); ring).
    rewrite rsum_plus, rsum_scal_l, (rsum_single (n_regr po nx) (fun j => mean nt y * fvec po nx (Xnorm nt X i) j) 0 P0), fvec_0. unfold mv. ring.
  - intros [b Hb]. set (b' := fun j => (b j - (if Nat.eqb j 0 then mean nt y else 0)) / scale1 nt y).
    assert (Q : gls_residual nt (n_regr po nx) (corr_matrix s nx nt (Xnorm nt X) nugget noise) (Fmat po nx nt X) (ynorm nt y) b' 0).
    { exists (fun _ => 0). assert (Hz : forall i, (i < nt)%nat -> ynorm nt y i - mv (n_regr po nx) (Fmat po nx nt X) b' i = 0).
      { intros i Hi. unfold ynorm. rewrite (Hb i Hi). unfold mv, b'.
        rewrite (rsum_ext (n_regr po nx) (fun j => Fmat po nx nt X i j * _) (fun j => / scale1 nt y * (b j * q_trend nx nt po X (X i) j - (if Nat.eqb j 0 then mean nt y * fvec po nx (Xnorm nt X i) j else 0)))) by (intros j _; unfold Fmat, q_trend; change (q_std nt X (X i)) with (Xnorm nt X i); destruct (Nat.eqb j 0); field; exact SN).
        rewrite rsum_scal_l, rsum_minus, (rsum_single (n_regr po nx) (fun j => mean nt y * fvec po nx (Xnorm nt X i) j) 0 P0), fvec_0. field. exact SN. }
      split.
      - intros i Hi. rewrite (Hz i Hi). unfold mv. apply rsum_zero. intros; ring.
      - unfold dot. symmetry. apply rsum_zero. intros. ring. }
    pose proof (Mv b' 0 Q) as V0. assert (V1 : v <= 0) by exact V0. pose proof (sigma2_nonneg _ _ _ _ _ _ _ _ _ T) as S2. rewrite E in *.
    assert (V2 : 0 <= v). { destruct (Rle_lt_dec 0 v) as [L|L]; [exact L|exfalso]. assert (0 < scale1 nt y ^ 2) by (apply pow_lt, scale1_pos). assert (v / INR nt < 0) by (unfold Rdiv; pose proof (Rinv_0_lt_compat _ N0); nra). assert (v / INR nt * scale1 nt y ^ 2 < 0) by nra. lra. }
    assert (v = 0) as -> by lra. unfold Rdiv. ring.
Qed.
(** a run that adds one point: stored points 0 and 1 with outputs 0 and 1, proposal 1/2 *)
Definition Q_dec (a b : Q) : {a = b} + {a <> b}.
Proof. destruct a as [n d], b as [n' d']. destruct (Z.eq_dec n n') as [->|N]; [|right; congruence]. destruct (Pos.eq_dec d d') as [->|N]; [left; reflexivity|right; congruence]. Defined.
Definition ex_doe : list (list R) := [[0]; [1]].
Definition ex_ys : list Q := [0%Q; 1%Q].
Definition ex_runs (k p : nat) (xs : list (list R)) (ys : list Q) (n : nat) : list (option (list R * Q)) :=
  if list_eq_dec (list_eq_dec Req_EM_T) xs ex_doe then (if list_eq_dec Q_dec ys ex_ys then [Some ([1 / 2], 0%Q)] else []) else [].
Lemma ex_step : forall cdf, is_cdf cdf -> forall k p xs ys x, find_best_point 20 (ex_runs k p xs ys) = Some x -> length ys = length xs ->
  exists m f_min, krg_train gs_qr rcond01 cond0 1 (length xs) PConstant (KStd SquarExp (fun _ => 1)) 0 (fun _ => 0) (data_X xs) (data_y ys) = Some m /\ k_ok (KStd SquarExp (fun _ => 1)) 1 /\
    0 < EI cdf f_min (predict_value m (row_vec x)) (predict_variance m (row_vec x)).
Proof.
  intros cdf C k p xs ys x F _. unfold ex_runs in F. destruct (list_eq_dec (list_eq_dec Req_EM_T) xs ex_doe) as [->|]; [|vm_compute in F; discriminate].
  destruct (list_eq_dec Q_dec ys ex_ys) as [->|]; [|vm_compute in F; discriminate]. cbn in F. injection F as <-.
  assert (Kt : forall j, (j < 1)%nat -> 0 < (fun _ : nat => 1) j) by (intros; lra).
  destruct (train_gs 1 2 PConstant (KStd SquarExp (fun _ => 1)) 0 (fun _ => 0) (data_X ex_doe) (data_y ex_ys)) as [m Hm]; [lia|cbn; lia| |apply constant_regular; lia|].
  { apply corr_matrix_pd_distinct; [discriminate|exact Kt| |intros; lra]. apply Xnorm_distinct. intros i j Hi Hj N E. specialize (E 0%nat ltac:(lia)). destruct i as [|[|i]], j as [|[|j]]; try lia; cbn in E; lra. }
  exists m, 0. split; [exact Hm|]. split; [split; [discriminate|intros; lra]|].
  destruct (EI_nonneg cdf C 0 (predict_value m (row_vec [1 / 2])) (predict_variance m (row_vec [1 / 2])) (variance_nonneg m _)) as [P|Z]; [exact P|exfalso]. symmetry in Z.
  apply (EI_zero_iff cdf _ _ _ C (variance_nonneg m _)) in Z.
  apply (zero_iff gs_qr rcond01 cond0 gs_contract rcond01_contract 1 2 PConstant 0 (fun _ => 0) (data_X ex_doe) (data_y ex_ys) m ltac:(intros; lra) SquarExp (fun _ => 1) _ Hm ltac:(discriminate) Kt ltac:(lia)) in Z.
  destruct Z as [Z|(i & Hi & E & _)].
  - apply (sigma2_zero_iff _ _ _ _ _ _ _ _ _ _ _ _ gs_contract rcond01_contract Hm) in Z. destruct Z as [b Hb]. pose proof (Hb 0%nat ltac:(lia)) as B0. pose proof (Hb 1%nat ltac:(lia)) as B1.
    unfold data_y, ex_ys in B0, B1. cbn [nth] in B0, B1. unfold q_trend, fvec in B0, B1. cbn in B0, B1. unfold Q2R in B0, B1. cbn in B0, B1. lra.
  - specialize (E 0%nat ltac:(lia)). destruct i as [|[|i]]; [| |lia]; unfold data_X, row_vec, ex_doe in E; cbn in E; lra.
Qed.
