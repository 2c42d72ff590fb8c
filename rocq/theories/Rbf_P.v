From Coq Require Import Reals Arith Bool List Lia Lra.
From Coquelicot Require Import Coquelicot.
From Verif Require Import RSum Mat Psd Psd2 Rbf_M Rbf_S.
Open Scope R_scope.

Lemma derive_cst (c x : R) : is_derive (fun _ : R => c) x 0.
Proof. exact (is_derive_const c x). Qed.

Section Rbf.
Variables (nx nt : nat) (deg : degree) (d0 : vec) (xt : nat -> vec) (reg : R).
Notation jac := (rbf_jac nx nt deg d0 xt).
Notation djac := (rbf_djac nx nt deg d0 xt).
Notation mtx := (rbf_mtx nx nt deg d0 xt reg).
Notation dof := (num_dof nx nt deg).
Notation trend_full_rank := (Rbf_S.trend_full_rank nx nt deg xt).
Notation val := (rbf_value nx nt deg d0 xt).

Lemma jac_radial x j : (j < nt)%nat -> jac x j = gauss nx (fun k => / d0 k ^ 2) x (xt j).
Proof.
  intros H. unfold rbf_jac, rbf_radial, gauss. apply Nat.ltb_lt in H. rewrite H. do 2 f_equal. apply rsum_ext. intros k _.
  unfold Rdiv. rewrite Rpow_mult_distr, pow_inv. ring.
Qed.
Lemma jac_poly_indep x y : deg <> Linear -> forall j, (nt <= j)%nat -> jac x j = jac y j.
Proof. intros D j H. unfold rbf_jac. apply Nat.ltb_ge in H. rewrite H. destruct deg; congruence. Qed.
Lemma mtx_row i j : (i < nt)%nat -> mtx i j = jac (xt i) j + (if Nat.eqb i j then reg else 0).
Proof.
  intros H. unfold rbf_mtx. pose proof (proj2 (Nat.ltb_lt _ _) H) as Hb. rewrite Hb, andb_true_r. f_equal.
  destruct (Nat.ltb_spec j nt) as [J|J]; [|reflexivity]. rewrite !jac_radial by assumption. apply gauss_sym.
Qed.
Lemma mtx_low i j : (nt <= i)%nat -> mtx i j = if Nat.ltb j nt then jac (xt j) i else 0.
Proof.
  intros H. unfold rbf_mtx. apply Nat.ltb_ge in H. rewrite H, andb_false_r. destruct (Nat.ltb j nt); ring.
Qed.
Lemma dof_ge : (nt <= dof)%nat. Proof. unfold num_dof. lia. Qed.
Lemma mv_row sol i : (i < nt)%nat -> mv dof mtx sol i = val sol (xt i) + reg * sol i.
Proof.
  intros H. unfold mv, rbf_value, dot. rewrite (rsum_ext dof _ (fun j => jac (xt i) j * sol j + (if Nat.eqb j i then reg * sol j else 0))).
  - rewrite rsum_plus, (rsum_single dof (fun j => reg * sol j) i); [reflexivity|]. pose proof dof_ge. lia.
  - intros j Hj. rewrite mtx_row by exact H. rewrite (Nat.eqb_sym j i). destruct (Nat.eqb i j); ring.
Qed.
Lemma mv_low sol i : (nt <= i)%nat -> mv dof mtx sol i = rsum nt (fun j => jac (xt j) i * sol j).
Proof.
  intros H. unfold mv. unfold num_dof at 1. rewrite rsum_app.
  rewrite (rsum_ext nt _ (fun j => jac (xt j) i * sol j)).
  - rewrite (rsum_zero (num_poly nx deg)); [ring|]. intros j Hj. rewrite mtx_low by exact H. replace (Nat.ltb (nt + j) nt) with false; [ring|].
    symmetry. apply Nat.ltb_ge. lia.
  - intros j Hj. rewrite mtx_low by exact H. apply Nat.ltb_lt in Hj. rewrite Hj. reflexivity.
Qed.
Lemma interpolates yt sol : rbf_solves nx nt deg d0 xt reg yt sol -> forall i, (i < nt)%nat -> val sol (xt i) = yt i - reg * sol i.
Proof.
  intros S i Hi. specialize (S i ltac:(pose proof dof_ge; lia)). rewrite mv_row in S by exact Hi. unfold rbf_rhs in S. apply Nat.ltb_lt in Hi. rewrite Hi in S. lra.
Qed.
Lemma side_const yt sol : deg <> NoPoly -> rbf_solves nx nt deg d0 xt reg yt sol -> rsum nt sol = 0.
Proof.
  intros D S. specialize (S nt). rewrite mv_low in S by lia. unfold rbf_rhs in S. rewrite Nat.ltb_irrefl in S. rewrite <- S.
  - apply rsum_ext. intros j Hj. unfold rbf_jac. rewrite Nat.ltb_irrefl, Nat.eqb_refl. destruct deg; try congruence; ring.
  - unfold num_dof, num_poly. destruct deg; [congruence|lia|lia].
Qed.
Lemma side_linear yt sol k : deg = Linear -> (k < nx)%nat -> rbf_solves nx nt deg d0 xt reg yt sol -> rsum nt (fun i => sol i * xt i k) = 0.
Proof.
  intros D Hk S. specialize (S (nt + 1 + k)%nat). rewrite mv_low in S by lia. unfold rbf_rhs in S.
  assert (F : Nat.ltb (nt + 1 + k) nt = false) by (apply Nat.ltb_ge; lia). rewrite F in S. rewrite <- S.
  - apply rsum_ext. intros j Hj. unfold rbf_jac. rewrite F, D. replace (Nat.eqb (nt + 1 + k) nt) with false by (symmetry; apply Nat.eqb_neq; lia).
    replace (nt + 1 + k - (nt + 1))%nat with k by lia. ring.
  - unfold num_dof, num_poly. rewrite D. lia.
Qed.
(** the trend part of the basis *)
Lemma trend_sum x (c : vec) : rsum (num_poly nx deg) (fun a => jac x (nt + a)%nat * c (nt + a)%nat) =
  match deg with NoPoly => 0 | Constant => c nt | Linear => c nt + rsum nx (fun k => c (nt + 1 + k)%nat * x k) end.
Proof.
  unfold num_poly. destruct deg eqn:D.
  - reflexivity.
  - cbn [rsum]. unfold rbf_jac. rewrite Nat.add_0_r, Nat.ltb_irrefl. ring.
  - rewrite Nat.add_1_l, rsum_S_l. rewrite Nat.add_0_r. unfold rbf_jac at 1. rewrite Nat.ltb_irrefl, Nat.eqb_refl. rewrite Rmult_1_l. f_equal.
    apply rsum_ext. intros k Hk. unfold rbf_jac. replace (Nat.ltb (nt + S k) nt) with false by (symmetry; apply Nat.ltb_ge; lia).
    replace (Nat.eqb (nt + S k) nt) with false by (symmetry; apply Nat.eqb_neq; lia).
    replace (nt + S k - (nt + 1))%nat with k by lia. replace (nt + 1 + k)%nat with (nt + S k)%nat by lia. ring.
Qed.
Lemma val_split sol x : val sol x = rsum nt (fun j => gauss nx (fun k => / d0 k ^ 2) x (xt j) * sol j)
  + match deg with NoPoly => 0 | Constant => sol nt | Linear => sol nt + rsum nx (fun k => sol (nt + 1 + k)%nat * x k) end.
Proof.
  unfold rbf_value, dot, num_dof. rewrite rsum_app. rewrite trend_sum. f_equal. apply rsum_ext. intros j Hj. rewrite jac_radial by exact Hj. reflexivity.
Qed.
Lemma kernel_zero sol : (forall k, (k < nx)%nat -> d0 k <> 0) -> 0 <= reg -> (reg = 0 -> distinct nx nt xt) -> trend_full_rank ->
  rbf_solves nx nt deg d0 xt reg (fun _ => 0) sol -> forall i, (i < dof)%nat -> sol i = 0.
Proof.
  intros Hd Hr Hdist FR S. pose proof (interpolates _ _ S) as I. set (th := fun k => / d0 k ^ 2) in *.
  assert (Ht : forall k, (k < nx)%nat -> 0 < th k) by (intros k Hk; unfold th; apply Rinv_0_lt_compat; specialize (Hd k Hk); nra).
  set (K := fun i j => gauss nx th (xt i) (xt j)).
  (* sol . K sol = - reg sol.sol *)
  assert (E : dot nt sol (mv nt K sol) = - reg * dot nt sol sol).
  { transitivity (rsum nt (fun i => sol i * (- reg * sol i - match deg with NoPoly => 0 | Constant => sol nt | Linear => sol nt + rsum nx (fun k => sol (nt + 1 + k)%nat * xt i k) end))).
    - unfold dot. apply rsum_ext. intros i Hi. f_equal. specialize (I i Hi). rewrite val_split in I. unfold mv, K. fold th in I. lra.
    - transitivity (- reg * dot nt sol sol - rsum nt (fun i => sol i * match deg with NoPoly => 0 | Constant => sol nt | Linear => sol nt + rsum nx (fun k => sol (nt + 1 + k)%nat * xt i k) end)).
      + unfold dot. rewrite <- rsum_scal_l, <- rsum_minus. apply rsum_ext. intros. ring.
      + enough (Z : rsum nt (fun i => sol i * match deg with NoPoly => 0 | Constant => sol nt | Linear => sol nt + rsum nx (fun k => sol (nt + 1 + k)%nat * xt i k) end) = 0) by lra.
        destruct deg eqn:D.
        * apply rsum_zero. intros. ring.
        * rewrite rsum_scal_r, (side_const (fun _ => 0) sol); [ring|congruence|rewrite D; exact S].
        * rewrite (rsum_ext nt _ (fun i => sol i * sol nt + rsum nx (fun k => sol (nt + 1 + k)%nat * (sol i * xt i k)))).
          -- rewrite rsum_plus, rsum_scal_r, (side_const (fun _ => 0) sol); [|congruence|rewrite D; exact S].
             rewrite rsum_swap. rewrite (rsum_zero nx); [ring|]. intros k Hk. rewrite rsum_scal_l, (side_linear (fun _ => 0) sol k D Hk); [ring|rewrite D; exact S].
          -- intros i Hi. rewrite Rmult_plus_distr_l, <- rsum_scal_l. f_equal. apply rsum_ext. intros. ring. }
  assert (Z0 : forall i, (i < nt)%nat -> sol i = 0).
  { destruct (nonzero_dec nt sol) as [W|W]; [|exact W]. exfalso.
    destruct (Req_EM_T reg 0) as [R0|R0].
    - pose proof (gauss_pd nx th nt xt Ht (Hdist R0) sol W) as P. fold K in P. rewrite E, R0 in P. lra.
    - destruct W as (i & Hi & Ci). pose proof (dot_self_pos nt sol i Hi Ci) as P.
      pose proof (gauss_mpsd nx th nt xt (fun k Hk => Rlt_le _ _ (Ht k Hk)) sol) as Q. fold K in Q. rewrite E in Q. nra. }
  assert (I2 : forall i, (i < nt)%nat -> match deg with NoPoly => 0 | Constant => sol nt | Linear => sol nt + rsum nx (fun k => sol (nt + 1 + k)%nat * xt i k) end = 0).
  { intros i Hi. specialize (I i Hi). rewrite val_split, (rsum_zero nt), (Z0 i Hi) in I; [lra|]. intros j Hj. rewrite Z0 by exact Hj. ring. }
  intros i Hi. destruct (Nat.lt_ge_cases i nt) as [L|L]; [apply Z0; exact L|].
  specialize (FR (sol nt) (fun k => sol (nt + 1 + k)%nat)). unfold num_dof, num_poly in Hi. destruct deg.
  - lia.
  - replace i with nt by lia. apply FR. exact I2.
  - specialize (FR I2). destruct FR as [F1 F2]. destruct (Nat.eq_dec i nt) as [-> | N]; [exact F1|].
    replace i with (nt + 1 + (i - (nt + 1)))%nat by lia. apply F2. lia.
Qed.
Lemma unique yt s1 s2 : (forall k, (k < nx)%nat -> d0 k <> 0) -> 0 <= reg -> (reg = 0 -> distinct nx nt xt) -> trend_full_rank ->
  rbf_solves nx nt deg d0 xt reg yt s1 -> rbf_solves nx nt deg d0 xt reg yt s2 -> forall i, (i < dof)%nat -> s1 i = s2 i.
Proof.
  intros Hd Hr D F S1 S2 i Hi. enough (s1 i - s2 i = 0) by lra. apply (kernel_zero (fun j => s1 j - s2 j) Hd Hr D F); [|exact Hi].
  intros j Hj. rewrite mv_minus, S1, S2 by exact Hj. unfold rbf_rhs. destruct (Nat.ltb j nt); ring.
Qed.
(** affine data are reproduced *)
Lemma reproduces a b yt sol : deg = Linear -> (forall k, (k < nx)%nat -> d0 k <> 0) -> 0 <= reg -> (reg = 0 -> distinct nx nt xt) -> trend_full_rank ->
  (forall i, (i < nt)%nat -> yt i = a + rsum nx (fun k => b k * xt i k)) -> rbf_solves nx nt deg d0 xt reg yt sol -> forall x, val sol x = a + rsum nx (fun k => b k * x k).
Proof.
  intros D Hd Hr Hdist F Y S x.
  set (s := fun i => if Nat.ltb i nt then 0 else if Nat.eqb i nt then a else b (i - (nt + 1))%nat).
  assert (V : forall y, val s y = a + rsum nx (fun k => b k * y k)).
  { intros y. rewrite val_split. rewrite (rsum_zero nt).
    - rewrite D. unfold s at 1. rewrite Nat.ltb_irrefl, Nat.eqb_refl. rewrite Rplus_0_l. f_equal. apply rsum_ext. intros k Hk. unfold s.
      replace (Nat.ltb (nt + 1 + k) nt) with false by (symmetry; apply Nat.ltb_ge; lia). replace (Nat.eqb (nt + 1 + k) nt) with false by (symmetry; apply Nat.eqb_neq; lia).
      do 2 f_equal. lia.
    - intros j Hj. unfold s. apply Nat.ltb_lt in Hj. rewrite Hj. ring. }
  assert (S2 : rbf_solves nx nt deg d0 xt reg yt s).
  { intros i Hi. unfold rbf_rhs. destruct (Nat.ltb_spec i nt) as [L|L].
    - rewrite mv_row, V, Y by exact L. unfold s. apply Nat.ltb_lt in L. rewrite L. ring.
    - rewrite mv_low by exact L. apply rsum_zero. intros j Hj. unfold s. apply Nat.ltb_lt in Hj. rewrite Hj. ring. }
  rewrite <- V. unfold rbf_value. apply dot_ext; [reflexivity|]. intros i Hi. apply (unique yt); assumption.
Qed.
Lemma reproduces_const a yt sol : deg <> NoPoly -> (forall k, (k < nx)%nat -> d0 k <> 0) -> 0 <= reg -> (reg = 0 -> distinct nx nt xt) -> trend_full_rank ->
  (forall i, (i < nt)%nat -> yt i = a) -> rbf_solves nx nt deg d0 xt reg yt sol -> forall x, val sol x = a.
Proof.
  intros D Hd Hr Hdist F Y S x.
  set (s := fun i => if Nat.eqb i nt then a else 0).
  assert (V : forall y, val s y = a).
  { intros y. rewrite val_split. rewrite (rsum_zero nt).
    - unfold s. rewrite Nat.eqb_refl. destruct deg; [congruence|ring|]. rewrite (rsum_zero nx); [ring|]. intros k Hk.
      replace (Nat.eqb (nt + 1 + k) nt) with false by (symmetry; apply Nat.eqb_neq; lia). ring.
    - intros j Hj. unfold s. replace (Nat.eqb j nt) with false by (symmetry; apply Nat.eqb_neq; lia). ring. }
  assert (S2 : rbf_solves nx nt deg d0 xt reg yt s).
  { intros i Hi. unfold rbf_rhs. destruct (Nat.ltb_spec i nt) as [L|L].
    - rewrite mv_row, V, Y by exact L. unfold s. replace (Nat.eqb i nt) with false by (symmetry; apply Nat.eqb_neq; lia). ring.
    - rewrite mv_low by exact L. apply rsum_zero. intros j Hj. unfold s. replace (Nat.eqb j nt) with false by (symmetry; apply Nat.eqb_neq; lia). ring. }
  rewrite <- (V x). unfold rbf_value. apply dot_ext; [reflexivity|]. intros i Hi. apply (unique yt); assumption.
Qed.
(** derivatives *)
Lemma derivative sol x kx : (kx < nx)%nat -> (forall k, (k < nx)%nat -> d0 k <> 0) -> is_partial (val sol) x kx (rbf_derivative nx nt deg d0 xt sol kx x).
Proof.
  intros Hk Hd. unfold is_partial, rbf_value, rbf_derivative, dot.
  apply (is_derive_rsum dof (fun j t => jac (upd x kx t) j * sol j) (fun j => djac kx x j * sol j)). intros j Hj.
  apply (is_derive_scal_l (fun t => jac (upd x kx t) j) (x kx) (djac kx x j) (sol j)). unfold rbf_jac, rbf_djac.
  destruct (Nat.ltb_spec j nt) as [L|L].
  - unfold rbf_radial. set (g := fun k t => ((upd x kx t k - xt j k) / d0 k) ^ 2).
    assert (G : is_derive (fun t => rsum nx (fun k => g k t)) (x kx) (rsum nx (fun k => if Nat.eqb k kx then 2 * (x kx - xt j kx) / d0 kx ^ 2 else 0))).
    { apply is_derive_rsum. intros k Hk'. unfold g. destruct (Nat.eqb_spec k kx) as [-> | N].
      - apply (is_derive_ext (fun t : R => ((t - xt j kx) / d0 kx) ^ 2)); [intros t; rewrite upd_eq; reflexivity|].
        specialize (Hd kx Hk'). auto_derive; [auto|]. unfold Rdiv. rewrite pow_inv || idtac. field. exact Hd.
      - apply (is_derive_ext (fun t : R => ((x k - xt j k) / d0 k) ^ 2)); [intros t; rewrite upd_neq by exact N; reflexivity|]. apply derive_cst. }
    rewrite (rsum_single nx (fun _ => 2 * (x kx - xt j kx) / d0 kx ^ 2) kx Hk) in G.
    apply (is_derive_ext (fun t : R => exp (- rsum nx (fun k => g k t)))); [intros t; reflexivity|].
    replace (- exp (- rsum nx (fun ix => ((x ix - xt j ix) / d0 ix) ^ 2)) * (2 * (x kx - xt j kx) / d0 kx ^ 2))
      with (- (2 * (x kx - xt j kx) / d0 kx ^ 2) * exp (- rsum nx (fun k => g k (x kx)))).
    + apply (is_derive_comp exp (fun t => - rsum nx (fun k => g k t)) (x kx) (exp (- rsum nx (fun k => g k (x kx)))) (- (2 * (x kx - xt j kx) / d0 kx ^ 2))).
      * apply is_derive_exp.
      * apply (is_derive_opp (fun t => rsum nx (fun k => g k t))). exact G.
    + replace (rsum nx (fun k => g k (x kx))) with (rsum nx (fun ix => ((x ix - xt j ix) / d0 ix) ^ 2)); [ring|].
      apply rsum_ext. intros k Hk'. unfold g. rewrite upd_same. reflexivity.
  - destruct deg.
    + apply derive_cst.
    + apply derive_cst.
    + destruct (Nat.eqb_spec j nt) as [J|J].
      * replace (Nat.eqb j (nt + 1 + kx)) with false by (symmetry; apply Nat.eqb_neq; lia). apply derive_cst.
      * destruct (Nat.eqb_spec j (nt + 1 + kx)) as [-> | J'].
        -- replace (nt + 1 + kx - (nt + 1))%nat with kx by lia. apply (is_derive_ext (fun t : R => t)); [intros t; rewrite upd_eq; reflexivity|]. exact (is_derive_id (x kx)).
        -- apply (is_derive_ext (fun t : R => x (j - (nt + 1))%nat)); [intros t; rewrite upd_neq by lia; reflexivity|]. apply derive_cst.
Qed.
(** output derivatives *)
Lemma output_exact (inv : mat -> mat) solver yt yt' x :
  (forall b i, (i < dof)%nat -> mv dof mtx (solver mtx b) i = b i) ->
  (forall i j, (i < dof)%nat -> (j < dof)%nat -> mm dof (inv mtx) mtx i j = idm i j) ->
  exists D, (forall i, rbf_output_derivative nx nt deg d0 xt inv (rbf_train nx nt deg d0 xt reg None solver yt) x i = Some (D i)) /\
  val (st_sol (rbf_train nx nt deg d0 xt reg None solver yt')) x - val (st_sol (rbf_train nx nt deg d0 xt reg None solver yt)) x = rsum nt (fun i => D i * (yt' i - yt i)).
Proof.
  intros Sv Iv. exists (fun i => dot dof (fun a => inv mtx a i) (jac x)). split; [reflexivity|].
  cbn [rbf_train st_sol]. set (s1 := solver mtx (rbf_rhs nt yt)). set (s2 := solver mtx (rbf_rhs nt yt')).
  assert (E : forall y a, (a < dof)%nat -> solver mtx (rbf_rhs nt y) a = rsum nt (fun i => inv mtx a i * y i)).
  { intros y a Ha. set (s := solver mtx (rbf_rhs nt y)).
    transitivity (mv dof (mm dof (inv mtx) mtx) s a).
    - rewrite <- (mv_id dof s a Ha). apply rsum_ext. intros j Hj. rewrite Iv by assumption. reflexivity.
    - rewrite mv_mm. unfold mv at 1. rewrite (rsum_ext dof _ (fun i => inv mtx a i * rbf_rhs nt y i)) by (intros i Hi; unfold s; rewrite Sv by exact Hi; reflexivity).
      unfold num_dof. rewrite rsum_app, (rsum_zero (num_poly nx deg)).
      + rewrite Rplus_0_r. apply rsum_ext. intros i Hi. unfold rbf_rhs. apply Nat.ltb_lt in Hi. rewrite Hi. reflexivity.
      + intros i Hi. unfold rbf_rhs. replace (Nat.ltb (nt + i) nt) with false by (symmetry; apply Nat.ltb_ge; lia). ring. }
  unfold rbf_value. rewrite <- dot_minus_r. unfold dot.
  transitivity (rsum dof (fun a => rsum nt (fun i => inv mtx a i * jac x a * (yt' i - yt i)))).
  - apply rsum_ext. intros a Ha. unfold s1, s2. rewrite !E by exact Ha. rewrite <- rsum_minus, <- rsum_scal_l. apply rsum_ext. intros. ring.
  - rewrite rsum_swap. apply rsum_ext. intros i Hi. rewrite rsum_scal_r. reflexivity.
Qed.
End Rbf.
