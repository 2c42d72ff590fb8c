From Coq Require Import Reals Arith Bool List Lia Lra.
From Coquelicot Require Import Coquelicot.
From Verif Require Import RSum Mat Psd Psd2 Matern Kernels_M.
Import ListNotations.
Open Scope R_scope.

Lemma sqrt3_pos : 0 < sqrt 3. Proof. apply sqrt_lt_R0. lra. Qed.
Lemma sqrt5_pos : 0 < sqrt 5. Proof. apply sqrt_lt_R0. lra. Qed.
Lemma sqrt3_sq : sqrt 3 * sqrt 3 = 3. Proof. apply sqrt_sqrt. lra. Qed.
Lemma sqrt5_sq : sqrt 5 * sqrt 5 = 5. Proof. apply sqrt_sqrt. lra. Qed.

(** one-dimensional factors *)
Definition kap (c : corr) (l : R) : R :=
  match c with
  | AbsExp | SquarExp | ActExp => exp (- l)
  | Matern52 => (1 + sqrt 5 * l + 5 / 3 * l ^ 2) * exp (- sqrt 5 * l)
  | Matern32 => (1 + sqrt 3 * l) * exp (- sqrt 3 * l)
  end.
Lemma kernel_prod c nc ns theta d : c <> ActExp -> kernel c nc ns theta d None None = rprod nc (fun j => kap c (theta j * d j)).
Proof.
  intros H. destruct c; cbn [kernel kap]; try congruence.
  - unfold k_exp. rewrite <- rsum_opp, <- rprod_exp. reflexivity.
  - unfold k_exp. rewrite <- rsum_opp, <- rprod_exp. reflexivity.
  - unfold k_m52. rewrite rprod_mult. f_equal. rewrite rprod_exp. f_equal. rewrite rsum_scal_l. reflexivity.
  - unfold k_m32. rewrite rprod_mult. f_equal. rewrite rprod_exp. f_equal. rewrite rsum_scal_l. reflexivity.
Qed.
Lemma exp_taylor2 x : 0 <= x -> 1 + x + x ^ 2 / 2 <= exp x.
Proof.
  intros H. destruct (Req_dec x 0) as [-> | N]; [rewrite exp_0; lra|].
  destruct (MVT_cor2 (fun s => exp s - s - s ^ 2 / 2) (fun s => exp s - 1 - s) 0 x ltac:(lra)) as (c & E & Hc).
  - intros c _. apply is_derive_Reals. auto_derive; [exact I|]. field.
  - cbn beta in E. rewrite exp_0 in E. pose proof (exp_ineq1_le c). nra.
Qed.
Lemma kap_bounds c l : 0 <= l -> 0 < kap c l <= 1.
Proof.
  intros H. assert (E : forall z, 0 <= z -> 0 < exp (- z) <= 1).
  { intros z Hz. split; [apply exp_pos|]. rewrite <- exp_0. destruct (Req_dec z 0) as [-> | N]; [rewrite Ropp_0; lra|]. apply Rlt_le, exp_increasing. lra. }
  destruct c; cbn [kap]; try (apply E; exact H).
  - pose proof sqrt5_pos. pose proof sqrt5_sq. set (z := sqrt 5 * l). replace (- sqrt 5 * l) with (- z) by (unfold z; ring). assert (Hz : 0 <= z) by (unfold z; nra).
    replace (5 / 3 * l ^ 2) with (z ^ 2 / 3) by (unfold z; rewrite Rpow_mult_distr; replace (sqrt 5 ^ 2) with 5 by (cbn; lra); field).
    pose proof (exp_taylor2 z Hz). rewrite exp_Ropp. pose proof (exp_pos z). assert (0 <= z ^ 2) by nra. split.
    + apply Rmult_lt_0_compat; [nra|apply Rinv_0_lt_compat; assumption].
    + apply Rmult_le_reg_r with (exp z); [assumption|]. rewrite Rmult_assoc, Rinv_l by lra. lra.
  - pose proof sqrt3_pos. set (z := sqrt 3 * l). replace (- sqrt 3 * l) with (- z) by (unfold z; ring). assert (Hz : 0 <= z) by (unfold z; nra).
    pose proof (exp_ineq1_le z). rewrite exp_Ropp. pose proof (exp_pos z). split.
    + apply Rmult_lt_0_compat; [nra|apply Rinv_0_lt_compat; assumption].
    + apply Rmult_le_reg_r with (exp z); [assumption|]. rewrite Rmult_assoc, Rinv_l by lra. lra.
Qed.
Lemma kap_0 c : kap c 0 = 1.
Proof. destruct c; cbn [kap]; try rewrite Ropp_0, exp_0; try reflexivity; rewrite !Rmult_0_r, exp_0; ring. Qed.
Lemma rprod_bounds n f : (forall i, (i < n)%nat -> 0 < f i <= 1) -> 0 < rprod n f <= 1.
Proof. induction n as [|n IH]; intros H; cbn; [lra|]. specialize (IH ltac:(auto)). specialize (H n ltac:(lia)). nra. Qed.
Lemma comp_dist_nonneg c D j : c <> ActExp -> 0 <= comp_dist c D j.
Proof. intros H. unfold comp_dist. destruct c; try congruence; try apply Rabs_pos. apply pow2_ge_0. Qed.
Lemma comp_dist_sym c x y j : c <> ActExp -> comp_dist c (fun j => x j - y j) j = comp_dist c (fun j => y j - x j) j.
Proof. intros H. unfold comp_dist. destruct c; try congruence; try apply Rabs_minus_sym. ring. Qed.
Lemma corr_prod c nc ns theta x y : c <> ActExp -> corr_of c nc ns theta x y = rprod nc (fun j => kap c (theta j * comp_dist c (fun j => x j - y j) j)).
Proof. intros H. unfold corr_of. apply kernel_prod. exact H. Qed.

(** act_exp is a Gaussian on projected points *)
Definition proj (nc : nat) (theta x : vec) : vec := fun s => rsum nc (fun j => x j * theta (s * nc + j)%nat).
Lemma act_gauss nc ns theta x y : corr_of ActExp nc ns theta x y = gauss ns (fun _ => 1 / 2) (proj nc theta x) (proj nc theta y).
Proof.
  unfold corr_of, kernel, k_act, gauss, comp_dist. f_equal. rewrite <- Ropp_mult_distr_l, <- rsum_scal_l. f_equal. apply rsum_ext. intros s Hs.
  f_equal. f_equal. unfold act_dA, proj. rewrite <- rsum_minus. apply rsum_ext. intros. ring.
Qed.
Lemma gauss_bounds n th x y : (forall k, (k < n)%nat -> 0 <= th k) -> 0 < gauss n th x y <= 1.
Proof.
  intros H. unfold gauss. split; [apply exp_pos|]. rewrite <- exp_0. assert (0 <= rsum n (fun k => th k * (x k - y k) ^ 2)).
  { apply rsum_nonneg. intros k Hk. apply Rmult_le_pos; [apply H; exact Hk|apply pow2_ge_0]. }
  set (z := rsum n _) in *. destruct (Req_dec z 0) as [-> | N]; [rewrite Ropp_0; lra|]. apply Rlt_le, exp_increasing. lra.
Qed.
Lemma corr_bounds c nc ns theta x y : (c <> ActExp -> forall j, (j < nc)%nat -> 0 <= theta j) -> 0 < corr_of c nc ns theta x y <= 1.
Proof.
  intros H. destruct c; try (rewrite corr_prod by congruence; apply rprod_bounds; intros j Hj; apply kap_bounds; apply Rmult_le_pos; [apply H; [congruence|exact Hj]|apply comp_dist_nonneg; congruence]).
  rewrite act_gauss. apply gauss_bounds. intros; lra.
Qed.
Lemma corr_diag c nc ns theta x : corr_of c nc ns theta x x = 1.
Proof.
  destruct c; try (rewrite corr_prod by congruence; apply rprod_one; intros j Hj; unfold comp_dist; rewrite Rminus_eq_0; try rewrite Rabs_R0; try rewrite pow_i by lia; rewrite Rmult_0_r; apply kap_0).
  rewrite act_gauss. unfold gauss. rewrite rsum_zero; [rewrite Ropp_0; apply exp_0|]. intros; ring.
Qed.
Lemma corr_sym c nc ns theta x y : corr_of c nc ns theta x y = corr_of c nc ns theta y x.
Proof.
  destruct c; try (rewrite !corr_prod by congruence; apply rprod_ext; intros j Hj; rewrite comp_dist_sym by congruence; reflexivity).
  rewrite !act_gauss. apply gauss_sym.
Qed.
(** positive semidefinite *)
Lemma good_kap c th : 0 < th -> good1 (fun x y => kap c (th * comp_dist (match c with ActExp => AbsExp | _ => c end) (fun _ => x - y) 0%nat)).
Proof.
  intros H. assert (Ra : forall a x y, 0 < a -> Rabs (a * x - a * y) = a * Rabs (x - y)).
  { intros a x y Ha. rewrite <- Rmult_minus_distr_l, Rabs_mult, (Rabs_right a) by lra. reflexivity. }
  destruct c; cbn [kap]; unfold comp_dist.
  - apply (good1_ext (fun x y => exp (- Rabs (th * x - th * y)))); [intros; rewrite Ra by exact H; reflexivity|]. apply (good1_scale (fun x y => exp (- Rabs (x - y)))); [lra|apply good_exp].
  - apply (good1_ext (fun x y => exp (- (sqrt th * x - sqrt th * y) ^ 2))).
    + intros x y. f_equal. f_equal. rewrite <- Rmult_minus_distr_l, Rpow_mult_distr. f_equal. cbn. rewrite Rmult_1_r. apply sqrt_sqrt. lra.
    + apply (good1_scale (fun x y => exp (- (x - y) ^ 2))); [apply Rgt_not_eq, sqrt_lt_R0, H|apply good_gauss].
  - apply (good1_ext (fun x y => exp (- Rabs (th * x - th * y)))); [intros; rewrite Ra by exact H; reflexivity|]. apply (good1_scale (fun x y => exp (- Rabs (x - y)))); [lra|apply good_exp].
  - pose proof sqrt5_pos as P. apply (good1_ext (fun x y => (1 + Rabs (sqrt 5 * th * x - sqrt 5 * th * y) + Rabs (sqrt 5 * th * x - sqrt 5 * th * y) ^ 2 / 3) * exp (- Rabs (sqrt 5 * th * x - sqrt 5 * th * y)))).
    + intros x y. rewrite Ra by nra. f_equal; [|f_equal; ring]. pose proof sqrt5_sq as Q. replace ((sqrt 5 * th * Rabs (x - y)) ^ 2) with ((sqrt 5 * sqrt 5) * (th * Rabs (x - y)) ^ 2) by ring. rewrite Q. field.
    + apply (good1_scale (fun x y => (1 + Rabs (x - y) + Rabs (x - y) ^ 2 / 3) * exp (- Rabs (x - y)))); [apply Rgt_not_eq; nra|apply good_m52].
  - pose proof sqrt3_pos as P. apply (good1_ext (fun x y => (1 + Rabs (sqrt 3 * th * x - sqrt 3 * th * y)) * exp (- Rabs (sqrt 3 * th * x - sqrt 3 * th * y)))).
    + intros x y. rewrite Ra by nra. f_equal; [ring|f_equal; ring].
    + apply (good1_scale (fun x y => (1 + Rabs (x - y)) * exp (- Rabs (x - y)))); [apply Rgt_not_eq; nra|apply good_m32].
Qed.
Lemma corr_smul c nc ns theta n (p : nat -> vec) : (c <> ActExp -> forall j, (j < nc)%nat -> 0 <= theta j) -> smul n (fun i j => corr_of c nc ns theta (p i) (p j)).
Proof.
  intros H. assert (G : c <> ActExp -> smul n (fun i j => corr_of c nc ns theta (p i) (p j))).
  { intros N. apply (smul_ext n (fun i j => rprod nc (fun k => kap c (theta k * comp_dist c (fun k => p i k - p j k) k)))); [intros; rewrite corr_prod by exact N; reflexivity|].
    apply (smul_rprod n nc (fun k i j => kap c (theta k * comp_dist c (fun k => p i k - p j k) k))). intros k Hk.
    destruct (Req_dec (theta k) 0) as [Z|Z].
    - apply (smul_ext n (fun _ _ => 1)); [intros; rewrite Z, Rmult_0_l, kap_0; reflexivity|]. apply smul_const. lra.
    - destruct (good_kap c (theta k)) as (_ & M & _); [specialize (H N k Hk); lra|]. specialize (M n (fun i => p i k)).
      apply (smul_ext n _ (fun i j => kap c (theta k * comp_dist c (fun k => p i k - p j k) k))) in M; [exact M|]. intros i j _ _. destruct c; try congruence; reflexivity. }
  destruct c; try (apply G; congruence).
  apply (smul_ext n (fun i j => gauss ns (fun _ => 1 / 2) (proj nc theta (p i)) (proj nc theta (p j)))); [intros; rewrite act_gauss; reflexivity|].
  apply (gauss_smul ns (fun _ => 1 / 2) n (fun i => proj nc theta (p i))). intros; lra.
Qed.
Lemma corr_pd c nc ns theta n (p : nat -> vec) : c <> ActExp -> (forall j, (j < nc)%nat -> 0 < theta j) -> distinct nc n p -> mpd n (fun i j => corr_of c nc ns theta (p i) (p j)).
Proof.
  intros N H D. pose proof (product_pd nc (fun k x y => kap c (theta k * comp_dist (match c with ActExp => AbsExp | _ => c end) (fun _ => x - y) 0%nat)) n p (fun d Hd => good_kap c (theta d) (H d Hd)) D) as P.
  intros x W. specialize (P x W). unfold dot, mv in *. erewrite rsum_ext; [exact P|]. intros i Hi. cbn beta. f_equal. apply rsum_ext. intros j Hj. f_equal. rewrite corr_prod by exact N.
  apply rprod_ext. intros k Hk. destruct c; try congruence; reflexivity.
Qed.
Lemma corr_act_pd nc ns theta n (p : nat -> vec) : distinct ns n (fun i => proj nc theta (p i)) -> mpd n (fun i j => corr_of ActExp nc ns theta (p i) (p j)).
Proof.
  intros D. pose proof (gauss_pd ns (fun _ => 1 / 2) n (fun i => proj nc theta (p i)) ltac:(intros; lra) D) as P.
  intros x W. specialize (P x W). unfold dot, mv in *. erewrite rsum_ext; [exact P|]. intros i Hi. cbn beta. f_equal. apply rsum_ext. intros j Hj. f_equal. apply act_gauss.
Qed.
(** PLS *)
Lemma pls_corr c nx ncomp co theta x y : c = AbsExp \/ c = SquarExp ->
  corr_of_pls c nx ncomp co theta x y = corr_of c nx 0 (fun j => rsum ncomp (fun l => theta l * (match c with SquarExp => co j l ^ 2 | _ => Rabs (co j l) end))) x y.
Proof.
  intros H. unfold corr_of_pls, corr_of. destruct H as [-> | ->]; cbn [kernel]; unfold k_exp, comp_dist_pls, comp_dist; do 2 f_equal.
  - rewrite (rsum_ext ncomp _ (fun l => rsum nx (fun j => theta l * Rabs (co j l) * Rabs (x j - y j)))) by (intros; rewrite <- rsum_scal_l; apply rsum_ext; intros; ring).
    rewrite rsum_swap. apply rsum_ext. intros j _. rewrite rsum_scal_r. reflexivity.
  - rewrite (rsum_ext ncomp _ (fun l => rsum nx (fun j => theta l * co j l ^ 2 * (x j - y j) ^ 2))) by (intros; rewrite <- rsum_scal_l; apply rsum_ext; intros; ring).
    rewrite rsum_swap. apply rsum_ext. intros j _. rewrite rsum_scal_r. reflexivity.
Qed.
(** block loops *)
Lemma chunk_loop_spec nb n f : (0 < nb)%nat -> forall fuel i r, (n < (i + fuel) * nb)%nat -> (0 < fuel)%nat ->
  exists r', chunk_loop (S fuel) nb n f i r = Some r' /\ forall p, (p < n)%nat -> r' p = if Nat.ltb p (i * nb) then r p else f p (r p).
Proof.
  intros Hnb. induction fuel as [|fuel IH]; intros i r H Hf; [lia|].
  change (chunk_loop (S (S fuel)) nb n f i r) with (if Nat.leb (i * nb) n
      then chunk_loop (S fuel) nb n f (i + 1) (fun p => if andb (Nat.leb (i * nb) p) (andb (Nat.ltb p ((i + 1) * nb)) (Nat.ltb p n)) then f p (r p) else r p)
      else Some r).
  destruct (Nat.leb_spec (i * nb) n) as [L|L].
  - set (r1 := fun p => if andb (Nat.leb (i * nb) p) (andb (Nat.ltb p ((i + 1) * nb)) (Nat.ltb p n)) then f p (r p) else r p).
    destruct (Nat.eq_dec fuel 0) as [-> | N].
    + cbn [chunk_loop]. replace (Nat.leb ((i + 1) * nb) n) with false by (symmetry; apply Nat.leb_gt; lia). exists r1. split; [reflexivity|]. intros p Hp. unfold r1.
      replace (Nat.ltb p ((i + 1) * nb)) with true by (symmetry; apply Nat.ltb_lt; lia). replace (Nat.ltb p n) with true by (symmetry; apply Nat.ltb_lt; exact Hp).
      destruct (Nat.leb_spec (i * nb) p); destruct (Nat.ltb_spec p (i * nb)); try lia; reflexivity.
    + destruct (IH (i + 1)%nat r1 ltac:(nia) ltac:(lia)) as (r' & E & Q). exists r'. split; [exact E|]. intros p Hp. rewrite Q by exact Hp. unfold r1.
      replace (Nat.ltb p n) with true by (symmetry; apply Nat.ltb_lt; exact Hp). 
      destruct (Nat.ltb_spec p ((i + 1) * nb)); destruct (Nat.leb_spec (i * nb) p); destruct (Nat.ltb_spec p (i * nb)); try nia; reflexivity.
  - exists r. split; [reflexivity|]. intros p Hp. replace (Nat.ltb p (i * nb)) with true by (symmetry; apply Nat.ltb_lt; lia). reflexivity.
Qed.
Lemma chunk_loop_all nb n f r : (0 < nb)%nat -> exists r', chunk_loop (S (n + 1)) nb n f 0 r = Some r' /\ forall p, (p < n)%nat -> r' p = f p (r p).
Proof. intros H. destruct (chunk_loop_spec nb n f H (n + 1) 0 r ltac:(nia) ltac:(lia)) as (r' & E & Q). exists r'. split; [exact E|]. intros p Hp. rewrite Q by exact Hp. reflexivity. Qed.
