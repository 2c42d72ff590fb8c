(** C126: what noise in the training outputs does to the predictions. *)
From Coq Require Import Reals Arith Bool List Lia Lra.
From Coquelicot Require Import Coquelicot.
From Verif Require Import RSum Mat Idw_M Idw_P Idw_P2 Poly_M Poly_P Poly_P2 Rbf_M Moe_M Moe_S Moe_P2.
Import ListNotations.
Open Scope list_scope.
Open Scope R_scope.

Lemma idw_diff nx nt p xt yt yt' x : idw_value nx nt p xt yt' x - idw_value nx nt p xt yt x = idw_value nx nt p xt (fun i => yt' i - yt i) x.
Proof. unfold idw_value. rewrite <- rsum_minus. apply rsum_ext. intros. ring. Qed.
Lemma idw_noise nx nt p xt yt yt' x eps : (0 < nt)%nat -> (forall i, (i < nt)%nat -> Rabs (yt' i - yt i) <= eps) ->
  Rabs (idw_value nx nt p xt yt' x - idw_value nx nt p xt yt x) <= eps.
Proof.
  intros N H. rewrite idw_diff. apply Rabs_le. apply value_bounds; [exact N|]. intros i Hi. specialize (H i Hi). apply Rabs_le_between in H. exact H.
Qed.
Lemma idw_monotone nx nt p xt yt yt' x : (0 < nt)%nat -> (forall i, (i < nt)%nat -> yt i <= yt' i) -> idw_value nx nt p xt yt x <= idw_value nx nt p xt yt' x.
Proof.
  intros N H. unfold idw_value. apply rsum_le. intros i Hi. apply Rmult_le_compat_l; [apply (jac_convex nx nt p xt x N); exact Hi|apply H; exact Hi].
Qed.
Lemma smooth_noise k w rv e e' eps : live k w rv -> (forall j, (j < k)%nat -> Rabs (e' j - e j) <= eps) -> Rabs (smooth_value k w rv e' - smooth_value k w rv e) <= eps.
Proof.
  intros L H. replace (smooth_value k w rv e' - smooth_value k w rv e) with (smooth_value k w rv (fun j => e' j - e j)).
  - apply Rabs_le. apply smooth_bounds; [exact L|]. intros j Hj. specialize (H j Hj). apply Rabs_le_between in H. exact H.
  - unfold smooth_value. rewrite <- rsum_minus. apply rsum_ext. intros. ring.
Qed.
(** orthogonal projections do not expand *)
Lemma nonexp nt (h d : vec) : rsum nt (fun e => h e * (h e - d e)) = 0 -> rsum nt (fun e => h e ^ 2) <= rsum nt (fun e => d e ^ 2).
Proof.
  intros Z. assert (P : 0 <= rsum nt (fun e => (h e - d e) ^ 2)) by (apply rsum_nonneg; intros; apply pow2_ge_0).
  assert (E : rsum nt (fun e => d e ^ 2) = rsum nt (fun e => h e ^ 2) + rsum nt (fun e => (h e - d e) ^ 2) - 2 * rsum nt (fun e => h e * (h e - d e))).
  { rewrite <- rsum_plus, <- rsum_scal_l, <- rsum_minus. apply rsum_ext. intros. ring. }
  rewrite Z in E. lra.
Qed.
Lemma ls_noise lstsq nx nt xt yt yt' :
  (forall (X : mat) (y : vec) k, (k < nx)%nat -> mv nt (tr X) (fun e => mv nx X (lstsq nt nx X y) e - y e) k = 0) -> (0 < nt)%nat ->
  rsum nt (fun e => (ls_value nx (ls_fit lstsq nx nt xt yt') (xt e) - ls_value nx (ls_fit lstsq nx nt xt yt) (xt e)) ^ 2) <= rsum nt (fun e => (yt' e - yt e) ^ 2).
Proof.
  intros L N. set (m := ls_fit lstsq nx nt xt yt). set (m' := ls_fit lstsq nx nt xt yt').
  apply (nonexp nt (fun e => ls_value nx m' (xt e) - ls_value nx m (xt e)) (fun e => yt' e - yt e)).
  set (g := fun e => (ls_value nx m' (xt e) - yt' e) - (ls_value nx m (xt e) - yt e)).
  assert (S : rsum nt g = 0) by (unfold g, m, m'; rewrite rsum_minus, (r_sum lstsq nx nt xt yt' N), (r_sum lstsq nx nt xt yt N); ring).
  assert (O : forall k, (k < nx)%nat -> rsum nt (fun e => xt e k * g e) = 0).
  { intros k Hk. unfold g. rewrite (rsum_ext nt _ (fun e => xt e k * (ls_value nx m' (xt e) - yt' e) - xt e k * (ls_value nx m (xt e) - yt e))) by (intros; ring).
    rewrite rsum_minus. unfold m, m'. rewrite (r_orth lstsq nx nt xt yt' L N k Hk), (r_orth lstsq nx nt xt yt L N k Hk). ring. }
  transitivity (rsum nt (fun e => rsum nx (fun k => (fst m' k - fst m k) * (xt e k * g e))) + (snd m' - snd m) * rsum nt g).
  - rewrite <- rsum_scal_l, <- rsum_plus. apply rsum_ext. intros e He.
    rewrite (rsum_ext nx _ (fun k => (xt e k * fst m' k - xt e k * fst m k) * g e)) by (intros; ring). rewrite rsum_scal_r, rsum_minus. unfold g, ls_value, dot. ring.
  - rewrite S, rsum_swap, rsum_zero; [ring|]. intros k Hk. rewrite rsum_scal_l, O by exact Hk. ring.
Qed.
Lemma qp_noise inv dim nt xt yt yt' c c' :
  let n := qp_napp dim in let XtX := mm nt (tr (fun e a => qp_row dim (xt e) a)) (fun e a => qp_row dim (xt e) a) in
  (forall i j, (i < n)%nat -> (j < n)%nat -> mm n XtX (inv XtX) i j = idm i j) ->
  qp_train inv dim nt xt yt = Some c -> qp_train inv dim nt xt yt' = Some c' ->
  rsum nt (fun e => (qp_value dim c' (xt e) - qp_value dim c (xt e)) ^ 2) <= rsum nt (fun e => (yt' e - yt e) ^ 2).
Proof.
  cbv zeta. intros I T T'. unfold qp_train in T, T'. destruct (Nat.ltb (2 * nt) ((dim + 1) * (dim + 2))); [discriminate|]. injection T as T. injection T' as T'.
  set (n := qp_napp dim) in *. set (X := fun e a => qp_row dim (xt e) a) in *.
  assert (V : forall b e, qp_value dim b (xt e) = mv n X b e) by reflexivity.
  assert (N : forall a, (a < n)%nat -> mv nt (tr X) (fun e => mv n X c e - yt e) a = 0) by (rewrite <- T; apply inv_normal; exact I).
  assert (N' : forall a, (a < n)%nat -> mv nt (tr X) (fun e => mv n X c' e - yt' e) a = 0) by (rewrite <- T'; apply inv_normal; exact I).
  apply (nonexp nt (fun e => qp_value dim c' (xt e) - qp_value dim c (xt e)) (fun e => yt' e - yt e)).
  transitivity (rsum nt (fun e => rsum n (fun a => (c' a - c a) * (X e a * (mv n X c' e - yt' e) - X e a * (mv n X c e - yt e))))).
  - apply rsum_ext. intros e He. rewrite !V. rewrite (rsum_ext n _ (fun a => (X e a * c' a - X e a * c a) * ((mv n X c' e - yt' e) - (mv n X c e - yt e)))) by (intros; ring).
    rewrite rsum_scal_r, rsum_minus. change (rsum n (fun a => X e a * c' a)) with (mv n X c' e). change (rsum n (fun a => X e a * c a)) with (mv n X c e). ring.
  - rewrite rsum_swap. apply rsum_zero. intros a Ha. rewrite rsum_scal_l, rsum_minus.
    specialize (N a Ha). specialize (N' a Ha). change (rsum nt (fun e => X e a * (mv n X c e - yt e)) = 0) in N. change (rsum nt (fun e => X e a * (mv n X c' e - yt' e)) = 0) in N'. rewrite N, N'. ring.
Qed.
(** away from the training points a straight line amplifies the noise *)
Lemma ls_amplifies : forall lstsq : nat -> nat -> mat -> vec -> vec,
  (forall (X : mat) (y : vec) k, (k < 1)%nat -> mv 2 (tr X) (fun e => mv 1 X (lstsq 2%nat 1%nat X y) e - y e) k = 0) ->
  ls_value 1 (ls_fit lstsq 1 2 (fun i _ => INR i) (fun i => 2 * INR i - 1)) (fun _ => 2) - ls_value 1 (ls_fit lstsq 1 2 (fun i _ => INR i) (fun _ => 0)) (fun _ => 2) = 3.
Proof.
  intros lstsq L.
  assert (F : forall a' (b' : vec), (forall i, (i < 2)%nat -> a' + rsum 1 (fun k => b' k * (fun i (_ : nat) => INR i) i k) = 0) -> a' = 0 /\ forall k, (k < 1)%nat -> b' k = 0).
  { intros a' b' H. pose proof (H 0%nat ltac:(lia)) as H0. pose proof (H 1%nat ltac:(lia)) as H1. cbn in H0, H1. split; [lra|]. intros k Hk. replace k with 0%nat by lia. lra. }
  rewrite (ls_exact_everywhere lstsq 1 2 (fun i _ => INR i) (fun i => 2 * INR i - 1) L ltac:(lia) (fun _ => 2) (-1) F) by (intros; cbn; ring).
  rewrite (ls_exact_everywhere lstsq 1 2 (fun i _ => INR i) (fun _ => 0) L ltac:(lia) (fun _ => 0) 0 F) by (intros; cbn; ring). cbn. ring.
Qed.
(** RBF amplifies it between the training points *)
Lemma rbf_amplifies : forall sol sol', rbf_solves 1 2 NoPoly (fun _ => 1) (fun i _ => INR i) 0 (fun _ => 0) sol -> rbf_solves 1 2 NoPoly (fun _ => 1) (fun i _ => INR i) 0 (fun _ => 1) sol' ->
  1 < rbf_value 1 2 NoPoly (fun _ => 1) (fun i _ => INR i) sol' (fun _ => 1 / 2) - rbf_value 1 2 NoPoly (fun _ => 1) (fun i _ => INR i) sol (fun _ => 1 / 2).
Proof.
  intros s s' H H'. set (q := exp (- (1 / 4))).
  assert (Q : 3 / 4 < q < 1).
  { unfold q. split; [pose proof (exp_ineq1 (- (1 / 4)) ltac:(lra)); lra|]. pose proof (exp_increasing (- (1 / 4)) 0 ltac:(lra)) as I. rewrite exp_0 in I. exact I. }
  assert (Q4 : exp (-1) = q ^ 4) by (unfold q; cbn [pow]; rewrite Rmult_1_r, <- !exp_plus; f_equal; field).
  assert (M : forall z sol, rbf_solves 1 2 NoPoly (fun _ => 1) (fun i _ => INR i) 0 (fun _ => z) sol -> sol 0%nat + q ^ 4 * sol 1%nat = z /\ q ^ 4 * sol 0%nat + sol 1%nat = z).
  { intros z sol S. pose proof (S 0%nat ltac:(unfold num_dof, num_poly; lia)) as S0. pose proof (S 1%nat ltac:(unfold num_dof, num_poly; lia)) as S1.
    unfold mv, num_dof, num_poly, rbf_mtx, rbf_rhs, rbf_jac, rbf_radial in S0, S1. cbn [Nat.add rsum Nat.ltb Nat.leb Nat.eqb andb INR] in S0, S1.
    assert (E1 : exp (- (0 + ((1 - 0) / 1) ^ 2)) = q ^ 4) by (rewrite <- Q4; f_equal; field). assert (E2 : exp (- (0 + ((0 - 1) / 1) ^ 2)) = q ^ 4) by (rewrite <- Q4; f_equal; field).
    assert (E3 : exp (- (0 + ((0 - 0) / 1) ^ 2)) = 1) by (transitivity (exp 0); [f_equal; field|exact exp_0]). assert (E4 : exp (- (0 + ((1 - 1) / 1) ^ 2)) = 1) by (transitivity (exp 0); [f_equal; field|exact exp_0]).
    change (0 + (exp (- (0 + ((0 - 0) / 1) ^ 2)) + 0) * sol 0%nat + (exp (- (0 + ((1 - 0) / 1) ^ 2)) + 0) * sol 1%nat = z) in S0. change (0 + (exp (- (0 + ((0 - 1) / 1) ^ 2)) + 0) * sol 0%nat + (exp (- (0 + ((1 - 1) / 1) ^ 2)) + 0) * sol 1%nat = z) in S1.
    rewrite E1, E3 in S0. rewrite E2, E4 in S1. lra. }
  assert (V : forall sol, rbf_value 1 2 NoPoly (fun _ => 1) (fun i _ => INR i) sol (fun _ => 1 / 2) = q * (sol 0%nat + sol 1%nat)).
  { intros sol. unfold rbf_value, dot, num_dof, num_poly, rbf_jac, rbf_radial. cbn [Nat.add rsum Nat.ltb Nat.leb INR].
    replace (- (0 + ((1 / 2 - 0) / 1) ^ 2)) with (- (1 / 4)) by field. replace (- (0 + ((1 / 2 - 1) / 1) ^ 2)) with (- (1 / 4)) by field. fold q. ring. }
  destruct (M 0 s H) as (A & B). destruct (M 1 s' H') as (A' & B'). rewrite !V.
  assert (P : 0 < q ^ 4) by (apply pow_lt; lra).
  assert (E : (1 + q ^ 4) * (s 0%nat + s 1%nat) = 0) by (transitivity ((s 0%nat + q ^ 4 * s 1%nat) + (q ^ 4 * s 0%nat + s 1%nat)); [ring|rewrite A, B; ring]).
  assert (E' : (1 + q ^ 4) * (s' 0%nat + s' 1%nat) = 2) by (transitivity ((s' 0%nat + q ^ 4 * s' 1%nat) + (q ^ 4 * s' 0%nat + s' 1%nat)); [ring|rewrite A', B'; ring]).
  assert (Z : s 0%nat + s 1%nat = 0) by (apply Rmult_integral in E; destruct E; lra). rewrite Z.
  assert (K : 1 + q ^ 4 < 2 * q).
  { assert (I : 0 < (1 - q) * (q ^ 3 + q ^ 2 + q - 1)) by (apply Rmult_lt_0_compat; [lra|]; nra). nra. }
  set (t := s' 0%nat + s' 1%nat) in *. assert (T : 0 < t) by nra. nra.
Qed.
