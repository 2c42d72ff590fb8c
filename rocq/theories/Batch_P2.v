(** Kriging on n query points. *)
From Coq Require Import Reals ZArith Arith Bool List Lia Lra.
From Verif Require Import RSum Mat Tri_M Tri_P Kernels_M Krg_M Batch_M.
Import ListNotations.
Open Scope list_scope.
Open Scope R_scope.

Lemma rows_loop_spec {A : Type} nb rows (f : nat -> A) : (0 < nb)%nat -> forall fuel i r, (rows < (i + fuel) * nb)%nat -> (0 < fuel)%nat ->
  exists r', rows_loop (S fuel) nb rows f i r = Some r' /\ forall p, (p < rows)%nat -> r' p = if Nat.ltb p (i * nb) then r p else f p.
Proof.
  intros Hnb. induction fuel as [|fuel IH]; intros i r Hf H0; [lia|].
  change (rows_loop (S (S fuel)) nb rows f i r) with (if Nat.leb (i * nb) rows
      then rows_loop (S fuel) nb rows f (i + 1) (fun p => if andb (Nat.leb (i * nb) p) (andb (Nat.ltb p ((i + 1) * nb)) (Nat.ltb p rows)) then f p else r p)
      else Some r).
  destruct (Nat.leb_spec (i * nb) rows) as [L|L].
  - set (r1 := fun p : nat => if andb (Nat.leb (i * nb) p) (andb (Nat.ltb p ((i + 1) * nb)) (Nat.ltb p rows)) then f p else r p).
    assert (V : forall p, (p < rows)%nat -> r1 p = if Nat.ltb p (i * nb) then r p else if Nat.ltb p ((i + 1) * nb) then f p else r p).
    { intros p Hp. unfold r1. replace (Nat.ltb p rows) with true by (symmetry; apply Nat.ltb_lt; exact Hp). rewrite andb_true_r.
      destruct (Nat.leb_spec (i * nb) p); destruct (Nat.ltb_spec p (i * nb)); destruct (Nat.ltb_spec p ((i + 1) * nb)); cbn [andb]; try reflexivity; lia. }
    destruct fuel as [|fuel].
    + cbn [rows_loop]. replace (Nat.leb ((i + 1) * nb) rows) with false by (symmetry; apply Nat.leb_gt; lia).
      exists r1. split; [reflexivity|]. intros p Hp. rewrite V by exact Hp.
      destruct (Nat.ltb_spec p (i * nb)); [reflexivity|]. destruct (Nat.ltb_spec p ((i + 1) * nb)); [reflexivity|lia].
    + destruct (IH (i + 1)%nat r1 ltac:(nia) ltac:(lia)) as (r' & E & Q). exists r'. split; [exact E|].
      intros p Hp. rewrite Q, V by exact Hp.
      destruct (Nat.ltb_spec p (i * nb)); destruct (Nat.ltb_spec p ((i + 1) * nb)); try reflexivity; lia.
  - exists r. split; [reflexivity|]. intros p Hp. replace (Nat.ltb p (i * nb)) with true by (symmetry; apply Nat.ltb_lt; lia). reflexivity.
Qed.
Lemma rows_loop_all {A : Type} rows (f : nat -> A) r :
  exists r', rows_loop (S (rows + 1)) limit rows f 0 r = Some r' /\ forall p, (p < rows)%nat -> r' p = f p.
Proof.
  assert (Hl : (0 < limit)%nat). { unfold limit. change 0%nat with (Z.to_nat 0). apply Z2Nat.inj_lt; lia. }
  destruct (rows_loop_spec limit rows f Hl (rows + 1) 0 r ltac:(nia) ltac:(lia)) as (r' & E & Q).
  exists r'. split; [exact E|]. intros p Hp. rewrite Q by exact Hp. reflexivity.
Qed.
(** row e*nt+i of the reshaped table of differences *)
Lemma differences_row nx nt X Y e i j : (i < nt)%nat -> (j < nx)%nat -> differences nx nt X Y (e * nt + i)%nat j = X e j - Y i j.
Proof.
  intros Hi Hj. unfold differences, rows_of, flat3.
  assert (E1 : (((e * nt + i) * nx + j) / nx = e * nt + i)%nat) by (rewrite Nat.div_add_l, (Nat.div_small j) by lia; lia).
  assert (E2 : (((e * nt + i) * nx + j) mod nx = j)%nat) by (rewrite Nat.add_comm, Nat.mod_add, Nat.mod_small by lia; reflexivity).
  assert (E3 : (((e * nt + i) * nx + j) / (nt * nx) = e)%nat).
  { rewrite (Nat.mul_comm nt nx), <- Nat.div_div by lia. rewrite E1, Nat.div_add_l, (Nat.div_small i) by lia. lia. }
  rewrite E1, E2, E3. replace ((e * nt + i) mod nt)%nat with i by (rewrite Nat.add_comm, Nat.mod_add, Nat.mod_small by lia; reflexivity).
  reflexivity.
Qed.
Lemma comp_dist_at c D D' j : D j = D' j -> comp_dist c D j = comp_dist c D' j.
Proof. intros H. unfold comp_dist. rewrite H. reflexivity. Qed.
Lemma comp_dist_pls_ext c nx co D D' l : (forall j, (j < nx)%nat -> D j = D' j) -> comp_dist_pls c nx co D l = comp_dist_pls c nx co D' l.
Proof. intros H. unfold comp_dist_pls. destruct c; apply rsum_ext; intros j Hj; rewrite (H j Hj); reflexivity. Qed.
Lemma kernel_ext c nc theta d d' : (forall j, (j < nc)%nat -> d j = d' j) -> kernel c nc 0 theta d None None = kernel c nc 0 theta d' None None.
Proof.
  intros H. destruct c; unfold kernel, k_exp, k_m52, k_m32, k_act.
  - f_equal. f_equal. apply rsum_ext. intros j Hj. rewrite (H j Hj). reflexivity.
  - f_equal. f_equal. apply rsum_ext. intros j Hj. rewrite (H j Hj). reflexivity.
  - f_equal.
  - f_equal.
    + apply rprod_ext. intros j Hj. rewrite (H j Hj). reflexivity.
    + f_equal. f_equal. apply rsum_ext. intros j Hj. rewrite (H j Hj). reflexivity.
  - f_equal.
    + apply rprod_ext. intros j Hj. rewrite (H j Hj). reflexivity.
    + f_equal. f_equal. apply rsum_ext. intros j Hj. rewrite (H j Hj). reflexivity.
Qed.
Lemma query_corr_ok s nx nt n Xq Xt : exists r, query_corr s nx nt n Xq Xt = Some r /\
  forall e i, (e < n)%nat -> (i < nt)%nat -> r e i = kf s nx (Xq e) (Xt i).
Proof.
  unfold query_corr. cbn zeta.
  destruct (rows_loop_all (n * nt) (fun p => match s with KStd c _ => comp_dist c (differences nx nt Xq Xt p)
      | KPls c _ co _ => comp_dist_pls c nx co (differences nx nt Xq Xt p) end) (fun _ _ => 0)) as (d & -> & Hd).
  destruct (rows_loop_all (n * nt) (fun p => match s with KStd c theta => kernel c nx 0 theta (d p) None None
      | KPls c ncomp _ theta => kernel c ncomp 0 theta (d p) None None end) (fun _ => 0)) as (r & -> & Hr).
  exists (rows_of nt r). split; [reflexivity|]. intros e i He Hi. unfold rows_of.
  assert (L : (e * nt + i < n * nt)%nat) by nia. rewrite Hr by exact L. unfold kf, kd.
  destruct s as [c theta|c ncomp co theta].
  - apply kernel_ext. intros j Hj. rewrite Hd by exact L. apply comp_dist_at. apply differences_row; assumption.
  - apply kernel_ext. intros j Hj. rewrite Hd by exact L. apply comp_dist_pls_ext. intros q Hq. apply differences_row; assumption.
Qed.
Lemma bsub_ext_b n U b b' k i : (k <= n)%nat -> (forall a, (a < n)%nat -> b a = b' a) -> bsub n U b k i = bsub n U b' k i.
Proof.
  intros Hk H. revert i. induction k as [|k IH]; intros i; [reflexivity|]. cbn [bsub]. cbn zeta. unfold upd.
  rewrite H by lia. rewrite (rsum_ext k _ (fun j => U (n - S k)%nat (S (n - S k) + j)%nat * bsub n U b' k (S (n - S k) + j)%nat))
    by (intros j _; rewrite IH by lia; reflexivity).
  destruct (Nat.eqb i (n - S k)); [reflexivity|apply IH; lia].
Qed.
Section Krg.
Variable m : model.
Lemma values_rows n X : (0 < n)%nat -> exists y, krg_values m n X = Some y /\ forall e, (e < n)%nat -> y e = predict_value m (X e).
Proof.
  intros Hn. unfold krg_values. destruct (Nat.eqb_spec n 0) as [->|_]; [lia|].
  destruct (query_corr_ok (m_k m) (m_nx m) (m_nt m) n (xq m X) (m_Xn m)) as (r & -> & Hr).
  eexists. split; [reflexivity|]. intros e He. cbn beta. unfold predict_value, mv, dot, rvec. cbn zeta.
  f_equal. f_equal. f_equal. apply rsum_ext. intros i Hi. rewrite Hr by assumption. reflexivity.
Qed.
Lemma derivatives_rows n X kx : (0 < n)%nat ->
  match krg_derivatives m n X kx with
  | Some y => forall e, (e < n)%nat -> predict_derivative m (X e) kx = Some (y e)
  | None => forall x, predict_derivative m x kx = None
  end.
Proof.
  intros Hn. unfold krg_derivatives. destruct (Nat.eqb_spec n 0) as [->|_]; [lia|].
  destruct (query_corr_ok (m_k m) (m_nx m) (m_nt m) n (xq m X) (m_Xn m)) as (r & -> & Hr).
  unfold predict_derivative.
  assert (G : forall e, (e < n)%nat -> mv (m_nt m) (fun e i => (xq m X e kx - m_Xn m i kx) * r e i) (p_gamma (m_par m)) e
     = dot (m_nt m) (fun i => (xn m (X e) kx - m_Xn m i kx) * rvec m (X e) i) (p_gamma (m_par m))).
  { intros e He. apply rsum_ext. intros i Hi. rewrite Hr by assumption. reflexivity. }
  destruct (k_corr (m_k m)), (m_poly m); try (intros; reflexivity);
    intros e He; cbn zeta; rewrite G by exact He; reflexivity.
Qed.
Lemma variances_rows n X : (0 < n)%nat -> exists y, krg_variances m n X = Some y /\ forall e, (e < n)%nat -> y e = predict_variance m (X e).
Proof.
  intros Hn. unfold krg_variances. destruct (Nat.eqb_spec n 0) as [->|_]; [lia|].
  destruct (query_corr_ok (m_k m) (m_nx m) (m_nt m) n (xq m X) (m_Xn m)) as (r & -> & Hr).
  eexists. split; [reflexivity|]. intros e He. cbn beta. unfold predict_variance. cbn zeta.
  set (p := n_regr (m_poly m) (m_nx m)).
  assert (A1 : forall i, solve_triangular (m_nt m) (p_C (m_par m)) (fun a => tr r a e) true i = rt m (X e) i).
  { intros i. unfold rt, solve_triangular. apply fsub_ext; [reflexivity|]. intros a Ha. unfold tr. apply Hr; assumption. }
  assert (A2 : forall j, solve_triangular p (tr (p_G (m_par m))) (fun a => rsum (m_nt m) (fun i => tr (p_Ft (m_par m)) a i *
      solve_triangular (m_nt m) (p_C (m_par m)) (fun a => tr r a e) true i) - fvec (m_poly m) (m_nx m) (xq m X e) a) false j
    = solve_triangular p (tr (p_G (m_par m))) (u_rhs m (X e)) false j).
  { intros j. unfold solve_triangular at 1 3. apply bsub_ext_b; [lia|]. intros a Ha. unfold u_rhs, mv. f_equal. apply rsum_ext. intros i _. rewrite A1. reflexivity. }
  rewrite (rsum_ext (m_nt m) _ (fun i => rt m (X e) i * rt m (X e) i)) by (intros i _; rewrite A1; ring).
  rewrite (rsum_ext p _ (fun j => solve_triangular p (tr (p_G (m_par m))) (u_rhs m (X e)) false j * solve_triangular p (tr (p_G (m_par m))) (u_rhs m (X e)) false j))
    by (intros j _; rewrite A2; ring).
  reflexivity.
Qed.
Lemma variance_derivatives_one n X kx : (0 < m_nt m)%nat -> (1 < n)%nat -> krg_variance_derivatives m n X kx = None.
Proof.
  intros Ht Hn. unfold krg_variance_derivatives. destruct (Nat.eqb_spec n 0); [lia|].
  destruct (Nat.eqb_spec (n * m_nt m) (m_nt m)) as [E|_]; [nia|reflexivity].
Qed.
Lemma variance_derivatives_single X kx :
  krg_variance_derivatives m 1 X kx = match predict_variance_derivative m (X 0%nat) kx with Some v => Some (fun _ => v) | None => None end.
Proof. unfold krg_variance_derivatives. rewrite Nat.mul_1_l, Nat.eqb_refl. reflexivity. Qed.
End Krg.
