From Coq Require Import Reals Arith Bool List Lia Lra.
From Coquelicot Require Import Coquelicot.
From Verif Require Import RSum Idw_M Idw_P.
Import ListNotations.
Open Scope list_scope.
Open Scope R_scope.
Lemma Rpower_sqr h p : h <> 0 -> Rpower (h ^ 2) (- p / 2) * (Rabs h * Rpower (Rabs h) (p - 1)) = 1.
Proof.
  intros N. assert (P : 0 < Rabs h) by (apply Rabs_pos_lt; exact N).
  replace (h ^ 2) with (Rabs h * Rabs h) by (cbn; rewrite Rmult_1_r; apply Rsqr_abs || (rewrite <- Rabs_mult; apply Rabs_pos_eq; apply Rle_0_sqr)).
  unfold Rpower. rewrite ln_mult by exact P. rewrite <- (exp_ln (Rabs h)) at 3 by exact P.
  rewrite <- !exp_plus. replace (- p / 2 * (ln (Rabs h) + ln (Rabs h)) + (ln (Rabs h) + (p - 1) * ln (Rabs h))) with 0 by field. apply exp_0.
Qed.
Lemma derive_zero_of_bound (f : R -> R) x C q : 0 < q ->
  locally x (fun t => t <> x -> Rabs (f t - f x) <= C * (Rabs (t - x) * Rpower (Rabs (t - x)) q)) -> is_derive f x 0.
Proof.
  intros Hq (d & Hd). apply is_derive_Reals. intros eps He.
  set (K := Rabs C + 1). assert (Kp : 0 < K) by (unfold K; pose proof (Rabs_pos C); lra).
  set (r := Rpower (eps / K) (/ q)). assert (Rp : 0 < r) by apply exp_pos.
  assert (Mp : 0 < Rmin d r) by (apply Rmin_glb_lt; [apply cond_pos|exact Rp]).
  exists (mkposreal _ Mp). intros h Nh Lh. cbn in Lh.
  assert (Ph : 0 < Rabs h) by (apply Rabs_pos_lt; exact Nh).
  assert (B : Rabs (f (x + h) - f x) <= C * (Rabs h * Rpower (Rabs h) q)).
  { specialize (Hd (x + h)). replace (x + h - x) with h in Hd by ring. apply Hd; [|lra].
    unfold ball. cbn. unfold AbsRing_ball, abs, minus, plus, opp. cbn. replace (x + h + - x) with h by ring.
    eapply Rlt_le_trans; [exact Lh|apply Rmin_l]. }
  rewrite Rminus_0_r. unfold Rdiv. rewrite Rabs_mult, Rabs_inv.
  assert (Q : Rpower (Rabs h) q < eps / K).
  { replace (eps / K) with (Rpower r q).
    - apply Rlt_Rpower_l; [exact Hq|]. split; [exact Ph|]. eapply Rlt_le_trans; [exact Lh|apply Rmin_r].
    - unfold r. rewrite Rpower_mult. rewrite Rinv_l by lra. apply Rpower_1. apply Rdiv_lt_0_compat; assumption. }
  apply (Rmult_lt_reg_r (Rabs h)); [exact Ph|]. rewrite Rmult_assoc, Rinv_l by lra. rewrite Rmult_1_r.
  eapply Rle_lt_trans; [exact B|].
  apply Rle_lt_trans with (K * (Rabs h * Rpower (Rabs h) q)).
  - apply Rmult_le_compat_r; [|unfold K; pose proof (Rle_abs C); lra]. apply Rmult_le_pos; [lra|apply Rlt_le, exp_pos].
  - replace (eps * Rabs h) with (K * (Rabs h * (eps / K))) by (field; lra). apply Rmult_lt_compat_l; [exact Kp|]. apply Rmult_lt_compat_l; assumption.
Qed.
Section P.
Variables (nx nt : nat) (p : R) (xt : nat -> nat -> R).
Notation r2 := (idw_r2 nx xt). Notation w := (idw_w nx p xt). Notation on := (on_data nx xt).
Lemma distinct_others x i : on x i -> (forall j, (j < nt)%nat -> j <> i -> ~ (forall k, (k < nx)%nat -> xt j k = xt i k)) -> forall j, (j < nt)%nat -> j <> i -> r2 x j <> 0.
Proof. intros O D j Hj N Z. apply r2_zero in Z. apply (D j Hj N). intros k Hk. rewrite <- (Z k Hk). apply O. exact Hk. Qed.
Lemma w_near x k m : (k < nx)%nat -> r2 x m <> 0 -> locally (x k) (fun t => r2 (upd x k t) m <> 0 /\ w (upd x k t) m <= w x m + 1).
Proof.
  intros Hk N.
  assert (C1 : continuous (fun t => r2 (upd x k t) m) (x k)).
  { apply (continuous_ext (fun t : R => r2 x m - (x k - xt m k) ^ 2 + (t - xt m k) ^ 2)); [intros t; rewrite r2_upd by exact Hk; reflexivity|].
    apply (ex_derive_continuous (fun t : R => r2 x m - (x k - xt m k) ^ 2 + (t - xt m k) ^ 2)). auto_derive. exact I. }
  assert (C2 : continuous (fun t => w (upd x k t) m) (x k)) by (apply (ex_derive_continuous (fun t : R => w (upd x k t) m)); exists (idw_dw nx p xt x k m); apply w_derive; assumption).
  assert (E : r2 (upd x k (x k)) m = r2 x m) by (rewrite r2_upd by exact Hk; ring).
  pose proof (r2_nonneg nx xt x m).
  assert (P1 : 0 < r2 (upd x k (x k)) m) by lra.
  assert (P2 : w (upd x k (x k)) m < w x m + 1) by (unfold idw_w; rewrite E; lra).
  specialize (C1 (fun y => 0 < y) (open_gt 0 _ P1)). specialize (C2 (fun y => y < w x m + 1) (open_lt _ _ P2)). unfold filtermap in *.
  pose proof (filter_and _ _ C1 C2) as L. refine (filter_imp _ _ _ L). intros t (A & B). split; [lra|lra].
Qed.
Lemma value_bound yt x y i : (i < nt)%nat -> (forall j, (j < nt)%nat -> ~ on y j) ->
  (forall j, (j < nt)%nat -> j <> i -> w y j <= w x j + 1) ->
  Rabs (idw_value nx nt p xt yt y - yt i) <= rsum nt (fun j => if Nat.eqb j i then 0 else (w x j + 1) * Rabs (yt j - yt i)) / w y i.
Proof.
  intros Hi F B. rewrite value_off by exact F. pose proof (sum_pos nx nt p xt y ltac:(lia)) as S.
  replace (rsum nt (fun it => w y it * yt it) / rsum nt (w y) - yt i) with (rsum nt (fun j => w y j * (yt j - yt i)) / rsum nt (w y)).
  - unfold Rdiv. rewrite Rabs_mult, Rabs_inv, (Rabs_pos_eq (rsum nt (w y))) by lra.
    assert (A : Rabs (rsum nt (fun j => w y j * (yt j - yt i))) <= rsum nt (fun j => if Nat.eqb j i then 0 else (w x j + 1) * Rabs (yt j - yt i))).
    { eapply Rle_trans; [apply rsum_abs|]. apply rsum_le. intros j Hj. destruct (Nat.eqb_spec j i) as [->|N].
      - replace (yt i - yt i) with 0 by ring. rewrite Rmult_0_r, Rabs_R0. lra.
      - rewrite Rabs_mult, (Rabs_pos_eq (w y j)) by (apply Rlt_le, w_pos). apply Rmult_le_compat_r; [apply Rabs_pos|apply B; assumption]. }
    apply Rmult_le_compat; [apply Rabs_pos|apply Rlt_le, Rinv_0_lt_compat; exact S|exact A|].
    apply Rinv_le_contravar; [apply w_pos|]. apply (rsum_ge_term nt (w y) i); [intros; apply Rlt_le, w_pos|exact Hi].
  - rewrite (rsum_ext nt (fun j => w y j * (yt j - yt i)) (fun j => w y j * yt j - w y j * yt i)) by (intros; ring).
    rewrite rsum_minus, rsum_scal_r. field. lra.
Qed.
Lemma derivative_on yt x k i : (i < nt)%nat -> (k < nx)%nat -> on x i ->
  (forall j, (j < nt)%nat -> j <> i -> ~ (forall k, (k < nx)%nat -> xt j k = xt i k)) -> 1 < p ->
  idw_derivative nx nt p xt yt k x = 0 /\ is_partial (idw_value nx nt p xt yt) x k 0.
Proof.
  intros Hi Hk O D Hp. pose proof (distinct_others x i O D) as N.
  assert (F : forall j, (j < i)%nat -> ~ on x j) by (intros j Hj Oj; apply (N j); [lia|lia|apply r2_zero; exact Oj]).
  split.
  - destruct (min_on nx nt xt x i Hi O F) as (A & _). unfold idw_derivative, idw_djac. rewrite A.
    destruct (Req_EM_T 0 0) as [_|C]; [|lra]. apply rsum_zero. intros. ring.
  - set (C := rsum nt (fun j => if Nat.eqb j i then 0 else (w x j + 1) * Rabs (yt j - yt i))).
    apply (derive_zero_of_bound _ _ C (p - 1)); [lra|].
    assert (L : forall m, (m <= nt)%nat -> locally (x k) (fun t => forall j, (j < m)%nat -> j <> i -> r2 (upd x k t) j <> 0 /\ w (upd x k t) j <= w x j + 1)).
    { induction m as [|m IH]; intros Hm; [apply filter_forall; intros t j Hj; lia|]. specialize (IH ltac:(lia)).
      destruct (Nat.eq_dec m i) as [->|Nm].
      - refine (filter_imp _ _ _ IH). intros t Ht j Hj Nj. apply Ht; [lia|exact Nj].
      - pose proof (w_near x k m Hk (N m ltac:(lia) Nm)) as L0. pose proof (filter_and _ _ L0 IH) as LL. refine (filter_imp _ _ _ LL). intros t (A & B) j Hj Nj.
        destruct (Nat.eq_dec j m) as [->|]; [exact A|apply B; [lia|exact Nj]]. }
    refine (filter_imp _ _ _ (L nt (le_n nt))). intros t Ht Nt.
    assert (V0 : idw_value nx nt p xt yt (upd x k (x k)) = yt i).
    { apply value_on; [exact Hi| |].
      - intros c Hc. rewrite upd_same. apply O. exact Hc.
      - intros j Hj Oj. apply (F j Hj). intros c Hc. rewrite <- (Oj c Hc), upd_same. reflexivity. }
    rewrite V0.
    assert (Ri : r2 (upd x k t) i = (t - x k) ^ 2).
    { rewrite r2_upd by exact Hk. apply r2_zero in O as Z. rewrite Z, (O k Hk). ring. }
    assert (Hh : t - x k <> 0) by lra.
    eapply Rle_trans; [apply (value_bound yt x (upd x k t) i Hi)|].
    + intros j Hj Oj. apply r2_zero in Oj. destruct (Nat.eq_dec j i) as [->|Nj]; [rewrite Ri in Oj; apply (pow_nonzero _ 2) in Hh; contradiction|].
      destruct (Ht j Hj Nj). contradiction.
    + intros j Hj Nj. apply (Ht j Hj Nj).
    + fold C. pose proof (Rpower_sqr (t - x k) p Hh) as E. unfold idw_w. rewrite Ri.
      assert (Pw : 0 < Rpower ((t - x k) ^ 2) (- p / 2)) by apply exp_pos. right.
      revert E Pw. generalize (Rpower ((t - x k) ^ 2) (- p / 2)) (Rabs (t - x k) * Rpower (Rabs (t - x k)) (p - 1)). intros u v E Pu.
      replace (C / u) with (C * (u * v) / u) by (rewrite E; field; lra). field. lra.
Qed.
End P.
(** p = 1: two points 0, 1 with values 0, 1; the surrogate is |t| to the right of 0 *)
Lemma idw_p1_refuted : let xt := fun i (_ : nat) => INR i in let yt := INR in
  idw_derivative 1 2 1 xt yt 0 (fun _ => 0) = 0 /\ ~ is_partial (idw_value 1 2 1 xt yt) (fun _ => 0) 0 0.
Proof.
  intros xt yt. split.
  - destruct (min_on 1 2 xt (fun _ => 0) 0%nat ltac:(lia)) as (A & _); [intros k Hk; reflexivity|intros; lia|].
    unfold idw_derivative, idw_djac. rewrite A. destruct (Req_EM_T 0 0) as [_|C]; [|lra]. apply rsum_zero. intros. ring.
  - intros D. unfold is_partial in D. apply is_derive_Reals in D. destruct (D (1 / 2) ltac:(lra)) as (d & Hd).
    set (h := Rmin (d / 2) (1 / 2)). assert (P : 0 < h) by (apply Rmin_glb_lt; [pose proof (cond_pos d); lra|lra]).
    assert (U : h <= 1 / 2) by apply Rmin_r. assert (L : h < d) by (pose proof (Rmin_l (d / 2) (1 / 2)); pose proof (cond_pos d); unfold h in *; lra).
    specialize (Hd h ltac:(lra) ltac:(rewrite Rabs_pos_eq; lra)).
    assert (V0 : idw_value 1 2 1 xt yt (upd (fun _ => 0) 0 0) = 0).
    { rewrite (value_on 1 2 1 xt yt _ 0%nat); [reflexivity|lia|intros k Hk; replace k with 0%nat by lia; reflexivity|intros; lia]. }
    assert (R0 : idw_r2 1 xt (upd (fun _ => 0) 0 (0 + h)) 0 = h * h) by (unfold idw_r2, upd, xt; cbn; ring).
    assert (R1 : idw_r2 1 xt (upd (fun _ => 0) 0 (0 + h)) 1 = (1 - h) * (1 - h)) by (unfold idw_r2, upd, xt; cbn; ring).
    assert (V1 : idw_value 1 2 1 xt yt (upd (fun _ => 0) 0 (0 + h)) = h).
    { rewrite value_off.
      - assert (RP : forall s, 0 < s -> Rpower (s * s) (- (1) / 2) = / s).
        { intros s Hs. unfold Rpower. rewrite ln_mult by exact Hs. replace (- (1) / 2 * (ln s + ln s)) with (- ln s) by field. rewrite exp_Ropp, exp_ln by exact Hs. reflexivity. }
        cbn [rsum]. unfold idw_w. rewrite R0, R1, !RP by lra. unfold yt. cbn [INR]. field. lra.
      - intros i Hi O. apply (r2_zero 1 xt) in O. destruct i as [|[|i]]; [rewrite R0 in O; nra|rewrite R1 in O; nra|lia]. }
    rewrite V0, V1 in Hd. replace ((h - 0) / h - 0) with 1 in Hd by (field; lra). rewrite Rabs_R1 in Hd. lra.
Qed.
Lemma nonvac26 : idw_value 1 2 2 (fun i _ => INR i) INR (fun _ => 1) = 1.
Proof.
  rewrite (value_on 1 2 2 (fun i _ => INR i) INR (fun _ => 1) 1%nat); [reflexivity|lia|intros k Hk; reflexivity|].
  intros j Hj O. replace j with 0%nat in O by lia. specialize (O 0%nat ltac:(lia)). cbn in O. lra.
Qed.
Lemma nonvac27 : forall i, (i < 2)%nat -> ~ (forall k, (k < 1)%nat -> (fun _ : nat => 1 / 2) k = (fun i (_ : nat) => INR i) i k).
Proof. intros i Hi O. specialize (O 0%nat ltac:(lia)). destruct i as [|[|i]]; cbn in O; [lra|lra|lia]. Qed.
Lemma output_exact nx nt p xt yt yt' x :
  idw_value nx nt p xt yt' x - idw_value nx nt p xt yt x = rsum nt (fun i => idw_output_derivative nx nt p xt x i * (yt' i - yt i)).
Proof. unfold idw_value, idw_output_derivative. rewrite <- rsum_minus. apply rsum_ext. intros. ring. Qed.

Lemma weights_sum nx nt p xt yt x : (0 < nt)%nat ->
  idw_value nx nt p xt yt x = rsum nt (fun i => idw_output_derivative nx nt p xt x i * yt i) /\
  (forall i, (i < nt)%nat -> 0 <= idw_output_derivative nx nt p xt x i) /\
  rsum nt (idw_output_derivative nx nt p xt x) = 1.
Proof.
  intros Hn. split; [reflexivity|]. split.
  - intros i Hi. pose proof (value_bounds nx nt p xt (fun j => if Nat.eqb j i then 1 else 0) x 0 1 Hn) as B.
    assert (H : forall j, (j < nt)%nat -> 0 <= (if Nat.eqb j i then 1 else 0) <= 1) by (intros j _; destruct (Nat.eqb j i); lra).
    specialize (B H). unfold idw_value in B. rewrite (rsum_ext nt _ (fun j => if Nat.eqb j i then idw_jac nx nt p xt x j else 0)) in B.
    + rewrite (rsum_single nt (idw_jac nx nt p xt x) i Hi) in B. exact (proj1 B).
    + intros j Hj. destruct (Nat.eqb j i); ring.
  - pose proof (value_bounds nx nt p xt (fun _ => 1) x 1 1 Hn) as B.
    assert (H : forall j, (j < nt)%nat -> 1 <= 1 <= 1) by (intros; lra). specialize (B H). unfold idw_value in B.
    rewrite (rsum_ext nt _ (idw_jac nx nt p xt x)) in B by (intros; ring). apply Rle_antisym; [exact (proj2 B)|exact (proj1 B)].
Qed.
