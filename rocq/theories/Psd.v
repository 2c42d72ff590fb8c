(** Positive semidefinite matrices built from kernels.  A matrix is a "Schur multiplier" when its
    entrywise product with every positive semidefinite matrix is positive semidefinite; Schur
    multipliers are positive semidefinite and closed under sums, limits, entrywise products. *)
From Coq Require Import Reals Arith Bool List Lia Lra.
From Coquelicot Require Import Coquelicot.
From Verif Require Import RSum Mat.
Open Scope R_scope.

Lemma mpsd_form n A : mpsd n A <-> forall x, 0 <= rsum n (fun i => rsum n (fun j => x i * x j * A i j)).
Proof.
  assert (E : forall x, dot n x (mv n A x) = rsum n (fun i => rsum n (fun j => x i * x j * A i j))).
  { intros x. unfold dot, mv. apply rsum_ext. intros i Hi. rewrite <- rsum_scal_l. apply rsum_ext. intros. ring. }
  split; intros H x; [rewrite <- E|rewrite E]; apply H.
Qed.
Definition smul (n : nat) (B : mat) : Prop := forall A, mpsd n A -> mpsd n (fun i j => A i j * B i j).
Lemma mpsd_ext n A B : (forall i j, (i < n)%nat -> (j < n)%nat -> A i j = B i j) -> mpsd n A -> mpsd n B.
Proof.
  intros E H. apply mpsd_form. intros x. rewrite mpsd_form in H. specialize (H x).
  rewrite (rsum_ext n _ (fun i => rsum n (fun j => x i * x j * B i j))) in H; [exact H|].
  intros i Hi. apply rsum_ext. intros j Hj. rewrite E by assumption. reflexivity.
Qed.
Lemma smul_ext n A B : (forall i j, (i < n)%nat -> (j < n)%nat -> A i j = B i j) -> smul n A -> smul n B.
Proof. intros E H C HC. apply (mpsd_ext n (fun i j => C i j * A i j)); [intros; rewrite E by assumption; reflexivity|apply H; exact HC]. Qed.
Lemma mpsd_ones n : mpsd n (fun _ _ => 1).
Proof.
  apply mpsd_form. intros x. rewrite (rsum_ext n _ (fun i => x i * rsum n x)).
  - rewrite rsum_scal_r. apply Rle_0_sqr.
  - intros i Hi. rewrite <- rsum_scal_l. apply rsum_ext. intros. ring.
Qed.
Lemma smul_psd n B : smul n B -> mpsd n B.
Proof. intros H. apply (mpsd_ext n (fun i j => 1 * B i j)); [intros; ring|apply H; apply mpsd_ones]. Qed.
Lemma smul_rank1 n v : smul n (fun i j => v i * v j).
Proof.
  intros A HA. rewrite mpsd_form in *. intros x. specialize (HA (fun i => x i * v i)).
  rewrite (rsum_ext n _ (fun i => rsum n (fun j => x i * v i * (x j * v j) * A i j))); [exact HA|].
  intros i Hi. apply rsum_ext. intros. ring.
Qed.
Lemma smul_const n c : 0 <= c -> smul n (fun _ _ => c).
Proof.
  intros Hc A HA. rewrite mpsd_form in *. intros x. specialize (HA x).
  rewrite (rsum_ext n _ (fun i => c * rsum n (fun j => x i * x j * A i j))).
  - rewrite rsum_scal_l. apply Rmult_le_pos; assumption.
  - intros i Hi. rewrite <- rsum_scal_l. apply rsum_ext. intros. ring.
Qed.
Lemma smul_mult n A B : smul n A -> smul n B -> smul n (fun i j => A i j * B i j).
Proof.
  intros HA HB C HC. apply (mpsd_ext n (fun i j => C i j * A i j * B i j)); [intros; ring|]. apply HB. apply HA. exact HC.
Qed.
Lemma smul_plus n A B : smul n A -> smul n B -> smul n (fun i j => A i j + B i j).
Proof.
  intros HA HB C HC. specialize (HA C HC). specialize (HB C HC). rewrite mpsd_form in *. intros x. specialize (HA x). specialize (HB x).
  rewrite (rsum_ext n _ (fun i => rsum n (fun j => x i * x j * (C i j * A i j)) + rsum n (fun j => x i * x j * (C i j * B i j)))).
  - rewrite rsum_plus. lra.
  - intros i Hi. rewrite <- rsum_plus. apply rsum_ext. intros. ring.
Qed.
Lemma smul_rsum n m (K : nat -> mat) : (forall k, (k < m)%nat -> smul n (K k)) -> smul n (fun i j => rsum m (fun k => K k i j)).
Proof.
  induction m as [|m IH]; intros H; cbn [rsum].
  - apply smul_const. lra.
  - apply (smul_plus n (fun i j => rsum m (fun k => K k i j)) (K m)); [apply IH; intros; apply H; lia|apply H; lia].
Qed.
Lemma smul_rprod n m (K : nat -> mat) : (forall k, (k < m)%nat -> smul n (K k)) -> smul n (fun i j => rprod m (fun k => K k i j)).
Proof.
  induction m as [|m IH]; intros H; cbn [rprod].
  - apply smul_const. lra.
  - apply (smul_mult n (fun i j => rprod m (fun k => K k i j)) (K m)); [apply IH; intros; apply H; lia|apply H; lia].
Qed.
Lemma is_lim_seq_rsum n (u : nat -> nat -> R) (l : nat -> R) : (forall i, (i < n)%nat -> is_lim_seq (fun k => u k i) (l i)) ->
  is_lim_seq (fun k => rsum n (u k)) (rsum n l).
Proof.
  induction n as [|n IH]; intros H; cbn [rsum]; [apply is_lim_seq_const|].
  apply is_lim_seq_plus'; [apply IH; intros; apply H; lia|apply H; lia].
Qed.
Lemma smul_lim n (K : nat -> mat) (B : mat) : (forall k, smul n (K k)) ->
  (forall i j, (i < n)%nat -> (j < n)%nat -> is_lim_seq (fun k => K k i j) (B i j)) -> smul n B.
Proof.
  intros H L A HA. rewrite mpsd_form. intros x.
  assert (Q : is_lim_seq (fun k => rsum n (fun i => rsum n (fun j => x i * x j * (A i j * K k i j)))) (rsum n (fun i => rsum n (fun j => x i * x j * (A i j * B i j))))).
  { apply (is_lim_seq_rsum n (fun k i => rsum n (fun j => x i * x j * (A i j * K k i j)))). intros i Hi.
    apply (is_lim_seq_rsum n (fun k j => x i * x j * (A i j * K k i j))). intros j Hj.
    apply (is_lim_seq_ext (fun k => (x i * x j * A i j) * K k i j)); [intros; ring|].
    replace (Finite (x i * x j * (A i j * B i j))) with (Rbar_mult (Finite (x i * x j * A i j)) (Finite (B i j))) by (cbn; f_equal; ring).
    apply is_lim_seq_scal_l. apply L; assumption. }
  apply (is_lim_seq_le (fun _ => 0) (fun k => rsum n (fun i => rsum n (fun j => x i * x j * (A i j * K k i j)))) 0 (rsum n (fun i => rsum n (fun j => x i * x j * (A i j * B i j)))));
    [|apply is_lim_seq_const|exact Q].
  intros k. pose proof (H k A HA) as P. rewrite mpsd_form in P. apply P.
Qed.
(** integrals of Schur multipliers *)
Lemma is_RInt_rsum n (f : nat -> R -> R) (l : nat -> R) a b : (forall i, (i < n)%nat -> is_RInt (f i) a b (l i)) ->
  is_RInt (fun s => rsum n (fun i => f i s)) a b (rsum n l).
Proof.
  induction n as [|n IH]; intros H; cbn [rsum].
  - pose proof (is_RInt_const a b 0) as C. unfold scal in C. cbn in C. unfold mult in C. cbn in C. rewrite Rmult_0_r in C. exact C.
  - apply (is_RInt_plus (fun s => rsum n (fun i => f i s)) (f n)); [apply IH; intros; apply H; lia|apply H; lia].
Qed.
Lemma smul_RInt n (K : R -> mat) (B : mat) a b : a <= b -> (forall s, smul n (K s)) ->
  (forall i j, (i < n)%nat -> (j < n)%nat -> is_RInt (fun s => K s i j) a b (B i j)) -> smul n B.
Proof.
  intros Hab H I A HA. rewrite mpsd_form. intros x.
  assert (Q : is_RInt (fun s => rsum n (fun i => rsum n (fun j => x i * x j * (A i j * K s i j)))) a b (rsum n (fun i => rsum n (fun j => x i * x j * (A i j * B i j))))).
  { apply (is_RInt_rsum n (fun i s => rsum n (fun j => x i * x j * (A i j * K s i j)))). intros i Hi.
    apply (is_RInt_rsum n (fun j s => x i * x j * (A i j * K s i j))). intros j Hj.
    apply (is_RInt_ext (fun s => scal (x i * x j * A i j) (K s i j))).
    - intros s _. unfold scal. cbn. unfold mult. cbn. ring.
    - replace (x i * x j * (A i j * B i j)) with (scal (x i * x j * A i j) (B i j)) by (unfold scal; cbn; unfold mult; cbn; ring).
      apply (is_RInt_scal (fun s => K s i j)). apply I; assumption. }
  apply (is_RInt_le (fun _ => 0) (fun s => rsum n (fun i => rsum n (fun j => x i * x j * (A i j * K s i j)))) a b 0 (rsum n (fun i => rsum n (fun j => x i * x j * (A i j * B i j)))) Hab).
  - pose proof (is_RInt_const a b 0) as C. unfold scal in C. cbn in C. unfold mult in C. cbn in C. rewrite Rmult_0_r in C. exact C.
  - exact Q.
  - intros s _. pose proof (H s A HA) as P. rewrite mpsd_form in P. apply P.
Qed.
(** exponential of a rank-one product, and the Gaussian kernel *)
Lemma smul_exp_prod n v c : 0 <= c -> smul n (fun i j => exp (c * (v i * v j))).
Proof.
  intros Hc. apply (smul_lim n (fun m i j => rsum (S m) (fun k => (c ^ k / INR (fact k)) * (v i ^ k * v j ^ k)))).
  - intros m. apply smul_rsum. intros k Hk.
    apply (smul_mult n (fun _ _ => c ^ k / INR (fact k)) (fun i j => v i ^ k * v j ^ k)); [|apply (smul_rank1 n (fun i => v i ^ k))].
    apply smul_const. apply Rmult_le_pos; [apply pow_le; exact Hc|apply Rlt_le, Rinv_0_lt_compat, lt_0_INR, lt_O_fact].
  - intros i j _ _. set (z := c * (v i * v j)).
    assert (E := is_exp_Reals z). unfold is_pseries in E. unfold is_series in E.
    apply (filterlim_ext (fun m => sum_n (fun k => scal (pow_n z k) (/ INR (fact k))) m)); [|exact E].
    intros m. rewrite sum_n_Reals. induction m as [|m IH].
    + cbn. unfold scal, mult, one. cbn. unfold mult, one. cbn. field.
    + cbn [sum_f_R0]. rewrite IH. cbn [rsum]. f_equal. rewrite pow_n_pow. unfold scal. cbn [ModuleSpace.mixin]. unfold mult. cbn.
      fold (z ^ m). unfold z. unfold mult. cbn. rewrite <- !Rpow_mult_distr || idtac.
      change (c * (v i * v j) * (c * (v i * v j)) ^ m) with ((c * (v i * v j)) ^ S m). rewrite !Rpow_mult_distr. cbn. field. apply not_0_INR. pose proof (lt_O_fact (S m)). cbn in *. lia.
Qed.
