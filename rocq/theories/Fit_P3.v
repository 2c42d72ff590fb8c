(** Proofs for C115: R-square and rounding. *)
From Coq Require Import Reals ZArith Arith Bool List String Lia Lra.
From Verif Require Import RSum Fit_M Fit_S.
Open Scope R_scope.
Lemma eps_pos : 0 < epsilon. Proof. unfold epsilon. apply Rinv_0_lt_compat, pow_lt. lra. Qed.
Lemma Rabs_le_between a b : Rabs a <= b <-> - b <= a <= b.
Proof. split; [|apply Rabs_le]. intros H. pose proof (Rle_abs a). pose proof (Rle_abs (- a)) as H1. rewrite Rabs_Ropp in H1. lra. Qed.
Section S.
Variable m : nat.
Hypothesis Hm : (0 < m)%nat.
Lemma m_pos : 0 < INR m. Proof. apply lt_0_INR. exact Hm. Qed.
Lemma avg_ext v w : (forall i, (i < m)%nat -> v i = w i) -> average m v = average m w.
Proof. intros H. unfold average. rewrite (rsum_ext m v w H). reflexivity. Qed.
Lemma avg_nonneg v : (forall i, (i < m)%nat -> 0 <= v i) -> 0 <= average m v.
Proof. intros H. apply Rmult_le_pos; [apply rsum_nonneg; exact H|apply Rlt_le, Rinv_0_lt_compat, m_pos]. Qed.
(** mean square about any value *)
Lemma sq_about v c : rsum m (fun i => (v i - c) ^ 2) = INR m * (variance m v + (average m v - c) ^ 2).
Proof.
  unfold variance. set (b := average m v). assert (S1 : rsum m v = INR m * b) by (unfold b, average; field; apply Rgt_not_eq, m_pos).
  unfold average. replace (INR m * (rsum m (fun i => (v i - b) ^ 2) / INR m + (b - c) ^ 2)) with (rsum m (fun i => (v i - b) ^ 2) + INR m * (b - c) ^ 2) by (field; apply Rgt_not_eq, m_pos).
  rewrite (rsum_ext m (fun i => (v i - c) ^ 2) (fun i => (v i - b) ^ 2 + (2 * (b - c) * v i + (c ^ 2 - b ^ 2)))) by (intros; ring).
  rewrite rsum_plus, rsum_plus, rsum_scal_l, rsum_const, S1. ring.
Qed.
Lemma var_nonneg v : 0 <= variance m v.
Proof. apply avg_nonneg. intros. apply pow2_ge_0. Qed.
Lemma mean_sq_nonneg p t : 0 <= mean_sq m p t.
Proof. apply avg_nonneg. intros. apply pow2_ge_0. Qed.
Lemma mean_sq_zero p t : mean_sq m p t = 0 <-> forall i, (i < m)%nat -> p i = t i.
Proof.
  unfold mean_sq, average. split.
  - intros H i Hi. assert (Z : rsum m (fun i => (p i - t i) ^ 2) = 0) by (apply (Rmult_eq_reg_r (/ INR m)); [unfold Rdiv in H; lra|apply Rinv_neq_0_compat, Rgt_not_eq, m_pos]).
    pose proof (rsum_zero_inv m (fun i => (p i - t i) ^ 2) (fun j _ => pow2_ge_0 _) Z i Hi) as E. cbn beta in E. rewrite <- Rsqr_pow2 in E. apply Rsqr_eq_0 in E. lra.
  - intros H. rewrite (rsum_ext m _ (fun _ => 0)) by (intros i Hi; rewrite H by exact Hi; ring). rewrite rsum_0. unfold Rdiv. ring.
Qed.
(** errors: mean squared error is squared mean plus variance *)
Lemma bias_variance p t : mean_sq m p t = np_mean m (fun i => p i - t i) ^ 2 + np_std m (fun i => p i - t i) ^ 2.
Proof.
  unfold np_std. rewrite <- Rsqr_pow2 with (x := sqrt _). rewrite Rsqr_sqrt by (change (0 <= variance m (fun i => p i - t i)); apply var_nonneg).
  unfold mean_sq, average. rewrite (rsum_ext m _ (fun i => ((fun i => p i - t i) i - 0) ^ 2)) by (intros; ring). rewrite (sq_about (fun i => p i - t i) 0). unfold np_mean, variance, average. field. apply Rgt_not_eq, m_pos.
Qed.
Section K.
Variables (K : nat) (pred true : arr).
Hypothesis HK : (0 < K)%nat.
Definition overall : R := average K (fun k => average m (true k)).
Lemma overall_eq : np_mean2 K m true = overall.
Proof.
  unfold np_mean2, overall, average. change (fun k => rsum m (fun i => true k i)) with (fun k => rsum m (true k)). rewrite mult_INR. assert (INR K <> 0) by (apply not_0_INR; lia). pose proof m_pos.
  rewrite (rsum_ext K (fun k => rsum m (true k) / INR m) (fun k => rsum m (true k) * / INR m)) by reflexivity. rewrite rsum_scal_r. field. split; [lra|assumption].
Qed.
Lemma rsq_eq k : rsquare K m pred true k = 1 - mean_sq m (pred k) (true k) / (variance m (true k) + (average m (true k) - overall) ^ 2 + epsilon).
Proof.
  unfold rsquare. cbv zeta. rewrite overall_eq, rsum_plus, rsum_const, (sq_about (true k) overall). pose proof (var_nonneg (true k)) as V. pose proof (pow2_ge_0 (average m (true k) - overall)) as P. pose proof eps_pos as E. pose proof m_pos as M.
  assert (Q : rsum m (fun i => (pred k i - true k i) ^ 2) = INR m * mean_sq m (pred k) (true k)) by (unfold mean_sq, average; field; lra). rewrite Q.
  set (A := (average m (true k) - overall) ^ 2) in *. set (W := variance m (true k)) in *. set (q := mean_sq m (pred k) (true k)). f_equal. replace (INR m * (W + A) + INR m * epsilon) with (INR m * (W + A + epsilon)) by ring. field. split; lra.
Qed.
End K.
Lemma rsq_one p t : rsquare 1 m (fun _ => p) (fun _ => t) 0%nat = 1 - mean_sq m p t / (variance m t + epsilon).
Proof.
  rewrite (rsq_eq 1 (fun _ => p) (fun _ => t) ltac:(lia) 0%nat). f_equal. f_equal. f_equal. assert (E : overall 1 (fun _ => t) = average m t) by (unfold overall; unfold average at 1; cbn [rsum INR]; field). rewrite E. ring.
Qed.
Lemma rsq_le p t : rsquare 1 m (fun _ => p) (fun _ => t) 0%nat <= 1.
Proof.
  rewrite rsq_one. assert (0 <= mean_sq m p t / (variance m t + epsilon)); [|lra]. apply Rmult_le_pos; [apply mean_sq_nonneg|]. apply Rlt_le, Rinv_0_lt_compat. pose proof (var_nonneg t). pose proof eps_pos. lra.
Qed.
Lemma rsq_is_one p t : rsquare 1 m (fun _ => p) (fun _ => t) 0%nat = 1 <-> forall i, (i < m)%nat -> p i = t i.
Proof.
  rewrite rsq_one, <- mean_sq_zero. pose proof (var_nonneg t). pose proof eps_pos. split; intros H1.
  - assert (Z : mean_sq m p t / (variance m t + epsilon) = 0) by lra. apply Rmult_integral in Z. destruct Z as [Z|Z]; [exact Z|]. exfalso. revert Z. apply Rinv_neq_0_compat. lra.
  - rewrite H1. unfold Rdiv. ring.
Qed.
Lemma rsq_level p t c : c <= rsquare 1 m (fun _ => p) (fun _ => t) 0%nat <-> mean_sq m p t <= (1 - c) * (variance m t + epsilon).
Proof.
  rewrite rsq_one. pose proof (var_nonneg t). pose proof eps_pos. assert (D : 0 < variance m t + epsilon) by lra. set (d := variance m t + epsilon) in *. set (q := mean_sq m p t). split; intros H1.
  - assert (H2 : q / d <= 1 - c) by lra. apply (Rmult_le_compat_r d) in H2; [|lra]. unfold Rdiv in H2. rewrite Rmult_assoc, Rinv_l, Rmult_1_r in H2 by lra. exact H2.
  - assert (H2 : q / d <= 1 - c); [|lra]. apply (Rmult_le_reg_r d); [exact D|]. unfold Rdiv. rewrite Rmult_assoc, Rinv_l, Rmult_1_r by lra. exact H1.
Qed.
(** several responses at once *)
Lemma rsq_multi K pred true k : (k < K)%nat -> rsquare 1 m (fun _ => pred k) (fun _ => true k) 0%nat <= rsquare K m pred true k /\
  (rsquare 1 m (fun _ => pred k) (fun _ => true k) 0%nat = rsquare K m pred true k <-> (forall i, (i < m)%nat -> pred k i = true k i) \/ average m (true k) = average K (fun k => average m (true k))).
Proof.
  intros Hk. rewrite rsq_one, (rsq_eq K pred true ltac:(lia) k), <- mean_sq_zero. unfold overall. set (A := average m (true k) - average K _). pose proof (var_nonneg (true k)) as V. pose proof eps_pos as E. pose proof (mean_sq_nonneg (pred k) (true k)) as Q. pose proof (pow2_ge_0 A) as P.
  set (q := mean_sq m (pred k) (true k)) in *. set (d := variance m (true k)) in *. split.
  - apply Rplus_le_compat_l, Ropp_le_contravar. apply Rmult_le_compat_l; [exact Q|]. apply Rinv_le_contravar; lra.
  - split; intros H.
    + assert (X : q * (/ (d + epsilon) - / (d + A ^ 2 + epsilon)) = 0) by (unfold Rdiv in H; lra). apply Rmult_integral in X. destruct X as [X|X]; [left; exact X|]. right.
      assert (Y : d + epsilon = d + A ^ 2 + epsilon) by (rewrite <- (Rinv_inv (d + epsilon)), <- (Rinv_inv (d + A ^ 2 + epsilon)); f_equal; lra). assert (Z : A ^ 2 = 0) by lra. rewrite <- Rsqr_pow2 in Z. apply Rsqr_eq_0 in Z. unfold A in Z. lra.
    + destruct H as [-> |H]; [unfold Rdiv; ring|]. assert (Z : A = 0) by (unfold A; lra). rewrite Z. f_equal. f_equal. f_equal. ring.
Qed.
End S.
(** rounding *)
Lemma rint_spec x : Rabs (IZR (rint x) - x) <= / 2 /\ (Rabs (IZR (rint x) - x) = / 2 -> Z.even (rint x) = true).
Proof.
  unfold rint. pose proof (base_Int_part x) as [B1 B2]. set (f := Int_part x) in *. destruct (Rlt_dec (x - IZR f) (/ 2)) as [L|L]; [|destruct (Rlt_dec (/ 2) (x - IZR f)) as [G|G]; [|destruct (Z.even f) eqn:Ev]].
  - rewrite Rabs_left1 by lra. split; [lra|]. intros H. lra.
  - rewrite plus_IZR. rewrite Rabs_right by lra. split; [lra|]. intros H. lra.
  - rewrite Rabs_left1 by lra. split; [lra|]. intros _. exact Ev.
  - rewrite plus_IZR. rewrite Rabs_right by lra. split; [lra|]. intros _. rewrite Z.even_add, Ev. reflexivity.
Qed.
(** nearest with ties to even determines the integer *)
Lemma rint_unique x z : Rabs (IZR z - x) <= / 2 -> (Rabs (IZR z - x) = / 2 -> Z.even z = true) -> rint x = z.
Proof.
  intros A B. destruct (rint_spec x) as [C D]. set (w := rint x) in *. apply Rabs_le_between in A. apply Rabs_le_between in C.
  assert (L : (-1 <= w - z <= 1)%Z) by (split; apply le_IZR; rewrite minus_IZR; lra).
  destruct (Z.eq_dec w z) as [E|N]; [exact E|]. exfalso. assert (H : (w - z = 1 \/ w - z = -1)%Z) by lia.
  assert (EV : Z.even w = true /\ Z.even z = true).
  { destruct H as [H|H]; apply (f_equal IZR) in H; rewrite minus_IZR in H; split; [apply D|apply B|apply D|apply B]; match goal with |- Rabs ?e = _ => assert (e = / 2 \/ e = - / 2) as [-> | ->] by lra end; rewrite ?Rabs_Ropp; apply Rabs_right; lra. }
  destruct EV as [E1 E2]. apply Z.even_spec in E1. apply Z.even_spec in E2. destruct E1 as [a Ea]. destruct E2 as [b Eb]. lia.
Qed.
Lemma round2_near x : Rabs (round2 x - x) <= 1 / 200.
Proof.
  unfold round2. destruct (rint_spec (x * 100)) as [A _]. apply Rabs_le_between in A. apply Rabs_le_between. lra.
Qed.
Lemma round2_one x : x <= 1 -> round2 x <= 1 /\ (round2 x = 1 <-> 995 / 1000 <= x).
Proof.
  intros Hx. unfold round2. destruct (rint_spec (x * 100)) as [A _]. apply Rabs_le_between in A.
  assert (U : (rint (x * 100) < 101)%Z) by (apply lt_IZR; lra). assert (U' : IZR (rint (x * 100)) <= 100) by (apply IZR_le; lia). split; [lra|]. split.
  - intros H. lra.
  - intros H. assert (E : rint (x * 100) = 100%Z) by (apply rint_unique; [apply Rabs_le_between; lra|reflexivity]). rewrite E. lra.
Qed.
