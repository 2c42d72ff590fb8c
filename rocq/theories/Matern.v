(** Positive definiteness of the exponential and Matern kernels (half-integer smoothness 1/2, 3/2, 5/2)
    in one dimension, through their integral representation, and of products of one-dimensional
    kernels. *)
From Coq Require Import Reals Arith Bool List Lia Lra.
From Coquelicot Require Import Coquelicot.
From Verif Require Import RSum Mat Psd Psd2.
Import ListNotations.
Open Scope R_scope.

Section OneD.
Variables (m : nat) (cst : R) (Fp : R -> R -> R).
Hypothesis cst_pos : 0 < cst.
Hypothesis Fp_derive : forall u D s, is_derive (fun s => exp (2 * s) * Fp (u - s) D) s (cst * exp (2 * s) * (u - s) ^ m * (u + D - s) ^ m).
Hypothesis Fp_bound : forall D, exists C, forall w, 0 <= w -> Rabs (Fp w D) <= C * exp w.

Definition ph (x : R) : R := if Rle_dec 0 x then x ^ m else 0.
Definition Lk (hi x y : R) : R := let u := Rmin x y in let D := Rabs (x - y) in let v := Rmin u hi in exp (2 * v) * Fp (u - v) D.

Lemma piece lo x y v D : lo <= v -> v <= x -> y = x + D -> 0 <= D ->
  is_RInt (fun s => cst * exp (2 * s) * ph (x - s) * ph (y - s)) lo v (exp (2 * v) * Fp (x - v) D - exp (2 * lo) * Fp (x - lo) D).
Proof.
  intros H1 H2 Hy HD. apply (is_RInt_ext (fun s => cst * exp (2 * s) * (x - s) ^ m * (x + D - s) ^ m)).
  - intros s Hs. rewrite Rmin_left, Rmax_right in Hs by exact H1. unfold ph. destruct (Rle_dec 0 (x - s)); [|lra]. destruct (Rle_dec 0 (y - s)); [|lra]. rewrite Hy. reflexivity.
  - apply (is_RInt_derive (fun s => exp (2 * s) * Fp (x - s) D) (fun s => cst * exp (2 * s) * (x - s) ^ m * (x + D - s) ^ m)).
    + intros s _. apply Fp_derive.
    + intros s _. apply (ex_derive_continuous (fun s : R => cst * exp (2 * s) * (x - s) ^ m * (x + D - s) ^ m)). auto_derive. exact I.
Qed.
Lemma tail_zero x y v hi : v <= hi -> x <= v -> is_RInt (fun s => cst * exp (2 * s) * ph (x - s) * ph (y - s)) v hi 0.
Proof.
  intros H1 H2. apply (is_RInt_ext (fun _ => 0)).
  - intros s Hs. rewrite Rmin_left, Rmax_right in Hs by exact H1. unfold ph. destruct (Rle_dec 0 (x - s)); [lra|]. match goal with |- ?a = ?b => change (@eq R a b) end. ring.
  - pose proof (is_RInt_const v hi 0) as C. unfold scal in C. cbn in C. unfold mult in C. cbn in C. rewrite Rmult_0_r in C. exact C.
Qed.
Lemma whole_le lo hi x y : x <= y -> lo <= Rmin x hi ->
  is_RInt (fun s => cst * exp (2 * s) * ph (x - s) * ph (y - s)) lo hi (Lk hi x y - exp (2 * lo) * Fp (x - lo) (y - x)).
Proof.
  intros Hxy Hlo. unfold Lk. rewrite (Rmin_left x y Hxy), (Rabs_minus_sym x y), (Rabs_right (y - x)) by lra. set (v := Rmin x hi) in *.
  assert (Hv : v <= x) by apply Rmin_l. assert (Hv' : v <= hi) by apply Rmin_r.
  pose proof (piece lo x y v (y - x) Hlo Hv ltac:(ring) ltac:(lra)) as P.
  destruct (Rle_dec x hi) as [L|L].
  - assert (Ev : v = x) by (apply Rmin_left; exact L).
    pose proof (tail_zero x y v hi Hv' ltac:(lra)) as T.
    pose proof (is_RInt_Chasles _ lo v hi _ _ P T) as Q. unfold plus in Q. cbn in Q. rewrite Rplus_0_r in Q. exact Q.
  - assert (Ev : v = hi) by (apply Rmin_right; lra). rewrite Ev in *. exact P.
Qed.
Lemma Lk_sym hi x y : Lk hi x y = Lk hi y x.
Proof. unfold Lk. rewrite (Rmin_comm x y), (Rabs_minus_sym x y). reflexivity. Qed.
Lemma whole lo hi x y : lo <= Rmin (Rmin x y) hi ->
  is_RInt (fun s => cst * exp (2 * s) * ph (x - s) * ph (y - s)) lo hi (Lk hi x y - exp (2 * lo) * Fp (Rmin x y - lo) (Rabs (x - y))).
Proof.
  intros H. destruct (Rle_dec x y) as [L|L].
  - rewrite (Rmin_left x y L) in *. rewrite (Rabs_minus_sym x y), (Rabs_right (y - x)) by lra. apply whole_le; assumption.
  - assert (L' : y <= x) by lra. rewrite (Rmin_right x y L') in *. rewrite (Rabs_right (x - y)) by lra. rewrite Lk_sym.
    apply (is_RInt_ext (fun s => cst * exp (2 * s) * ph (y - s) * ph (x - s))); [intros; match goal with |- ?a = ?b => change (@eq R a b) end; ring|]. apply whole_le; assumption.
Qed.
Lemma tail_lim u D : is_lim_seq (fun k => exp (2 * - INR k) * Fp (u - - INR k) D) 0.
Proof.
  destruct (Fp_bound D) as (C & HC). apply is_lim_seq_abs_0.
  apply (is_lim_seq_le_le_loc (fun _ => 0) _ (fun k => C * exp u * exp (INR k * -1))).
  - destruct (nfloor_ex (Rmax 0 (- u)) (Rmax_l _ _)) as (K & _ & HK). exists (S K). intros k Hk.
    assert (Hw : 0 <= u - - INR k). { apply le_INR in Hk. rewrite S_INR in Hk. pose proof (Rmax_r 0 (- u)). lra. }
    split; [apply Rabs_pos|]. specialize (HC _ Hw). rewrite Rabs_mult, (Rabs_right (exp _)) by (apply Rle_ge, Rlt_le, exp_pos).
    replace (C * exp u * exp (INR k * -1)) with (exp (2 * - INR k) * (C * exp (u - - INR k))).
    + apply Rmult_le_compat_l; [apply Rlt_le, exp_pos|exact HC].
    + replace (u - - INR k) with (u + INR k) by ring. rewrite exp_plus.
      transitivity (C * exp u * (exp (2 * - INR k) * exp (INR k))); [ring|]. rewrite <- exp_plus. do 2 f_equal. ring.
  - apply is_lim_seq_const.
  - replace (Finite 0) with (Rbar_mult (Finite (C * exp u)) (Finite 0)) by (cbn; f_equal; ring). apply is_lim_seq_scal_l. apply exp_neg_lim. lra.
Qed.
Lemma exists_lower n (p : vec) hi : exists K : nat, forall i j, (i < n)%nat -> (j < n)%nat -> - INR K <= Rmin (Rmin (p i) (p j)) hi.
Proof.
  assert (A : exists B, forall i, (i < n)%nat -> B <= p i).
  { induction n as [|n [B IH]]; [exists 0; intros; lia|]. exists (Rmin B (p n)). intros i Hi. destruct (Nat.eq_dec i n) as [-> | N]; [apply Rmin_r|]. eapply Rle_trans; [apply Rmin_l|apply IH; lia]. }
  destruct A as (B & HB). destruct (nfloor_ex (Rmax 0 (- Rmin B hi)) (Rmax_l _ _)) as (K & _ & HK). exists (S K). intros i j Hi Hj.
  rewrite S_INR. pose proof (Rmax_r 0 (- Rmin B hi)). assert (Q : - (INR K + 1) <= Rmin B hi) by lra.
  pose proof (Rmin_l B hi). pose proof (Rmin_r B hi). pose proof (HB i Hi). pose proof (HB j Hj). repeat apply Rmin_glb; lra.
Qed.
Lemma Lk_smul n hi (p : vec) : smul n (fun i j => Lk hi (p i) (p j)).
Proof.
  destruct (exists_lower n p hi) as (K & HK).
  apply (smul_lim n (fun k i j => Lk hi (p i) (p j) - exp (2 * - INR (k + K)) * Fp (Rmin (p i) (p j) - - INR (k + K)) (Rabs (p i - p j)))).
  - intros k. destruct (Nat.eq_dec n 0) as [-> | N0].
    { intros A HA x. unfold dot. cbn. lra. }
    apply (smul_RInt n (fun s i j => cst * exp (2 * s) * ph (p i - s) * ph (p j - s)) _ (- INR (k + K)) hi).
    + pose proof (HK 0%nat 0%nat ltac:(lia) ltac:(lia)) as H. pose proof (Rmin_r (Rmin (p 0%nat) (p 0%nat)) hi). rewrite plus_INR. pose proof (pos_INR k). lra.
    + intros s. apply (smul_ext n (fun i j => (cst * exp (2 * s)) * (ph (p i - s) * ph (p j - s)))); [intros; ring|].
      apply (smul_mult n (fun _ _ => cst * exp (2 * s)) (fun i j => ph (p i - s) * ph (p j - s))); [|apply (smul_rank1 n (fun i => ph (p i - s)))].
      apply smul_const. apply Rmult_le_pos; [lra|apply Rlt_le, exp_pos].
    + intros i j Hi Hj. apply whole. pose proof (HK i j Hi Hj). rewrite plus_INR. pose proof (pos_INR k). lra.
  - intros i j _ _. replace (Finite (Lk hi (p i) (p j))) with (Finite (Lk hi (p i) (p j) - 0)) by (f_equal; ring).
    apply is_lim_seq_minus'; [apply is_lim_seq_const|]. apply (is_lim_seq_incr_n (fun k => exp (2 * - INR k) * Fp (Rmin (p i) (p j) - - INR k) (Rabs (p i - p j))) K). apply tail_lim.
Qed.
(** the kernel *)
Definition kern (x y : R) : R := Fp 0 (Rabs (x - y)) * exp (- Rabs (x - y)).
Definition kt (x y : R) : R := exp (2 * Rmin x y) * Fp 0 (Rabs (x - y)).
Lemma kern_eq x y : kern x y = exp (- x) * exp (- y) * kt x y.
Proof.
  unfold kern, kt. transitivity (Fp 0 (Rabs (x - y)) * (exp (- x) * exp (- y) * exp (2 * Rmin x y))); [|ring]. rewrite <- !exp_plus. f_equal. f_equal.
  unfold Rmin. destruct (Rle_dec x y); [rewrite (Rabs_minus_sym x y), Rabs_right by lra|rewrite Rabs_right by lra]; ring.
Qed.
Lemma kt_L hi x y : Rmin x y <= hi -> kt x y = Lk hi x y.
Proof. intros H. unfold kt, Lk. rewrite (Rmin_left (Rmin x y) hi H). rewrite Rminus_eq_0. reflexivity. Qed.
Lemma exists_upper n (p : vec) : exists B, forall i, (i < n)%nat -> p i <= B.
Proof.
  induction n as [|n [B IH]]; [exists 0; intros; lia|]. exists (Rmax B (p n)). intros i Hi. destruct (Nat.eq_dec i n) as [-> | N]; [apply Rmax_r|]. eapply Rle_trans; [apply IH; lia|apply Rmax_l].
Qed.
Lemma kern_smul n (p : vec) : smul n (fun i j => kern (p i) (p j)).
Proof.
  destruct (exists_upper n p) as (B & HB).
  apply (smul_ext n (fun i j => (exp (- p i) * exp (- p j)) * Lk B (p i) (p j))).
  - intros i j Hi Hj. rewrite kern_eq, (kt_L B); [reflexivity|]. eapply Rle_trans; [apply Rmin_l|apply HB; exact Hi].
  - apply (smul_mult n (fun i j => exp (- p i) * exp (- p j)) (fun i j => Lk B (p i) (p j))); [apply (smul_rank1 n (fun i => exp (- p i)))|apply Lk_smul].
Qed.
Lemma kern_sym x y : kern x y = kern y x.
Proof. unfold kern. rewrite Rabs_minus_sym. reflexivity. Qed.
(** strictness *)
Lemma gain_pos a b : a < b -> exp (2 * a) * Fp (b - a) 0 < exp (2 * b) * Fp 0 0.
Proof.
  intros H. destruct (MVT_cor2 (fun s => exp (2 * s) * Fp (b - s) 0) (fun s => cst * exp (2 * s) * (b - s) ^ m * (b + 0 - s) ^ m) a b H) as (c & E & Hc).
  - intros c _. apply is_derive_Reals. apply Fp_derive.
  - cbn beta in E. rewrite Rminus_eq_0 in E. assert (0 < cst * exp (2 * c) * (b - c) ^ m * (b + 0 - c) ^ m * (b - a)); [|lra].
    apply Rmult_lt_0_compat; [|lra]. apply Rmult_lt_0_compat; [apply Rmult_lt_0_compat; [apply Rmult_lt_0_compat; [exact cst_pos|apply exp_pos]|apply pow_lt; lra]|apply pow_lt; lra].
Qed.
Lemma gap n (p c : vec) i : (forall j, (j < n)%nat -> j <> i -> c j <> 0 -> p j < p i) -> exists a, a < p i /\ forall j, (j < n)%nat -> j <> i -> c j <> 0 -> p j <= a.
Proof.
  induction n as [|n IH]; intros H.
  - exists (p i - 1). split; [lra|]. intros; lia.
  - destruct IH as (a & A1 & A2); [intros; apply H; [lia|assumption|assumption]|].
    destruct (Nat.eq_dec n i) as [E|N].
    + exists a. split; [exact A1|]. intros j Hj Nj Cj. apply A2; [lia|exact Nj|exact Cj].
    + destruct (Req_EM_T (c n) 0) as [Z|Z].
      * exists a. split; [exact A1|]. intros j Hj Nj Cj. destruct (Nat.eq_dec j n) as [-> | Q]; [contradiction|]. apply A2; [lia|exact Nj|exact Cj].
      * exists (Rmax a (p n)). split; [apply Rmax_lub_lt; [exact A1|apply H; [lia|exact N|exact Z]]|]. intros j Hj Nj Cj.
        destruct (Nat.eq_dec j n) as [-> | Q]; [apply Rmax_r|]. eapply Rle_trans; [apply A2; [lia|exact Nj|exact Cj]|apply Rmax_l].
Qed.
Lemma kt_pd n (p : vec) : (forall i j, (i < n)%nat -> (j < n)%nat -> i <> j -> p i <> p j) -> mpd n (fun i j => kt (p i) (p j)).
Proof.
  intros Dp c W. destruct (max_nonzero n c p W) as (i & Hi & Ci & M).
  assert (S1 : forall j, (j < n)%nat -> j <> i -> c j <> 0 -> p j < p i).
  { intros j Hj N Cj. specialize (M j Hj Cj). specialize (Dp j i Hj Hi N). lra. }
  destruct (gap n p c i S1) as (a & Ha & HA).
  set (delta := exp (2 * p i) * Fp 0 0 - exp (2 * a) * Fp (p i - a) 0). pose proof (gain_pos a (p i) Ha) as G.
  assert (E : dot n c (mv n (fun i j => kt (p i) (p j)) c) = dot n c (mv n (fun i j => Lk a (p i) (p j)) c) + c i * c i * delta).
  { unfold dot, mv.
    transitivity (rsum n (fun k => rsum n (fun j => c k * (Lk a (p k) (p j) * c j)) + rsum n (fun j => if Nat.eqb j i then (if Nat.eqb k i then c i * c i * delta else 0) else 0))).
    - apply rsum_ext. intros k Hk. rewrite <- rsum_plus, <- rsum_scal_l. apply rsum_ext. intros j Hj.
      destruct (Req_EM_T (c k) 0) as [Zk|Zk].
      { rewrite Zk. destruct (Nat.eqb_spec j i); [destruct (Nat.eqb_spec k i) as [-> | ]; [contradiction|ring]|ring]. }
      destruct (Req_EM_T (c j) 0) as [Zj|Zj].
      { rewrite Zj. destruct (Nat.eqb_spec j i) as [-> | ]; [contradiction|ring]. }
      destruct (Nat.eqb_spec j i) as [Ej|Nj]; [destruct (Nat.eqb_spec k i) as [Ek|Nk]|].
      + subst j k. unfold delta, kt, Lk. rewrite (Rmin_left (p i) (p i)) by lra. rewrite (Rmin_right (p i) a) by lra. rewrite Rminus_eq_0, Rabs_R0. ring.
      + rewrite (kt_L a); [ring|]. eapply Rle_trans; [apply Rmin_l|]. apply HA; assumption.
      + rewrite (kt_L a); [ring|]. eapply Rle_trans; [apply Rmin_r|]. apply HA; assumption.
    - rewrite rsum_plus. f_equal.
      + apply rsum_ext. intros k Hk. rewrite rsum_scal_l. reflexivity.
      + rewrite rsum_swap. rewrite (rsum_ext n _ (fun j => if Nat.eqb j i then rsum n (fun k => if Nat.eqb k i then c i * c i * delta else 0) else 0)).
        * rewrite (rsum_single n (fun _ => rsum n (fun k => if Nat.eqb k i then c i * c i * delta else 0)) i Hi). apply (rsum_single n (fun _ => c i * c i * delta) i Hi).
        * intros j Hj. destruct (Nat.eqb j i); [reflexivity|apply rsum_0]. }
  rewrite E. pose proof (smul_psd n _ (Lk_smul n a p) c) as P. assert (0 < c i * c i * delta); [|lra].
  apply Rmult_lt_0_compat; [nra|]. unfold delta. lra.
Qed.
Lemma kern_pd n (p : vec) : (forall i j, (i < n)%nat -> (j < n)%nat -> i <> j -> p i <> p j) -> mpd n (fun i j => kern (p i) (p j)).
Proof.
  intros Dp c (i & Hi & Ci). pose proof (kt_pd n p Dp (fun j => c j * exp (- p j))) as P.
  assert (W : exists i, (i < n)%nat /\ c i * exp (- p i) <> 0) by (exists i; split; [exact Hi|]; apply Rmult_integral_contrapositive_currified; [exact Ci|apply Rgt_not_eq, exp_pos]).
  specialize (P W). unfold dot, mv in *. erewrite rsum_ext; [exact P|]. intros k Hk. cbn beta. rewrite <- !rsum_scal_l. apply rsum_ext. intros j Hj. rewrite kern_eq. ring.
Qed.
End OneD.

(** the three kernels, as functions of the scaled distance *)
Definition q0 (D : R) : R := 1.
Definition q1 (D : R) : R := 1 + D.
Definition q2 (D : R) : R := 1 + D + D ^ 2 / 3.
Definition F0 (w D : R) : R := 1.
Definition F1 (w D : R) : R := 2 * w ^ 2 + (2 * D + 2) * w + (D + 1).
Definition F2 (w D : R) : R := 2 / 3 * w ^ 4 + (4 / 3 * D + 4 / 3) * w ^ 3 + (2 / 3 * D ^ 2 + 2 * D + 2) * w ^ 2 + (2 / 3 * D ^ 2 + 2 * D + 2) * w + (D ^ 2 / 3 + D + 1).
Lemma F0_derive u D s : is_derive (fun s : R => exp (2 * s) * F0 (u - s) D) s (2 * exp (2 * s) * (u - s) ^ 0 * (u + D - s) ^ 0).
Proof. unfold F0. auto_derive; [exact I|]. cbn. ring. Qed.
Lemma F1_derive u D s : is_derive (fun s : R => exp (2 * s) * F1 (u - s) D) s (4 * exp (2 * s) * (u - s) ^ 1 * (u + D - s) ^ 1).
Proof. unfold F1. auto_derive; [exact I|]. ring. Qed.
Lemma F2_derive u D s : is_derive (fun s : R => exp (2 * s) * F2 (u - s) D) s (4 / 3 * exp (2 * s) * (u - s) ^ 2 * (u + D - s) ^ 2).
Proof. unfold F2. auto_derive; [exact I|]. field. Qed.
Lemma pow4_exp w : 0 <= w -> (1 + w) ^ 4 <= 256 * exp w.
Proof.
  intros H. assert (E : exp w = exp (w / 4) ^ 4) by (cbn; rewrite Rmult_1_r, <- !exp_plus; f_equal; field).
  rewrite E. assert (P : 1 + w / 4 <= exp (w / 4)) by (apply exp_ineq1_le).
  replace (256 * exp (w / 4) ^ 4) with ((4 * exp (w / 4)) ^ 4) by ring. apply pow_incr. lra.
Qed.
Lemma F0_bound D : exists C, forall w, 0 <= w -> Rabs (F0 w D) <= C * exp w.
Proof.
  exists 1. intros w Hw. unfold F0. rewrite Rabs_R1. pose proof (exp_ineq1_le w). lra.
Qed.
Lemma poly_bound a b c d e w : 0 <= w -> Rabs (a * w ^ 4 + b * w ^ 3 + c * w ^ 2 + d * w + e) <= (Rabs a + Rabs b + Rabs c + Rabs d + Rabs e) * (256 * exp w).
Proof.
  intros H. eapply Rle_trans; [|apply Rmult_le_compat_l; [|apply pow4_exp; exact H]].
  - assert (Q : forall z k, (k <= 4)%nat -> Rabs (z * w ^ k) <= Rabs z * (1 + w) ^ 4).
    { intros z k Hk. rewrite Rabs_mult. apply Rmult_le_compat_l; [apply Rabs_pos|]. rewrite Rabs_right by (apply Rle_ge, pow_le; exact H).
      apply Rle_trans with ((1 + w) ^ k); [apply pow_incr; lra|apply Rle_pow; [lra|exact Hk]]. }
    pose proof (Q a 4%nat ltac:(lia)). pose proof (Q b 3%nat ltac:(lia)). pose proof (Q c 2%nat ltac:(lia)). pose proof (Q d 1%nat ltac:(lia)) as Qd. pose proof (Q e 0%nat ltac:(lia)) as Qe.
    rewrite pow_1 in Qd. rewrite pow_O, Rmult_1_r in Qe.
    eapply Rle_trans; [apply Rabs_triang|]. eapply Rle_trans; [apply Rplus_le_compat_r, Rabs_triang|]. eapply Rle_trans; [apply Rplus_le_compat_r, Rplus_le_compat_r, Rabs_triang|].
    eapply Rle_trans; [apply Rplus_le_compat_r, Rplus_le_compat_r, Rplus_le_compat_r, Rabs_triang|]. lra.
  - pose proof (Rabs_pos a). pose proof (Rabs_pos b). pose proof (Rabs_pos c). pose proof (Rabs_pos d). pose proof (Rabs_pos e). lra.
Qed.
Lemma F1_bound D : exists C, forall w, 0 <= w -> Rabs (F1 w D) <= C * exp w.
Proof.
  eexists. intros w Hw. unfold F1. replace (2 * w ^ 2 + (2 * D + 2) * w + (D + 1)) with (0 * w ^ 4 + 0 * w ^ 3 + 2 * w ^ 2 + (2 * D + 2) * w + (D + 1)) by ring.
  eapply Rle_trans; [apply poly_bound; exact Hw|]. rewrite <- Rmult_assoc. apply Rle_refl.
Qed.
Lemma F2_bound D : exists C, forall w, 0 <= w -> Rabs (F2 w D) <= C * exp w.
Proof. eexists. intros w Hw. unfold F2. eapply Rle_trans; [apply poly_bound; exact Hw|]. rewrite <- Rmult_assoc. apply Rle_refl. Qed.

(** a one-dimensional kernel is good when it is symmetric, a Schur multiplier on every family of
    points and positive definite on distinct points *)
Definition good1 (k : R -> R -> R) : Prop :=
  (forall x y, k x y = k y x) /\ (forall n (p : vec), smul n (fun i j => k (p i) (p j))) /\
  (forall n (p : vec), (forall i j, (i < n)%nat -> (j < n)%nat -> i <> j -> p i <> p j) -> mpd n (fun i j => k (p i) (p j))).
Lemma good1_ext k k' : (forall x y, k x y = k' x y) -> good1 k -> good1 k'.
Proof.
  intros E (S & M & P). split; [|split].
  - intros x y. rewrite <- !E. apply S.
  - intros n p. apply (smul_ext n (fun i j => k (p i) (p j))); [intros; apply E|apply M].
  - intros n p D x W. specialize (P n p D x W). unfold dot, mv in *. erewrite rsum_ext; [exact P|]. intros i Hi. cbn beta. f_equal. apply rsum_ext. intros. rewrite E. reflexivity.
Qed.
Lemma good1_scale k a : a <> 0 -> good1 k -> good1 (fun x y => k (a * x) (a * y)).
Proof.
  intros Ha (S & M & P). split; [intros; apply S|]. split.
  - intros n p. apply (M n (fun i => a * p i)).
  - intros n p D. apply (P n (fun i => a * p i)). intros i j Hi Hj N E. apply (D i j Hi Hj N). apply Rmult_eq_reg_l in E; assumption.
Qed.
Lemma good_exp : good1 (fun x y => exp (- Rabs (x - y))).
Proof.
  apply (good1_ext (kern F0)); [intros; unfold kern, F0; ring|]. split; [apply kern_sym|]. split.
  - intros n p. apply (kern_smul 0 2 F0); [lra|apply F0_derive|apply F0_bound].
  - intros n p. apply (kern_pd 0 2 F0); [lra|apply F0_derive|apply F0_bound].
Qed.
Lemma good_m32 : good1 (fun x y => (1 + Rabs (x - y)) * exp (- Rabs (x - y))).
Proof.
  apply (good1_ext (kern F1)); [intros; unfold kern, F1; ring|]. split; [apply kern_sym|]. split.
  - intros n p. apply (kern_smul 1 4 F1); [lra|apply F1_derive|apply F1_bound].
  - intros n p. apply (kern_pd 1 4 F1); [lra|apply F1_derive|apply F1_bound].
Qed.
Lemma good_m52 : good1 (fun x y => (1 + Rabs (x - y) + Rabs (x - y) ^ 2 / 3) * exp (- Rabs (x - y))).
Proof.
  apply (good1_ext (kern F2)); [intros; unfold kern, F2; field|]. split; [apply kern_sym|]. split.
  - intros n p. apply (kern_smul 2 (4 / 3) F2); [lra|apply F2_derive|apply F2_bound].
  - intros n p. apply (kern_pd 2 (4 / 3) F2); [lra|apply F2_derive|apply F2_bound].
Qed.
Lemma good_gauss : good1 (fun x y => exp (- (x - y) ^ 2)).
Proof.
  apply (good1_ext (fun x y => gauss 1 (fun _ => 1) (fun _ => x) (fun _ => y))).
  - intros x y. unfold gauss. cbn [rsum]. f_equal. ring.
  - split; [intros; apply gauss_sym|]. split.
    + intros n p. apply (gauss_smul 1 (fun _ => 1) n (fun i _ => p i)). intros; lra.
    + intros n p D. apply (gauss_pd 1 (fun _ => 1) n (fun i _ => p i)); [intros; lra|]. intros i j Hi Hj N E. apply (D i j Hi Hj N). apply (E 0%nat). lia.
Qed.

(** products *)
Lemma rsum_lsum_seq n f : rsum n f = lsum f (seq 0 n).
Proof.
  induction n as [|n IH]; [reflexivity|]. rewrite seq_S. cbn [rsum]. rewrite IH. clear IH. induction (seq 0 n) as [|a l IHl]; cbn; [ring|]. cbn in IHl. rewrite <- IHl. ring.
Qed.
Lemma lsum_nth f (l : list R) : lsum f l = rsum (length l) (fun i => f (nth i l 0)).
Proof. induction l as [|a l IH]; [reflexivity|]. cbn [length]. rewrite rsum_S_l. cbn. rewrite <- IH. reflexivity. Qed.
Lemma lsum_pick (l : list R) (g : R -> R) t : NoDup l -> In t l -> lsum (fun v => if Req_EM_T t v then g v else 0) l = g t.
Proof.
  induction l as [|a l IH]; intros ND H; [destruct H|]. inversion ND as [|? ? N1 N2]; subst. cbn. destruct H as [-> | H].
  - destruct (Req_EM_T t t) as [_|C]; [|congruence]. rewrite (lsum_zero _ l); [ring|]. intros v Hv. destruct (Req_EM_T t v) as [-> | _]; [contradiction|reflexivity].
  - destruct (Req_EM_T t a) as [-> | _]; [contradiction|]. rewrite IH by assumption. ring.
Qed.
(** functions k(., t_i) are linearly independent after grouping equal points *)
Lemma grouped_independent k n (t c : vec) : good1 k -> (forall x, rsum n (fun i => c i * k x (t i)) = 0) ->
  forall tau, rsum n (fun i => if Req_EM_T (t i) tau then c i else 0) = 0.
Proof.
  intros (S & _ & P) H tau. set (V := nodup Req_EM_T (map t (seq 0 n))).
  assert (ND : NoDup V) by apply NoDup_nodup.
  assert (In_V : forall i, (i < n)%nat -> In (t i) V). { intros i Hi. apply nodup_In. apply in_map. apply in_seq. lia. }
  set (cv := fun v => rsum n (fun i => if Req_EM_T (t i) v then c i else 0)).
  assert (G : forall x, lsum (fun v => cv v * k x v) V = 0).
  { intros x. rewrite <- (H x). rewrite (lsum_ext _ (fun v => rsum n (fun i => if Req_EM_T (t i) v then c i * k x v else 0))).
    - rewrite lsum_rsum. apply rsum_ext. intros i Hi. apply (lsum_pick V (fun v => c i * k x v) (t i) ND). apply In_V. exact Hi.
    - intros v _. unfold cv. rewrite <- rsum_scal_r. apply rsum_ext. intros i _. destruct (Req_EM_T (t i) v); ring. }
  assert (Z : forall v, In v V -> cv v = 0).
  { intros v Hv. destruct (In_nth V v 0 Hv) as (a & Ha & Ea).
    assert (D : forall i j, (i < length V)%nat -> (j < length V)%nat -> i <> j -> nth i V 0 <> nth j V 0).
    { intros i j Hi Hj N E. apply N. apply (proj1 (NoDup_nth V 0) ND); assumption. }
    pose proof (P (length V) (fun i => nth i V 0) D) as PD.
    destruct (Req_EM_T (cv v) 0) as [E|E]; [exact E|]. exfalso.
    specialize (PD (fun i => cv (nth i V 0))). assert (W : exists i, (i < length V)%nat /\ cv (nth i V 0) <> 0) by (exists a; split; [exact Ha|rewrite Ea; exact E]).
    specialize (PD W). rewrite dot_zero_r in PD; [lra|]. intros i Hi. unfold mv. specialize (G (nth i V 0)). rewrite lsum_nth in G. etransitivity; [|exact G]. apply rsum_ext. intros. cbn beta. ring. }
  destruct (in_dec Req_EM_T tau V) as [Hin|Hout]; [apply Z; exact Hin|].
  apply rsum_zero. intros i Hi. destruct (Req_EM_T (t i) tau) as [E|_]; [|reflexivity]. exfalso. apply Hout. rewrite <- E. apply In_V. exact Hi.
Qed.
Definition eqvb (nx : nat) (p q : vec) : bool := forallb (fun k => if Req_EM_T (p k) (q k) then true else false) (seq 0 nx).
Lemma eqvb_true nx p q : eqvb nx p q = true <-> forall k, (k < nx)%nat -> p k = q k.
Proof.
  unfold eqvb. rewrite forallb_forall. split.
  - intros H k Hk. specialize (H k ltac:(apply in_seq; lia)). destruct (Req_EM_T (p k) (q k)); [assumption|discriminate].
  - intros H k Hk. apply in_seq in Hk. rewrite (H k) by lia. destruct (Req_EM_T (q k) (q k)); [reflexivity|congruence].
Qed.
Lemma eqvb_S nx p q : eqvb (S nx) p q = andb (eqvb nx p q) (if Req_EM_T (p nx) (q nx) then true else false).
Proof. unfold eqvb. rewrite seq_S, forallb_app. cbn. rewrite andb_true_r. reflexivity. Qed.
Lemma product_independent nx (k : nat -> R -> R -> R) : (forall d, (d < nx)%nat -> good1 (k d)) ->
  forall n (p : nat -> vec) c, (forall x, rsum n (fun i => c i * rprod nx (fun d => k d (x d) (p i d))) = 0) ->
  forall q, rsum n (fun i => if eqvb nx (p i) q then c i else 0) = 0.
Proof.
  induction nx as [|nx IH]; intros Hk n p c H q.
  - specialize (H q). cbn in H. rewrite <- H. apply rsum_ext. intros i _. cbn. ring.
  - assert (H1 : forall x tau, rsum n (fun i => (if Req_EM_T (p i nx) tau then c i else 0) * rprod nx (fun d => k d (x d) (p i d))) = 0).
    { intros x tau. rewrite (rsum_ext n _ (fun i => if Req_EM_T (p i nx) tau then c i * rprod nx (fun d => k d (x d) (p i d)) else 0)) by (intros i _; destruct (Req_EM_T (p i nx) tau); ring).
      apply (grouped_independent (k nx) n (fun i => p i nx) (fun i => c i * rprod nx (fun d => k d (x d) (p i d))) (Hk nx ltac:(lia))).
      intros y. specialize (H (upd x nx y)). rewrite <- H. apply rsum_ext. intros i _. cbn [rprod]. rewrite upd_eq.
      rewrite (rprod_ext nx (fun d => k d (upd x nx y d) (p i d)) (fun d => k d (x d) (p i d))) by (intros d Hd; rewrite upd_neq by lia; reflexivity). ring. }
    specialize (IH (fun d Hd => Hk d (Nat.lt_lt_succ_r _ _ Hd)) n p (fun i => if Req_EM_T (p i nx) (q nx) then c i else 0) (fun x => H1 x (q nx)) q).
    etransitivity; [|exact IH]. apply rsum_ext. intros i _. rewrite eqvb_S. destruct (eqvb nx (p i) q), (Req_EM_T (p i nx) (q nx)); reflexivity.
Qed.
Lemma product_smul nx (k : nat -> R -> R -> R) n (p : nat -> vec) : (forall d, (d < nx)%nat -> good1 (k d)) -> smul n (fun i j => rprod nx (fun d => k d (p i d) (p j d))).
Proof. intros H. apply (smul_rprod n nx (fun d i j => k d (p i d) (p j d))). intros d Hd. destruct (H d Hd) as (_ & M & _). apply (M n (fun i => p i d)). Qed.
Lemma product_pd nx (k : nat -> R -> R -> R) n (p : nat -> vec) : (forall d, (d < nx)%nat -> good1 (k d)) -> distinct nx n p ->
  mpd n (fun i j => rprod nx (fun d => k d (p i d) (p j d))).
Proof.
  intros H D c W. set (K := fun x y : vec => rprod nx (fun d => k d (x d) (y d))).
  assert (P0 : forall m (q : nat -> vec), mpsd m (fun i j => K (q i) (q j))) by (intros m q; apply smul_psd; apply product_smul; exact H).
  assert (S0 : forall x y, K x y = K y x). { intros x y. apply rprod_ext. intros d Hd. destruct (H d Hd) as (S & _). apply S. }
  destruct (Rle_lt_or_eq_dec _ _ (P0 n p c)) as [L|E]; [exact L|]. exfalso.
  pose proof (kernel_annihilates K n p c S0 P0 (eq_sym E)) as A. destruct W as (i & Hi & Ci). apply Ci.
  pose proof (product_independent nx k H n p c A (p i)) as Q. rewrite (rsum_ext n _ (fun j => if Nat.eqb j i then c j else 0)) in Q.
  - rewrite (rsum_single n c i Hi) in Q. exact Q.
  - intros j Hj. destruct (Nat.eqb_spec j i) as [-> | N].
    + replace (eqvb nx (p i) (p i)) with true by (symmetry; apply eqvb_true; reflexivity). reflexivity.
    + destruct (eqvb nx (p j) (p i)) eqn:B; [|reflexivity]. exfalso. exact (D j i Hj Hi N (proj1 (eqvb_true _ _ _) B)).
Qed.
