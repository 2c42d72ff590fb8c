From Coq Require Import Reals ZArith Arith Bool List Lia Lra.
From Coquelicot Require Import Coquelicot.
From Verif Require Import RSum Index_M Index_P Rmtb_M Rmtb_S Rmtb_P Rmtb_P2.
Import ListNotations.
Open Scope list_scope.
Open Scope R_scope.

Lemma lprod_ext f g : forall is d, (forall k, (k < length is)%nat -> f (d + k)%nat (nth k is 0%nat) = g (d + k)%nat (nth k is 0%nat)) -> lprod d is f = lprod d is g.
Proof.
  induction is as [|i is IH]; intros d H; cbn; [reflexivity|]. f_equal.
  - specialize (H 0%nat ltac:(cbn; lia)). rewrite Nat.add_0_r in H. exact H.
  - apply IH. intros k Hk. specialize (H (S k) ltac:(cbn; lia)). rewrite Nat.add_succ_r in H. exact H.
Qed.
Lemma lprod_zero f : forall is d k, (k < length is)%nat -> f (d + k)%nat (nth k is 0%nat) = 0 -> lprod d is f = 0.
Proof.
  induction is as [|i is IH]; intros d k H E; cbn in *; [lia|]. destruct k as [|k].
  - rewrite Nat.add_0_r in E. rewrite E. ring.
  - rewrite Nat.add_succ_r in E. rewrite (IH (S d) k); [ring|lia|exact E].
Qed.
Lemma lprod_nonneg f : forall is d, (forall k, (k < length is)%nat -> 0 <= f (d + k)%nat (nth k is 0%nat)) -> 0 <= lprod d is f.
Proof.
  induction is as [|i is IH]; intros d H; cbn; [lra|]. apply Rmult_le_pos.
  - specialize (H 0%nat ltac:(cbn; lia)). rewrite Nat.add_0_r in H. exact H.
  - apply IH. intros k Hk. specialize (H (S k) ltac:(cbn; lia)). rewrite Nat.add_succ_r in H. exact H.
Qed.
Lemma lprod_map (g : nat -> nat) f : forall is ss d, length ss = length is ->
  (forall k, (k < length is)%nat -> nth k ss 0%nat = g (d + k)%nat) ->
  lprod d (map (fun p => (fst p + snd p)%nat) (combine ss is)) f = lprod d is (fun ix i => f ix (g ix + i)%nat).
Proof.
  induction is as [|i is IH]; intros [|s ss] d L H; cbn in L; try discriminate; [reflexivity|].
  cbn [combine map lprod fst snd]. pose proof (H 0%nat ltac:(cbn; lia)) as E. cbn in E. rewrite Nat.add_0_r in E. subst s. f_equal.
  apply IH; [lia|]. intros k Hk. specialize (H (S k) ltac:(cbn; lia)). cbn in H. rewrite Nat.add_succ_r in H. exact H.
Qed.
Lemma not_F2_nth (P : nat -> nat * nat -> Prop) : (forall a b, {P a b} + {~ P a b}) -> forall is l, length is = length l -> ~ Forall2 P is l ->
  exists k, (k < length is)%nat /\ ~ P (nth k is 0%nat) (nth k l (0, 0)%nat).
Proof.
  intros dec. induction is as [|i is IH]; intros [|b l] L N; cbn in L; try discriminate.
  - exfalso. apply N. constructor.
  - destruct (dec i b) as [Y|Y].
    + destruct (IH l ltac:(lia)) as (k & Hk & E). { intros F. apply N. constructor; assumption. }
      exists (S k). split; [cbn; lia|exact E].
    + exists 0%nat. split; [cbn; lia|exact Y].
Qed.

Section Tensor.
Variables (orders ncps : list nat).
Hypothesis Hdim : Forall2 (fun o n => (1 <= o <= n)%nat) orders ncps.
Let nx := length orders.
Lemma ncps_length : length ncps = nx.
Proof. symmetry. eapply F2_length. exact Hdim. Qed.
Lemma dim_ok ix : (ix < nx)%nat -> (1 <= nth ix orders 0 <= nth ix ncps 0)%nat.
Proof. intros H. apply (F2_nth (fun o n => (1 <= o <= n)%nat) 0%nat 0%nat _ _ Hdim). rewrite ncps_length. exact H. Qed.

Notation O ix := (nth ix orders 0%nat).
Notation NC ix := (nth ix ncps 0%nat).
Definition start (p : nat -> R) (ix : nat) : Z := compute_i_start (O ix) (NC ix) (knots_uniform (O ix) (NC ix)) (p ix).

(** factor of dimension [ix] for control point [i] *)
Definition fac0 (p : nat -> R) (ix i : nat) : R := bspline (uniform_knots (O ix) (NC ix)) (O ix - 1) (Z.of_nat i) (p ix).
Definition fac1 (p : nat -> R) (ix i : nat) : R := dpiece (O ix) (knots_uniform (O ix) (NC ix)) (start p ix) (O ix - 1) (Z.of_nat i) (p ix).
Definition fac2 (p : nat -> R) (ix i : nat) : R := d2piece (O ix) (knots_uniform (O ix) (NC ix)) (start p ix) (O ix - 1) (Z.of_nat i) (p ix).
Definition fac (ix1 ix2 : nat) (p : nat -> R) (ix i : nat) : R :=
  if Nat.eqb (S ix) ix1 then (if Nat.eqb (S ix) ix2 then fac2 p ix i else fac1 p ix i)
  else if Nat.eqb (S ix) ix2 then fac1 p ix i else fac0 p ix i.

Lemma dim_basis_fst ix1 ix2 p ix : fst (dim_basis orders ncps ix1 ix2 p ix) = start p ix.
Proof.
  unfold dim_basis, choose_basis, start. destruct (Nat.eqb (S ix) ix1), (Nat.eqb (S ix) ix2); reflexivity.
Qed.
Lemma start_range p ix : (ix < nx)%nat -> 0 <= p ix < 1 -> (0 <= start p ix)%Z /\ (Z.to_nat (start p ix) + O ix <= NC ix)%nat.
Proof.
  intros H Hp. pose proof (dim_ok ix H) as D. destruct (dim_start (O ix) (NC ix) (p ix) D Hp) as (A & _). fold (start p ix) in A. lia.
Qed.
Lemma dim_basis_snd ix1 ix2 p ix j : (ix < nx)%nat -> 0 <= p ix < 1 -> (j < O ix)%nat ->
  snd (dim_basis orders ncps ix1 ix2 p ix) j = fac ix1 ix2 p ix (Z.to_nat (start p ix) + j)%nat.
Proof.
  intros H Hp Hj. pose proof (dim_ok ix H) as D. destruct (dim_start (O ix) (NC ix) (p ix) D Hp) as (A & B). fold (start p ix) in A, B.
  assert (I : forall i j, (i < j)%Z -> knots_uniform (O ix) (NC ix) i < knots_uniform (O ix) (NC ix) j) by (apply knots_inc; lia).
  assert (E : (Z.of_nat (Z.to_nat (start p ix) + j) = start p ix + Z.of_nat j)%Z) by lia.
  unfold dim_basis, choose_basis, fac, fac0, fac1, fac2. rewrite E.
  destruct (Nat.eqb (S ix) ix1), (Nat.eqb (S ix) ix2); cbn [snd compute_basis_0 compute_basis_1 compute_basis_2].
  - apply basis_2_spec; [exact I|lia|exact B|exact Hj].
  - apply basis_1_spec; [exact I|lia|exact B|exact Hj].
  - apply basis_1_spec; [exact I|lia|exact B|exact Hj].
  - apply dim_basis0; [lia|exact Hp|exact Hj].
Qed.
Lemma fac_supp ix1 ix2 p ix i : (ix < nx)%nat -> 0 <= p ix < 1 ->
  ~ (Z.to_nat (start p ix) <= i < Z.to_nat (start p ix) + O ix)%nat -> fac ix1 ix2 p ix i = 0.
Proof.
  intros H Hp N. pose proof (dim_ok ix H) as D. destruct (dim_start (O ix) (NC ix) (p ix) D Hp) as (A & B). fold (start p ix) in A, B.
  unfold fac, fac0, fac1, fac2. destruct (Nat.eqb (S ix) ix1), (Nat.eqb (S ix) ix2).
  - apply d2piece_supp; lia.
  - apply dpiece_supp; lia.
  - apply dpiece_supp; lia.
  - apply dim_supp; [lia|exact Hp|]. fold (start p ix). lia.
Qed.

Definition grid_sum (F : nat -> nat -> R) (coef : Z -> R) : R :=
  msum ncps (fun is => lprod 0 is F * coef (Z.of_nat (contract_index ncps is))).

Lemma jac_sum ix1 ix2 p coef : (forall ix, (ix < nx)%nat -> 0 <= p ix < 1) ->
  rsum (prodl orders) (fun inz => jac_data orders ncps ix1 ix2 p inz * coef (jac_col orders ncps ix1 ix2 p inz)) = grid_sum (fac ix1 ix2 p) coef.
Proof.
  intros Hp.
  set (ss := map (fun ix => Z.to_nat (start p ix)) (seq 0 nx)).
  assert (Lss : length ss = nx) by (unfold ss; rewrite map_length, seq_length; reflexivity).
  assert (Nss : forall k, (k < nx)%nat -> nth k ss 0%nat = Z.to_nat (start p k)).
  { intros k Hk. unfold ss. set (f := fun ix => Z.to_nat (start p ix)). rewrite (nth_indep _ 0%nat (f 0%nat)) by (rewrite map_length, seq_length; exact Hk).
    rewrite map_nth, seq_nth by exact Hk. reflexivity. }
  transitivity (msum orders (fun is => lprod 0 (map (fun q => (fst q + snd q)%nat) (combine ss is)) (fac ix1 ix2 p)
        * coef (Z.of_nat (contract_index ncps (map (fun q => (fst q + snd q)%nat) (combine ss is)))))).
  - rewrite <- (msum_expand orders (fun is => lprod 0 (map (fun q => (fst q + snd q)%nat) (combine ss is)) (fac ix1 ix2 p)
        * coef (Z.of_nat (contract_index ncps (map (fun q => (fst q + snd q)%nat) (combine ss is)))))).
    apply rsum_ext. intros inz Hinz. f_equal.
    + rewrite jac_data_lprod. rewrite (lprod_map (fun ix => Z.to_nat (start p ix))).
      * apply lprod_ext. rewrite expand_length. intros k Hk. cbn [Nat.add]. apply dim_basis_snd; [exact Hk|apply Hp; exact Hk|].
        apply (F2_nth lt 0%nat 0%nat _ _ (expand_bounds orders inz Hinz) k Hk).
      * rewrite expand_length. exact Lss.
      * rewrite expand_length. intros k Hk. apply Nss. exact Hk.
    + f_equal. rewrite jac_col_contract; [|rewrite ncps_length; reflexivity|].
      * unfold ss, nx. do 3 f_equal. f_equal. apply map_ext. intros ix. rewrite dim_basis_fst. reflexivity.
      * intros ix Hix. rewrite dim_basis_fst. apply (start_range p ix Hix (Hp ix Hix)).
  - unfold grid_sum. apply (msum_restrict orders ncps ss (fun is => lprod 0 is (fac ix1 ix2 p) * coef (Z.of_nat (contract_index ncps is)))).
    + assert (G : forall d os ns, Forall2 (fun o n => (1 <= o <= n)%nat) os ns -> (forall k, (k < length os)%nat -> (Z.to_nat (start p (d + k)) + nth k os 0 <= nth k ns 0)%nat) ->
         Forall2 (fun sn m => (fst sn + snd sn <= m)%nat) (combine (map (fun ix => Z.to_nat (start p ix)) (seq d (length os))) os) ns).
      { intros d os ns H. revert d. induction H as [|o n os ns _ H IH]; intros d Hk; cbn; constructor.
        - specialize (Hk 0%nat ltac:(cbn; lia)). rewrite Nat.add_0_r in Hk. exact Hk.
        - apply IH. intros k L. specialize (Hk (S k) ltac:(cbn; lia)). rewrite Nat.add_succ_r in Hk. exact Hk. }
      apply (G 0%nat orders ncps Hdim). intros k Hk. cbn [Nat.add]. apply (start_range p k Hk (Hp k Hk)).
    + exact Lss.
    + intros is His N. pose proof (F2_length _ _ _ His) as Lis. rewrite ncps_length in Lis.
      destruct (not_F2_nth (fun i sn => (fst sn <= i < fst sn + snd sn)%nat)) with (is := is) (l := combine ss orders) as (k & Hk & E).
      * intros a b. destruct (le_dec (fst b) a); [|right; lia]. destruct (lt_dec a (fst b + snd b)); [left; lia|right; lia].
      * rewrite combine_length, Lss. unfold nx in *. lia.
      * exact N.
      * assert (k < nx)%nat by lia.
        rewrite (lprod_zero _ _ _ k); [ring|exact Hk|]. cbn [Nat.add]. apply fac_supp; [exact H|apply Hp; exact H|].
        intros C. apply E. rewrite combine_nth by exact Lss. cbn [fst snd]. rewrite Nss by exact H. exact C.
Qed.
Lemma jac_col_range ix1 ix2 p inz : (forall ix, (ix < nx)%nat -> 0 <= p ix < 1) -> (inz < prodl orders)%nat ->
  (0 <= jac_col orders ncps ix1 ix2 p inz < Z.of_nat (prodl ncps))%Z.
Proof.
  intros Hp Hi. rewrite jac_col_contract; [|rewrite ncps_length; reflexivity|].
  - split; [lia|]. apply Nat2Z.inj_lt. apply contract_lt.
    assert (G : forall d os ns is, Forall2 (fun o n => (1 <= o <= n)%nat) os ns -> Forall2 lt is os ->
        (forall k, (k < length os)%nat -> (Z.to_nat (fst (dim_basis orders ncps ix1 ix2 p (d + k))) + nth k os 0 <= nth k ns 0)%nat) ->
        Forall2 lt (map (fun q => (fst q + snd q)%nat) (combine (map (fun ix => Z.to_nat (fst (dim_basis orders ncps ix1 ix2 p ix))) (seq d (length os))) is)) ns).
    { intros d os ns is H. revert d is. induction H as [|o n os ns _ H IH]; intros d is Hl Hk; inversion Hl as [|i ? is' ? Hi1 Hi2]; subst; cbn; constructor.
      - specialize (Hk 0%nat ltac:(cbn; lia)). rewrite Nat.add_0_r in Hk. cbn in Hk |- *. lia.
      - apply IH; [exact Hi2|]. intros k L. specialize (Hk (S k) ltac:(cbn; lia)). rewrite Nat.add_succ_r in Hk. exact Hk. }
    apply (G 0%nat orders ncps _ Hdim (expand_bounds orders inz Hi)). intros k Hk. rewrite dim_basis_fst. apply (start_range p k Hk (Hp k Hk)).
  - intros ix Hix. rewrite dim_basis_fst. apply (start_range p ix Hix (Hp ix Hix)).
Qed.

(** per-dimension sums *)
Lemma fac0_sum p ix : (ix < nx)%nat -> 0 <= p ix < 1 -> rsum (NC ix) (fac0 p ix) = 1.
Proof.
  intros H Hp. pose proof (dim_ok ix H) as D. destruct (start_range p ix H Hp) as (A & B).
  rewrite <- (dim_sum (O ix) (NC ix) (p ix) D Hp). fold (start p ix).
  set (a := Z.to_nat (start p ix)) in *.
  transitivity (rsum (a + (O ix + (NC ix - a - O ix))) (fac0 p ix)); [f_equal; lia|]. rewrite !rsum_app.
  assert (F : forall i, fac0 p ix i = fac 0 0 p ix i) by reflexivity.
  rewrite (rsum_zero a), (rsum_zero (NC ix - a - O ix)).
  - rewrite Rplus_0_l, Rplus_0_r. apply rsum_ext. intros j Hj. symmetry. rewrite F.
    unfold a. rewrite <- (dim_basis_snd 0 0 p ix j H Hp Hj). reflexivity.
  - intros i Hi. rewrite F. apply fac_supp; [exact H|exact Hp|]. fold a. lia.
  - intros i Hi. rewrite F. apply fac_supp; [exact H|exact Hp|]. fold a. lia.
Qed.
Lemma fac0_nonneg p ix i : (ix < nx)%nat -> 0 <= p ix < 1 -> 0 <= fac0 p ix i.
Proof. intros H Hp. pose proof (dim_ok ix H). apply dim_nonneg; [lia|exact Hp]. Qed.

(** the grid sum is the specification's nested sum *)
Lemma grid_tensor p : forall coef, grid_sum (fac0 p) coef = tensor_spline orders ncps p 0 (fun k => coef (Z.of_nat k)).
Proof.
  intros coef. unfold grid_sum.
  assert (G : forall d os ns c, Forall2 (fun o n => (1 <= o <= n)%nat) os ns ->
     (forall k, (k < length os)%nat -> O (d + k) = nth k os 0%nat /\ NC (d + k) = nth k ns 0%nat) ->
     msum ns (fun is => lprod d is (fac0 p) * c (contract_index ns is)) = tensor_spline os ns p d c).
  { intros d os ns c H. revert d c. induction H as [|o n os ns Ho H IH]; intros d c E.
    - cbn. ring.
    - cbn [msum tensor_spline]. apply rsum_ext. intros i Hi.
      rewrite <- (IH (S d) (fun k => c (i * fold_right Nat.mul 1 ns + k)%nat)).
      + rewrite <- msum_scal. apply msum_ext. intros is His. cbn [lprod].
        rewrite contract_cons' by (eapply F2_length; exact His).
        destruct (E 0%nat ltac:(cbn; lia)) as (E1 & E2). rewrite Nat.add_0_r in E1, E2. cbn [nth] in E1, E2.
        unfold fac0 at 1. rewrite E1, E2. rewrite Nat.add_comm. unfold prodl. ring.
      + intros k Hk. specialize (E (S k) ltac:(cbn; lia)). cbn [nth] in E. rewrite Nat.add_succ_r in E. exact E. }
  apply (G 0%nat orders ncps (fun k => coef (Z.of_nat k)) Hdim). intros k _. split; reflexivity.
Qed.

Lemma sprod_one f : forall ns d, (forall k, (k < length ns)%nat -> rsum (nth k ns 0%nat) (f (d + k)%nat) = 1) -> sprod d ns f = 1.
Proof.
  induction ns as [|n ns IH]; intros d H; cbn; [reflexivity|]. rewrite IH.
  - specialize (H 0%nat ltac:(cbn; lia)). rewrite Nat.add_0_r in H. cbn in H. rewrite H. ring.
  - intros k Hk. specialize (H (S k) ltac:(cbn; lia)). rewrite Nat.add_succ_r in H. exact H.
Qed.
Lemma sprod_zero f : forall ns d k, (k < length ns)%nat -> rsum (nth k ns 0%nat) (f (d + k)%nat) = 0 -> sprod d ns f = 0.
Proof.
  induction ns as [|n ns IH]; intros d k Hk H; cbn in *; [lia|]. destruct k as [|k].
  - rewrite Nat.add_0_r in H. rewrite H. ring.
  - rewrite (IH (S d) k); [ring|lia|]. rewrite Nat.add_succ_r in H. exact H.
Qed.
Lemma grid_weights p : (forall ix, (ix < nx)%nat -> 0 <= p ix < 1) -> msum ncps (fun is => lprod 0 is (fac0 p)) = 1.
Proof.
  intros Hp. rewrite msum_lprod. apply sprod_one. intros k Hk. rewrite ncps_length in Hk. apply fac0_sum; [exact Hk|apply Hp; exact Hk].
Qed.
Lemma grid_hull p coef a b : (forall ix, (ix < nx)%nat -> 0 <= p ix < 1) ->
  (forall k, (0 <= k < Z.of_nat (prodl ncps))%Z -> a <= coef k <= b) -> a <= grid_sum (fac0 p) coef <= b.
Proof.
  intros Hp Hc. unfold grid_sum.
  assert (W : forall is, Forall2 lt is ncps -> 0 <= lprod 0 is (fac0 p)).
  { intros is His. apply lprod_nonneg. intros k Hk. pose proof (F2_length _ _ _ His). rewrite ncps_length in *.
    apply fac0_nonneg; [lia|apply Hp; lia]. }
  assert (X : forall z, z = msum ncps (fun is => z * lprod 0 is (fac0 p))) by (intros z; rewrite msum_scal, grid_weights by exact Hp; ring).
  split; [rewrite (X a)|rewrite (X b)]; apply msum_le; intros is His; specialize (W is His);
    pose proof (contract_lt ncps is His); specialize (Hc (Z.of_nat (contract_index ncps is)) ltac:(lia)); nra.
Qed.
Lemma grid_const p c : (forall ix, (ix < nx)%nat -> 0 <= p ix < 1) -> grid_sum (fac0 p) (fun _ => c) = c.
Proof.
  intros Hp. unfold grid_sum. transitivity (msum ncps (fun is => c * lprod 0 is (fac0 p))).
  - apply msum_ext. intros; ring.
  - rewrite msum_scal, grid_weights by exact Hp. ring.
Qed.
End Tensor.
