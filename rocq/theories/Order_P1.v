(** The product of the pivots of a positive definite matrix does not depend on the order of its rows. *)
From Coq Require Import Reals Arith Bool List Lia Lra Permutation Field.
From Verif Require Import RSum Mat Tri_M Tri_P Het_S Het_P4.
Import ListNotations.
Open Scope list_scope.
Open Scope R_scope.

Definition schur (k : mat) (a : nat) : mat := fun i j => k i j - k i a * k a j / k a a.
Fixpoint pivots (k : mat) (l : list nat) : R := match l with [] => 1 | a :: l => k a a * pivots (schur k a) l end.
Fixpoint ppos (k : mat) (l : list nat) : Prop := match l with [] => True | a :: l => 0 < k a a /\ ppos (schur k a) l end.
Lemma pivots_ext l : forall k k', (forall i j, In i l -> In j l -> k i j = k' i j) -> pivots k l = pivots k' l.
Proof.
  induction l as [|a l IH]; intros k k' H; [reflexivity|]. cbn [pivots]. rewrite (H a a) by (left; reflexivity). f_equal. apply IH. intros i j Hi Hj. unfold schur.
  rewrite (H i j), (H i a), (H a j), (H a a) by (simpl; auto). reflexivity.
Qed.
Lemma ppos_ext l : forall k k', (forall i j, In i l -> In j l -> k i j = k' i j) -> ppos k l -> ppos k' l.
Proof.
  induction l as [|a l IH]; intros k k' H; [trivial|]. cbn [ppos]. rewrite (H a a) by (left; reflexivity). intros [P Q]. split; [exact P|]. revert Q. apply IH. intros i j Hi Hj. unfold schur.
  rewrite (H i j), (H i a), (H a j), (H a a) by (simpl; auto). reflexivity.
Qed.
Definition ksym (k : mat) (l : list nat) : Prop := forall i j, In i l -> In j l -> k i j = k j i.
Lemma ksym_tail k a l : ksym k (a :: l) -> ksym (schur k a) l.
Proof. intros H i j Hi Hj. unfold schur. rewrite (H i j), (H i a), (H a j) by (simpl; auto). unfold Rdiv. ring. Qed.
Lemma ksym_perm k l l' : Permutation l l' -> ksym k l -> ksym k l'.
Proof. intros P H i j Hi Hj. apply H; eapply Permutation_in; try apply Permutation_sym; eassumption. Qed.
Lemma swap_diag (a b c : R) : 0 < a -> 0 < b - c * c / a -> 0 < b /\ 0 < a - c * c / b.
Proof.
  intros A B. assert (0 <= c * c / a) by (apply Rmult_le_pos; [nra|apply Rlt_le, Rinv_0_lt_compat; exact A]). assert (B0 : 0 < b) by lra. split; [exact B0|].
  replace (a - c * c / b) with ((b - c * c / a) * (a / b)) by (field; lra). apply Rmult_lt_0_compat; [exact B|]. apply Rdiv_lt_0_compat; assumption.
Qed.
Lemma schur_swap k a b i j : k a b = k b a -> k a a <> 0 -> k b b <> 0 -> k b b - k b a * k a b / k a a <> 0 -> schur (schur k a) b i j = schur (schur k b) a i j.
Proof.
  intros S A B D. unfold schur. rewrite S in *.
  assert (D' : k a a * k b b - k b a * k b a <> 0).
  { intros Z. apply D. replace (k b b - k b a * k b a / k a a) with ((k a a * k b b - k b a * k b a) / k a a) by (field; exact A). rewrite Z. unfold Rdiv. ring. }
  field. repeat split; try assumption; try lra.
Qed.
Lemma perm_pivots l l' : Permutation l l' -> forall k, ksym k l -> ppos k l -> ppos k l' /\ pivots k l' = pivots k l.
Proof.
  induction 1 as [|a l l' P IH|a b l|l l' l'' P1 IH1 P2 IH2]; intros k S Q.
  - split; [exact I|reflexivity].
  - destruct Q as [Q1 Q2]. destruct (IH (schur k a) (ksym_tail k a l S) Q2) as [E1 E2]. split; [split; assumption|]. cbn [pivots]. rewrite E2. reflexivity.
  - destruct Q as (Q1 & Q2 & Q3). (* original order: b :: a :: l *)
    assert (Sab : k a b = k b a) by (apply S; simpl; auto).
    unfold schur in Q2 at 1. rewrite Sab in Q2. destruct (swap_diag _ _ _ Q1 Q2) as [A1 A2].
    assert (Esw : forall i j, schur (schur k b) a i j = schur (schur k a) b i j).
    { intros i j. apply schur_swap; [symmetry; exact Sab|lra|lra|]. rewrite Sab. lra. }
    split.
    + cbn [ppos]. split; [exact A1|]. split; [unfold schur at 1; rewrite Sab; exact A2|]. revert Q3. apply ppos_ext. intros; apply Esw.
    + cbn [pivots]. rewrite (pivots_ext l _ _ (fun i j _ _ => Esw i j)). set (P := pivots _ l). unfold schur. rewrite Sab. field. lra.
  - destruct (IH1 k S Q) as [E1 E2]. destruct (IH2 k (ksym_perm _ _ _ P1 S) E1) as [E3 E4]. split; [exact E3|]. rewrite E4. exact E2.
Qed.
(** pivots of L L^T *)
Lemma pivots_LL n (L : mat) : (forall i j, (i < j)%nat -> L i j = 0) -> (forall i, (i < n)%nat -> 0 < L i i) -> forall d s, (s + d = n)%nat ->
  let k := fun i j => rsum d (fun t => L i (s + t)%nat * L j (s + t)%nat) in
  ppos k (seq s d) /\ pivots k (seq s d) = rprod d (fun t => L (s + t)%nat (s + t)%nat ^ 2).
Proof.
  intros T D d. induction d as [|d IH]; intros s E; [split; [exact I|reflexivity]|]. cbv zeta. cbn [seq ppos pivots].
  assert (K0 : forall j, rsum (S d) (fun t => L s (s + t)%nat * L j (s + t)%nat) = L s s * L j s).
  { intros j. rewrite rsum_S_l. rewrite Nat.add_0_r. rewrite rsum_zero; [ring|]. intros t Ht. rewrite (T s) by lia. ring. }
  assert (K0' : forall j, rsum (S d) (fun t => L j (s + t)%nat * L s (s + t)%nat) = L s s * L j s).
  { intros j. rewrite <- (K0 j). apply rsum_ext. intros; ring. }
  assert (P : 0 < L s s) by (apply D; lia).
  assert (EX : forall i j, schur (fun i j => rsum (S d) (fun t => L i (s + t)%nat * L j (s + t)%nat)) s i j = rsum d (fun t => L i (S s + t)%nat * L j (S s + t)%nat)).
  { intros i j. unfold schur. rewrite K0', (K0 j), (K0 s). rewrite rsum_S_l. rewrite Nat.add_0_r.
    rewrite (rsum_ext d (fun t => L i (s + S t)%nat * L j (s + S t)%nat) (fun t => L i (S s + t)%nat * L j (S s + t)%nat)) by (intros t _; replace (s + S t)%nat with (S s + t)%nat by lia; reflexivity).
    field. lra. }
  destruct (IH (S s) ltac:(lia)) as [I1 I2]. rewrite (K0 s). split.
  - split; [nra|]. revert I1. apply ppos_ext. intros; symmetry; apply EX.
  - rewrite (pivots_ext _ _ _ (fun i j _ _ => EX i j)). cbv zeta in I2. rewrite I2. rewrite rprod_S_l. rewrite Nat.add_0_r.
    rewrite (rprod_ext d (fun t => L (s + S t)%nat (s + S t)%nat ^ 2) (fun t => L (S s + t)%nat (S s + t)%nat ^ 2)) by (intros t _; replace (s + S t)%nat with (S s + t)%nat by lia; reflexivity). ring.
Qed.
Lemma chol_pivots n A L : msym n A -> chol_factor n A L -> ppos A (seq 0 n) /\ pivots A (seq 0 n) = rprod n (fun i => L i i ^ 2).
Proof.
  intros S F. destruct (pivots_LL n L (cf_lower _ _ _ F) (cf_pos _ _ _ F) n 0%nat eq_refl) as [H1 H2]. cbv zeta in H1, H2. cbn [Nat.add] in H1, H2.
  assert (E : forall i j, In i (seq 0 n) -> In j (seq 0 n) -> rsum n (fun t => L i t * L j t) = A i j).
  { intros i j Hi Hj. apply in_seq in Hi, Hj. apply (chol_mm n A L S F i j); lia. }
  split; [exact (ppos_ext _ _ _ E H1)|]. rewrite <- H2. symmetry. apply pivots_ext. exact E.
Qed.
Lemma pivots_map (f : nat -> nat) l : forall k, pivots (fun i j => k (f i) (f j)) l = pivots k (map f l).
Proof. induction l as [|a l IH]; intros k; [reflexivity|]. cbn [pivots map]. f_equal. rewrite <- IH. reflexivity. Qed.
Lemma reorder_perm n f : reorder n f -> Permutation (seq 0 n) (map f (seq 0 n)).
Proof.
  intros [B I]. apply Permutation_sym. apply NoDup_Permutation_bis.
  - assert (H : forall l, NoDup l -> (forall i, In i l -> (i < n)%nat) -> NoDup (map f l)).
    { induction l as [|a l IH]; intros N Hl; [constructor|]. inversion N; subst. cbn [map]. constructor; [|apply IH; [assumption|intros; apply Hl; right; assumption]].
      rewrite in_map_iff. intros (b & Eb & Hb). apply I in Eb; [subst; contradiction| |]; apply Hl; simpl; auto. }
    apply H; [apply seq_NoDup|]. intros i Hi. apply in_seq in Hi. lia.
  - rewrite map_length. reflexivity.
  - intros x Hx. apply in_map_iff in Hx. destruct Hx as (i & <- & Hi). apply in_seq in Hi. apply in_seq. specialize (B i ltac:(lia)). lia.
Qed.
Lemma reorder_det n f A L L' : reorder n f -> msym n A -> chol_factor n A L -> chol_factor n (fun i j => A (f i) (f j)) L' ->
  rprod n (fun i => L' i i ^ 2) = rprod n (fun i => L i i ^ 2).
Proof.
  intros RO S F F'. assert (S' : msym n (fun i j => A (f i) (f j))) by (intros i j Hi Hj; apply S; apply RO; assumption).
  destruct (chol_pivots n A L S F) as [P E]. destruct (chol_pivots n _ L' S' F') as [_ E']. rewrite <- E', <- E, pivots_map.
  apply (perm_pivots _ _ (reorder_perm n f RO)); [|exact P]. intros i j Hi Hj. apply in_seq in Hi, Hj. apply S; lia.
Qed.
Lemma rprod_Rpower n (d : nat -> R) c : (forall i, (i < n)%nat -> 0 < d i) -> rprod n (fun i => Rpower (d i) c) = Rpower (rprod n (fun i => d i ^ 2)) (c / 2).
Proof.
  induction n as [|n IH]; intros H; [cbn [rprod]; unfold Rpower; rewrite ln_1, Rmult_0_r, exp_0; reflexivity|]. cbn [rprod]. rewrite IH by (intros; apply H; lia).
  assert (0 < d n) by (apply H; lia). rewrite <- Rpower_mult_distr; [|apply rprod_pos; intros; apply pow_lt; apply H; lia|apply pow_lt; assumption]. f_equal.
  rewrite <- (Rpower_pow 2) by assumption. rewrite Rpower_mult. f_equal. cbn [INR]. field.
Qed.
