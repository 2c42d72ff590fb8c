From Coq Require Import Reals Arith Bool List ZArith Lia Lra.
From Coquelicot Require Import Coquelicot.
From Verif Require Import RSum Mat Poly_M Rbf_P.
Import ListNotations.
Open Scope list_scope.
Open Scope nat_scope.

(** triangular offsets *)
Fixpoint off (dim i : nat) : nat := match i with O => O | S i' => off dim i' + (dim - 1 - i') end.
Lemma off_closed dim i : (i <= dim)%nat -> 2 * off dim i + i * i + i = 2 * i * dim.
Proof. induction i as [|i IH]; intros H; [reflexivity|]. cbn [off]. specialize (IH ltac:(lia)). nia. Qed.
Lemma qp_k_eq dim i j : (i < j)%nat -> (j < dim)%nat -> qp_k dim i j = 2 * dim + 1 + off dim i + (j - i - 1).
Proof.
  intros H1 H2. unfold qp_k. pose proof (off_closed dim i ltac:(lia)) as O.
  replace (2 * (2 * Z.of_nat dim + 2 + Z.of_nat i * Z.of_nat dim + (Z.of_nat j - (Z.of_nat i + 2))) - (Z.of_nat i + 1) * Z.of_nat i)%Z
    with (Z.of_nat (2 * dim + 1 + off dim i + (j - i - 1)) * 2)%Z.
  - rewrite Z.quot_mul by lia. apply Nat2Z.id.
  - zify. nia.
Qed.
Lemma napp_eq dim : (0 < dim)%nat -> qp_napp dim = 2 * dim + 1 + off dim (dim - 1).
Proof.
  intros H. unfold qp_napp. pose proof (off_closed dim (dim - 1) ltac:(lia)) as O.
  replace ((dim + 2) * (dim + 1)) with ((2 * dim + 1 + off dim (dim - 1)) * 2) by nia. apply Nat.div_mul. lia.
Qed.
Lemma off_step dim i m : (m <= dim)%nat -> (i < m)%nat -> off dim i + (dim - 1 - i) <= off dim m.
Proof. intros Hm. induction m as [|m IH]; intros H; [lia|]. cbn [off]. destruct (Nat.eq_dec i m) as [-> | N]; [lia|]. specialize (IH ltac:(lia) ltac:(lia)). lia. Qed.
Lemma qp_k_range dim i j : (i < j)%nat -> (j < dim)%nat -> 2 * dim + 1 <= qp_k dim i j < qp_napp dim.
Proof.
  intros H1 H2. rewrite qp_k_eq, napp_eq by lia. pose proof (off_step dim i (dim - 1) ltac:(lia) ltac:(lia)). lia.
Qed.
Lemma qp_k_inj dim i j i' j' : (i < j)%nat -> (j < dim)%nat -> (i' < j')%nat -> (j' < dim)%nat -> qp_k dim i j = qp_k dim i' j' -> i = i' /\ j = j'.
Proof.
  intros H1 H2 H3 H4 E. rewrite !qp_k_eq in E by assumption.
  destruct (Nat.lt_trichotomy i i') as [L|[L|L]].
  - pose proof (off_step dim i i' ltac:(lia) L). lia.
  - subst i'. lia.
  - pose proof (off_step dim i' i ltac:(lia) L). lia.
Qed.
Lemma off_block dim m c : (m <= dim)%nat -> c < off dim m -> exists i t, i < m /\ t < dim - 1 - i /\ c = off dim i + t.
Proof.
  induction m as [|m IH]; intros Hm H; [cbn in H; lia|]. cbn [off] in H. destruct (Nat.lt_ge_cases c (off dim m)) as [L|L].
  - destruct (IH ltac:(lia) L) as (i & t & A & B & C). exists i, t. repeat split; [lia|exact B|exact C].
  - exists m, (c - off dim m). repeat split; lia.
Qed.
Lemma qp_k_onto dim c : 2 * dim + 1 <= c < qp_napp dim -> exists i j, i < j /\ j < dim /\ c = qp_k dim i j.
Proof.
  intros [H1 H2]. destruct (Nat.eq_dec dim 0) as [-> | N]; [cbn in *; lia|]. rewrite napp_eq in H2 by lia.
  destruct (off_block dim (dim - 1) (c - (2 * dim + 1)) ltac:(lia) ltac:(lia)) as (i & t & A & B & C).
  exists i, (i + 1 + t). repeat split; [lia|lia|]. rewrite qp_k_eq by lia. lia.
Qed.
Open Scope R_scope.

(** reading back the assignments *)
Lemma fold_upd_other (ks : list nat) (g : nat -> nat) (v : nat -> R) a : forall M, (forall i, In i ks -> g i <> a) ->
  fold_left (fun M i => upd M (g i) (v i)) ks M a = M a.
Proof.
  induction ks as [|k ks IH]; intros M H; [reflexivity|]. cbn [fold_left]. rewrite IH by (intros; apply H; right; assumption).
  apply upd_neq. intros E. apply (H k); [left; reflexivity|congruence].
Qed.
Lemma fold_upd_hit (ks : list nat) (g : nat -> nat) (v : nat -> R) i : NoDup ks -> (forall i j, In i ks -> In j ks -> g i = g j -> i = j) -> In i ks ->
  forall M, fold_left (fun M i => upd M (g i) (v i)) ks M (g i) = v i.
Proof.
  induction ks as [|k ks IH]; intros ND Inj Hi M; [destruct Hi|]. inversion ND as [|? ? N1 N2]; subst. cbn [fold_left].
  destruct Hi as [-> | Hi].
  - rewrite fold_upd_other; [apply upd_eq|]. intros j Hj E. apply Inj in E; [|right; exact Hj|left; reflexivity]. subst j. contradiction.
  - apply IH; [exact N2|intros; apply Inj; try right; assumption|exact Hi].
Qed.
Section Row.
Variables (dim : nat) (x : vec).
Definition step (M : vec) (i : nat) : vec := fold_left (fun M j => upd M (qp_k dim i j) (x i * x j)) (seq (i + 1) (dim - (i + 1))) M.
Definition M1 : vec := fold_left (fun M i => upd M i (x (i - 1)%nat)) (seq 1 dim) (upd (fun _ => 0) 0 1).
Definition M2 : vec := fold_left (fun M i => upd M i (x (i - (dim + 1))%nat ^ 2)) (seq (dim + 1) dim) M1.
Lemma row_eq : qp_row dim x = fold_left step (seq 0 (dim - 1)) M2.
Proof. reflexivity. Qed.
Lemma step_other M i a : (forall j, (i < j)%nat -> (j < dim)%nat -> qp_k dim i j <> a) -> step M i a = M a.
Proof. intros H. unfold step. apply (fold_upd_other _ (qp_k dim i) (fun j => x i * x j)). intros j Hj. apply in_seq in Hj. apply H; lia. Qed.
Lemma step_hit M i j : (i < j)%nat -> (j < dim)%nat -> step M i (qp_k dim i j) = x i * x j.
Proof.
  intros H1 H2. unfold step. apply (fold_upd_hit _ (qp_k dim i) (fun j => x i * x j)).
  - apply seq_NoDup.
  - intros a b Ha Hb E. apply in_seq in Ha, Hb. apply (qp_k_inj dim i a i b); try lia.
  - apply in_seq. lia.
Qed.
Lemma steps_other l a : (forall i j, In i l -> (i < j)%nat -> (j < dim)%nat -> qp_k dim i j <> a) -> forall M, fold_left step l M a = M a.
Proof.
  induction l as [|i l IH]; intros H M; [reflexivity|]. cbn [fold_left]. rewrite IH by (intros; apply H; [right|..]; assumption).
  apply step_other. intros. apply H; [left; reflexivity|assumption|assumption].
Qed.
Lemma steps_hit l i j : NoDup l -> In i l -> (i < j)%nat -> (j < dim)%nat -> (forall a, In a l -> (a < dim)%nat) -> forall M, fold_left step l M (qp_k dim i j) = x i * x j.
Proof.
  induction l as [|a l IH]; intros ND Hi H1 H2 Hl M; [destruct Hi|]. inversion ND as [|? ? N1 N2]; subst. cbn [fold_left]. destruct Hi as [-> | Hi].
  - rewrite steps_other; [apply step_hit; assumption|]. intros i' j' Hi' L1 L2 E. destruct (qp_k_inj dim i' j' i j L1 L2 H1 H2 E) as [-> _]. contradiction.
  - apply IH; try assumption. intros b Hb. apply Hl. right. exact Hb.
Qed.
Lemma row_cross i j : (i < j)%nat -> (j < dim)%nat -> qp_row dim x (qp_k dim i j) = x i * x j.
Proof.
  intros H1 H2. rewrite row_eq. apply steps_hit; try assumption; [apply seq_NoDup|apply in_seq; lia|]. intros a Ha. apply in_seq in Ha. lia.
Qed.
Lemma row_low a : (a <= 2 * dim)%nat -> qp_row dim x a = M2 a.
Proof.
  intros H. rewrite row_eq. apply steps_other. intros i j _ L1 L2 E. pose proof (qp_k_range dim i j L1 L2). lia.
Qed.
Lemma row_square i : (i < dim)%nat -> qp_row dim x (1 + dim + i)%nat = x i ^ 2.
Proof.
  intros H. rewrite row_low by lia. unfold M2.
  rewrite (fold_upd_hit (seq (dim + 1) dim) (fun i => i) (fun i => x (i - (dim + 1))%nat ^ 2) (1 + dim + i)%nat).
  - do 2 f_equal. lia.
  - apply seq_NoDup.
  - intros; assumption.
  - apply in_seq. lia.
Qed.
Lemma row_linear i : (i < dim)%nat -> qp_row dim x (1 + i)%nat = x i.
Proof.
  intros H. rewrite row_low by lia. unfold M2.
  rewrite (fold_upd_other (seq (dim + 1) dim) (fun i => i)) by (intros j Hj; apply in_seq in Hj; lia). unfold M1.
  rewrite (fold_upd_hit (seq 1 dim) (fun i => i) (fun i => x (i - 1)%nat) (1 + i)%nat).
  - f_equal. lia.
  - apply seq_NoDup.
  - intros; assumption.
  - apply in_seq. lia.
Qed.
Lemma row_const : qp_row dim x 0%nat = 1.
Proof.
  rewrite row_low by lia. unfold M2. rewrite (fold_upd_other (seq (dim + 1) dim) (fun i => i)) by (intros j Hj; apply in_seq in Hj; lia). unfold M1.
  rewrite (fold_upd_other (seq 1 dim) (fun i => i)) by (intros j Hj; apply in_seq in Hj; lia). apply upd_eq.
Qed.
End Row.

Lemma rsum_blocks dim m f : (m <= dim)%nat -> rsum (off dim m) f = rsum m (fun i => rsum (dim - 1 - i) (fun t => f (off dim i + t)%nat)).
Proof.
  induction m as [|m IH]; intros H; [reflexivity|]. cbn [off rsum]. rewrite rsum_app, IH by lia. reflexivity.
Qed.
(** the value is a general quadratic polynomial *)
Lemma qp_value_eq dim coef x : (0 < dim)%nat -> qp_value dim coef x =
  coef 0%nat + rsum dim (fun i => coef (1 + i)%nat * x i) + rsum dim (fun i => coef (1 + dim + i)%nat * x i ^ 2)
  + rsum (dim - 1) (fun i => rsum (dim - 1 - i) (fun t => coef (qp_k dim i (i + 1 + t)) * (x i * x (i + 1 + t)%nat))).
Proof.
  intros Hd. unfold qp_value, dot. rewrite napp_eq by exact Hd.
  replace (2 * dim + 1 + off dim (dim - 1))%nat with (1 + (dim + (dim + off dim (dim - 1))))%nat by lia.
  rewrite rsum_app, rsum_app, rsum_app. rewrite !Rplus_assoc. f_equal; [|f_equal; [|f_equal]].
  - cbn [rsum]. rewrite row_const. ring.
  - apply rsum_ext. intros i Hi. rewrite row_linear by exact Hi. ring.
  - apply rsum_ext. intros i Hi. replace (1 + (dim + i))%nat with (1 + dim + i)%nat by lia. rewrite row_square by exact Hi. ring.
  - rewrite rsum_blocks by lia. apply rsum_ext. intros i Hi. apply rsum_ext. intros t Ht.
    replace (1 + (dim + (dim + (off dim i + t))))%nat with (qp_k dim i (i + 1 + t)) by (rewrite qp_k_eq by lia; lia).
    rewrite row_cross by lia. ring.
Qed.
(** cross terms as a full double sum *)
Lemma tri_sum dim (g : nat -> nat -> R) : rsum (dim - 1) (fun i => rsum (dim - 1 - i) (fun t => g i (i + 1 + t)%nat)) =
  rsum dim (fun i => rsum dim (fun j => if Nat.ltb i j then g i j else 0)).
Proof.
  destruct dim as [|d]; [reflexivity|]. replace (S d - 1)%nat with d by lia. cbn [rsum].
  transitivity (rsum d (fun i => rsum (S d) (fun j => if Nat.ltb i j then g i j else 0))).
  - apply rsum_ext. intros i Hi. replace (S d) with ((i + 1) + (d - i))%nat by lia. rewrite rsum_app, (rsum_zero (i + 1)).
    + rewrite Rplus_0_l. apply rsum_ext. intros t Ht. replace (Nat.ltb i (i + 1 + t)) with true by (symmetry; apply Nat.ltb_lt; lia). reflexivity.
    + intros j Hj. replace (Nat.ltb i j) with false by (symmetry; apply Nat.ltb_ge; lia). reflexivity.
  - cbn [rsum]. rewrite Nat.ltb_irrefl. rewrite (rsum_zero d (fun j => if Nat.ltb d j then g d j else 0)); [ring|].
    intros j Hj. replace (Nat.ltb d j) with false by (symmetry; apply Nat.ltb_ge; lia). reflexivity.
Qed.
Lemma fold_cond (n : nat) (kx : nat) (A B : vec) : forall c0, (fold_left (fun c i =>
      if Nat.ltb kx i then c + A i else if Nat.ltb i kx then c + B i else c) (seq 0 n) c0) =
  c0 + (rsum n (fun i => if Nat.ltb kx i then A i else 0) + rsum n (fun i => if Nat.ltb i kx then B i else 0)).
Proof.
  induction n as [|n IH]; intros c0; [cbn; ring|]. rewrite seq_S, fold_left_app, IH. cbn [fold_left rsum Nat.add].
  destruct (Nat.ltb_spec kx n) as [L|L]; destruct (Nat.ltb_spec n kx) as [L'|L']; try lia; ring.
Qed.
Lemma derive_x x kx k : is_derive (fun t => upd x kx t k) (x kx) (if Nat.eqb k kx then 1 else 0).
Proof.
  destruct (Nat.eqb_spec k kx) as [-> | N].
  - apply (is_derive_ext (fun t : R => t)); [intros t; rewrite upd_eq; reflexivity|exact (is_derive_id (x kx))].
  - apply (is_derive_ext (fun t : R => x k)); [intros t; rewrite upd_neq by exact N; reflexivity|apply derive_cst].
Qed.
Lemma derive_mul (f g : R -> R) t df dg : is_derive f t df -> is_derive g t dg -> is_derive (fun s => f s * g s) t (df * g t + f t * dg).
Proof.
  intros Hf Hg. apply (is_derive_ext (fun s => mult (f s) (g s))); [reflexivity|].
  pose proof (is_derive_mult f g t df dg Hf Hg Rmult_comm) as H. exact H.
Qed.
Lemma qp_partial dim coef kx x : (kx < dim)%nat -> is_partial (qp_value dim coef) x kx (qp_derivative dim coef kx x).
Proof.
  intros Hk. unfold is_partial.
  apply (is_derive_ext (fun t => coef 0%nat + rsum dim (fun i => coef (1 + i)%nat * upd x kx t i) + rsum dim (fun i => coef (1 + dim + i)%nat * (upd x kx t i * upd x kx t i))
     + rsum dim (fun i => rsum dim (fun j => (if Nat.ltb i j then coef (qp_k dim i j) else 0) * (upd x kx t i * upd x kx t j))))).
  { intros t. rewrite qp_value_eq by lia. rewrite (tri_sum dim (fun i j => coef (qp_k dim i j) * (upd x kx t i * upd x kx t j))).
    f_equal; [f_equal; apply rsum_ext; intros; ring|]. apply rsum_ext. intros i _. apply rsum_ext. intros j _. destruct (Nat.ltb i j); ring. }
  assert (E : qp_derivative dim coef kx x =
     0 + rsum dim (fun i => coef (1 + i)%nat * (if Nat.eqb i kx then 1 else 0))
     + rsum dim (fun i => coef (1 + dim + i)%nat * ((if Nat.eqb i kx then 1 else 0) * upd x kx (x kx) i + upd x kx (x kx) i * (if Nat.eqb i kx then 1 else 0)))
     + rsum dim (fun i => rsum dim (fun j => (if Nat.ltb i j then coef (qp_k dim i j) else 0) * ((if Nat.eqb i kx then 1 else 0) * upd x kx (x kx) j + upd x kx (x kx) i * (if Nat.eqb j kx then 1 else 0))))).
  { unfold qp_derivative. rewrite (fold_cond dim kx (fun i => coef (qp_k dim kx i) * x i) (fun i => coef (qp_k dim i kx) * x i)).
    rewrite Rplus_0_l, Rplus_0_l. f_equal; [f_equal|].
    - rewrite (rsum_ext dim _ (fun i => if Nat.eqb i kx then coef (1 + i)%nat else 0)) by (intros i _; destruct (Nat.eqb i kx); ring). rewrite (rsum_single dim (fun i => coef (1 + i)%nat) kx Hk). reflexivity.
    - rewrite (rsum_ext dim _ (fun i => if Nat.eqb i kx then 2 * coef (1 + dim + i)%nat * x i else 0)) by (intros i _; rewrite upd_same; destruct (Nat.eqb i kx); ring).
      rewrite (rsum_single dim (fun i => 2 * coef (1 + dim + i)%nat * x i) kx Hk). reflexivity.
    - rewrite (rsum_ext dim (fun i => rsum dim _) (fun i => rsum dim (fun j => if Nat.eqb i kx then (if Nat.ltb i j then coef (qp_k dim i j) * x j else 0) else 0) + rsum dim (fun j => if Nat.eqb j kx then (if Nat.ltb i j then coef (qp_k dim i j) * x i else 0) else 0))).
      + rewrite rsum_plus. f_equal.
        * rewrite rsum_swap. apply rsum_ext. intros j Hj. rewrite (rsum_single dim (fun i => if Nat.ltb i j then coef (qp_k dim i j) * x j else 0) kx Hk). reflexivity.
        * apply rsum_ext. intros i Hi. rewrite (rsum_single dim (fun j => if Nat.ltb i j then coef (qp_k dim i j) * x i else 0) kx Hk). reflexivity.
      + intros i _. rewrite <- rsum_plus. apply rsum_ext. intros j _. rewrite !upd_same. destruct (Nat.eqb i kx), (Nat.eqb j kx), (Nat.ltb i j); ring. }
  rewrite E.
  apply (is_derive_plus (fun t : R => coef 0%nat + rsum dim (fun i => coef (1 + i)%nat * upd x kx t i) + rsum dim (fun i => coef (1 + dim + i)%nat * (upd x kx t i * upd x kx t i)))).
  - apply (is_derive_plus (fun t : R => coef 0%nat + rsum dim (fun i => coef (1 + i)%nat * upd x kx t i))).
    + apply (is_derive_plus (fun t : R => coef 0%nat)); [apply derive_cst|].
      apply (is_derive_rsum dim (fun i t => coef (1 + i)%nat * upd x kx t i)). intros i Hi. apply is_derive_scal. apply derive_x.
    + apply (is_derive_rsum dim (fun i t => coef (1 + dim + i)%nat * (upd x kx t i * upd x kx t i))). intros i Hi.
      apply (is_derive_scal (fun t => upd x kx t i * upd x kx t i)). apply (derive_mul (fun t => upd x kx t i) (fun t => upd x kx t i)); apply derive_x.
  - apply (is_derive_rsum dim (fun i t => rsum dim (fun j => (if Nat.ltb i j then coef (qp_k dim i j) else 0) * (upd x kx t i * upd x kx t j)))). intros i Hi.
    apply (is_derive_rsum dim (fun j t => (if Nat.ltb i j then coef (qp_k dim i j) else 0) * (upd x kx t i * upd x kx t j))). intros j Hj.
    apply (is_derive_scal (fun t => upd x kx t i * upd x kx t j)). apply (derive_mul (fun t => upd x kx t i) (fun t => upd x kx t j)); apply derive_x.
Qed.

(** least squares *)
Definition sq_res (m n : nat) (X : mat) (y b : vec) : R := dot m (fun e => mv n X b e - y e) (fun e => mv n X b e - y e).
Lemma normal_optimal m n X y b : (forall a, (a < n)%nat -> mv m (tr X) (fun e => mv n X b e - y e) a = 0) ->
  forall b', sq_res m n X y b <= sq_res m n X y b' /\ (sq_res m n X y b' = sq_res m n X y b -> forall e, (e < m)%nat -> mv n X b' e = mv n X b e).
Proof.
  intros N b'. set (r := fun e => mv n X b e - y e) in *. set (d := fun e => mv n X (fun a => b' a - b a) e).
  assert (E : sq_res m n X y b' = sq_res m n X y b + dot m d d).
  { unfold sq_res. rewrite (dot_ext m _ _ (fun e => r e + d e) (fun e => r e + d e)); [|intros e He; unfold r, d; rewrite mv_minus; ring|intros e He; unfold r, d; rewrite mv_minus; ring].
    rewrite dot_plus_l, !dot_plus_r. assert (Z : dot m d r = 0).
    { unfold d. rewrite dot_mv_tr. apply dot_zero_r. exact N. }
    rewrite (dot_sym m r d), Z. fold r. ring. }
  split; [rewrite E; pose proof (dot_self_nonneg m d); lra|]. intros Eq e He. rewrite E in Eq.
  pose proof (dot_self_zero m d ltac:(lra) e He) as Z. unfold d in Z. rewrite mv_minus in Z. lra.
Qed.
Lemma inv_normal n m (X inv : mat) y : (forall i j, (i < n)%nat -> (j < n)%nat -> mm n (mm m (tr X) X) inv i j = idm i j) ->
  forall a, (a < n)%nat -> mv m (tr X) (fun e => mv n X (mv n inv (mv m (tr X) y)) e - y e) a = 0.
Proof.
  intros I a Ha. rewrite mv_minus. set (c := mv m (tr X) y).
  change (mv m (tr X) (mv n X (mv n inv c)) a - c a = 0). rewrite <- (mv_mm m n (tr X) X (mv n inv c) a), <- (mv_mm n n (mm m (tr X) X) inv c a).
  rewrite (mv_ext n (mm n (mm m (tr X) X) inv) idm c c a) by (intros; try apply I; auto). rewrite mv_id by exact Ha. ring.
Qed.
