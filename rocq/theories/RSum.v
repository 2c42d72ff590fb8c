(** Finite sums and products over the reals, used as the vector/matrix language of the models. *)
From Coq Require Import Reals Arith Lia Lra.
From Coquelicot Require Import Coquelicot.
Open Scope R_scope.

(** sum of f 0 .. f (n-1) *)
Fixpoint rsum (n : nat) (f : nat -> R) : R :=
  match n with O => 0 | S m => rsum m f + f m end.
(** product of f 0 .. f (n-1) *)
Fixpoint rprod (n : nat) (f : nat -> R) : R :=
  match n with O => 1 | S m => rprod m f * f m end.

Lemma rsum_ext n f g : (forall i, (i < n)%nat -> f i = g i) -> rsum n f = rsum n g.
Proof. induction n as [|n IH]; intros H; cbn; [reflexivity|]. rewrite IH, H; auto. Qed.
Lemma rsum_plus n f g : rsum n (fun i => f i + g i) = rsum n f + rsum n g.
Proof. induction n as [|n IH]; cbn; [ring|]. rewrite IH. ring. Qed.
Lemma rsum_minus n f g : rsum n (fun i => f i - g i) = rsum n f - rsum n g.
Proof. induction n as [|n IH]; cbn; [ring|]. rewrite IH. ring. Qed.
Lemma rsum_opp n f : rsum n (fun i => - f i) = - rsum n f.
Proof. induction n as [|n IH]; cbn; [ring|]. rewrite IH. ring. Qed.
Lemma rsum_scal_l n a f : rsum n (fun i => a * f i) = a * rsum n f.
Proof. induction n as [|n IH]; cbn; [ring|]. rewrite IH. ring. Qed.
Lemma rsum_scal_r n a f : rsum n (fun i => f i * a) = rsum n f * a.
Proof. induction n as [|n IH]; cbn; [ring|]. rewrite IH. ring. Qed.
Lemma rsum_0 n : rsum n (fun _ => 0) = 0.
Proof. induction n as [|n IH]; cbn; [ring|]. rewrite IH. ring. Qed.
Lemma rsum_zero n f : (forall i, (i < n)%nat -> f i = 0) -> rsum n f = 0.
Proof. intros H. rewrite (rsum_ext n f (fun _ => 0)) by exact H. apply rsum_0. Qed.
Lemma rsum_const n c : rsum n (fun _ => c) = INR n * c.
Proof. induction n as [|n IH]; [cbn; ring|]. cbn [rsum]. rewrite IH, S_INR. ring. Qed.
Lemma rsum_le n f g : (forall i, (i < n)%nat -> f i <= g i) -> rsum n f <= rsum n g.
Proof. induction n as [|n IH]; intros H; cbn; [lra|]. apply Rplus_le_compat; auto. Qed.
Lemma rsum_nonneg n f : (forall i, (i < n)%nat -> 0 <= f i) -> 0 <= rsum n f.
Proof. intros H. rewrite <- (rsum_0 n). apply rsum_le. exact H. Qed.
Lemma rsum_ge_term n f k : (forall i, (i < n)%nat -> 0 <= f i) -> (k < n)%nat -> f k <= rsum n f.
Proof.
  induction n as [|n IH]; intros H Hk; [lia|]. cbn. destruct (Nat.eq_dec k n) as [-> | N].
  - pose proof (rsum_nonneg n f ltac:(auto)). lra.
  - specialize (IH ltac:(auto) ltac:(lia)). specialize (H n ltac:(lia)). lra.
Qed.
Lemma rsum_pos n f k : (forall i, (i < n)%nat -> 0 <= f i) -> (k < n)%nat -> 0 < f k -> 0 < rsum n f.
Proof. intros H Hk P. pose proof (rsum_ge_term n f k H Hk). lra. Qed.
Lemma rsum_zero_inv n f : (forall i, (i < n)%nat -> 0 <= f i) -> rsum n f = 0 -> forall i, (i < n)%nat -> f i = 0.
Proof. intros H E i Hi. pose proof (rsum_ge_term n f i H Hi). specialize (H i Hi). lra. Qed.
Lemma rsum_swap n m (f : nat -> nat -> R) : rsum n (fun i => rsum m (fun j => f i j)) = rsum m (fun j => rsum n (fun i => f i j)).
Proof.
  induction n as [|n IH]; cbn; [rewrite rsum_0; reflexivity|]. rewrite IH, <- rsum_plus. reflexivity.
Qed.
Lemma rsum_S_l n f : rsum (S n) f = f O + rsum n (fun i => f (S i)).
Proof. induction n as [|n IH]; [cbn; ring|]. cbn [rsum] in *. rewrite IH. ring. Qed.
Lemma rsum_app n m f : rsum (n + m) f = rsum n f + rsum m (fun i => f (n + i)%nat).
Proof.
  induction m as [|m IH]; [rewrite Nat.add_0_r; cbn; ring|].
  rewrite Nat.add_succ_r. cbn. rewrite IH. ring.
Qed.
(** indicator *)
Lemma rsum_single n f k : (k < n)%nat -> rsum n (fun i => if Nat.eqb i k then f i else 0) = f k.
Proof.
  induction n as [|n IH]; intros H; [lia|]. cbn. destruct (Nat.eqb_spec n k) as [-> | N].
  - rewrite (rsum_zero k); [ring|]. intros i Hi. destruct (Nat.eqb_spec i k); [lia|reflexivity].
  - rewrite IH by lia. ring.
Qed.
Lemma rsum_split n f k : (k < n)%nat -> rsum n f = f k + rsum n (fun i => if Nat.eqb i k then 0 else f i).
Proof.
  intros H. rewrite <- (rsum_single n f k H), <- rsum_plus. apply rsum_ext. intros i _.
  destruct (Nat.eqb i k); ring.
Qed.
Lemma rsum_abs n f : Rabs (rsum n f) <= rsum n (fun i => Rabs (f i)).
Proof.
  induction n as [|n IH]; cbn; [rewrite Rabs_R0; lra|].
  eapply Rle_trans; [apply Rabs_triang|]. lra.
Qed.
Lemma rsum_prod n m f g : rsum n f * rsum m g = rsum n (fun i => rsum m (fun j => f i * g j)).
Proof.
  rewrite <- rsum_scal_r. apply rsum_ext. intros i _. rewrite rsum_scal_l. reflexivity.
Qed.

Lemma rprod_ext n f g : (forall i, (i < n)%nat -> f i = g i) -> rprod n f = rprod n g.
Proof. induction n as [|n IH]; intros H; cbn; [reflexivity|]. rewrite IH, H; auto. Qed.
Lemma rprod_pos n f : (forall i, (i < n)%nat -> 0 < f i) -> 0 < rprod n f.
Proof. induction n as [|n IH]; intros H; cbn; [lra|]. apply Rmult_lt_0_compat; auto. Qed.
Lemma rprod_1 n : rprod n (fun _ => 1) = 1.
Proof. induction n as [|n IH]; cbn; [ring|]. rewrite IH. ring. Qed.
Lemma rprod_one n f : (forall i, (i < n)%nat -> f i = 1) -> rprod n f = 1.
Proof. intros H. rewrite (rprod_ext n f (fun _ => 1)) by exact H. apply rprod_1. Qed.
Lemma rprod_mult n f g : rprod n (fun i => f i * g i) = rprod n f * rprod n g.
Proof. induction n as [|n IH]; cbn; [ring|]. rewrite IH. ring. Qed.
Lemma rprod_S_l n f : rprod (S n) f = f O * rprod n (fun i => f (S i)).
Proof. induction n as [|n IH]; [cbn; ring|]. cbn [rprod] in *. rewrite IH. ring. Qed.
Lemma rprod_exp n f : rprod n (fun i => exp (f i)) = exp (rsum n f).
Proof. induction n as [|n IH]; cbn; [rewrite exp_0; reflexivity|]. rewrite IH, exp_plus. reflexivity. Qed.
Lemma rprod_split n f k : (k < n)%nat -> rprod n f = f k * rprod n (fun i => if Nat.eqb i k then 1 else f i).
Proof.
  induction n as [|n IH]; intros H; [lia|]. cbn. destruct (Nat.eqb_spec n k) as [-> | N].
  - rewrite (rprod_ext k (fun i => if Nat.eqb i k then 1 else f i) f); [ring|].
    intros i Hi. destruct (Nat.eqb_spec i k); [lia|reflexivity].
  - rewrite IH by lia. ring.
Qed.

(** derivatives *)
Lemma is_derive_rsum n (f : nat -> R -> R) (df : nat -> R) x :
  (forall i, (i < n)%nat -> is_derive (f i) x (df i)) ->
  is_derive (fun t => rsum n (fun i => f i t)) x (rsum n df).
Proof.
  induction n as [|n IH]; intros H; cbn.
  - apply (is_derive_const 0 x).
  - apply (is_derive_plus (fun t => rsum n (fun i => f i t)) (f n) x); [apply IH; auto|apply H; lia].
Qed.
(** product rule in which at most one factor moves *)
Lemma is_derive_rprod_one n (f : nat -> R -> R) k d x : (k < n)%nat ->
  (forall i, (i < n)%nat -> i <> k -> forall t, f i t = f i x) -> is_derive (f k) x d ->
  is_derive (fun t => rprod n (fun i => f i t)) x (d * rprod n (fun i => if Nat.eqb i k then 1 else f i x)).
Proof.
  intros Hk Hc Hd.
  apply (is_derive_ext (fun t => f k t * rprod n (fun i => if Nat.eqb i k then 1 else f i x))).
  - intros t. rewrite (rprod_split n (fun i => f i t) k Hk). f_equal. apply rprod_ext. intros i Hi.
    destruct (Nat.eqb_spec i k); [reflexivity|]. symmetry. apply Hc; assumption.
  - apply (is_derive_scal_l (f k) x d (rprod n (fun i => if Nat.eqb i k then 1 else f i x))). exact Hd.
Qed.

(** a coordinate of a point replaced by t *)
Definition upd (x : nat -> R) (k : nat) (t : R) : nat -> R := fun j => if Nat.eqb j k then t else x j.
Lemma upd_same x k : forall j, upd x k (x k) j = x j.
Proof. intros j. unfold upd. destruct (Nat.eqb_spec j k); [subst; reflexivity|reflexivity]. Qed.
Lemma upd_eq x k t : upd x k t k = t.
Proof. unfold upd. rewrite Nat.eqb_refl. reflexivity. Qed.
Lemma upd_neq x k t j : j <> k -> upd x k t j = x j.
Proof. intros H. unfold upd. destruct (Nat.eqb_spec j k); [contradiction|reflexivity]. Qed.
(** partial derivative of a multivariate function at x along coordinate k *)
Definition is_partial (f : (nat -> R) -> R) (x : nat -> R) (k : nat) (d : R) : Prop :=
  is_derive (fun t => f (upd x k t)) (x k) d.
