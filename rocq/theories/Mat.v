(** Vectors and matrices over the reals as functions on indices, with explicit sizes. *)
From Coq Require Import Reals Arith Bool List Lia Lra.
From Coquelicot Require Import Coquelicot.
From Verif Require Import RSum.
Import ListNotations.
Open Scope list_scope.
Open Scope R_scope.
Notation vec := (nat -> R).
Notation mat := (nat -> nat -> R).

(** scalar product of two vectors of size n *)
Definition dot (n : nat) (x y : vec) : R := rsum n (fun i => x i * y i).
(** matrix (with n columns) times vector *)
Definition mv (n : nat) (A : mat) (x : vec) : vec := fun i => rsum n (fun j => A i j * x j).
(** product of a (.. x n) and a (n x ..) matrix *)
Definition mm (n : nat) (A B : mat) : mat := fun i j => rsum n (fun k => A i k * B k j).
Definition tr (A : mat) : mat := fun i j => A j i.
Definition idm : mat := fun i j => if Nat.eqb i j then 1 else 0.
Definition msym (n : nat) (A : mat) : Prop := forall i j, (i < n)%nat -> (j < n)%nat -> A i j = A j i.
Definition mpsd (n : nat) (A : mat) : Prop := forall x, 0 <= dot n x (mv n A x).
(** positive definite: strictly positive on every vector that is not zero on the first n indices *)
Definition mpd (n : nat) (A : mat) : Prop := forall x, (exists i, (i < n)%nat /\ x i <> 0) -> 0 < dot n x (mv n A x).
(** sum over a list *)
Fixpoint lsum {A : Type} (f : A -> R) (l : list A) : R :=
  match l with [] => 0 | a :: r => f a + lsum f r end.

Lemma lsum_ext {A} (f g : A -> R) l : (forall a, In a l -> f a = g a) -> lsum f l = lsum g l.
Proof. induction l as [|a l IH]; intros H; cbn; [reflexivity|]. rewrite IH, H; auto with datatypes. Qed.
Lemma lsum_plus {A} (f g : A -> R) l : lsum (fun a => f a + g a) l = lsum f l + lsum g l.
Proof. induction l as [|a l IH]; cbn; [ring|].  rewrite IH. ring. Qed.
Lemma lsum_scal {A} c (f : A -> R) l : lsum (fun a => c * f a) l = c * lsum f l.
Proof. induction l as [|a l IH]; cbn; [ring|].  rewrite IH. ring. Qed.
Lemma lsum_zero {A} (f : A -> R) l : (forall a, In a l -> f a = 0) -> lsum f l = 0.
Proof. induction l as [|a l IH]; intros H; cbn; [reflexivity|].  rewrite IH, H; auto with datatypes; ring. Qed.
Lemma lsum_nonneg {A} (f : A -> R) l : (forall a, In a l -> 0 <= f a) -> 0 <= lsum f l.
Proof. induction l as [|a l IH]; intros H; cbn; [lra|]. pose proof (H a (or_introl eq_refl)). pose proof (IH (fun b Hb => H b (or_intror Hb))). lra. Qed.
Lemma lsum_rsum {A} (f : A -> nat -> R) l n : lsum (fun a => rsum n (f a)) l = rsum n (fun i => lsum (fun a => f a i) l).
Proof. induction l as [|a l IH]; cbn; [symmetry; apply rsum_0|].  rewrite IH, rsum_plus. reflexivity. Qed.
Lemma fold_left_lsum {A} (f : A -> R) l : forall a0, fold_left (fun acc a => acc + f a) l a0 = a0 + lsum f l.
Proof. induction l as [|a l IH]; intros a0; cbn; [ring|]. rewrite IH. ring. Qed.
Lemma is_derive_lsum {A} (f : A -> R -> R) (df : A -> R) l x : (forall a, In a l -> is_derive (f a) x (df a)) ->
  is_derive (fun t => lsum (fun a => f a t) l) x (lsum df l).
Proof.
  induction l as [|a l IH]; intros H; cbn.
  - apply (is_derive_const 0 x).
  - apply (is_derive_plus (f a) (fun t => lsum (fun a => f a t) l) x); [apply H; auto with datatypes|apply IH; auto with datatypes].
Qed.

Lemma dot_ext n x y x' y' : (forall i, (i < n)%nat -> x i = x' i) -> (forall i, (i < n)%nat -> y i = y' i) -> dot n x y = dot n x' y'.
Proof. intros H H'. apply rsum_ext. intros i Hi. rewrite H, H' by assumption. reflexivity. Qed.
Lemma dot_sym n x y : dot n x y = dot n y x.
Proof. apply rsum_ext. intros. ring. Qed.
Lemma dot_plus_l n x x' y : dot n (fun i => x i + x' i) y = dot n x y + dot n x' y.
Proof. unfold dot. rewrite <- rsum_plus. apply rsum_ext. intros. ring. Qed.
Lemma dot_plus_r n x y y' : dot n x (fun i => y i + y' i) = dot n x y + dot n x y'.
Proof. unfold dot. rewrite <- rsum_plus. apply rsum_ext. intros. ring. Qed.
Lemma dot_scal_l n a x y : dot n (fun i => a * x i) y = a * dot n x y.
Proof. unfold dot. rewrite <- rsum_scal_l. apply rsum_ext. intros. ring. Qed.
Lemma dot_scal_r n a x y : dot n x (fun i => a * y i) = a * dot n x y.
Proof. unfold dot. rewrite <- rsum_scal_l. apply rsum_ext. intros. ring. Qed.
Lemma dot_minus_l n x x' y : dot n (fun i => x i - x' i) y = dot n x y - dot n x' y.
Proof. unfold dot. rewrite <- rsum_minus. apply rsum_ext. intros. ring. Qed.
Lemma dot_minus_r n x y y' : dot n x (fun i => y i - y' i) = dot n x y - dot n x y'.
Proof. unfold dot. rewrite <- rsum_minus. apply rsum_ext. intros. ring. Qed.
Lemma dot_opp_r n x y : dot n x (fun i => - y i) = - dot n x y.
Proof. unfold dot. rewrite <- rsum_opp. apply rsum_ext. intros. ring. Qed.
Lemma dot_zero_r n x y : (forall i, (i < n)%nat -> y i = 0) -> dot n x y = 0.
Proof. intros H. apply rsum_zero. intros i Hi. rewrite H by assumption. ring. Qed.
Lemma dot_self_nonneg n x : 0 <= dot n x x.
Proof. apply rsum_nonneg. intros. apply Rle_0_sqr. Qed.
Lemma dot_self_zero n x : dot n x x = 0 -> forall i, (i < n)%nat -> x i = 0.
Proof. intros H i Hi. pose proof (rsum_zero_inv n (fun i => x i * x i) (fun i _ => Rle_0_sqr (x i)) H i Hi) as E. cbn in E. nra. Qed.
Lemma dot_self_pos n x i : (i < n)%nat -> x i <> 0 -> 0 < dot n x x.
Proof. intros Hi H. apply (rsum_pos n _ i); [intros; apply Rle_0_sqr|assumption|]. apply Rlt_0_sqr. exact H. Qed.
Lemma dot_lsum {A} n x (f : A -> nat -> R) l : dot n x (fun i => lsum (fun a => f a i) l) = lsum (fun a => dot n x (f a)) l.
Proof. unfold dot. rewrite lsum_rsum. apply rsum_ext. intros i Hi. rewrite <- lsum_scal. reflexivity. Qed.
Lemma dot_rsum_r n m x (f : nat -> nat -> R) : dot n x (fun i => rsum m (fun a => f a i)) = rsum m (fun a => dot n x (f a)).
Proof. unfold dot. rewrite (rsum_swap m n). apply rsum_ext. intros i Hi. rewrite <- rsum_scal_l. reflexivity. Qed.
Lemma dot_rsum_l n m y (f : nat -> nat -> R) : dot n (fun i => rsum m (fun a => f a i)) y = rsum m (fun a => dot n (f a) y).
Proof. rewrite dot_sym, dot_rsum_r. apply rsum_ext. intros. apply dot_sym. Qed.

Lemma mv_ext n A B x y i : (forall j, (j < n)%nat -> A i j = B i j) -> (forall j, (j < n)%nat -> x j = y j) -> mv n A x i = mv n B y i.
Proof. intros H H'. apply rsum_ext. intros j Hj. rewrite H, H' by assumption. reflexivity. Qed.
Lemma mv_plus n A x y i : mv n A (fun j => x j + y j) i = mv n A x i + mv n A y i.
Proof. unfold mv. rewrite <- rsum_plus. apply rsum_ext. intros. ring. Qed.
Lemma mv_minus n A x y i : mv n A (fun j => x j - y j) i = mv n A x i - mv n A y i.
Proof. unfold mv. rewrite <- rsum_minus. apply rsum_ext. intros. ring. Qed.
Lemma mv_scal n A a x i : mv n A (fun j => a * x j) i = a * mv n A x i.
Proof. unfold mv. rewrite <- rsum_scal_l. apply rsum_ext. intros. ring. Qed.
Lemma mv_opp n A x i : mv n A (fun j => - x j) i = - mv n A x i.
Proof. unfold mv. rewrite <- rsum_opp. apply rsum_ext. intros. ring. Qed.
Lemma mv_zero n A x i : (forall j, (j < n)%nat -> x j = 0) -> mv n A x i = 0.
Proof. intros H. apply rsum_zero. intros j Hj. rewrite H by assumption. ring. Qed.
Lemma mv_id n x i : (i < n)%nat -> mv n idm x i = x i.
Proof.
  intros Hi. unfold mv, idm. rewrite <- (rsum_single n x i Hi). apply rsum_ext. intros j Hj.
  rewrite Nat.eqb_sym. destruct (Nat.eqb j i); ring.
Qed.
Lemma mv_mat_plus n A B x i : mv n (fun i j => A i j + B i j) x i = mv n A x i + mv n B x i.
Proof. unfold mv. rewrite <- rsum_plus. apply rsum_ext. intros. ring. Qed.
Lemma mv_mat_scal n a A x i : mv n (fun i j => a * A i j) x i = a * mv n A x i.
Proof. unfold mv. rewrite <- rsum_scal_l. apply rsum_ext. intros. ring. Qed.
Lemma mv_mat_lsum {T} n (f : T -> mat) l x i : mv n (fun i j => lsum (fun a => f a i j) l) x i = lsum (fun a => mv n (f a) x i) l.
Proof. unfold mv. rewrite lsum_rsum. apply rsum_ext. intros j Hj. rewrite Rmult_comm, <- lsum_scal. apply lsum_ext. intros. ring. Qed.
Lemma mv_mm n m A B x i : mv m (mm n A B) x i = mv n A (mv m B x) i.
Proof.
  unfold mv, mm. rewrite (rsum_ext m _ (fun j => rsum n (fun k => A i k * (B k j * x j)))).
  - rewrite rsum_swap. apply rsum_ext. intros k Hk. rewrite rsum_scal_l. reflexivity.
  - intros j Hj. rewrite <- rsum_scal_r. apply rsum_ext. intros. ring.
Qed.
(** (A x) . y = x . (A^T y) *)
Lemma dot_mv_tr n m A x y : dot m (mv n A x) y = dot n x (mv m (tr A) y).
Proof.
  unfold dot, mv, tr. rewrite (rsum_ext m _ (fun i => rsum n (fun j => x j * (A i j * y i)))).
  - rewrite rsum_swap. apply rsum_ext. intros j Hj. rewrite rsum_scal_l. reflexivity.
  - intros i Hi. rewrite <- rsum_scal_r. apply rsum_ext. intros. ring.
Qed.
Lemma dot_mv_sym n A x y : msym n A -> dot n x (mv n A y) = dot n y (mv n A x).
Proof.
  intros H. rewrite dot_sym, dot_mv_tr. apply dot_ext; [reflexivity|]. intros i Hi. apply mv_ext; [|reflexivity].
  intros j Hj. unfold tr. apply H; assumption.
Qed.
(** a matrix-vector product along one coordinate is affine *)
Lemma mv_upd n A x k t i : (k < n)%nat -> mv n A (upd x k t) i = mv n A x i + A i k * (t - x k).
Proof.
  intros Hk. unfold mv. rewrite (rsum_split n (fun j => A i j * upd x k t j) k Hk), (rsum_split n (fun j => A i j * x j) k Hk).
  rewrite upd_eq. rewrite (rsum_ext n (fun j => if Nat.eqb j k then 0 else A i j * upd x k t j) (fun j => if Nat.eqb j k then 0 else A i j * x j)); [ring|].
  intros j Hj. destruct (Nat.eqb_spec j k); [reflexivity|]. rewrite upd_neq by assumption. reflexivity.
Qed.
Lemma dot_upd n x y k t : (k < n)%nat -> dot n (upd x k t) y = dot n x y + y k * (t - x k).
Proof.
  intros Hk. rewrite dot_sym, (dot_sym n x y). exact (mv_upd n (fun _ => y) x k t 0%nat Hk).
Qed.
Lemma nonzero_dec n (x : vec) : (exists i, (i < n)%nat /\ x i <> 0) \/ (forall i, (i < n)%nat -> x i = 0).
Proof.
  induction n as [|n [IH|IH]].
  - right. intros i Hi. lia.
  - left. destruct IH as (i & Hi & H). exists i. split; [lia|exact H].
  - destruct (Req_EM_T (x n) 0) as [E|E].
    + right. intros i Hi. destruct (Nat.eq_dec i n) as [->|N]; [exact E|apply IH; lia].
    + left. exists n. split; [lia|exact E].
Qed.
Lemma mpd_psd n A : mpd n A -> mpsd n A.
Proof.
  intros H x. destruct (nonzero_dec n x) as [E|E].
  - apply Rlt_le. apply H. exact E.
  - unfold dot. rewrite rsum_zero; [lra|]. intros i Hi. rewrite E by exact Hi. ring.
Qed.
Lemma mpd_zero n A x : mpd n A -> (forall i, (i < n)%nat -> mv n A x i = 0) -> forall i, (i < n)%nat -> x i = 0.
Proof.
  intros H E. destruct (nonzero_dec n x) as [W|W]; [|exact W]. pose proof (H x W). rewrite dot_zero_r in H0 by exact E. lra.
Qed.
Lemma mpd_unique n A x y : mpd n A -> (forall i, (i < n)%nat -> mv n A x i = mv n A y i) -> forall i, (i < n)%nat -> x i = y i.
Proof.
  intros H E i Hi. enough (x i - y i = 0) by lra. apply (mpd_zero n A (fun i => x i - y i) H); [|exact Hi].
  intros j Hj. rewrite mv_minus, E by exact Hj. ring.
Qed.
(** quadratic form of a Gram matrix *)
Lemma gram_form n m J x : dot n x (mv n (mm m (tr J) J) x) = dot m (mv n J x) (mv n J x).
Proof. rewrite dot_mv_tr. apply dot_ext; [reflexivity|]. intros i Hi. apply mv_mm. Qed.
