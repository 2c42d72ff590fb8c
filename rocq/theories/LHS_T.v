(** Properties C15, C16: optimised Latin hypercube designs. *)
From Coq Require Import Reals Arith List Permutation Lia Lra.
From Verif Require Import RSum LHS_M LHS_S LHS_P.
Import ListNotations.
Open Scope list_scope.
Open Scope R_scope.

(** C15. For every random stream: if the optimiser returns, the caller's plan is unchanged, every
    column of the result is a permutation of the initial column, frozen rows are untouched. *)
Theorem C15_columns_permuted : forall n d p fixed ints unif fuel J ni no tol X h b,
  (2 <= n)%nat -> (1 <= d)%nat -> (1 <= p)%nat -> (forall k, (k < d)%nat -> NoDup (column n X k)) ->
  maximinESE n d p fixed ints unif fuel J ni no tol X = Some (h, b) ->
  h 0%nat = X /\ (forall k, (k < d)%nat -> Permutation (column n (h b) k) (column n X k)) /\
  (forall i k, In i fixed -> h b i k = X i k).
Proof. exact columns_permuted. Qed.
Print Assumptions C15_columns_permuted.

(** C15. A Latin initial plan (one point per 1/n slice in every column) stays Latin. *)
Theorem C15_latin_kept : forall n d ints unif fuel X h b,
  (2 <= n)%nat -> (1 <= d)%nat -> (forall k, (k < d)%nat -> latin n X k) ->
  ese n d ints unif fuel X = Some (h, b) -> h 0%nat = X /\ forall k, (k < d)%nat -> latin n (h b) k.
Proof. exact latin_kept. Qed.
Print Assumptions C15_latin_kept.

(** C16. For every random stream the returned plan's criterion is at most the initial one. *)
Theorem C16_never_worse : forall n d p fixed ints unif fuel J ni no tol X h b,
  (2 <= n)%nat -> (1 <= d)%nat -> (1 <= p)%nat -> (forall k, (k < d)%nat -> NoDup (column n X k)) ->
  maximinESE n d p fixed ints unif fuel J ni no tol X = Some (h, b) ->
  exists c0 c, criterion_p n d p X c0 /\ criterion_p n d p (h b) c /\ c <= c0.
Proof. exact never_worse. Qed.
Print Assumptions C16_never_worse.

(** C16. The incremental update is exact: given the criterion of X, an exchange of two rows in a
    column returns the criterion of the exchanged plan. *)
Theorem C16_incremental_exact : forall n d p X i1 i2 k phi Y r,
  (2 <= n)%nat -> (1 <= d)%nat -> (1 <= p)%nat -> (forall c, (c < d)%nat -> NoDup (column n X c)) ->
  (k < d)%nat -> (i1 < n)%nat -> (i2 < n)%nat -> i1 <> i2 -> criterion_p n d p X phi ->
  exchange_at n d p X i1 i2 k phi = (Y, r) ->
  criterion_p n d p Y r /\ Y i1 k = X i2 k /\ Y i2 k = X i1 k /\
  (forall i c, (c <> k \/ (i <> i1 /\ i <> i2)) -> Y i c = X i c).
Proof. exact incremental. Qed.
Print Assumptions C16_incremental_exact.

(** C16. The criterion is determined by the plan. *)
Theorem C16_criterion_unique : forall n d p X c c', (1 <= p)%nat ->
  criterion_p n d p X c -> criterion_p n d p X c' -> c = c'.
Proof. exact criterion_unique. Qed.
Print Assumptions C16_criterion_unique.

(** Non-vacuity: the diagonal plan of 3 rows is Latin with distinct columns, and with a stream of
    consecutive integers the optimiser returns, whatever the uniform stream. *)
Example C15_C16_nonvacuous :
  let X : plan := fun i _ => (INR i + / 2) / 3 in
  (forall k, latin 3 X k) /\ (forall k, NoDup (column 3 X k)) /\
  forall unif, exists h b, ese 3 2 (fun q => q) unif 2 X = Some (h, b).
Proof.
  intros X. assert (LE : forall (i j : nat), INR j / INR 3 <= (INR i + / 2) / 3 < INR (S j) / INR 3 <-> i = j).
  { intros i j. rewrite (S_INR j). replace (INR 3) with 3 by (cbn; lra). split.
    - intros [A B]. assert (A' : INR j <= INR i + / 2) by lra. assert (B' : INR i + / 2 < INR j + 1) by lra.
      assert (INR i < INR (S j)) by (rewrite S_INR; lra). assert (INR j < INR (S i)) by (rewrite S_INR; lra).
      apply INR_lt in H, H0. lia.
    - intros ->. split; lra. }
  split; [|split].
  - intros k. split.
    + intros j Hj. exists j. split; [exact Hj|]. apply (LE j j). reflexivity.
    + intros j i i' _ _ _ A B. apply (LE i j) in A. apply (LE i' j) in B. congruence.
  - intros k. unfold column, X. cbn -[INR].
    repeat constructor; cbn -[INR]; intros H; repeat destruct H as [H|H]; try (cbn in H; lra); contradiction.
  - intros unif. destruct (ese_total 3 2 unif X ltac:(lia)) as ([h b] & E). exists h, b. exact E.
Qed.
