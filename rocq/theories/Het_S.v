(** Vocabulary of C101: replicated training inputs and their sample statistics. *)
From Coq Require Import Reals Arith List Lra Lia.
From Verif Require Import RSum Mat Kernels_M Krg_M Krg_S.
Open Scope R_scope.

(** two inputs agree *)
Definition same (nx : nat) (a b : vec) : Prop := forall c, (c < nx)%nat -> a c = b c.
Definition same_dec (nx : nat) (a b : vec) : {same nx a b} + {~ same nx a b}.
Proof.
  induction nx as [|k [IH|IH]]; [left; intros c Hc; lia| |right; intros H; apply IH; intros c Hc; apply H; lia].
  destruct (Req_EM_T (a k) (b k)) as [E|N].
  - left. intros c Hc. destruct (Nat.eq_dec c k) as [-> | D]; [exact E|apply IH; lia].
  - right. intros H. apply N. apply H. lia.
Defined.
(** lexicographic order *)
Definition lex_lt (nx : nat) (a b : vec) : Prop := exists k, (k < nx)%nat /\ (forall c, (c < k)%nat -> a c = b c) /\ a k < b k.
(** sum of v over the observations made at the input of observation i; how many there are; their mean, sum of
    squared deviations and unbiased sample variance *)
Definition rep_sum (nx n : nat) (X : nat -> vec) (v : vec) (i : nat) : R := rsum n (fun j => if same_dec nx (X j) (X i) then v j else 0).
Definition rep_count (nx n : nat) (X : nat -> vec) (i : nat) : R := rep_sum nx n X (fun _ => 1) i.
Definition rep_mean (nx n : nat) (X : nat -> vec) (v : vec) (i : nat) : R := rep_sum nx n X v i / rep_count nx n X i.
Definition rep_ss (nx n : nat) (X : nat -> vec) (v : vec) (i : nat) : R := rep_sum nx n X (fun j => (v j - rep_mean nx n X v i) ^ 2) i.
(** noise variance of observation i, in units of the standardised output: the sample variance of the outputs
    observed at its input, or s0 where they do not spread *)
Definition obs_noise (nx n : nat) (X : nat -> vec) (y : vec) (s0 : R) (i : nat) : R :=
  if Req_EM_T (rep_ss nx n X (ynorm n y) i) 0 then s0 else rep_ss nx n X (ynorm n y) i / (rep_count nx n X i - 1).
(** a reordering of the first n observations *)
Definition reorder (n : nat) (f : nat -> nat) : Prop := (forall i, (i < n)%nat -> (f i < n)%nat) /\ (forall i j, (i < n)%nat -> (j < n)%nat -> f i = f j -> i = j).
