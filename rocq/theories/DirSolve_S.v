(** Vocabulary of C123. *)
From Coq Require Import Reals Arith List.
From Verif Require Import RSum Mat LinSolve_S RmtsTrain_M DirSolve_M.
Open Scope R_scope.
(** whatever the array holds before, a call leaves in it the solution of every symmetric positive definite system *)
Definition answers (n : nat) (run : mat -> vec -> vec -> sresult) : Prop :=
  forall A r d, msym n A -> mpd n A -> exists v, run A r d = Left v /\ solves n A r v.
(** two results of training: the same kind, and the same coefficients and stored matrix *)
Definition same_training (n : nat) (t t' : trained) : Prop :=
  match t, t' with
  | TSol s M, TSol s' M' => same n s s' /\ (forall i j, (i < n)%nat -> (j < n)%nat -> M i j = M' i j)
  | TAttribute, TAttribute => True
  | TNoPoint, TNoPoint => True
  | _, _ => False
  end.
