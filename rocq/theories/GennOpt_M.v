(** Model of smt/utils/neural_net/optimizer.py: Optimizer (52-252), GD (255-261), Adam (264-299).
    A design, the dictionary of parameter arrays, is a function from keys (which array, which entry) to reals.
    Simplifications: real arithmetic (no NaN or overflow); a fresh optimizer object (optimize called once); max_iter is a natural number (a negative one behaves as 0);
    printing is left out.  The dictionaries are copied before being updated and the update replaces whole arrays, so designs can be values. *)
From Coq Require Import Reals Arith Bool List.
Import ListNotations.
Open Scope list_scope.
Open Scope R_scope.
(** outcome of a computation: a result, an exception, or still running when the fuel is spent *)
Inductive res (A : Type) := Ret (a : A) | Raise | Loop.
Arguments Ret {A} a. Arguments Raise {A}. Arguments Loop {A}.
Definition rbind {A B : Type} (r : res A) (f : A -> res B) : res B := match r with Ret a => f a | Raise => Raise | Loop => Loop end.
Definition rlift {A : Type} (o : option A) : res A := match o with Some a => Ret a | None => Raise end.
(** optimizer.py 11: numpy's machine epsilon *)
Definition EPS : R := / 2 ^ 52.
Inductive kind := GD | Adam.
Section Optimizer.
Context {K : Type}.
Notation design := (K -> R).
(** the attributes beta_1, beta_2 (75-76, 109-110) and, for Adam, v and s (266-268) *)
Record ostate := { beta_1 : R; beta_2 : R; mom1 : option design; mom2 : option design }.
Definition new_optimizer (beta1 beta2 : R) : ostate := {| beta_1 := beta1; beta_2 := beta2; mom1 := None; mom2 := None |}.
Definition zeros_if_none (o : option design) : design := match o with None => fun _ => 0 | Some d => d end.
(** optimizer.py 255-261 and 270-299; t = current iteration + 1.  The caller gives only learning_rate, so beta_1 and beta_2 of Adam's update have their default values *)
Definition update (kd : kind) (t : nat) (prev dir : design) (learning_rate : R) (st : ostate) : design * ostate :=
  match kd with
  | GD => (fun k => prev k - learning_rate * dir k, st)
  | Adam =>
      let arg_1 := 9 / 10 in let arg_2 := 99 / 100 in
      let st := {| beta_1 := arg_1; beta_2 := arg_2; mom1 := mom1 st; mom2 := mom2 st |} in
      let v0 := zeros_if_none (mom1 st) in let s0 := zeros_if_none (mom2 st) in
      let v : design := fun k => beta_1 st * v0 k + (1 - arg_1) * dir k in
      let s : design := fun k => beta_2 st * s0 k + (1 - arg_2) * (dir k * dir k) in
      let v_corrected : design := fun k => v k / (1 - beta_1 st ^ t) in
      let s_corrected : design := fun k => s k / (1 - beta_2 st ^ t) in
      (fun k => prev k - learning_rate * v_corrected k / (sqrt (s_corrected k) + EPS), {| beta_1 := beta_1 st; beta_2 := beta_2 st; mom1 := Some v; mom2 := Some s |})
  end.
(** optimizer.py 152-176; the accepted value of tau is also returned.  The cost function may raise (None) *)
Fixpoint search_loop (fuel : nat) (kd : kind) (cost : design -> option R) (learning_rate : R) (t : nat) (prev dir : design) (tau : R) (st : ostate) : res (design * ostate * R) :=
  match fuel with
  | O => Loop
  | S fuel =>
      let '(x, st) := update kd t prev dir (learning_rate * tau) st in
      rbind (rlift (cost x)) (fun cx => rbind (rlift (cost prev)) (fun cp =>
        if Rlt_dec cx cp then Ret (x, st, tau)
        else if Rlt_dec (learning_rate * tau) (/ 10 ^ 6) then Ret (x, st, tau)
        else search_loop fuel kd cost learning_rate t prev dir (tau * tau) st))
  end.
Definition backtracking_line_search (fuel : nat) (kd : kind) (cost : design -> option R) (learning_rate : R) (t : nat) (prev dir : design) (tau : R) (st : ostate) : res (design * ostate * R) :=
  search_loop fuel kd cost learning_rate t prev dir (Rmax 0 (Rmin 1 tau)) st.
(** optimizer.py 186-252.  cost_history is kept with the last cost first; c0 is its first entry *)
Fixpoint optimize_loop (fuel : nat) (kd : kind) (cost : design -> option R) (grad : design -> option design) (learning_rate : R) (todo i : nat) (x : design) (st : ostate) (c0 last : R) (hist : list R) (N1 N2 : nat)
  : res (design * ostate * list R) :=
  match todo with
  | O => Ret (x, st, hist)
  | S todo =>
      rbind (rlift (grad x)) (fun dir =>
      rbind (backtracking_line_search fuel kd cost learning_rate (i + 1) x dir (1 / 2) st) (fun '(x, st, _) =>
      rbind (rlift (cost x)) (fun c =>
      let hist := c :: hist in
      if Nat.ltb 1 i then
        let N1 := if Rlt_dec (Rabs (c - last)) (/ 10 ^ 7 * c0) then S N1 else 0%nat in
        let N2 := if Rlt_dec (Rabs (c - last) / Rmax (Rabs c) (/ 10 ^ 6)) (/ 10 ^ 7) then S N2 else 0%nat in
        if Nat.ltb 100 N1 || Nat.ltb 100 N2 then Ret (x, st, hist)
        else optimize_loop fuel kd cost grad learning_rate todo (S i) x st c0 c hist N1 N2
      else optimize_loop fuel kd cost grad learning_rate todo (S i) x st c0 c hist N1 N2)))
  end.
(** the design returned, the state of the optimizer, and cost_history from the first entry on *)
Definition optimize (fuel : nat) (kd : kind) (cost : design -> option R) (grad : design -> option design) (learning_rate : R) (max_iter : nat) (x : design) (st : ostate) : res (design * ostate * list R) :=
  rbind (rlift (cost x)) (fun c0 => rbind (optimize_loop fuel kd cost grad learning_rate max_iter 0 x st c0 c0 [c0] 0 0) (fun '(x, st, hist) => Ret (x, st, rev hist))).
End Optimizer.
Arguments ostate : clear implicits.
