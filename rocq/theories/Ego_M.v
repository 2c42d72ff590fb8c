(** Model of smt/applications/ego.py.  Points are of any type; the objective [f] is a deterministic function
    of one row and the evaluator (ego.py 24-48) applies it to every row; outputs are rationals (no NaN); the
    surrogate and scipy's minimize are arbitrary functions of everything they can see. *)
From Coq Require Import QArith Bool Arith List.
Import ListNotations.
Open Scope list_scope.
Open Scope nat_scope.

(** np.argmin: first index of a minimum *)
Fixpoint argmin_from (best : Q) (bi i : nat) (l : list Q) : nat :=
  match l with
  | [] => bi
  | x :: r => if Qle_bool best x then argmin_from best bi (S i) r else argmin_from x i (S i) r
  end.
(** None: argmin of an empty sequence (ValueError) *)
Definition argmin (l : list Q) : option nat := match l with [] => None | x :: r => Some (argmin_from x 0 1 r) end.
(** l[-n:] and l[-n:] = v *)
Definition tail {A} (n : nat) (l : list A) : list A := if Nat.eqb n 0 then l else skipn (length l - n) l.
Definition set_tail {A} (n : nat) (l v : list A) : list A := if Nat.eqb n 0 then v else firstn (length l - n) l ++ v.

(** ** ego.py 297-382 (_find_best_point).  One internal optimisation gives a point and its objective value, or
    fails (success flag false or ValueError); [runs n] are the n_start results of attempt number n *)
Section Find.
Context {Pt : Type}.
Fixpoint successes (l : list (option (Pt * Q))) : list (Pt * Q) :=
  match l with [] => [] | None :: r => successes r | Some a :: r => a :: successes r end.
(** the while loop: (n_optim, opt_success) at its end *)
Fixpoint find_loop (fuel n_optim n_max : nat) (runs : nat -> list (option (Pt * Q))) : nat * list (Pt * Q) :=
  match fuel with
  | O => (n_optim, [])
  | S fuel => if Nat.leb n_optim n_max
              then match successes (runs n_optim) with
                   | [] => find_loop fuel (n_optim + 1) n_max runs
                   | s => (n_optim, s)
                   end
              else (n_optim, [])
  end.
(** None: (0, False) *)
Definition find_best_point (n_max : nat) (runs : nat -> list (option (Pt * Q))) : option Pt :=
  let '(n_optim, s) := find_loop (n_max + 1) 1 n_max runs in
  if Nat.leb n_max n_optim then None
  else match argmin (map snd s) with Some i => option_map fst (nth_error s i) | None => None end.
End Find.

(** ** ego.py 126-191 (optimize) *)
Section Optimize.
Context {Pt : Type}.
Variables (f : Pt -> Q) (fold : option (Pt -> Pt)).  (* None: no xtypes *)
Variable n_max : nat.                      (* n_max_optim *)
(** results of the internal optimisations at iteration k.p, attempt n, for the current data *)
Variable runs : nat -> nat -> list Pt -> list Q -> nat -> list (option (Pt * Q)).
(** virtual value, _get_virtual_point *)
Variable virtual : nat -> nat -> Pt -> list Pt -> list Q -> Q.
Definition to_fun (x : Pt) : Pt := match fold with Some g => g x | None => x end.
(** 147-170: virtual enrichment; [p] counts up, [m] iterations left *)
Fixpoint enrich (k p m : nat) (xs : list Pt) (ys : list Q) : list Pt * list Q :=
  match m with
  | O => (xs, ys)
  | S m => match find_best_point n_max (runs k p xs ys) with
           | None => (xs, ys)
           | Some x => enrich k (p + 1) m (xs ++ [x]) (ys ++ [virtual k p x xs ys])
           end
  end.
(** 144-181: n iterations from iteration k; the third component is the rows passed to fun, in order *)
Fixpoint iterate (n_parallel k n : nat) (xs : list Pt) (ys : list Q) : list Pt * list Q * list Pt :=
  match n with
  | O => (xs, ys, [])
  | S n => let '(xs, ys) := enrich k 0 n_parallel xs ys in
           let rows := map to_fun (tail n_parallel xs) in
           let ys := set_tail n_parallel ys (map f rows) in
           let '(xf, yf, calls) := iterate n_parallel (k + 1) n xs ys in (xf, yf, rows ++ calls)
  end.
Record result := { x_opt : Pt; y_opt : Q; ind_best : nat; x_data : list Pt; y_data : list Q; calls : list Pt }.
(** 276-295 and 140-191; [xdoe] is the design as stored (after unfolding when there are xtypes), [ydoe] the
    outputs given by the user, if any.  None: exception *)
Definition optimize (n_iter n_parallel : nat) (xdoe : list Pt) (ydoe : option (list Q)) : option result :=
  let '(ys0, c0) := match ydoe with Some ys => (ys, []) | None => (map f xdoe, xdoe) end in
  let '(xs, ys, cs) := iterate n_parallel 0 n_iter xdoe ys0 in
  match argmin ys with
  | None => None
  | Some i => match nth_error xs i, nth_error ys i with
              | Some x, Some y => Some {| x_opt := to_fun x; y_opt := y; ind_best := i; x_data := xs; y_data := ys; calls := c0 ++ cs |}
              | _, _ => None
              end
  end.
End Optimize.
