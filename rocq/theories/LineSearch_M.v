(** Model of smt/utils/line_search.py.  Simplifications: floats are reals; a diverging while loop
    is a run that needs more fuel than it is given; numpy.linalg.solve / numpy.roots in the
    quadratic and cubic variants are an arbitrary rule choosing the next trial step (None = raises). *)
From Coq Require Import Reals Arith Bool List.
From Verif Require Import RSum Mat.
Open Scope R_scope.

Section LineSearch.
(** line_search.py 31-59: the attributes *)
Variables (n : nat) (x dx : vec) (func : vec -> R) (grad : vec -> vec) (u1 u2 : R).

(** the point x + a dx *)
Definition ls_point (a : R) : vec := fun i => x i + a * dx i.
(** line_search.py 61-67 *)
Definition phi (a : R) : R := func (ls_point a).
(** line_search.py 69-73 *)
Definition dphi (a : R) : R := dot n (grad (ls_point a)) dx.
(** line_search.py 75-79 *)
Definition func_decreased (a : R) : bool := if Rle_dec (phi a) (phi 0 + u1 * a * dphi 0) then true else false.
(** line_search.py 81-85 *)
Definition grad_decreased (a : R) : bool := if Rle_dec (Rabs (dphi a)) (Rabs (u2 * dphi 0)) then true else false.

(** line_search.py 88-116: NullLineSearch *)
Definition null_search (initial_a : R) : vec := ls_point initial_a.

(** line_search.py 119-128: BacktrackingLineSearch; None = not finished within [fuel] tests *)
Fixpoint backtrack (fuel : nat) (a rho : R) : option R :=
  match fuel with
  | O => None
  | S f => if negb (func_decreased a) then backtrack f (a * rho) rho else Some a
  end.
Definition backtracking (fuel : nat) (initial_a rho : R) : option vec :=
  match backtrack fuel initial_a rho with Some a => Some (ls_point a) | None => None end.

(** result of the bracketing search: step found, falls off the for loop (Python returns None),
    an exception, or not finished within the fuel *)
Inductive outcome := Found (a : R) | ReturnsNone | Raises | OutOfFuel.

(** rule of line_search.py 196-203 / 211-224 / 232-262; p and dp are phi and dphi at the trial *)
Variable compute_minimum : R -> R -> R -> R -> R -> R -> option R.
(** line_search.py 170-194 *)
Fixpoint zoom (fuel : nat) (a1 p1 dp1 a2 p2 dp2 : R) : outcome :=
  match fuel with
  | O => OutOfFuel
  | S f =>
    match compute_minimum a1 p1 dp1 a2 p2 dp2 with
    | None => Raises
    | Some a =>
      let p := phi a in let dp := dphi a in
      if negb (func_decreased a) || (if Rlt_dec p1 p then true else false) then zoom f a1 p1 dp1 a p dp
      else if grad_decreased a then Found a
      else if Rle_dec 0 (dp * (a2 - a1)) then zoom f a p dp a1 p1 dp1
      else zoom f a p dp a2 p2 dp2
    end
  end.
(** line_search.py 144-168: [rounds] iterations of the for loop are left *)
Fixpoint bracket (fuel rounds : nat) (a1 p1 dp1 a2 p2 dp2 : R) : outcome :=
  match rounds with
  | O => ReturnsNone
  | S r =>
    if negb (func_decreased a2) || (if Rlt_dec p1 p2 then true else false) then zoom fuel a1 p1 dp1 a2 p2 dp2
    else if grad_decreased a2 then Found a2
    else if Rle_dec 0 dp2 then zoom fuel a2 p2 dp2 a1 p1 dp1
    else let a3 := a2 * (3 / 2) in bracket fuel r a2 p2 dp2 a3 (phi a3) (dphi a3)
  end.
(** line_search.py 136-142 *)
Definition bracketed (fuel : nat) (initial_a : R) : outcome :=
  bracket fuel 20 0 (phi 0) (dphi 0) initial_a (phi initial_a) (dphi initial_a).
End LineSearch.
(** line_search.py 200: BracketedLineSearch's midpoint rule *)
Definition midpoint_rule (a1 p1 dp1 a2 p2 dp2 : R) : option R := Some (1 / 2 * a1 + 1 / 2 * a2).
(** line_search.py 208-224: the parabola c0 + c1 a + c2 a^2 with p1 at a1, p2 at a2 and slope dp1 at a1 (numpy.linalg.solve of the
    three equations, written in closed form; None: a1 = a2, the matrix is singular) and its stationary point (None: c2 = 0, not a number) *)
Definition parabola (a1 p1 dp1 a2 p2 : R) : option (R * R * R) :=
  if Req_EM_T a1 a2 then None
  else let c2 := (p2 - p1 - dp1 * (a2 - a1)) / (a2 - a1) ^ 2 in let c1 := dp1 - 2 * c2 * a1 in Some (p1 - c1 * a1 - c2 * a1 ^ 2, c1, c2).
Definition quadratic_rule (a1 p1 dp1 a2 p2 dp2 : R) : option R :=
  match parabola a1 p1 dp1 a2 p2 with
  | None => None
  | Some (c0, c1, c2) => let d0 := c1 in let d1 := 2 * c2 in if Req_EM_T d1 0 then None else Some (- d0 / d1)
  end.
(** line_search.py 232-240: the cubic c0 + c1 a + c2 a^2 + c3 a^3 with values p1, p2 and slopes dp1, dp2 at a1, a2 (numpy.linalg.solve of the
    four equations, written in closed form; None: a1 = a2, the matrix is singular) *)
Definition hermite_cubic (a1 p1 dp1 a2 p2 dp2 : R) : option (R * R * R * R) :=
  if Req_EM_T a1 a2 then None
  else let h := a2 - a1 in let s := (p2 - p1) / h in let r := (dp1 + dp2 - 2 * s) / h ^ 2 in let q := (3 * s - 2 * dp1 - dp2) / h in
       Some (p1 - dp1 * a1 + q * a1 ^ 2 - r * a1 ^ 3, dp1 - 2 * q * a1 + 3 * r * a1 ^ 2, q - 3 * r * a1, r).
(** line_search.py 242-245: [r1, r2 = numpy.roots([d2, d1, d0])].  None: d2 = 0, fewer than two roots come back and the unpacking raises.
    Some None: the two roots are complex.  [swap]: numpy does not say which root comes first. *)
Definition two_roots (swap : bool) (d2 d1 d0 : R) : option (option (R * R)) :=
  if Req_EM_T d2 0 then None
  else let disc := d1 ^ 2 - 4 * d2 * d0 in
       if Rlt_dec disc 0 then Some None
       else let ra := (- d1 - sqrt disc) / (2 * d2) in let rb := (- d1 + sqrt disc) / (2 * d2) in
            Some (Some (if swap then (rb, ra) else (ra, rb))).
(** line_search.py 247-260: one of the two [if] blocks; the pair is (a, p), a = None until a root is taken *)
Definition try_root (phi : R -> R) (a1 a2 r : R) (st : option R * R) : option R * R :=
  if (if Rle_dec a1 r then (if Rle_dec r a2 then true else false) else false) || (if Rle_dec a2 r then (if Rle_dec r a1 then true else false) else false)
  then (if Rlt_dec (phi r) (snd st) then (Some r, phi r) else st) else st.
(** line_search.py 231-262; None: LinAlgError (a1 = a2), ValueError (fewer than two roots), or UnboundLocalError at 262 ([dp] never assigned,
    no root taken) *)
Definition cubic_rule (phi : R -> R) (swap : bool) (a1 p1 dp1 a2 p2 dp2 : R) : option R :=
  match hermite_cubic a1 p1 dp1 a2 p2 dp2 with
  | None => None
  | Some (_, c1, c2, c3) =>
    match two_roots swap (3 * c3) (2 * c2) c1 with
    | None => None
    | Some None => None
    | Some (Some (r1, r2)) => fst (try_root phi a1 a2 r2 (try_root phi a1 a2 r1 (None, Rmax p1 p2)))
    end
  end.
