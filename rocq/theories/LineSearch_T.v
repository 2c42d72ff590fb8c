(** Property C54: line searches. *)
From Coq Require Import Reals Arith Bool List Lia Lra.
From Coquelicot Require Import Coquelicot.
From Verif Require Import RSum Mat LineSearch_M LineSearch_P LineSearch_P2 LineSearch_P3 LineSearch_P4.
Open Scope R_scope.

(** C54. A backtracking search that returns does so with a step a0 * rho^m of sufficient decrease, the
    longest one tried ... *)
Theorem C54_backtracking_sufficient_decrease : forall n x dx func grad u1 fuel a0 rho a,
  backtrack n x dx func grad u1 fuel a0 rho = Some a ->
  exists m, (m < fuel)%nat /\ a = a0 * rho ^ m /\
    func (fun i => x i + a * dx i) <= func (fun i => x i + 0 * dx i) + u1 * a * rsum n (fun i => grad (fun i => x i + 0 * dx i) i * dx i) /\
    (forall j, (j < m)%nat -> func (fun i => x i + 0 * dx i) + u1 * (a0 * rho ^ j) * rsum n (fun i => grad (fun i => x i + 0 * dx i) i * dx i)
                              < func (fun i => x i + a0 * rho ^ j * dx i)).
Proof. exact (fun n x dx func grad u1 fuel a0 rho a H => backtrack_spec n x dx func grad u1 fuel a0 rho a H). Qed.
Print Assumptions C54_backtracking_sufficient_decrease.
(** ... and it does return, from any starting step, when the gradient is the true slope and the
    direction descends. *)
Theorem C54_backtracking_terminates : forall n x dx func grad u1 a0 rho, 0 < a0 -> 0 < rho < 1 -> u1 < 1 ->
  is_derive (fun a => func (fun i => x i + a * dx i)) 0 (rsum n (fun i => grad (fun i => x i + 0 * dx i) i * dx i)) ->
  rsum n (fun i => grad (fun i => x i + 0 * dx i) i * dx i) < 0 ->
  exists fuel a, backtrack n x dx func grad u1 fuel a0 rho = Some a.
Proof. exact (fun n x dx func grad u1 a0 rho => backtrack_terminates n x dx func grad u1 a0 rho). Qed.
Print Assumptions C54_backtracking_terminates.
(** Without a descent direction it can run for ever (no iteration cap): convex objective, ascent direction. *)
Theorem C54_ascent_never_returns_refuted : forall n x dx func grad u1 rho a0, 0 < a0 -> 0 < rho -> u1 < 1 ->
  0 < rsum n (fun i => grad (fun i => x i + 0 * dx i) i * dx i) ->
  (forall a, 0 < a -> func (fun i => x i + 0 * dx i) + a * rsum n (fun i => grad (fun i => x i + 0 * dx i) i * dx i) <= func (fun i => x i + a * dx i)) ->
  forall fuel, backtrack n x dx func grad u1 fuel a0 rho = None.
Proof. exact (fun n x dx func grad u1 rho a0 => convex_ascent_diverges n x dx func grad u1 rho a0). Qed.
Print Assumptions C54_ascent_never_returns_refuted.
(** The bracketing searches (midpoint, quadratic, cubic: any trial rule) only return strong-Wolfe steps ... *)
Theorem C54_bracketed_strong_wolfe : forall n x dx func grad u1 u2 rule fuel a0 a,
  bracketed n x dx func grad u1 u2 rule fuel a0 = Found a ->
  func (fun i => x i + a * dx i) <= func (fun i => x i + 0 * dx i) + u1 * a * rsum n (fun i => grad (fun i => x i + 0 * dx i) i * dx i) /\
  Rabs (rsum n (fun i => grad (fun i => x i + a * dx i) i * dx i)) <= Rabs (u2 * rsum n (fun i => grad (fun i => x i + 0 * dx i) i * dx i)).
Proof. exact (fun n x dx func grad u1 u2 rule fuel a0 a H => bracketed_wolfe n x dx func grad u1 u2 rule fuel a0 a H). Qed.
Print Assumptions C54_bracketed_strong_wolfe.
(** ... but they return no point at all (Python None) on a steadily decreasing objective. *)
Theorem C54_bracketed_returns_nothing_refuted : forall rule fuel,
  bracketed 1 (fun _ => 0) (fun _ => 1) (fun v => - v 0%nat) (fun _ _ => -1) (1 / 10000) (9 / 10) rule fuel 1 = ReturnsNone.
Proof. exact bracketed_linear. Qed.
Print Assumptions C54_bracketed_returns_nothing_refuted.
(** The midpoint search ends on every continuously differentiable objective and descent direction: it returns nothing exactly when
    at all 20 steps a0 * 1.5^k the objective has decreased enough, not risen since the previous step, and falls too steeply;
    otherwise a positive step not longer than the last of them (a strong-Wolfe one, C54_bracketed_strong_wolfe). *)
Theorem C54_midpoint_terminates : forall n x dx func grad u1 u2, 0 <= u1 < u2 /\ u2 < 1 ->
  let f := fun a => func (fun i => x i + a * dx i) in let f' := fun a => rsum n (fun i => grad (fun i => x i + a * dx i) i * dx i) in
  (forall a, 0 <= a -> is_derive f a (f' a)) -> (forall a, 0 <= a -> continuity_pt f' a) -> f' 0 < 0 ->
  forall a0, 0 < a0 ->
  let step := fun k => match k with O => 0 | S k => a0 * (3 / 2) ^ k end in
  let goes_on := forall k, (k < 20)%nat -> f (step (S k)) <= f 0 + u1 * step (S k) * f' 0 /\ f (step (S k)) <= f (step k) /\ f' (step (S k)) < u2 * f' 0 in
  exists N, forall fuel, (N <= fuel)%nat ->
    (~ goes_on -> exists a, bracketed n x dx func grad u1 u2 midpoint_rule fuel a0 = Found a /\ 0 < a <= a0 * (3 / 2) ^ 19) /\
    (goes_on -> bracketed n x dx func grad u1 u2 midpoint_rule fuel a0 = ReturnsNone).
Proof.
  intros n x dx func grad u1 u2 U f f' D C S0 a0 Ha step goes_on. destruct (bracketed_ends n x dx func grad u1 u2 U D C S0 a0 Ha) as (N & H). exists N. intros fuel Hf. specialize (H fuel Hf). cbv zeta in H.
  assert (E : goes_on <-> (LineSearch_P2.goes_on n x dx func grad u1 u2 0 a0 /\ forall k, (S k < 20)%nat -> LineSearch_P2.goes_on n x dx func grad u1 u2 (a0 * (3 / 2) ^ k) (a0 * (3 / 2) ^ S k))).
  { assert (E0 : a0 * (3 / 2) ^ 0 = a0) by ring. split.
    - intros X. split.
      + pose proof (X 0%nat ltac:(lia)) as Y. unfold step in Y. rewrite E0 in Y. exact Y.
      + intros k Hk. exact (X (S k) Hk).
    - intros (X & Y) k Hk. destruct k as [|k]; [unfold step; rewrite E0; exact X|exact (Y k Hk)]. }
  split; [intros X; apply (proj1 H); intros Y; apply X; apply E; exact Y|intros X; apply (proj2 H); apply E; exact X].
Qed.
Print Assumptions C54_midpoint_terminates.
(** The quadratic search fits the parabola with the values at both ends and the slope at the first end, which exists unless they coincide. *)
Theorem C54_parabola : forall a1 p1 dp1 a2 p2, (parabola a1 p1 dp1 a2 p2 = None <-> a1 = a2) /\
  forall c0 c1 c2, parabola a1 p1 dp1 a2 p2 = Some (c0, c1, c2) -> c0 + c1 * a1 + c2 * a1 ^ 2 = p1 /\ c0 + c1 * a2 + c2 * a2 ^ 2 = p2 /\ c1 + c2 * (2 * a1) = dp1.
Proof. exact (fun a1 p1 dp1 a2 p2 => conj (parabola_iff a1 p1 dp1 a2 p2) (parabola_solves a1 p1 dp1 a2 p2)). Qed.
Print Assumptions C54_parabola.
(** On an objective that is a convex quadratic along the direction it never needs a second interpolation: it returns the minimiser,
    one of the steps a0 * 1.5^k, or (all of these being too short) nothing. *)
Theorem C54_quadratic_exact : forall n x dx func grad u1 u2 al be ga, 0 <= u1 <= 1 / 2 /\ 0 <= u2 -> be < 0 < ga ->
  (forall a, func (fun i => x i + a * dx i) = al + be * a + ga * a ^ 2) ->
  (forall a, rsum n (fun i => grad (fun i => x i + a * dx i) i * dx i) = be + 2 * ga * a) ->
  forall fuel a0, 0 < a0 -> let r := bracketed n x dx func grad u1 u2 quadratic_rule (S fuel) a0 in let best := - be / (2 * ga) in
  r = Found best \/ (exists k, (k < 20)%nat /\ r = Found (a0 * (3 / 2) ^ k)) \/ (r = ReturnsNone /\ forall k, (k < 20)%nat -> a0 * (3 / 2) ^ k < best).
Proof. exact (fun n x dx func grad u1 u2 al be ga U G P DP fuel a0 => quadratic_exact n x dx func grad u1 u2 al be ga U P DP G fuel a0). Qed.
Print Assumptions C54_quadratic_exact.
(** The cubic search fits the cubic with the values and slopes at both ends, which exists unless they coincide. *)
Theorem C54_cubic_interpolant : forall a1 p1 dp1 a2 p2 dp2, (hermite_cubic a1 p1 dp1 a2 p2 dp2 = None <-> a1 = a2) /\
  forall c0 c1 c2 c3, hermite_cubic a1 p1 dp1 a2 p2 dp2 = Some (c0, c1, c2, c3) ->
  c0 + c1 * a1 + c2 * a1 ^ 2 + c3 * a1 ^ 3 = p1 /\ c0 + c1 * a2 + c2 * a2 ^ 2 + c3 * a2 ^ 3 = p2 /\
  c1 + c2 * (2 * a1) + c3 * (3 * a1 ^ 2) = dp1 /\ c1 + c2 * (2 * a2) + c3 * (3 * a2 ^ 2) = dp2.
Proof. exact (fun a1 p1 dp1 a2 p2 dp2 => conj (hermite_iff a1 p1 dp1 a2 p2 dp2) (hermite_solves a1 p1 dp1 a2 p2 dp2)). Qed.
Print Assumptions C54_cubic_interpolant.
(** A trial step of the cubic search lies between the ends, is a stationary point of the cubic, lowers the objective below the larger end and is
    the best stationary point there; ... *)
Theorem C54_cubic_trial : forall (phi : R -> R) swap a1 p1 dp1 a2 p2 dp2 a, cubic_rule phi swap a1 p1 dp1 a2 p2 dp2 = Some a ->
  exists c0 c1 c2 c3, hermite_cubic a1 p1 dp1 a2 p2 dp2 = Some (c0, c1, c2, c3) /\ Rmin a1 a2 <= a <= Rmax a1 a2 /\ c1 + 2 * c2 * a + 3 * c3 * a ^ 2 = 0 /\
    phi a < Rmax p1 p2 /\ forall b, Rmin a1 a2 <= b <= Rmax a1 a2 -> c1 + 2 * c2 * b + 3 * c3 * b ^ 2 = 0 -> phi a <= phi b.
Proof. exact cubic_rule_some. Qed.
Print Assumptions C54_cubic_trial.
(** ... it raises exactly when the ends coincide, the cubic term vanishes or no stationary point of the cubic between the ends lowers the objective. *)
Theorem C54_cubic_raises : forall (phi : R -> R) swap a1 p1 dp1 a2 p2 dp2, cubic_rule phi swap a1 p1 dp1 a2 p2 dp2 = None <->
  a1 = a2 \/ exists c0 c1 c2 c3, hermite_cubic a1 p1 dp1 a2 p2 dp2 = Some (c0, c1, c2, c3) /\
    (c3 = 0 \/ forall b, Rmin a1 a2 <= b <= Rmax a1 a2 -> c1 + 2 * c2 * b + 3 * c3 * b ^ 2 = 0 -> Rmax p1 p2 <= phi b).
Proof. exact cubic_rule_none. Qed.
Print Assumptions C54_cubic_raises.
(** In particular it cannot interpolate an objective that is quadratic along the direction: *)
Theorem C54_cubic_on_quadratics : forall n x dx func grad u1 u2 al be ga swap,
  (forall a, func (fun i => x i + a * dx i) = al + be * a + ga * a ^ 2) ->
  (forall a, rsum n (fun i => grad (fun i => x i + a * dx i) i * dx i) = be + 2 * ga * a) ->
  forall fuel a0, let r := bracketed n x dx func grad u1 u2 (cubic_rule (fun a => func (fun i => x i + a * dx i)) swap) (S fuel) a0 in
  r = Raises \/ (exists k, (k < 20)%nat /\ r = Found (a0 * (3 / 2) ^ k)) \/ r = ReturnsNone.
Proof. exact bracketed_cubic. Qed.
Print Assumptions C54_cubic_on_quadratics.
Theorem C54_cubic_on_quadratics_refuted : forall swap fuel,
  bracketed 1 (fun _ => 0) (fun _ => 1) (fun v => (v 0%nat - 1) ^ 2) (fun v _ => 2 * (v 0%nat - 1)) (1 / 10000) (1 / 10)
    (cubic_rule (fun a => (fun v : vec => (v 0%nat - 1) ^ 2) (fun i => 0 + a * 1)) swap) (S fuel) 3 = Raises.
Proof. exact cubic_raises. Qed.
Print Assumptions C54_cubic_on_quadratics_refuted.
Example C54_nonvacuous_cubic : forall swap, cubic_rule (fun a => a ^ 3 - 3 * a) swap 0 0 (-3) 3 18 24 = Some 1.
Proof. exact cubic_works. Qed.
(** f(x) = x^2 from 1 along -3 halves once; along -1 the full step is a strong Wolfe step *)
Example C54_nonvacuous : backtrack 1 (fun _ => 1) (fun _ => -3) (fun v => v 0%nat * v 0%nat) (fun v _ => 2 * v 0%nat) (1 / 10000) 2 1 (1 / 2) = Some (1 * (1 / 2)) /\
  bracketed 1 (fun _ => 1) (fun _ => -1) (fun v => v 0%nat * v 0%nat) (fun v _ => 2 * v 0%nat) (1 / 10000) (9 / 10) midpoint_rule 0 1 = Found 1.
Proof. exact nonvac54. Qed.
(** (a - 1)^2 along the axis from 0, first step 3: both the midpoint and the quadratic search have to interpolate *)
Example C54_nonvacuous_bracket : (forall a, is_derive (fun a => (fun v : vec => (v 0%nat - 1) ^ 2) (fun i => 0 + a * 1)) a (rsum 1 (fun i => (fun (v : vec) (_ : nat) => 2 * (v 0%nat - 1)) (fun i => 0 + a * 1) i * 1))) /\
  bracketed 1 (fun _ => 0) (fun _ => 1) (fun v => (v 0%nat - 1) ^ 2) (fun v _ => 2 * (v 0%nat - 1)) (1 / 10000) (1 / 10) quadratic_rule 1 3 = Found 1.
Proof. exact nonvac54b. Qed.
