(** Model of the benchmark problems that are differentiated numerically: water_flow.py, water_flow_lfidelity.py, wing_weight.py, welded_beam.py,
    torsion_vibration.py (smt/problems).  The nested function func of _evaluate is an expression that numpy evaluates in real or in complex
    arithmetic.  Simplifications: exact real and complex numbers (in double precision the step 1e-20 squared vanishes against the real parts);
    None stands for a division by zero or an argument outside the domain of a function (nan, inf in numpy), also for 0 ** r; a real argument of
    a complex evaluation has imaginary part 0; one evaluation point (the code loops over the rows). *)
From Coq Require Import Reals ZArith Arith Bool List.
From Verif Require Import RSum Problems_M.
Import ListNotations.
Open Scope list_scope.
Open Scope R_scope.

Inductive expr :=
| Var (i : nat) | Num (r : R)
| Add (a b : expr) | Sub (a b : expr) | Mul (a b : expr) | Div (a b : expr) | Opp (a : expr)
| Pow (a : expr) (n : nat)   (* ** with an integer exponent *)
| PowR (a : expr) (r : R)    (* ** with a fractional exponent *)
| Log (a : expr) | Sqrt (a : expr) | Cos (a : expr).

(** * numpy on float64 *)
Definition bind {A B} (o : option A) (f : A -> option B) : option B := match o with Some a => f a | None => None end.
Fixpoint evalR (e : expr) (x : vec) : option R :=
  match e with
  | Var i => Some (x i) | Num r => Some r
  | Add a b => bind (evalR a x) (fun u => bind (evalR b x) (fun v => Some (u + v)))
  | Sub a b => bind (evalR a x) (fun u => bind (evalR b x) (fun v => Some (u - v)))
  | Mul a b => bind (evalR a x) (fun u => bind (evalR b x) (fun v => Some (u * v)))
  | Div a b => bind (evalR a x) (fun u => bind (evalR b x) (fun v => if Req_EM_T v 0 then None else Some (u / v)))
  | Opp a => bind (evalR a x) (fun u => Some (- u))
  | Pow a n => bind (evalR a x) (fun u => Some (u ^ n))
  | PowR a r => bind (evalR a x) (fun u => if Rle_dec u 0 then None else Some (Rpower u r))
  | Log a => bind (evalR a x) (fun u => if Rle_dec u 0 then None else Some (ln u))
  | Sqrt a => bind (evalR a x) (fun u => if Rlt_dec u 0 then None else Some (sqrt u))
  | Cos a => bind (evalR a x) (fun u => Some (cos u))
  end.

(** * numpy on complex128: pairs (real part, imaginary part) *)
Definition cx : Type := (R * R)%type.
Definition cadd (z w : cx) : cx := (fst z + fst w, snd z + snd w).
Definition csub (z w : cx) : cx := (fst z - fst w, snd z - snd w).
Definition cmul (z w : cx) : cx := (fst z * fst w - snd z * snd w, fst z * snd w + snd z * fst w).
Definition cdiv (z w : cx) : cx :=
  ((fst z * fst w + snd z * snd w) / (fst w ^ 2 + snd w ^ 2), (snd z * fst w - fst z * snd w) / (fst w ^ 2 + snd w ^ 2)).
Fixpoint cpow (z : cx) (n : nat) : cx := match n with O => (1, 0) | S n => cmul z (cpow z n) end.
Definition hypot (a b : R) : R := sqrt (a ^ 2 + b ^ 2).
(** atan2: the angle in (-pi, pi] *)
Definition arg (a b : R) : R :=
  if Rlt_dec 0 a then atan (b / a)
  else if Rlt_dec a 0 then (if Rle_dec 0 b then atan (b / a) + PI else atan (b / a) - PI)
  else if Rlt_dec 0 b then PI / 2 else if Rlt_dec b 0 then - (PI / 2) else 0.
Definition clog (z : cx) : cx := (ln (hypot (fst z) (snd z)), arg (fst z) (snd z)).
Definition cexp (z : cx) : cx := (exp (fst z) * cos (snd z), exp (fst z) * sin (snd z)).
(** principal square root as npy_csqrt computes it *)
Definition csqrt (z : cx) : cx :=
  let '(a, b) := z in
  if Rlt_dec 0 a then let t := sqrt ((a + hypot a b) / 2) in (t, b / (2 * t))
  else if Req_EM_T (hypot a b) 0 then (0, 0)
  else let t := sqrt ((- a + hypot a b) / 2) in (Rabs b / (2 * t), if Rlt_dec b 0 then - t else t).
Definition ccos (z : cx) : cx := (cos (fst z) * cosh (snd z), - (sin (fst z) * sinh (snd z))).
Definition czero (z : cx) : bool := if Req_EM_T (fst z) 0 then if Req_EM_T (snd z) 0 then true else false else false.
Fixpoint evalC (e : expr) (x : nat -> cx) : option cx :=
  match e with
  | Var i => Some (x i) | Num r => Some (r, 0)
  | Add a b => bind (evalC a x) (fun u => bind (evalC b x) (fun v => Some (cadd u v)))
  | Sub a b => bind (evalC a x) (fun u => bind (evalC b x) (fun v => Some (csub u v)))
  | Mul a b => bind (evalC a x) (fun u => bind (evalC b x) (fun v => Some (cmul u v)))
  | Div a b => bind (evalC a x) (fun u => bind (evalC b x) (fun v => if czero v then None else Some (cdiv u v)))
  | Opp a => bind (evalC a x) (fun u => Some (- fst u, - snd u))
  | Pow a n => bind (evalC a x) (fun u => Some (cpow u n))
  | PowR a r => bind (evalC a x) (fun u => if czero u then None else Some (cexp (r * fst (clog u), r * snd (clog u))))
  | Log a => bind (evalC a x) (fun u => if czero u then None else Some (clog u))
  | Sqrt a => bind (evalC a x) (fun u => Some (csqrt u))
  | Cos a => bind (evalC a x) (fun u => Some (ccos u))
  end.

(** * the derivatives, water_flow.py 48-55, 79-89; water_flow_lfidelity.py 45-52, 74-85; wing_weight.py 53-60, 86-97;
    welded_beam.py 45-52, 72-83; torsion_vibration.py 80-87, 118-147 *)
(** point[kx] += complex(0, ch); np.imag(func( *point)) / ch *)
Definition complex_step (e : expr) (ch : R) (x : vec) (k : nat) : option R :=
  option_map (fun z : cx => snd z / ch) (evalC e (fun j => (x j, if Nat.eqb j k then ch else 0))).
(** partial_derivative: scipy.misc.derivative with n = 1, order = 3: weights -1/2, 0, 1/2 at x - dx, x, x + dx *)
Definition central (e : expr) (dx : R) (x : vec) (k : nat) : option R :=
  bind (evalR e (upd x k (x k - dx))) (fun a => bind (evalR e (upd x k (x k))) (fun b => bind (evalR e (upd x k (x k + dx))) (fun c =>
    Some ((- (1 / 2) * a + 0 * b + 1 / 2 * c) / dx)))).
Definition numerical (n : nat) (lo up : list R) (use_FD : bool) (ch dx : R) (e : expr) : problem :=
  {| ndim := n; lower := fun i => nth i lo 0; upper := fun i => nth i up 0;
     evaluate := fun x kx => match kx with
                             | None => evalR e x
                             | Some k => match wrap n k with
                                         | Some j => if use_FD then central e dx x j else complex_step e ch x j
                                         | None => None
                                         end
                             end |}.
Definition V (i : nat) : expr := Var i.
Definition N (r : R) : expr := Num r.

(** water_flow.py 57-67, water_flow_lfidelity.py 54-63: they differ in the first factor and the first summand *)
Definition flow_expr (c s : R) : expr :=
  let l := Log (Div (V 1) (V 0)) in
  Div (Mul (Mul (N c) (V 2)) (Sub (V 3) (V 5)))
      (Mul l (Add (Add (N s) (Div (Mul (Mul (N 2) (V 6)) (V 2)) (Mul (Mul l (Pow (V 0) 2)) (V 7)))) (Div (V 2) (V 4)))).
(** water_flow.py 26-27, water_flow_lfidelity.py 23-24 *)
Definition flow_lo : list R := [5 / 100; 100; 63070; 990; 631 / 10; 700; 1120; 9855].
Definition flow_up : list R := [15 / 100; 50000; 115600; 1110; 116; 820; 1680; 12045].
Definition water_flow (use_FD : bool) (ch dx : R) : problem := numerical 8 flow_lo flow_up use_FD ch dx (flow_expr (2 * PI) 1).
Definition water_flow_lfidelity (use_FD : bool) (ch dx : R) : problem := numerical 8 flow_lo flow_up use_FD ch dx (flow_expr 5 (3 / 2)).

(** wing_weight.py 49-51, 62-73; deg / 180.0 * np.pi *)
Definition wing_expr : expr :=
  let c := Cos (Mul (Div (V 3) (N 180)) (N PI)) in
  Add (Mul (Mul (Mul (Mul (Mul (Mul (Mul (N (36 / 1000)) (PowR (V 0) (758 / 1000))) (PowR (V 1) (35 / 10000)))
        (Div (V 2) (Pow c 2))) (PowR (V 4) (6 / 1000))) (PowR (V 5) (4 / 100)))
        (PowR (Div (Mul (N 100) (V 6)) c) (- (3 / 10)))) (PowR (Mul (V 7) (V 8)) (49 / 100)))
      (Mul (V 0) (V 9)).
(** wing_weight.py 27-28 *)
Definition wing_lo : list R := [150; 220; 6; -10; 16; 5 / 10; 8 / 100; 25 / 10; 1700; 25 / 1000].
Definition wing_up : list R := [200; 300; 10; 10; 45; 1; 18 / 100; 6; 2500; 8 / 100].
Definition wing_weight (use_FD : bool) (ch dx : R) : problem := numerical 10 wing_lo wing_up use_FD ch dx wing_expr.

(** welded_beam.py 54-66 *)
Definition beam_expr : expr :=
  let q := Sqrt (Mul (N (25 / 100)) (Add (Pow (V 2) 2) (Pow (Add (V 1) (V 0)) 2))) in
  let tau1 := Div (N 6000) (Mul (Mul (N (sqrt 2)) (V 1)) (V 2)) in
  let tau2 := Div (Mul (Mul (N 6000) (Add (N 14) (Mul (N (1 / 2)) (V 2)))) q)
                  (Mul (N 2) (Mul (Mul (Mul (N (707 / 1000)) (V 1)) (V 2)) (Add (Div (V 2) (N 12)) (Mul (N (25 / 100)) (Pow (Add (V 1) (V 0)) 2))))) in
  Sqrt (Add (Add (Pow tau1 2) (Pow tau2 2)) (Div (Mul (Mul (V 2) tau1) tau2) q)).
(** welded_beam.py 24-25 *)
Definition welded_beam (use_FD : bool) (ch dx : R) : problem := numerical 3 [5; 125 / 1000; 5] [10; 1; 10] use_FD ch dx beam_expr.

(** torsion_vibration.py 89-100; a = 1 is written as the literal 1 *)
Definition torsion_expr : expr :=
  let K1 := Div (Mul (Mul (N PI) (V 2)) (V 0)) (Mul (N 32) (V 1)) in
  let K2 := Div (Mul (Mul (N PI) (V 8)) (V 6)) (Mul (N 32) (V 7)) in
  let K3 := Div (Mul (Mul (N PI) (V 4)) (V 9)) (Mul (N 32) (V 3)) in
  let g := N (4 * (980665 / 100000)) in
  let M1 := Div (Mul (Mul (Mul (V 11) (N PI)) (V 10)) (V 5)) g in
  let M2 := Div (Mul (Mul (Mul (V 14) (N PI)) (V 13)) (V 12)) g in
  let J1 := Mul (Mul (N (1 / 2)) M1) (Pow (Div (V 5) (N 2)) 2) in
  let J2 := Mul (Mul (N (1 / 2)) M2) (Pow (Div (V 12) (N 2)) 2) in
  let b := Opp (Add (Div (Add K1 K2) J1) (Div (Add K2 K3) J2)) in
  let c := Div (Add (Add (Mul K1 K2) (Mul K2 K3)) (Mul K3 K1)) (Mul J1 J2) in
  Div (Sqrt (Div (Sub (Opp b) (Sqrt (Sub (Pow b 2) (Mul (N (4 * 1)) c)))) (N (2 * 1)))) (N (2 * PI)).
(** torsion_vibration.py 26-59 *)
Definition torsion_lo : list R := [18 / 10; 9; 10530000; 72 / 10; 3510000; 108 / 10; 16425 / 10000; 108 / 10; 5580000; 2025 / 1000; 27 / 10; 252 / 1000; 126 / 10; 36 / 10; 9 / 100].
Definition torsion_up : list R := [22 / 10; 11; 12870000; 88 / 10; 4290000; 132 / 10; 20075 / 10000; 132 / 10; 6820000; 2475 / 1000; 33 / 10; 308 / 1000; 154 / 10; 44 / 10; 11 / 100].
Definition torsion_vibration (use_FD : bool) (ch dx : R) : problem := numerical 15 torsion_lo torsion_up use_FD ch dx torsion_expr.
(** the constants in the code (e.g. water_flow.py 55, 86) *)
Definition the_ch : R := / 10 ^ 20.
Definition the_dx : R := / 10 ^ 6.
