(** Model of smt/problems: problem.py (71-105), sphere.py, rosenbrock.py, branin.py, lp_norm.py, tensor_product.py, robot_arm.py,
    cantilever_beam.py, reduced_problem.py, ndim_rosenbrock.py, ndim_robot_arm.py, ndim_cantilever_beam.py, ndim_step_function.py.
    Simplifications: one evaluation point (the code treats rows independently); real inputs; division by zero not modelled
    (the theorems exclude it); None is an exception.  The problems differentiated by complex step (water_flow.py, water_flow_lfidelity.py,
    welded_beam.py, wing_weight.py, torsion_vibration.py) are in CStep_M.v. *)
From Coq Require Import Reals ZArith Arith Bool List.
From Verif Require Import RSum.
Import ListNotations.
Open Scope list_scope.
Open Scope R_scope.
Notation vec := (nat -> R).

(** x[:, z] of an array with nx columns: negative indices count from the end, None is IndexError *)
Definition wrap (nx : nat) (z : Z) : option nat :=
  if (0 <=? z)%Z && (z <? Z.of_nat nx)%Z then Some (Z.to_nat z)
  else if (- Z.of_nat nx <=? z)%Z && (z <? 0)%Z then Some (Z.to_nat (z + Z.of_nat nx)) else None.
Definition at_ (nx : nat) (x : vec) (z : Z) : option R := option_map x (wrap nx z).
(** a bound of a slice as a position between 0 and nx *)
Definition bound (nx : nat) (z : Z) : nat := if (z <? 0)%Z then Z.to_nat (z + Z.of_nat nx) else Nat.min (Z.to_nat z) nx.
(** np.sum(x[:, start:stop:step], axis=1) *)
Definition slice_sum (nx : nat) (x : vec) (start stop : Z) (step : nat) : R :=
  let s := bound nx start in let e := bound nx stop in
  rsum nx (fun i => if Nat.leb s i && Nat.ltb i e && Nat.eqb ((i - s) mod step) 0 then x i else 0).

Record problem := { ndim : nat; lower : vec; upper : vec; evaluate : vec -> option Z -> option R }.

(** problem.py 71-105: a call on a row of [cols] entries; kx is an int or something else *)
Inductive kxarg := KNone | KInt (z : Z) | KOther.
Inductive out := Val (r : R) | ValueError | TypeError | Failure.
Definition call (p : problem) (cols : nat) (x : vec) (kx : kxarg) : out :=
  if negb (Nat.eqb cols (ndim p)) then ValueError
  else match kx with
       | KOther => TypeError
       | KNone => match evaluate p x None with Some v => Val v | None => Failure end
       | KInt z => if (z <? 0)%Z then TypeError else match evaluate p x (Some z) with Some v => Val v | None => Failure end
       end.

(** sphere.py 14-44 *)
Definition sphere (n : nat) : problem :=
  {| ndim := n; lower := fun _ => -10; upper := fun _ => 10;
     evaluate := fun x kx => match kx with None => Some (rsum n (fun i => x i ^ 2)) | Some k => option_map (fun v => 2 * v) (at_ n x k) end |}.

(** rosenbrock.py 17-55.  The two branches add to y; an index error in either is an exception *)
Definition rosenbrock (n : nat) : problem :=
  {| ndim := n; lower := fun _ => -2; upper := fun _ => 2;
     evaluate := fun x kx =>
       match kx with
       | None => Some (rsum (n - 1) (fun i => 100 * (x (i + 1)%nat - x i ^ 2) ^ 2 + (1 - x i) ^ 2))
       | Some k =>
           let y1 := if (k <? Z.of_nat n - 1)%Z
                     then match at_ n x (k + 1), at_ n x k with Some a, Some b => Some (-400 * (a - b ^ 2) * b - 2 * (1 - b)) | _, _ => None end else Some 0 in
           let y2 := if (0 <? k)%Z
                     then match at_ n x k, at_ n x (k - 1) with Some a, Some b => Some (200 * (a - b ^ 2)) | _, _ => None end else Some 0 in
           match y1, y2 with Some a, Some b => Some (a + b) | _, _ => None end
       end |}.

(** branin.py 20-66 *)
Definition branin : problem :=
  {| ndim := 2; lower := fun i => if Nat.eqb i 0 then -5 else 0; upper := fun i => if Nat.eqb i 0 then 10 else 15;
     evaluate := fun x kx =>
       let b := 51 / 10 / (4 * PI ^ 2) in let c := 5 / PI in let t := 1 / (8 * PI) in
       let u := x 1%nat - b * x 0%nat ^ 2 + c * x 0%nat - 6 in
       match kx with
       | None => Some (u ^ 2 + (10 * (1 - t) * cos (x 0%nat) + 10))
       | Some k => if (k =? 0)%Z then let du := -2 * b * x 0%nat + c in let dr := - 10 * (1 - t) * sin (x 0%nat) in Some (2 * du * u + dr)
                   else if (k =? 1)%Z then Some (2 * u) else None
       end |}.

(** lp_norm.py 15-49.  s ** (1.0 / p) for s not negative *)
Definition root (p : nat) (s : R) : R := if Rle_dec s 0 then 0 else Rpower s (1 / INR p).
Definition sign (r : R) : R := if Rlt_dec 0 r then 1 else if Rlt_dec r 0 then -1 else 0.
(** np.linalg.norm(x, ord=p) of a matrix (45, result unused): only the orders 1 and 2 among the positive ones are accepted *)
Definition matrix_norm_ok (p : nat) : bool := Nat.eqb p 1 || Nat.eqb p 2.
Definition lp_norm (p n : nat) : problem :=
  {| ndim := n; lower := fun _ => -1; upper := fun _ => 1;
     evaluate := fun x kx =>
       if Nat.eqb p 0 then None
       else let norm := root p (rsum n (fun i => Rabs (x i) ^ p)) in
            match kx with
            | None => Some norm
            | Some k => if matrix_norm_ok p then option_map (fun v => sign v * (Rabs v / norm) ^ (p - 1)) (at_ n x k) else None
            end |}.

(** tensor_product.py 13-66 *)
Inductive tfunc := TCos | TExp | TTanh | TGaussian.
Definition tf (f : tfunc) (a v : R) : R := match f with TCos => cos (a * PI * v) | TExp => exp (a * v) | TTanh => tanh (a * v) | TGaussian => exp (- 2 * a * v ^ 2) end.
Definition dtf (f : tfunc) (a v : R) : R :=
  match f with TCos => - a * PI * sin (a * PI * v) | TExp => a * exp (a * v) | TTanh => a / cosh (a * v) ^ 2 | TGaussian => - 4 * a * v * exp (- 2 * a * v ^ 2) end.
Definition tensor_product (f : tfunc) (a : R) (n : nat) : problem :=
  {| ndim := n; lower := fun _ => -1; upper := fun _ => 1;
     evaluate := fun x kx => match kx with
                             | None => Some (rprod n (fun i => tf f a (x i)))
                             | Some k => Some (rprod n (fun i => if (k =? Z.of_nat i)%Z then dtf f a (x i) else tf f a (x i)))
                             end |}.

(** robot_arm.py 14-76; None: AssertionError for odd ndim *)
Definition arm_angle (n : nat) (x : vec) (seg : Z) : R := slice_sum n x 1 (2 * seg + 2) 2.
Definition arm_problem (n : nat) : problem :=
  {| ndim := n; lower := fun _ => 0; upper := fun i => if Nat.eqb (i mod 2) 0 then 1 else 2 * PI;
    evaluate := fun x kx =>
      let nseg := (n / 2)%nat in
      let ang := fun i : nat => arm_angle n x (Z.of_nat i) in
      let px := rsum nseg (fun i => x (2 * i)%nat * cos (ang i)) in
      let py := rsum nseg (fun i => x (2 * i)%nat * sin (ang i)) in
      let len := sqrt (px ^ 2 + py ^ 2) in
      match kx with
      | None => Some len
      | Some k =>
          let kseg := (k / 2)%Z in
          let '(dx, dy) := if (k mod 2 =? 0)%Z then (cos (arm_angle n x kseg), sin (arm_angle n x kseg))
                           else (rsum nseg (fun i => if (kseg <=? Z.of_nat i)%Z then - (x (2 * i)%nat * sin (ang i)) else 0),
                                 rsum nseg (fun i => if (kseg <=? Z.of_nat i)%Z then x (2 * i)%nat * cos (ang i) else 0)) in
          Some (px / len * dx + py / len * dy)
      end |}.
Definition robot_arm (n : nat) : option problem := if negb (Nat.eqb (n mod 2) 0) then None else Some (arm_problem n).

(** cantilever_beam.py 14-106; None: AssertionError *)
Definition beam_tail (n : nat) (x : vec) (from : Z) : R := slice_sum n x from (Z.of_nat n) 3.
(** the terms added for one element, from its width and height; None: IndexError *)
Definition beam_elem (n : nat) (x : vec) (e : Z) (g : R -> R -> R) : option R :=
  match at_ n x (3 * e), at_ n x (3 * e + 1) with Some b, Some h => Some (g b h) | _, _ => None end.
Fixpoint osum (l : list (option R)) : option R :=
  match l with [] => Some 0 | a :: r => match a, osum r with Some v, Some s => Some (v + s) | _, _ => None end end.
Definition beam_problem (P E : R) (n : nat) : problem :=
  {| ndim := n;
    lower := fun i => if Nat.eqb (i mod 3) 0 then 1 / 100 else if Nat.eqb (i mod 3) 1 then 30 / 100 else 1 / 2;
    upper := fun i => if Nat.eqb (i mod 3) 0 then 5 / 100 else if Nat.eqb (i mod 3) 1 then 65 / 100 else 1;
    evaluate := fun x kx =>
      let tail := beam_tail n x in
      let y := match kx with
               | None => osum (map (fun i => let e := Z.of_nat i in
                   beam_elem n x e (fun b h => 12 / b / h ^ 3 * tail (2 + 3 * e)%Z ^ 3 - 12 / b / h ^ 3 * tail (5 + 3 * e)%Z ^ 3)) (seq 0 (n / 3)))
               | Some k =>
                   let e := (k / 3)%Z in
                   if (k mod 3 =? 0)%Z then beam_elem n x e (fun b h => - 12 / b ^ 2 / h ^ 3 * tail (2 + 3 * e)%Z ^ 3 - (- 12 / b ^ 2 / h ^ 3 * tail (5 + 3 * e)%Z ^ 3))
                   else if (k mod 3 =? 1)%Z then beam_elem n x e (fun b h => - 36 / b / h ^ 4 * tail (2 + 3 * e)%Z ^ 3 - (- 36 / b / h ^ 4 * tail (5 + 3 * e)%Z ^ 3))
                   else osum (map (fun i => let ie := Z.of_nat i in beam_elem n x ie (fun b h =>
                          36 / b / h ^ 3 * tail (2 + 3 * ie)%Z ^ 2 - (if (ie <? e)%Z then 36 / b / h ^ 3 * tail (5 + 3 * ie)%Z ^ 2 else 0))) (seq 0 (Z.to_nat (e + 1))))
               end in
      option_map (fun v => P / 3 / E * v) y |}.
Definition cantilever_beam (P E : R) (n : nat) : option problem := if negb (Nat.eqb (n mod 3) 0) then None else Some (beam_problem P E n).

(** reduced_problem.py 16-87 *)
Inductive dimsarg := DInt (z : Z) | DList (l : list Z).
Definition dims_of (p : problem) (d : dimsarg) : option (list Z) :=
  match d with
  | DInt z => if (z <=? Z.of_nat (ndim p))%Z then Some (map Z.of_nat (seq 0 (Z.to_nat z))) else None
  | DList [] => None
  | DList l => if forallb (fun z => z <? Z.of_nat (ndim p))%Z l then Some l else None
  end.
(** x_prob[:, dims[ix]] = x[:, ix] for ix in range(nx); None: IndexError *)
Fixpoint assign (n : nat) (dims : list Z) (ix : nat) (x xp : vec) : option vec :=
  match dims with
  | [] => Some xp
  | d :: r => match wrap n d with Some j => assign n r (S ix) x (upd xp j (x ix)) | None => None end
  end.
Definition reduced_problem (p : problem) (d : dimsarg) (w : R) : option problem :=
  match dims_of p d with
  | None => None
  | Some dims =>
      if forallb (fun z => match wrap (ndim p) z with Some _ => true | None => false end) dims then
        let lim (l : vec) : vec := fun i => match wrap (ndim p) (nth i dims 0%Z) with Some j => l j | None => 0 end in
        Some {| ndim := length dims; lower := lim (lower p); upper := lim (upper p);
          evaluate := fun x kx =>
            match assign (ndim p) dims 0 x (fun j => (1 - w) * lower p j + w * upper p j) with
            | None => None
            | Some xp => match kx with
                         | None => evaluate p xp None
                         | Some k => match wrap (length dims) k with Some i => evaluate p xp (Some (nth i dims 0%Z)) | None => None end
                         end
            end |}
      else None (* IndexError in xlimits *)
  end.
(** np.arange(start, stop, step) for a positive step, by its length *)
Definition arange (start step : Z) (len : nat) : list Z := map (fun i => (start + step * Z.of_nat i)%Z) (seq 0 len).
(** ndim_rosenbrock.py 15-22, ndim_robot_arm.py 15-22, ndim_cantilever_beam.py 15-22, ndim_step_function.py 12-13 *)
Definition ndim_rosenbrock (n : nat) (w : R) : option problem := reduced_problem (rosenbrock (n + 1)) (DList (arange 1 1 n)) w.
Definition ndim_robot_arm (n : nat) (w : R) : option problem :=
  match robot_arm (2 * (n + 1)) with Some p => reduced_problem p (DList (arange 3 2 n)) w | None => None end.
Definition ndim_cantilever_beam (n : nat) (w : R) : option problem :=
  match cantilever_beam 50000 200000000000 (3 * n) with Some p => reduced_problem p (DList (arange 1 3 n)) w | None => None end.
Definition ndim_step_function (n : nat) (width : R) : problem := tensor_product TTanh width n.
