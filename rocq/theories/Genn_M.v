(** Model of the network of GENN: smt/utils/neural_net/activation.py (43-83), fwd_prop.py (13-49, 52-105, 108-204), loss.py (14-76), bwd_prop.py (14-50, 53-140, 143-227),
    model.py (cost 361-387, grad 389-416, evaluate 238-260, gradient 418-441).
    Simplifications: real arithmetic; arrays are functions (sizes stated separately); the parameters dictionary W1, b1, W2, .. is the list of layers;
    the loop over input variables of L_grads_forward, whose rounds are independent of each other, is done for all variables at once. *)
From Coq Require Import Reals Arith Bool List.
From Verif Require Import RSum.
Import ListNotations.
Open Scope list_scope.
Open Scope R_scope.
Notation vec := (nat -> R).
Notation arr := (nat -> nat -> R).        (* node, example *)
Notation arr3 := (nat -> nat -> nat -> R). (* input variable, node, example *)

(** activation.py 43-83 *)
Inductive activation := Sigmoid | Tanh | Linear.
Definition a_eval (g : activation) (z : R) : R :=
  match g with Sigmoid => 1 / (1 + exp (- z)) | Tanh => (exp z - exp (- z)) / (exp z + exp (- z)) | Linear => z end.
Definition a_first (g : activation) (z : R) : R :=
  match g with Sigmoid => a_eval Sigmoid z * (1 - a_eval Sigmoid z) | Tanh => 1 - a_eval Tanh z ^ 2 | Linear => 1 end.
Definition a_second (g : activation) (z : R) : R :=
  match g with Sigmoid => a_first Sigmoid z * (1 - 2 * a_eval Sigmoid z) | Tanh => -2 * a_eval Tanh z * a_first Tanh z | Linear => 0 end.

Record layer := { n_out : nat; n_in : nat; weight : arr; bias : vec; act : activation }.

(** fwd_prop.py 13-49 and 52-105: caches hold (A_prev, Z) *)
Definition linear (l : layer) (A : arr) : arr := fun i e => rsum (n_in l) (fun q => weight l i q * A q e) + bias l i.
Fixpoint L_model_forward (ls : list layer) (A : arr) : arr * list (arr * arr) :=
  match ls with
  | [] => (A, [])
  | l :: r => let Z := linear l A in let '(AL, cs) := L_model_forward r (fun i e => a_eval (act l) (Z i e)) in (AL, (A, Z) :: cs)
  end.
(** fwd_prop.py 108-204 (before the final squeeze): caches hold (Z_prime, A_prime_prev) *)
Definition linear' (l : layer) (A' : arr3) : arr3 := fun j i e => rsum (n_in l) (fun q => weight l i q * A' j q e).
Fixpoint grads_loop (ls : list layer) (A : arr) (A' : arr3) : arr3 * list (arr3 * arr3) :=
  match ls with
  | [] => (A', [])
  | l :: r => let Z := linear l A in let Z' := linear' l A' in
              let '(JL, cs) := grads_loop r (fun i e => a_eval (act l) (Z i e)) (fun j i e => a_first (act l) (Z i e) * Z' j i e) in (JL, (Z', A') :: cs)
  end.
Definition eye : arr3 := fun j i _ => if Nat.eqb i j then 1 else 0.
Definition L_grads_forward (ls : list layer) (X : arr) : arr3 * list (arr3 * arr3) := grads_loop ls X eye.

(** loss.py 14-76.  None: the unpacking of dy_pred.shape fails, because the Jacobian of a single example was squeezed to two dimensions *)
Definition regularization (ls : list layer) (lambd : R) : R :=
  fold_left (fun s l => s + / 2 * Rmax 0 lambd * rsum (n_out l) (fun i => rsum (n_in l) (fun q => weight l i q ^ 2))) ls 0.
Definition enhancement (ny nx m : nat) (DY DP : arr3) (gamma : R) : R :=
  let gamma := Rmin (Rmax 0 gamma) 1 in
  rsum ny (fun k => rsum nx (fun j => / 2 * gamma * rsum m (fun e => (DP j k e - DY j k e) * (DP j k e - DY j k e)))).
Definition lse (ny nx m : nat) (Y P : arr) (lambd : R) (ls : list layer) (DY : option arr3) (DP : arr3) (gamma : R) : option R :=
  let cost := rsum ny (fun k => / 2 * rsum m (fun e => (P k e - Y k e) * (P k e - Y k e))) + regularization ls lambd in
  match DY with
  | None => Some (1 / INR m * cost)
  | Some DY => if Nat.eqb m 1 then None else Some (1 / INR m * (cost + enhancement ny nx m DY DP gamma))
  end.
(** model.py 361-387 *)
Definition cost (ls : list layer) (ny nx m : nat) (X Y : arr) (DY : option arr3) (lambd gamma : R) : option R :=
  lse ny nx m Y (fst (L_model_forward ls X)) lambd ls DY (fst (L_grads_forward ls X)) gamma.

(** bwd_prop.py 53-140 *)
Record grads := { dW : arr; db : vec }.
Definition layer_backward (l : layer) (c : arr * arr) (jc : arr3 * arr3) (nx m : nat) (lambd gamma : R) (dA : arr) (dA' : arr3) : grads * arr * arr3 :=
  let '(A_prev, Z) := c in let '(Z', A'_prev) := jc in
  let G1 : arr := fun i e => a_first (act l) (Z i e) in
  let G2 : arr := fun i e => a_second (act l) (Z i e) in
  let dW0 : arr := fun i q => 1 / INR m * rsum m (fun e => G1 i e * dA i e * A_prev q e) + lambd / INR m * weight l i q in
  let db0 : vec := fun i => 1 / INR m * rsum m (fun e => G1 i e * dA i e) in
  let dP0 : arr := fun q e => rsum (n_out l) (fun i => weight l i q * (G1 i e * dA i e)) in
  if Req_EM_T gamma 0 then ({| dW := dW0; db := db0 |}, dP0, fun _ _ _ => 0)
  else ({| dW := fun i q => dW0 i q + rsum nx (fun j => gamma / INR m * (rsum m (fun e => dA' j i e * G2 i e * Z' j i e * A_prev q e) + rsum m (fun e => dA' j i e * G1 i e * A'_prev j q e)));
           db := fun i => db0 i + rsum nx (fun j => gamma / INR m * rsum m (fun e => dA' j i e * G2 i e * Z' j i e)) |},
        fun q e => dP0 q e + rsum nx (fun j => gamma * rsum (n_out l) (fun i => weight l i q * (dA' j i e * G2 i e * Z' j i e))),
        fun j q e => gamma * rsum (n_out l) (fun i => weight l i q * (dA' j i e * G1 i e))).
(** bwd_prop.py 143-227: the layers in reverse order; the gradients are listed from the first layer on *)
Fixpoint backward_loop (ls : list layer) (cs : list (arr * arr)) (js : list (arr3 * arr3)) (nx m : nat) (lambd gamma : R) (dAL : arr) (dAL' : arr3) : list grads * arr * arr3 :=
  match ls, cs, js with
  | l :: ls, c :: cs, j :: js =>
      let '(gs, dA, dA') := backward_loop ls cs js nx m lambd gamma dAL dAL' in
      let '(g, dP, dP') := layer_backward l c j nx m lambd gamma dA dA' in (g :: gs, dP, dP')
  | _, _, _ => ([], dAL, dAL')
  end.
(** model.py 389-416 with bwd_prop.py 14-50.  None: TypeError when there are no derivatives (AL_prime - None).
    A single example, whose Jacobian has lost a dimension, is not modelled (None): the cost, always asked for first, has already failed *)
Definition grad (ls : list layer) (nx m : nat) (X Y : arr) (DY : option arr3) (lambd gamma : R) : option (list grads) :=
  let '(AL, cs) := L_model_forward ls X in
  let '(JL, js) := L_grads_forward ls X in
  match DY with
  | None => None
  | Some DY => if Nat.eqb m 1 then None else let '(gs, _, _) := backward_loop ls cs js nx m lambd gamma (fun k e => AL k e - Y k e) (fun j k e => JL j k e - DY j k e) in Some gs
  end.

(** * numpy arrays with a shape, for the scaling of predictions *)
Record ndarray := { shape : list nat; data : list nat -> R }.
(** broadcasting of two shapes, last dimensions aligned (given here with the last dimension first) *)
Fixpoint bshape (a b : list nat) : option (list nat) :=
  match a, b with
  | [], _ => Some b
  | _, [] => Some a
  | x :: a, y :: b =>
      if Nat.eqb x y then option_map (cons x) (bshape a b) else if Nat.eqb x 1 then option_map (cons y) (bshape a b)
      else if Nat.eqb y 1 then option_map (cons x) (bshape a b) else None
  end.
(** the index of an operand of the given shape (both last dimension first) *)
Fixpoint bindex (s ix : list nat) : list nat := match s, ix with d :: s, i :: ix => (if Nat.eqb d 1 then 0%nat else i) :: bindex s ix | _, _ => [] end.
Definition broadcast (f : R -> R -> R) (a b : ndarray) : option ndarray :=
  match bshape (rev (shape a)) (rev (shape b)) with
  | None => None
  | Some s => Some {| shape := rev s; data := fun ix => f (data a (rev (bindex (rev (shape a)) (rev ix)))) (data b (rev (bindex (rev (shape b)) (rev ix)))) |}
  end.
(** reshape in row-major order *)
Fixpoint flat (sh ix : list nat) (acc : nat) : nat := match sh, ix with d :: sh, i :: ix => flat sh ix (acc * d + i) | _, _ => acc end.
(** inverse of flat, on shapes and indices with the last dimension first *)
Fixpoint unflat (sh : list nat) (n : nat) : list nat := match sh with [] => [] | d :: sh => (n mod d)%nat :: unflat sh (n / d)%nat end.
Definition size (s : list nat) : nat := fold_right Nat.mul 1%nat s.
Definition reshape (a : ndarray) (s : list nat) : option ndarray :=
  if Nat.eqb (size (shape a)) (size s) then Some {| shape := s; data := fun ix => data a (rev (unflat (rev (shape a)) (flat s ix 0))) |} else None.
Definition of1 (n : nat) (v : vec) : ndarray := {| shape := [n; 1%nat]; data := fun ix => v (nth 0 ix 0%nat) |}.
Definition of2 (n m : nat) (A : arr) : ndarray := {| shape := [n; m]; data := fun ix => A (nth 0 ix 0%nat) (nth 1 ix 0%nat) |}.
(** the Jacobian (n_y, n_x, m), squeezed when m = 1 (fwd_prop.py 199-200); our arr3 has the input variable first *)
Definition jac (ny nx m : nat) (J : arr3) : ndarray :=
  if Nat.eqb m 1 then {| shape := [ny; nx]; data := fun ix => J (nth 1 ix 0%nat) (nth 0 ix 0%nat) 0%nat |}
  else {| shape := [ny; nx; m]; data := fun ix => J (nth 1 ix 0%nat) (nth 0 ix 0%nat) (nth 2 ix 0%nat) |}.
Record scaling := { mu_x : vec; sigma_x : vec; mu_y : vec; sigma_y : vec }.
Definition normed (s : scaling) (X : arr) : arr := fun i e => (X i e - mu_x s i) / sigma_x s i.
Definition obind {A B} (o : option A) (f : A -> option B) : option B := match o with Some a => f a | None => None end.
(** model.py 238-260; None: AssertionError or a shape error *)
Definition evaluate (ls : list layer) (s : scaling) (nx ny rows m : nat) (X : arr) : option ndarray :=
  if negb (Nat.eqb rows nx) then None
  else let Yn := of2 ny m (fst (L_model_forward ls (normed s X))) in
       obind (broadcast Rmult Yn (of1 ny (sigma_y s))) (fun a => obind (broadcast Rplus a (of1 ny (mu_y s))) (fun b => reshape b [ny; m])).
(** model.py 418-441 *)
Definition gradient (ls : list layer) (s : scaling) (nx ny rows m : nat) (X : arr) : option ndarray :=
  if negb (Nat.eqb rows nx) then None
  else let Jn := jac ny nx m (fst (L_grads_forward ls (normed s X))) in
       obind (broadcast Rmult Jn (of1 ny (sigma_y s))) (fun a => obind (broadcast Rdiv a (of1 nx (sigma_x s))) (fun b => reshape b [ny; nx; m])).
(** genn.py 211-228: row e of the result is the derivative of every output with respect to input kx at point e; None also for kx out of range *)
Definition predict_derivatives (ls : list layer) (s : scaling) (nx ny m : nat) (x : arr) (kx : nat) : option arr :=
  obind (gradient ls s nx ny nx m (fun i e => x e i)) (fun J => if Nat.ltb kx nx then Some (fun e k => data J [k; kx; e]) else None).
Definition predict_values (ls : list layer) (s : scaling) (nx ny m : nat) (x : arr) : option arr :=
  option_map (fun Y => fun e k => data Y [k; e]) (evaluate ls s nx ny nx m (fun i e => x e i)).
(** model.py 104-121: the scale factors of a model that was not trained *)
Definition initial_scaling : scaling := {| mu_x := fun _ => 1; sigma_x := fun _ => 1; mu_y := fun _ => 1; sigma_y := fun _ => 1 |}.
