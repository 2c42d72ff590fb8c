(** Model of the derivatives of the reduced likelihood with respect to the hyperparameters:
    smt/surrogate_models/krg_based.py 331-446 (_reduced_likelihood_gradient), 448-630
    (_reduced_likelihood_hessian) and 858-882 (the functions handed to the optimiser), one output.
    Simplifications: doubles are reals; qr, rcond, condF are the oracles of Krg_M.v; the hyperparameters are
    those of the kernel (with eval_noise the gradient fails: the kernel cannot reshape theta); the loop over
    the hyperparameters is a function of the index. *)
From Coq Require Import Reals Arith Bool List.
From Verif Require Import RSum Mat Tri_M Kernels_M Krg_M.
Import ListNotations.
Open Scope list_scope.
Open Scope R_scope.

(** the classes' _componentwise_distance: krg.py 14-22 (KRG) and krg_mgp.py 40-66 (MGP: act_exp, with [ns] active
    directions), kpls.py 41-50 *)
Inductive kclass := GStd (c : corr) (ns : nat) | GPls (c : corr) (ncomp : nat) (co : mat).
Definition g_corr (g : kclass) : corr := match g with GStd c _ => c | GPls c _ _ => c end.
(** number of columns of self.D *)
Definition g_cols (g : kclass) (nx : nat) : nat := match g with GStd _ _ => nx | GPls _ ncomp _ => ncomp end.
Definition g_ns (g : kclass) : nat := match g with GStd _ ns => ns | GPls _ _ _ => 0 end.
Definition g_dist (g : kclass) (nx : nat) (D : vec) : vec :=
  match g with GStd c _ => comp_dist c D | GPls c _ co => comp_dist_pls c nx co D end.
(** len(theta) *)
Definition n_theta (g : kclass) (nx : nat) : nat := match g_corr g with ActExp => g_cols g nx * g_ns g | _ => g_cols g nx end.

Section Lik.
Variables (qr : nat -> nat -> mat -> mat * mat) (rcond : nat -> mat -> R) (condF : nat -> nat -> mat -> R).
(** class, dimensions, normalised inputs, trend matrix (p columns), outputs, noise *)
Variables (g : kclass) (nx nt p : nat) (X : nat -> vec) (F : mat) (y : vec) (ystd nugget : R) (noise : vec) (dof : R).

(** a row of the distance table *)
Definition D_row (k : nat) : vec := g_dist g nx (snd (fst (cross_distances nt X)) k).
(** A[ij[:, 0], ij[:, 1]] = r; A[ij[:, 1], ij[:, 0]] = r (255-257, 403-405, 529-531, 546-548, 553-555) *)
Definition fill (A : mat) (r : vec) : mat :=
  let ij := fst (fst (cross_distances nt X)) in
  assign (n_cross nt) (fun k => (snd (ij k), fst (ij k))) r (assign (n_cross nt) ij r A).
(** self._correlation_types[corr](theta, self.D, grad_ind, hess_ind) *)
Definition kern (theta : vec) (gr he : option nat) : vec :=
  fun k => kernel (g_corr g) (g_cols g nx) (g_ns g) theta (D_row k) gr he.
(** 252-257 *)
Definition R_of (theta : vec) : mat :=
  fill (fun a b => (if Nat.eqb a b then 1 else 0) * (1 + nugget + noise b)) (kern theta None None).
(** 200-329 *)
Definition rl (theta : vec) : rlf := reduced_likelihood qr rcond condF nt p dof (R_of theta) F y ystd.

(** 383-441, one pass of the loop.  In order: dR, dbeta, arg, dmu, tr, dsigma, and the entry of the gradient *)
Definition dR_of (theta : vec) (i : nat) : mat := fill (fun _ _ => 0) (kern theta (Some i) None).
Definition arg_of (pr : par) (theta : vec) (i : nat) : vec :=
  solve_triangular nt (p_C pr) (mv nt (dR_of theta i) (p_gamma pr)) true.
Definition dbeta_of (pr : par) (theta : vec) (i : nat) : vec :=
  fun j => - solve_triangular p (p_G pr) (mv nt (tr (p_Q pr)) (arg_of pr theta i)) false j.
Definition dmu_of (pr : par) (theta : vec) (i : nat) : vec := mv p F (dbeta_of pr theta i).
(** solve_triangular(C.T, solve_triangular(C, M, lower=True)) for a matrix right-hand side *)
Definition solve_R (C M : mat) : mat :=
  fun a b => solve_triangular nt (tr C) (solve_triangular nt C (fun l => M l b) true) false a.
Definition trace (M : mat) : R := rsum nt (fun a => M a a).
Definition tr_of (pr : par) (theta : vec) (i : nat) : mat := solve_R (p_C pr) (dR_of theta i).
Definition dsigma_of (pr : par) (theta : vec) (i : nat) : R :=
  let gamma := p_gamma pr in
  1 / INR nt * (- dot nt (dmu_of pr theta i) gamma - dot nt gamma (dmu_of pr theta i) - dot nt gamma (mv nt (dR_of theta i) gamma)) * ystd ^ 2.
Definition grad_of (pr : par) (theta : vec) (i : nat) : R :=
  - INR nt / ln 10 * (dsigma_of pr theta i / p_sigma2 pr + trace (tr_of pr theta i) / INR nt).
(** 331-446; None: the likelihood failed, and par["C"] raises KeyError (or the exception of 276-280) *)
Definition rl_gradient (theta : vec) (i : nat) : option R :=
  match rl theta with Fit _ pr => Some (grad_of pr theta i) | _ => None end.

(** 508-622, one pass of the inner loop *)
Definition ddR_of (theta : vec) (om eta : nat) : mat := fill (fun _ _ => 0) (kern theta (Some om) (Some eta)).
Definition Rinv_dmu_of (pr : par) (theta : vec) (i : nat) : vec :=
  solve_triangular nt (tr (p_C pr)) (solve_triangular nt (p_C pr) (dmu_of pr theta i) true) false.
Definition Rinv_dR_gamma_of (pr : par) (theta : vec) (i : nat) : vec :=
  solve_triangular nt (tr (p_C pr)) (arg_of pr theta i) false.
Definition hess_of (pr : par) (theta : vec) (om eta : nat) : R :=
  let C := p_C pr in let gamma := p_gamma pr in let sigma_2 := p_sigma2 pr in
  let dRom := dR_of theta om in let dReta := dR_of theta eta in let ddR := ddR_of theta om eta in
  let dmuom := dmu_of pr theta om in let dmueta := dmu_of pr theta eta in
  let Rinv_dmuom := Rinv_dmu_of pr theta om in let Rinv_dmueta := Rinv_dmu_of pr theta eta in
  let Rinv_dRom_gamma := Rinv_dR_gamma_of pr theta om in let Rinv_dReta_gamma := Rinv_dR_gamma_of pr theta eta in
  let dReta_Rinv_dmuom := mv nt dReta Rinv_dmuom in
  let dRom_Rinv_dmueta := mv nt dRom Rinv_dmueta in
  let dReta_Rinv_dRom_gamma := mv nt dReta Rinv_dRom_gamma in
  let dRom_Rinv_dReta_gamma := mv nt dRom Rinv_dReta_gamma in
  let ddR_gamma := mv nt ddR gamma in
  let beta_sum := fun a => dReta_Rinv_dmuom a + dRom_Rinv_dmueta a + dReta_Rinv_dRom_gamma a + dRom_Rinv_dReta_gamma a - ddR_gamma a in
  let ddbeta := solve_triangular p (p_G pr) (mv nt (tr (p_Q pr)) (solve_triangular nt C beta_sum true)) false in
  let ddmu := mv p F ddbeta in
  let arg_1 := - dot nt ddmu gamma + dot nt dmuom Rinv_dReta_gamma + dot nt dmueta Rinv_dRom_gamma in
  let arg_2 := - dot nt gamma ddmu + dot nt gamma dReta_Rinv_dmuom + dot nt gamma dRom_Rinv_dmueta in
  let arg_3 := dot nt dmueta Rinv_dmuom + dot nt dmuom Rinv_dmueta in
  let arg_4_in := fun a => - ddR_gamma a + dReta_Rinv_dRom_gamma a + dRom_Rinv_dReta_gamma a in
  let arg_4 := dot nt gamma arg_4_in in
  let ddsigma := 1 / INR nt * (arg_1 + arg_2 + arg_3 + arg_4) * ystd ^ 2 in
  let tr_1 := trace (mm nt (tr_of pr theta eta) (tr_of pr theta om)) in
  let tr_2 := trace (solve_R C ddR) in
  let arg1 := INR nt / sigma_2 * (ddsigma - 1 / sigma_2 * dsigma_of pr theta om * dsigma_of pr theta eta) in
  let dred := - (arg1 - tr_1 + tr_2) / INR nt in
  INR nt / ln 10 * dred.
Definition rl_hessian (theta : vec) (om eta : nat) : option R :=
  match rl theta with Fit _ pr => Some (hess_of pr theta om eta) | _ => None end.
(** 499-512: hess_ij; [nb] = len(theta).  State: (table, ind_1) *)
Definition hij_step (nb : nat) (st : (nat -> nat * nat) * nat) (om : nat) : (nat -> nat * nat) * nat :=
  let '(t, ind_1) := st in
  let ind_0 := ind_1 in
  let ind_1 := (ind_0 + nb - om)%nat in
  ((fun k => if andb (Nat.leb ind_0 k) (Nat.ltb k ind_1) then (om, (om + (k - ind_0))%nat) else t k), ind_1).
Definition hess_ij (nb : nat) : (nat -> nat * nat) * nat := fold_left (hij_step nb) (seq 0 nb) ((fun _ => (0, 0)%nat), 0%nat).

(** 867-882: what the optimiser minimises (log10 of theta), and the gradient it is given *)
Definition obj (log10t : vec) : option R := match rl (fun j => Rpower 10 (log10t j)) with Fit v _ => Some (- v) | _ => None end.
Definition obj_grad (log10t : vec) (i : nat) : option R :=
  match rl_gradient (fun j => Rpower 10 (log10t j)) i with
  | Some gr => Some (- ln 10 * Rpower 10 (log10t i) * gr)
  | None => None
  end.
End Lik.
