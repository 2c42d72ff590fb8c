(** Model of smt/surrogate_models/krg_mgp.py (marginal Gaussian process, one output), with the parts of
    krg_based.py that are specific to it (183-184, 312-313, 444-445, 514-515, 626-627, 867-876).
    Simplifications: doubles are reals; qr, rcond, condF are the oracles of Krg_M.v, lsolve is scipy's linalg.solve, svd gives the
    singular values; training is modelled for a given theta (the search is in HyperOpt_M.v); a query is one point, given with
    its number of coordinates; the prior mean is a list of one number (a longer one does not broadcast to the shape
    of theta). *)
From Coq Require Import Reals Arith Bool List.
From Verif Require Import RSum Mat Tri_M Kernels_M Krg_M LikGrad_M.
Import ListNotations.
Open Scope list_scope.
Open Scope R_scope.

(** ** _reduced_log_prior, 193-227: nb = len(theta) *)
Section Prior.
Variables (pm pv : R) (nb : nat).
Definition sig_inv : mat := fun a b => (if Nat.eqb a b then 1 else 0) / pv.
Definition sig_inv_m : vec := fun b => rsum nb (fun a => sig_inv a b).
Definition log_prior (theta : vec) : R :=
  let z := fun j => theta j - pm in - dot nb z (mv nb sig_inv z).
Definition log_prior_grad (theta : vec) (i : nat) : R := - 2 * (theta i - pm) * sig_inv_m i.
Definition log_prior_hess (i : nat) : R := - 2 * sig_inv_m i.
End Prior.

(** act_exp with d_x, kriging_utils.py 597-621: the projected distances come from (nc, d), the other factor of the gradient and the
    index arithmetic from (nx, d_x) *)
Definition act_exp (nc ns : nat) (theta d : vec) (d_x : option (nat * vec)) (grad : option nat) : R :=
  let '(n_components, d') := match d_x with Some (nx, dx) => (nx, dx) | None => (nc, d) end in
  let r := exp (- (1 / 2) * rsum ns (fun s => act_dA nc theta d s ^ 2)) in
  match grad with
  | Some g => - d' (g mod n_components)%nat * act_dA nc theta d (g / n_components)%nat * r
  | None => r
  end.

(** 498-518: _check_param.  The length of theta0 after it, None for the ValueErrors *)
Definition check_param (corr_is_act hyper_is_tnc : bool) (nx n_comp len_theta0 : nat) : option nat :=
  let d := (n_comp * nx)%nat in
  if negb corr_is_act then None else if negb hyper_is_tnc then None
  else if negb (Nat.eqb len_theta0 d) then (if Nat.eqb len_theta0 1 then Some d else None) else Some len_theta0.

(** 492-496: index + 1 of the first partial sum above 99 % of the sum; None: min of an empty array *)
Fixpoint first_above (l : list R) (acc thr : R) (k : nat) : option nat :=
  match l with
  | [] => None
  | s :: r => if Rlt_dec thr (acc + s) then Some (k + 1)%nat else first_above r (acc + s) thr (k + 1)
  end.
Definition best_ncomp (svals : list R) : option nat := first_above svals 0 (99 / 100 * fold_right Rplus 0 svals) 0.

(** what training leaves for prediction *)
Record mgp := { g_nx : nat; g_nc : nat; g_nt : nat; g_po : poly; g_theta : vec; g_Xn : nat -> vec; g_off : vec; g_scale : vec;
  g_ymean : R; g_ystd : R; g_par : par;
  g_dbeta : nat -> vec; g_Rdg : nat -> vec; g_Rdmu : nat -> vec; g_dR : nat -> mat; g_dsigma : nat -> R;
  g_isr : mat;                                    (* inv_sigma_R *)
  g_C : mat; g_norm : R; g_Q : mat; g_R : mat;    (* embedding *)
  g_Un : nat -> vec; g_Umean : vec }.

Section Mgp.
Variables (qr : nat -> nat -> mat -> mat * mat) (rcond : nat -> mat -> R) (condF : nat -> nat -> mat -> R).
Variable lsolve : nat -> mat -> vec -> option vec.
Section Train.
Variables (nx nt nc : nat) (po : poly) (pm pv nugget : R) (noise : vec) (X : nat -> vec) (y : vec).
Let nh := (nx * nc)%nat.
Let p := n_regr po nx.
Let Xn := Xnorm nt X.
Let F : mat := fun i j => fvec po nx (Xn i) j.
Let yn := ynorm nt y.
Let ystd := scale1 nt y.
Let g := GStd ActExp nc.
Let rlm := rl qr rcond condF g nx nt p Xn F yn ystd nugget noise (INR nt).
(** krg_based.py 200-329 with 312-313; None: -inf or an exception *)
Definition mgp_lik (theta : vec) : option R := match rlm theta with Fit v _ => Some (v + log_prior pm pv nh theta) | _ => None end.
(** 331-446 with 444-445 *)
Definition mgp_grad (theta : vec) (i : nat) : option R :=
  match rl_gradient qr rcond condF g nx nt p Xn F yn ystd nugget noise (INR nt) theta i with Some v => Some (v + log_prior_grad pm pv nh theta i) | None => None end.
(** 448-630 with 514-515 and 626-627 *)
Definition mgp_hess (theta : vec) (om eta : nat) : option R :=
  match rl_hessian qr rcond condF g nx nt p Xn F yn ystd nugget noise (INR nt) theta om eta with
  | Some h => Some (if Nat.eqb eta om then h + log_prior_hess pv nh eta else h)
  | None => None
  end.
(** krg_based.py 867-876: what TNC minimises and its gradient *)
Definition mgp_obj (theta : vec) : option R := match mgp_lik theta with Some v => Some (- v) | None => None end.
Definition mgp_obj_grad (theta : vec) (i : nat) : option R := match mgp_grad theta i with Some v => Some (- v) | None => None end.
(** 466-472: var_R from the rows of the Hessian; inv_sigma_R = - var_R *)
Definition inv_sigma_R (theta : vec) : mat :=
  let '(ij, rows) := hess_ij nh in
  let r := fun k => match mgp_hess theta (fst (ij k)) (snd (ij k)) with Some h => h | None => 0 end in
  let V := assign rows (fun k => (snd (ij k), fst (ij k))) r (assign rows ij r (fun _ _ => 0)) in
  fun a b => - V a b.
(** krg_based.py 116-190 with the theta of the optimiser given, and _specific_train, 462-496 (best_ncomp separately).  None: an exception *)
Definition mgp_train (theta : vec) : option mgp :=
  if Nat.leb nt 1 then None
  else if Nat.ltb nt p then None
  else match rlm theta with
  | Fit _ pr =>
      let scale := fun c => scale1 nt (fun a => X a c) in
      let off := fun c => mean nt (fun a => X a c) in
      let A : mat := fun j s => theta (s * nx + j)%nat in
      let B : mat := fun j s => A j s / scale j in
      let norm_B := sqrt (rsum nx (fun j => rsum nc (fun s => B j s ^ 2))) in
      let C : mat := fun j s => B j s / norm_B in
      if Req_EM_T norm_B 0 then None (* linalg.qr of an array of nan *)
      else
      let '(Q_C, R_C) := qr nx nc C in
      Some {| g_nx := nx; g_nc := nc; g_nt := nt; g_po := po; g_theta := theta; g_Xn := Xn; g_off := off; g_scale := scale;
              g_ymean := mean nt y; g_ystd := ystd; g_par := pr;
              g_dbeta := dbeta_of g nx nt p Xn pr theta;
              g_Rdg := Rinv_dR_gamma_of g nx nt Xn pr theta;
              g_Rdmu := Rinv_dmu_of g nx nt p Xn F pr theta;
              g_dR := dR_of g nx nt Xn theta;
              g_dsigma := dsigma_of g nx nt p Xn F ystd pr theta;
              g_isr := inv_sigma_R theta;
              g_C := C; g_norm := norm_B; g_Q := Q_C; g_R := R_C;
              g_Un := (fun i s => rsum nx (fun j => Xn i j * A j s));
              g_Umean := (fun s => rsum nx (fun j => off j * C j s) * norm_B) |}
  | _ => None
  end.
End Train.

Section Predict.
Variable m : mgp.
Let nx := g_nx m.
Let nc := g_nc m.
Let nt := g_nt m.
Let p := n_regr (g_po m) nx.
(** 417-442; None: solve_triangular meets a zero on the diagonal *)
Definition get_x_from_u (u : vec) : option vec :=
  if forallb (fun s => if Req_EM_T (g_R m s s) 0 then false else true) (seq 0 nc)
  then Some (mv nc (g_Q m) (solve_triangular nc (tr (g_R m)) u true)) else None.
(** 444-460 *)
Definition get_u_from_x (x : vec) : vec := fun s => rsum nx (fun j => x j * g_C m j s).
(** a query after the normalisation of 88-103 / 149-178: the normalised point and, for a point of the small space, its image u *)
Definition query := (vec * option vec)%type.
Definition normalise (n_features : nat) (x : vec) : option query :=
  if Nat.ltb n_features nx then
    if negb (Nat.eqb n_features nc) then None
    else let u := x in match get_x_from_u u with None => None | Some x =>
         Some ((fun j => (x j - g_off m j) / g_scale m j), Some (fun s => u s * g_norm m - g_Umean m s)) end
  else if negb (Nat.eqb n_features nx) then None
  else Some ((fun j => (x j - g_off m j) / g_scale m j), None).
(** r and dr/domega, 153-183, 248-288, 318-377 *)
Definition r_of (q : query) (grad : option nat) : vec := fun i =>
  let '(x, u) := q in
  let d_x := fun j => x j - g_Xn m i j in
  match u with
  | Some u => act_exp nc nc (fun k => if Nat.eqb (k / nc) (k mod nc) then 1 else 0) (fun s => u s - g_Un m i s) (Some (nx, d_x)) grad
  | None => act_exp nx nc (g_theta m) d_x None grad
  end.
Definition f_of (q : query) : vec := fvec (g_po m) nx (fst q).
(** 129-191 *)
Definition mgp_value (n_features : nat) (x : vec) : option R :=
  match normalise n_features x with
  | None => None
  | Some q => Some (g_ymean m + g_ystd m * (dot p (f_of q) (p_beta (g_par m)) + dot nt (r_of q None) (p_gamma (g_par m))))
  end.
(** 229-295 *)
Definition dy_hyper (q : query) (omega : nat) : R :=
  dot p (f_of q) (g_dbeta m omega) + dot nt (r_of q (Some omega)) (p_gamma (g_par m)) - dot nt (r_of q None) (fun i => g_Rdg m omega i + g_Rdmu m omega i).
(** 297-415 *)
Definition mgp_rt (q : query) : vec := solve_triangular nt (p_C (g_par m)) (r_of q None) true.
Definition mgp_u (q : query) : vec := solve_triangular p (tr (p_G (g_par m))) (fun j => f_of q j - mv nt (tr (p_Ft (g_par m))) (mgp_rt q) j) false.
Definition mgp_mse (q : query) : R :=
  let MSE := p_sigma2 (g_par m) * (1 - dot nt (mgp_rt q) (mgp_rt q) + dot p (mgp_u q) (mgp_u q)) in
  if Rlt_dec MSE 0 then 0 else MSE.
Definition dmse_hyper (q : query) (omega : nat) : R :=
  let Ginv_u := solve_triangular p (p_G (g_par m)) (mgp_u q) false in
  let Rinv_F : mat := fun a j => solve_triangular nt (tr (p_C (g_par m))) (fun l => p_Ft (g_par m) l j) false a in
  let Rinv_r := solve_triangular nt (tr (p_C (g_par m))) (mgp_rt q) false in
  let Rinv_F_Ginv_u := mv p Rinv_F Ginv_u in
  let drdomega := r_of q (Some omega) in
  let dRdomega := g_dR m omega in
  let dRdomega_Rinv_F_Ginv_u := mv nt dRdomega Rinv_F_Ginv_u in
  let du2domega := 2 * dot nt Rinv_r dRdomega_Rinv_F_Ginv_u - 2 * dot nt drdomega Rinv_F_Ginv_u + dot nt Rinv_F_Ginv_u dRdomega_Rinv_F_Ginv_u in
  let drt2domega := 2 * dot nt drdomega Rinv_r - dot nt Rinv_r (mv nt dRdomega Rinv_r) in
  g_dsigma m omega * mgp_mse q / p_sigma2 (g_par m) + p_sigma2 (g_par m) * (- drt2domega + du2domega).
(** 67-127: (MGPMSE, MSE); None: ValueError or the LinAlgError of linalg.solve *)
Definition mgp_variance (n_features : nat) (x : vec) : option (R * R) :=
  let nh := (nx * nc)%nat in
  match normalise n_features x with
  | None => None
  | Some q =>
      let dy := dy_hyper q in
      let dMSE := dmse_hyper q in
      let MSE := mgp_mse q in
      match lsolve nh (g_isr m) dy, lsolve nh (g_isr m) dMSE with
      | Some sy, Some sM =>
          let arg_1 := dot nh dy sy in
          let arg_2 := dot nh dMSE sM in
          let MGPMSE := if Req_EM_T MSE 0 then 0 else 4 / 3 * MSE + arg_1 + 1 / (3 * MSE) * arg_2 in
          Some ((if Rlt_dec MGPMSE 0 then 0 else MGPMSE), MSE)
      | _, _ => None
      end
  end.
End Predict.
End Mgp.
