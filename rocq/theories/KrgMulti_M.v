(** Model of Kriging (and KPLS, GEKPLS without extra points) trained on several outputs: krg_based.py 116-190, 200-329 and 632-763,
    kriging_utils.py 68-84, and the final reshape of surrogate_model.py 310, 353, 397.
    Krg_M.v is the case of one output; the simplifications are those stated there. *)
From Coq Require Import Reals Arith Bool List.
From Verif Require Import RSum Mat Tri_M Kernels_M Krg_M.
Import ListNotations.
Open Scope list_scope.
Open Scope R_scope.

(** par with one column per output in beta and gamma and one entry per output in sigma2 *)
Record mpar := { q_sigma2 : vec; q_beta : mat; q_gamma : mat; q_C : mat; q_Ft : mat; q_G : mat; q_Q : mat }.
Inductive mrlf := MFit (value : R) (pr : mpar) | MBadTheta | MIllF.
Section Multi.
Variables (qr : nat -> nat -> mat -> mat * mat) (rcond : nat -> mat -> R) (condF : nat -> nat -> mat -> R).
(** krg_based.py 200-329; y_norma is (nt, ny), y_std has ny entries *)
Definition likelihood_multi (nt p ny : nat) (Rm F : mat) (y_norma : mat) (y_std : vec) : mrlf :=
  match cholesky nt Rm with
  | None => MBadTheta
  | Some C =>
      let Ft : mat := fun i j => solve_triangular nt C (fun a => F a j) true i in
      let '(Q, G) := qr nt p Ft in
      if Rlt_dec (rcond p G) (1 / 10 ^ 10) then
        if Rlt_dec (10 ^ 15) (condF nt p F) then MIllF else MBadTheta
      else
        let Yt : mat := fun i j => solve_triangular nt C (fun a => y_norma a j) true i in
        let QtYt : mat := mm nt (tr Q) Yt in
        let beta : mat := fun k j => solve_triangular p G (fun b => QtYt b j) false k in
        let Ftbeta : mat := mm p Ft beta in
        let rho : mat := fun i j => Yt i j - Ftbeta i j in
        let detR := rprod nt (fun i => Rpower (C i i) (2 / INR nt)) in
        let sigma2 : vec := fun j => rsum nt (fun i => rho i j ^ 2) / INR nt in
        MFit (- INR nt * log10 (rsum ny sigma2) - INR nt * log10 detR)
             {| q_sigma2 := (fun j => sigma2 j * y_std j ^ 2); q_beta := beta; q_gamma := (fun i j => solve_triangular nt (tr C) (fun a => rho a j) false i);
                q_C := C; q_Ft := Ft; q_G := G; q_Q := Q |}
  end.
(** what training leaves *)
Record mmodel := { mm_nx : nat; mm_nt : nat; mm_ny : nat; mm_poly : poly; mm_k : kspec; mm_Xn : nat -> vec; mm_off : vec; mm_scale : vec;
                   mm_ymean : vec; mm_ystd : vec; mm_par : mpar }.
(** kriging_utils.py 68-84: mean and standard deviation along axis 0 *)
Definition Ynorm (nt : nat) (Y : mat) : mat := fun i j => (Y i j - mean nt (fun a => Y a j)) / scale1 nt (fun a => Y a j).
(** 116-190 with the hyperparameters given *)
Definition train_multi (nx nt ny : nat) (po : poly) (s : kspec) (nugget : R) (noise : vec) (X : nat -> vec) (Y : mat) : option mmodel :=
  let Xn := Xnorm nt X in
  let p := n_regr po nx in
  if Nat.leb nt 1 then None
  else if Nat.ltb nt p then None
  else match likelihood_multi nt p ny (corr_matrix s nx nt Xn nugget noise) (fun i j => fvec po nx (Xn i) j) (Ynorm nt Y) (fun j => scale1 nt (fun a => Y a j)) with
       | MFit _ pr => Some {| mm_nx := nx; mm_nt := nt; mm_ny := ny; mm_poly := po; mm_k := s; mm_Xn := Xn;
                              mm_off := (fun c => mean nt (fun a => X a c)); mm_scale := (fun c => scale1 nt (fun a => X a c));
                              mm_ymean := (fun j => mean nt (fun a => Y a j)); mm_ystd := (fun j => scale1 nt (fun a => Y a j)); mm_par := pr |}
       | _ => None
       end.
End Multi.

Section Predict.
Variable m : mmodel.
Definition mxn (x : vec) : vec := fun c => (x c - mm_off m c) / mm_scale m c.
Definition mr (x : vec) : vec := fun i => kf (mm_k m) (mm_nx m) (mxn x) (mm_Xn m i).
(** ravel() of an (n, ny) array *)
Definition ravel (row : vec -> vec) (xs : list vec) : list R := flat_map (fun x => map (row x) (seq 0 (mm_ny m))) xs.
(** 632-664 *)
Definition multi_values (xs : list vec) : list R :=
  let p := n_regr (mm_poly m) (mm_nx m) in
  ravel (fun x j => mm_ymean m j + mm_ystd m j *
    (rsum p (fun a => fvec (mm_poly m) (mm_nx m) (mxn x) a * q_beta (mm_par m) a j) + rsum (mm_nt m) (fun i => mr x i * q_gamma (mm_par m) i j))) xs.
(** 666-722; None: ValueError *)
Definition multi_derivatives (xs : list vec) (kx : nat) : option (list R) :=
  match k_corr (mm_k m), mm_poly m with
  | SquarExp, PQuadratic => None
  | SquarExp, po =>
      let p := n_regr po (mm_nx m) in
      let df_dx := fun j => rsum p (fun a => (match df po a kx with Some v => v | None => 0 end) * q_beta (mm_par m) a j) in
      Some (ravel (fun x j =>
        (df_dx j - 2 * eff_theta (mm_k m) kx * rsum (mm_nt m) (fun i => (mxn x kx - mm_Xn m i kx) * mr x i * q_gamma (mm_par m) i j)) * mm_ystd m j / mm_scale m kx) xs)
  | _, _ => None
  end.
(** 724-763: np.einsum("i,j -> ji", A, B), then negative entries set to zero *)
Definition multi_variances (xs : list vec) : list R :=
  let p := n_regr (mm_poly m) (mm_nx m) in
  let C := q_C (mm_par m) in
  let B := fun x =>
    let rt := solve_triangular (mm_nt m) C (mr x) true in
    let u := solve_triangular p (tr (q_G (mm_par m))) (fun j => mv (mm_nt m) (tr (q_Ft (mm_par m))) rt j - fvec (mm_poly m) (mm_nx m) (mxn x) j) false in
    1 - rsum (mm_nt m) (fun i => rt i ^ 2) + rsum p (fun j => u j ^ 2) in
  ravel (fun x j => let v := q_sigma2 (mm_par m) j * B x in if Rlt_dec v 0 then 0 else v) xs.
(** surrogate_model.py 310, 353, 397: entry (e, j) of reshape((n, ny)) *)
Definition entry (l : list R) (e j : nat) : R := nth (e * mm_ny m + j) l 0.
End Predict.
