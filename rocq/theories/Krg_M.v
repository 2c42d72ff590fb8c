(** Model of the kriging training and prediction formulas: smt/utils/kriging_utils.py 22-129 and
    953-1040, smt/surrogate_models/krg_based.py 116-329 and 632-840, for one output.
    Simplifications: doubles are reals; scipy's QR and SVD are any functions meeting their contracts
    (the records below); the search for theta is not part of this file (see HyperOpt_M.v): every
    function takes theta. *)
From Coq Require Import Reals Arith Bool List.
From Verif Require Import RSum Mat Tri_M Kernels_M.
Import ListNotations.
Open Scope list_scope.
Open Scope R_scope.

(** ** kriging_utils.py 68-84: standardization with scale_X_to_unit=False *)
Definition mean (n : nat) (v : vec) : R := rsum n v / INR n.
(** numpy std with ddof=1 *)
Definition std1 (n : nat) (v : vec) : R := sqrt (rsum n (fun i => (v i - mean n v) ^ 2) / (INR n - 1)).
Definition scale1 (n : nat) (v : vec) : R := if Req_EM_T (std1 n v) 0 then 1 else std1 n v.

(** ** kriging_utils.py 109-122: cross_distances.  State: (ij, D, ll_1); arrays are functions of the row *)
Definition cd_step (n : nat) (X : nat -> vec) (st : (nat -> nat * nat) * (nat -> vec) * nat) (k : nat) :
  (nat -> nat * nat) * (nat -> vec) * nat :=
  let '(ij, D, ll_1) := st in
  let ll_0 := ll_1 in
  let ll_1 := (ll_0 + n - k - 1)%nat in
  let in_slice p := andb (Nat.leb ll_0 p) (Nat.ltb p ll_1) in
  ((fun p => if in_slice p then (k, (k + 1 + (p - ll_0))%nat) else ij p),
   (fun p => if in_slice p then (fun c => X k c - X (k + 1 + (p - ll_0))%nat c) else D p),
   ll_1).
Definition n_cross (n : nat) : nat := (n * (n - 1) / 2)%nat.
Definition cross_distances (n : nat) (X : nat -> vec) : (nat -> nat * nat) * (nat -> vec) * nat :=
  fold_left (cd_step n X) (seq 0 (n - 1)) ((fun _ => (0, 0)%nat), (fun _ _ => 0), 0%nat).

(** ** regression functions, kriging_utils.py 953-1040 *)
Inductive poly := PConstant | PLinear | PQuadratic.
Definition regr (po : poly) (nx : nat) (x : vec) : list R :=
  match po with
  | PConstant => [1]
  | PLinear => 1 :: map x (seq 0 nx)
  | PQuadratic => fold_left (fun f k => f ++ map (fun j => x k * x j) (seq k (nx - k))) (seq 0 nx) (1 :: map x (seq 0 nx))
  end.
Definition n_regr (po : poly) (nx : nat) : nat :=
  match po with PConstant => 1 | PLinear => 1 + nx | PQuadratic => 1 + nx + nx * (nx + 1) / 2 end%nat.
Definition fvec (po : poly) (nx : nat) (x : vec) : vec := fun j => nth j (regr po nx x) 0.

(** ** correlation of a componentwise difference: krg.py 14-22 (Kriging), kpls.py 41-50 (KPLS) *)
Inductive kspec := KStd (c : corr) (theta : vec) | KPls (c : corr) (ncomp : nat) (co : mat) (theta : vec).
Definition kd (s : kspec) (nx : nat) (D : vec) : R :=
  match s with
  | KStd c theta => kernel c nx 0 theta (comp_dist c D) None None
  | KPls c ncomp co theta => kernel c ncomp 0 theta (comp_dist_pls c nx co D) None None
  end.
Definition kf (s : kspec) (nx : nat) (x y : vec) : R := kd s nx (fun j => x j - y j).

(** ** krg_based.py 255-257: R from the distance table; fancy assignments row by row *)
Definition assign (rows : nat) (idx : nat -> nat * nat) (r : vec) (A : mat) : mat :=
  fold_left (fun A p => fun a b => if andb (Nat.eqb a (fst (idx p))) (Nat.eqb b (snd (idx p))) then r p else A a b) (seq 0 rows) A.
Definition corr_matrix (s : kspec) (nx nt : nat) (X : nat -> vec) (nugget : R) (noise : vec) : mat :=
  let '(ij, D, _) := cross_distances nt X in
  let r := fun p => kd s nx (D p) in
  let R0 : mat := fun a b => (if Nat.eqb a b then 1 else 0) * (1 + nugget + noise b) in
  let R1 := assign (n_cross nt) ij r R0 in
  assign (n_cross nt) (fun p => (snd (ij p), fst (ij p))) r R1.

(** ** krg_based.py 200-329 *)
Record par := { p_sigma2 : R; p_beta : vec; p_gamma : vec; p_C : mat; p_Ft : mat; p_G : mat; p_Q : mat }.
(** Fit: value and parameters; BadTheta: (-inf, {}); IllF: the exception of 276-280 *)
Inductive rlf := Fit (value : R) (pr : par) | BadTheta | IllF.
Definition log10 (x : R) : R := ln x / ln 10.
Section Krg.
(** linalg.qr(mode="economic") and the condition numbers of 265-272 *)
Variables (qr : nat -> nat -> mat -> mat * mat) (rcond : nat -> mat -> R) (condF : nat -> nat -> mat -> R).
Definition reduced_likelihood (nt p : nat) (dof : R) (Rm F : mat) (y_norma : vec) (y_std : R) : rlf :=
  match cholesky nt Rm with
  | None => BadTheta
  | Some C =>
      let Ft : mat := fun i j => solve_triangular nt C (fun a => F a j) true i in
      let '(Q, G) := qr nt p Ft in
      if Rlt_dec (rcond p G) (1 / 10 ^ 10) then
        if Rlt_dec (10 ^ 15) (condF nt p F) then IllF else BadTheta
      else
        let Yt := solve_triangular nt C y_norma true in
        let beta := solve_triangular p G (mv nt (tr Q) Yt) false in
        let rho := fun i => Yt i - mv p Ft beta i in
        let detR := rprod nt (fun i => Rpower (C i i) (2 / INR nt)) in
        let sigma2 := dot nt rho rho / dof in
        Fit (- dof * log10 sigma2 - INR nt * log10 detR)
            {| p_sigma2 := sigma2 * y_std ^ 2; p_beta := beta; p_gamma := solve_triangular nt (tr C) rho false;
               p_C := C; p_Ft := Ft; p_G := G; p_Q := Q |}
  end.
End Krg.

(** what training leaves for prediction: data (X_norma, X_offset, X_scale, y_norma, y_mean, y_std), kernel
    with its theta, and the parameters at that theta *)
Record model := { m_nx : nat; m_nt : nat; m_poly : poly; m_k : kspec; m_Xn : nat -> vec; m_off : vec; m_scale : vec;
                  m_ymean : R; m_ystd : R; m_par : par }.
Definition Xnorm (nt : nat) (X : nat -> vec) : nat -> vec :=
  fun i c => (X i c - mean nt (fun a => X a c)) / scale1 nt (fun a => X a c).
Definition ynorm (nt : nat) (y : vec) : vec := fun i => (y i - mean nt y) / scale1 nt y.
(** krg_based.py 116-190 with the optimal theta given; None: training does not produce a model *)
Definition krg_train (qr : nat -> nat -> mat -> mat * mat) (rcond : nat -> mat -> R) (condF : nat -> nat -> mat -> R)
  (nx nt : nat) (po : poly) (s : kspec) (nugget : R) (noise : vec) (X : nat -> vec) (y : vec) : option model :=
  let Xn := Xnorm nt X in
  let p := n_regr po nx in
  if Nat.leb nt 1 then None (* np.min of an empty array, 163 *)
  else if Nat.ltb nt p then None (* _check_F, 1185-1206 *)
  else match reduced_likelihood qr rcond condF nt p (INR nt) (corr_matrix s nx nt Xn nugget noise)
               (fun i j => fvec po nx (Xn i) j) (ynorm nt y) (scale1 nt y) with
       | Fit _ pr => Some {| m_nx := nx; m_nt := nt; m_poly := po; m_k := s; m_Xn := Xn;
                             m_off := (fun c => mean nt (fun a => X a c)); m_scale := (fun c => scale1 nt (fun a => X a c));
                             m_ymean := mean nt y; m_ystd := scale1 nt y; m_par := pr |}
       | _ => None
       end.

Section Predict.
Variable m : model.
Definition xn (x : vec) : vec := fun c => (x c - m_off m c) / m_scale m c.
Definition rvec (x : vec) : vec := fun i => kf (m_k m) (m_nx m) (xn x) (m_Xn m i).
(** krg_based.py 632-664 *)
Definition predict_value (x : vec) : R :=
  let y_ := dot (n_regr (m_poly m) (m_nx m)) (fvec (m_poly m) (m_nx m) (xn x)) (p_beta (m_par m)) + dot (m_nt m) (rvec x) (p_gamma (m_par m)) in
  m_ymean m + m_ystd m * y_.
(** 666-722; df[j, kx] *)
Definition df (po : poly) (j kx : nat) : option R :=
  match po with
  | PConstant => Some 0
  | PLinear => Some (if Nat.eqb j (kx + 1) then 1 else 0)
  | PQuadratic => None
  end.
(** 713-716: theta per input *)
Definition eff_theta (s : kspec) (j : nat) : R :=
  match s with KStd _ theta => theta j | KPls _ ncomp co theta => rsum ncomp (fun l => theta l * co j l ^ 2) end.
Definition k_corr (s : kspec) : corr := match s with KStd c _ => c | KPls c _ _ _ => c end.
(** None is one of the ValueErrors of 693-706 *)
Definition predict_derivative (x : vec) (kx : nat) : option R :=
  match k_corr (m_k m), m_poly m with
  | SquarExp, PQuadratic => None
  | SquarExp, po =>
      let p := n_regr po (m_nx m) in
      let df_dx := dot p (fun j => match df po j kx with Some v => v | None => 0 end) (p_beta (m_par m)) in
      let d_dx := fun i => xn x kx - m_Xn m i kx in
      Some ((df_dx - 2 * eff_theta (m_k m) kx * dot (m_nt m) (fun i => d_dx i * rvec x i) (p_gamma (m_par m))) * m_ystd m / m_scale m kx)
  | _, _ => None
  end.
(** 724-763 *)
Definition rt (x : vec) : vec := solve_triangular (m_nt m) (p_C (m_par m)) (rvec x) true.
Definition u_rhs (x : vec) : vec := fun j =>
  mv (m_nt m) (tr (p_Ft (m_par m))) (rt x) j - fvec (m_poly m) (m_nx m) (xn x) j.
Definition predict_variance (x : vec) : R :=
  let p := n_regr (m_poly m) (m_nx m) in
  let u := solve_triangular p (tr (p_G (m_par m))) (u_rhs x) false in
  let B := 1 - dot (m_nt m) (rt x) (rt x) + dot p u u in
  let MSE := p_sigma2 (m_par m) * B in
  if Rlt_dec MSE 0 then 0 else MSE.
End Predict.

(** derivative of the correlation with respect to coordinate kx of the (normalised) query: the kernels'
    derivative_params branch; componentwise_distance with return_derivative=True *)
Definition kd_dx (s : kspec) (nx : nat) (D : vec) (kx : nat) : option R :=
  match s with
  | KStd c theta => kernel_dx c nx theta D (kd s nx D) kx
  | KPls c ncomp co theta => Some (- (kd s nx D * comp_dist_pls_dx c ncomp co theta D kx))
  end.
(** 765-840, for one query point (with several, the shapes of r and dr do not match and numpy raises);
    None is a ValueError (act_exp, quadratic trend) or the LinAlgError of the Cholesky factorisation of 814 *)
Definition predict_variance_derivative (m : model) (x : vec) (kx : nat) : option R :=
  let nt := m_nt m in let nx := m_nx m in let po := m_poly m in let p := n_regr po nx in
  let Cc := p_C (m_par m) in
  let dd := fun i => kd_dx (m_k m) nx (fun j => xn m x j - m_Xn m i j) kx in
  match dd 0%nat, po with
  | None, _ => None
  | _, PQuadratic => None
  | _, _ =>
      let r := rvec m x in
      let dr := fun i => match dd i with Some v => v | None => 0 end in
      let invKr := solve_triangular nt (tr Cc) (solve_triangular nt Cc r true) false in
      let p1 := dot nt dr invKr in
      let p2 := dot nt invKr dr in
      let F := fun i j => fvec po nx (m_Xn m i) j in
      let invKF := fun j => solve_triangular nt (tr Cc) (solve_triangular nt Cc (fun i => F i j) true) false in
      let A := fun j => fvec po nx (xn m x) j - dot nt r (invKF j) in
      let B : mat := fun j l => rsum nt (fun i => F i j * invKF l i) in
      match cholesky p B with
      | None => None
      | Some rho3 =>
          let D := solve_triangular p (tr rho3) (solve_triangular p rho3 A true) false in
          let dA := fun j => match df po j kx with Some v => v | None => 0 end - dot nt dr (invKF j) in
          let p3 := dot p dA D in
          let p4 := dot p D dA in
          Some (p_sigma2 (m_par m) * (- p1 - p2 + p3 + p4) / m_scale m kx)
      end
  end.
