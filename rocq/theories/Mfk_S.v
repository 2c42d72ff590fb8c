(** Vocabulary of C50 and C84: the regression problem of one fidelity level. *)
From Coq Require Import Reals Arith Bool List.
From Verif Require Import RSum Mat Kernels_M Krg_M Krg_S Mfk_M Rmtc_S.
Open Scope R_scope.

(** linalg.inv on symmetric positive definite matrices *)
Definition inv_contract (inv : nat -> mat -> mat) : Prop := forall n A, msym n A -> mpd n A -> is_inverse n A (inv n A).
(** what predict_intermediate returns (0 if it fails) *)
Definition lpred (nx : nat) (po rho : poly) (all : list data) (lvls : list level) (k : nat) (x : vec) : R :=
  match predict_intermediate nx po rho all lvls k x with Some v => v | None => 0 end.
(** correlations of the data of level d, and of a query with that data *)
Definition lv_corr (nx : nat) (nugget : R) (all : list data) (d : data) : mat :=
  fun i j => if Nat.eqb i j then 1 + nugget + d_noise d i else kf (d_k d) nx (stdx all (d_X d i)) (stdx all (d_X d j)).
Definition lv_r (nx : nat) (all : list data) (d : data) (x : vec) : vec := fun i => kf (d_k d) nx (stdx all x) (stdx all (d_X d i)).
(** number of trend functions, and the trend functions: the first level has f(x); a later one has
    g(x) times the (standardised) prediction P of the level below, then f(x) *)
Definition lv_p (nx : nat) (po rho : poly) (k : nat) : nat := ((if Nat.eqb k 0 then 0 else n_regr rho nx) + n_regr po nx)%nat.
Definition lv_trend (nx : nat) (po rho : poly) (all : list data) (k : nat) (P : vec -> R) (x : vec) : vec :=
  if Nat.eqb k 0 then fvec po nx (stdx all x)
  else fun j => if Nat.ltb j (n_regr rho nx) then fvec rho nx (stdx all x) j * ((P x - y_off all) / y_scale all)
                else fvec po nx (stdx all x) (j - n_regr rho nx).
Definition lv_y (all : list data) (d : data) : vec := fun i => (d_y d i - y_off all) / y_scale all.
(** generalised least squares: b attains the least residual v *)
Definition gls_opt (n p : nat) (Rm F : mat) (y b : vec) (v : R) : Prop :=
  gls_residual n p Rm F y b v /\ forall b' v', gls_residual n p Rm F y b' v' -> v <= v'.
(** M is the inverse of F' R^-1 F *)
Definition info_inverse (n p : nat) (Rm F M : mat) : Prop :=
  exists A : mat, (forall i j, (i < n)%nat -> (j < p)%nat -> rsum n (fun a => Rm i a * A a j) = F i j) /\ is_inverse p (fun a b => rsum n (fun i => F i a * A i b)) M.
Section Lvl.
Variables (nx : nat) (po rho : poly) (nugget : R) (all : list data) (lvls : list level) (k : nat) (d : data).
(** trend matrix of level k: the level below is predicted by the first k levels *)
Definition lv_F : mat := fun i => lv_trend nx po rho all k (lpred nx po rho all lvls k) (d_X d i).
(** w predicts the value of level k at a point with trend f and correlations r optimally *)
Definition lv_blup (f r w : vec) : Prop := blup (d_nt d) (lv_p nx po rho k) (lv_corr nx nugget all d) lv_F r f w.
Definition lv_mse (r w : vec) : R := mse (d_nt d) (lv_corr nx nugget all d) r w.
(** best linear predictor when the trend is known *)
Definition lv_simple (r w : vec) : Prop := forall w', lv_mse r w <= lv_mse r w'.
(** estimated process variance: least residual over the degrees of freedom *)
Definition lv_sigma2 (s2 : R) : Prop :=
  exists b v, gls_opt (d_nt d) (lv_p nx po rho k) (lv_corr nx nugget all d) lv_F (lv_y all d) b v /\
    s2 = v / (INR (d_nt d) - INR (lv_p nx po rho k)) * y_scale all ^ 2.
(** second moment of the scale factor rho(x) = g(x)'b: square of its mean plus its variance *)
Definition lv_rho2 (s2 : R) (x : vec) (sr : R) : Prop :=
  let g := fvec rho nx (stdx all x) in let q := n_regr rho nx in
  exists b v M, gls_opt (d_nt d) (lv_p nx po rho k) (lv_corr nx nugget all d) lv_F (lv_y all d) b v /\
    info_inverse (d_nt d) (lv_p nx po rho k) (lv_corr nx nugget all d) lv_F M /\
    sr = (dot q g b) ^ 2 + s2 / y_scale all ^ 2 * rsum q (fun j => rsum q (fun i => g i * M i j) * g j).
End Lvl.
