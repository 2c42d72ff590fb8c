(** Model of smt/applications/mfk.py (MFK), for one output; with the kernel specification KPls it is mfkpls.py
    (MFKPLS, 46-65: the absolute differences of 46-51 enter only through kernels even in them), with KStd SquarExp
    the final model of mfkplsk.py (MFKPLSK, 29-43, 60-61); for both [pls] is true in the variances.
    Simplifications: doubles are reals; QR, condition numbers and inverse are any functions meeting their contracts;
    the optimal hyperparameters of each level are given (the search is modelled in HyperOpt_M.v); eval_noise is off. *)
From Coq Require Import Reals Arith Bool List.
From Verif Require Import RSum Mat Tri_M Kernels_M Krg_M.
Import ListNotations.
Open Scope list_scope.
Open Scope R_scope.

(** training data of one level with its kernel, noise *)
Record data := { d_nt : nat; d_X : nat -> vec; d_y : vec; d_k : kspec; d_noise : vec }.
(** X_norma_all, F_all, p_all, q_all, optimal_theta, optimal_par of one level *)
Record level := { l_nt : nat; l_Xn : nat -> vec; l_yn : vec; l_k : kspec; l_q : nat; l_F : mat; l_par : par }.

(** np.concatenate over the levels (mfk.py 222-224) *)
Fixpoint cat (l : list data) (col : data -> vec) : vec :=
  match l with [] => fun _ => 0 | d :: r => fun i => if Nat.ltb i (d_nt d) then col d i else cat r col (i - d_nt d)%nat end.
Definition total (l : list data) : nat := fold_right (fun d n => (d_nt d + n)%nat) 0%nat l.
Definition x_off (l : list data) (c : nat) : R := mean (total l) (cat l (fun d a => d_X d a c)).
Definition x_scale (l : list data) (c : nat) : R := scale1 (total l) (cat l (fun d a => d_X d a c)).
Definition y_off (l : list data) : R := mean (total l) (cat l d_y).
Definition y_scale (l : list data) : R := scale1 (total l) (cat l d_y).
Definition stdx (l : list data) (x : vec) : vec := fun c => (x c - x_off l c) / x_scale l c.

Section Mfk.
Variables (nx : nat) (po rho : poly).
(** mfk.py 374-420: the regression vector of a level; [prev] is the mean of the previous level (none for the first) *)
Definition nq : nat := n_regr rho nx.
Definition basis (prev : option R) (x : vec) : vec :=
  match prev with
  | None => fvec po nx x
  | Some mu => fun j => if Nat.ltb j nq then fvec rho nx x j * mu else fvec po nx x (j - nq)%nat
  end.
Definition lr (lv : level) (x : vec) : vec := fun i => kf (l_k lv) nx x (l_Xn lv i).
Definition np : nat := n_regr po nx.
Definition level_mean (prev : option R) (lv : level) (x : vec) : R :=
  dot (l_q lv + np) (basis prev x) (p_beta (l_par lv)) + dot (l_nt lv) (lr lv x) (p_gamma (l_par lv)).
(** the columns mu[:, i] for a standardised point *)
Fixpoint means (prev : option R) (lvls : list level) (x : vec) : list R :=
  match lvls with [] => [] | lv :: r => let m := level_mean prev lv x in m :: means (Some m) r x end.
(** mu[:, -1]; None: no level *)
Definition last_mean (lvls : list level) (x : vec) : option R :=
  match rev (means None lvls x) with [] => None | m :: _ => Some m end.

(** ** training, mfk.py 186-330.  None: one of the exceptions or a failed hyperparameter search *)
Section Train.
Variables (qr : nat -> nat -> mat -> mat * mat) (rcond : nat -> mat -> R) (condF : nat -> nat -> mat -> R) (nugget : R) (all : list data).
Definition train_level (done : list level) (d : data) : option level :=
  let Xn := fun i => stdx all (d_X d i) in
  let yn := fun i => (d_y d i - y_off all) / y_scale all in
  let q := match done with [] => 0%nat | _ => nq end in
  let F : mat := fun i j => basis (last_mean done (Xn i)) (Xn i) j in
  if Nat.leb (d_nt d) (np + q) then None
  else match reduced_likelihood qr rcond condF (d_nt d) (q + np) (INR (d_nt d) - INR np - INR q) (corr_matrix (d_k d) nx (d_nt d) Xn nugget (d_noise d)) F yn (y_scale all) with
       | Fit _ pr => Some {| l_nt := d_nt d; l_Xn := Xn; l_yn := yn; l_k := d_k d; l_q := q; l_F := F; l_par := pr |}
       | _ => None
       end.
Fixpoint train_levels (done : list level) (todo : list data) : option (list level) :=
  match todo with
  | [] => Some done
  | d :: r => match train_level done d with Some lv => train_levels (done ++ [lv]) r | None => None end
  end.
Definition mfk_train : option (list level) := train_levels [] all.
End Train.

(** mfk.py 354-433, prediction at a raw point *)
Definition mfk_value (all : list data) (lvls : list level) (x : vec) : option R :=
  match last_mean lvls (stdx all x) with Some m => Some (m * y_scale all + y_off all) | None => None end.

(** _predict_intermediate_values(X, k): only the first k levels *)
Definition predict_intermediate (all : list data) (lvls : list level) (k : nat) (x : vec) : option R := mfk_value all (firstn k lvls) x.

(** ** variances, mfk.py 451-563.  mu[:, 0] is computed, mu[:, i] stays 0 for i >= 1; [pls]: name is MFKPLS or MFKPLSK *)
Section Var.
Variables (inv : nat -> mat -> mat) (pls : bool) (ys : R).
Definition l_rt (lv : level) (x : vec) : vec := solve_triangular (l_nt lv) (p_C (l_par lv)) (lr lv x) true.
Definition l_Ft (lv : level) : mat := fun i j => solve_triangular (l_nt lv) (p_C (l_par lv)) (fun a => l_F lv a j) true i.
Definition l_u (lv : level) (f : vec) (x : vec) : vec :=
  solve_triangular (l_q lv + np) (tr (p_G (l_par lv))) (fun j => f j - mv (l_nt lv) (tr (l_Ft lv)) (l_rt lv x) j) true.
Definition l_s2 (lv : level) : R := p_sigma2 (l_par lv) / ys ^ 2.
Definition sigma2_rho (lv : level) (x : vec) : R :=
  let G := p_G (l_par lv) in let N := (l_q lv + np)%nat in let g := fvec rho nx x in
  rsum (l_q lv) (fun b => rsum (l_q lv) (fun a => g a * (l_s2 lv * inv N (mm N (tr G) G) a b + p_beta (l_par lv) a * p_beta (l_par lv) b)) * g b).
Definition first_mse (lv : level) (x : vec) : R :=
  l_s2 lv * (1 - dot (l_nt lv) (l_rt lv x) (l_rt lv x) + dot (l_q lv + np) (l_u lv (fvec po nx x) x) (l_u lv (fvec po nx x) x)).
Definition next_mse (mu mse : R) (lv : level) (x : vec) : R :=
  let f := basis (Some mu) x in
  let u := l_u lv f x in let N := (l_q lv + np)%nat in
  let rt := l_rt lv x in
  if pls then
    let Yt := solve_triangular (l_nt lv) (p_C (l_par lv)) (l_yn lv) true in
    let rho := fun i => Yt i - mv N (l_Ft lv) (p_beta (l_par lv)) i in
    sigma2_rho lv x * mse + dot (l_nt lv) rho rho / (2 * (INR (l_nt lv) - INR np - INR (l_q lv))) * (1 - dot (l_nt lv) rt rt) + l_s2 lv * dot N u u
  else sigma2_rho lv x * mse + l_s2 lv * (1 - dot (l_nt lv) rt rt + dot N u u).
Fixpoint next_mses (mu mse : R) (lvls : list level) (x : vec) : list R :=
  match lvls with [] => [] | lv :: r => let m := next_mse mu mse lv x in m :: next_mses 0 m r x end.
Definition mses (lvls : list level) (x : vec) : list R :=
  match lvls with [] => [] | lv :: r => let m := first_mse lv x in m :: next_mses (level_mean None lv x) m r x end.
End Var.
(** predict_variances: the last level, times y_std^2 *)
Definition mfk_variances (inv : nat -> mat -> mat) (pls : bool) (all : list data) (lvls : list level) (x : vec) : list R :=
  map (fun m => m * y_scale all ^ 2) (mses inv pls (y_scale all) lvls (stdx all x)).

(** ** derivatives, mfk.py 565-652.  None: ValueError *)
Definition mfk_df (j : nat) : R := match po with PLinear => if Nat.eqb j 0 then 0 else 1 | _ => 0 end.
Definition dbasis (dprev : option R) (x : vec) : vec :=
  match dprev with None => mfk_df | Some d => fun j => if Nat.ltb j nq then fvec rho nx x j * d else mfk_df (j - nq)%nat end.
Definition level_deriv (dprev : option R) (lv : level) (x : vec) (kx : nat) : R :=
  dot (l_q lv + np) (dbasis dprev x) (p_beta (l_par lv))
  - 2 * eff_theta (l_k lv) kx * dot (l_nt lv) (fun i => (x kx - l_Xn lv i kx) * lr lv x i) (p_gamma (l_par lv)).
Fixpoint derivs (dprev : option R) (lvls : list level) (x : vec) (kx : nat) : list R :=
  match lvls with [] => [] | lv :: r => let d := level_deriv dprev lv x kx in d :: derivs (Some d) r x kx end.
Definition mfk_derivative (corr : corr) (all : list data) (lvls : list level) (x : vec) (kx : nat) : option R :=
  match corr, po, rho with
  | SquarExp, (PConstant | PLinear), PConstant =>
      match rev (derivs None lvls (stdx all x) kx) with [] => None | d :: _ => Some (d * y_scale all / x_scale all kx) end
  | _, _, _ => None
  end.
End Mfk.

(** ** mfk.py 150-184 (_check_list_structure): shapes only.  [xs]: (rows, columns) of each X; [ys]: rows of each y *)
Fixpoint check_rows (i : nat) (prev : nat) (xs : list (nat * nat)) (ys : list nat) : bool :=
  match xs, ys with
  | (n, c) :: xs, m :: ys => if Nat.ltb 1 i && negb (Nat.eqb c prev) then false else if Nat.eqb n m then check_rows (S i) c xs ys else false
  | _, _ => true
  end.
Definition check_list_structure (xs : list (nat * nat)) (ys : list nat) : bool := if Nat.eqb (length xs) (length ys) then check_rows 0 0 xs ys else false.

(** ** mfk.py 654-742 (_check_param), the part on theta0 and noise0 (use_het_noise off).
    theta0 is a list of numbers or an array; noise0 is a sequence whose items are numbers (None) or sequences (Some length) *)
Inductive theta_in := TList (l : list R) | TArray (r c : nat) (m : mat).
Inductive perr := PValueError | PTypeError.
(** the array options["theta0"] becomes: shape (nlvl, d); None is ValueError *)
Definition check_theta (nlvl d : nat) (t : theta_in) : option mat :=
  match t with
  | TArray r c m => if Nat.eqb r nlvl && Nat.eqb c d then Some m else None
  | TList l => if negb (Nat.eqb (length l) d) then
                 if Nat.eqb (length l) 1 then Some (fun i j => nth 0 l 0)
                 else if Nat.eqb (length l) nlvl then if Nat.eqb d 1 then Some (fun i j => nth i l 0) else None (* in-place broadcast of a (nlvl, 1) array, 690-693 *)
                 else None
               else Some (fun i j => nth j l 0)
  end.
Fixpoint check_items (l : list (option nat)) : perr + unit :=
  match l with [] => inr tt | None :: _ => inl PTypeError | Some n :: r => if Nat.eqb n 1 then check_items r else inl PValueError end.
Definition check_noise (nlvl : nat) (noise0 : list (option nat)) : perr + list (option nat) :=
  let l := if Nat.eqb (length noise0) nlvl then Some noise0
           else if Nat.eqb (length noise0) 1 then Some (repeat (Some (length noise0)) nlvl) else None in
  match l with None => inl PValueError | Some l => match check_items l with inl e => inl e | inr _ => inr l end end.
