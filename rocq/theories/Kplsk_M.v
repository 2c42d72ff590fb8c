(** Model of the two-phase training of KPLSK: smt/surrogate_models/kplsk.py 10-46 and
    smt/surrogate_models/krg_based.py 891-943, 1106-1127 (with 179-189 and 237-257), for one output.
    Simplifications: doubles are reals; the standardised training data (distinct inputs and mean outputs for
    heteroscedastic estimation, see Het_M.v) are given; the optimiser is any function from its starting vector
    to a sequence of evaluations and a result, as in HyperOpt_M.v; vectors are given after the 10** of 887; with
    eval_noise only the first attempt of a phase starts from a vector of the right length (C81), and only
    vectors with one noise entry are evaluated as the program does. *)
From Coq Require Import Reals Arith Bool List.
From Verif Require Import RSum Mat Tri_M Kernels_M Krg_M HyperOpt_M.
Import ListNotations.
Open Scope list_scope.
Open Scope R_scope.

Section Kplsk.
Variables (qr : nat -> nat -> mat -> mat * mat) (rcond : nat -> mat -> R) (condF : nat -> nat -> mat -> R).
(** standardised data, PLS coefficients, number of components *)
Variables (nx nt : nat) (po : poly) (Xn : nat -> vec) (yn : vec) (ystd : R) (co : mat) (nc : nat).
(** options: eval_noise, use_het_noise, nugget, noise0, theta_bounds, noise_bounds; [het_noise] is
    self.optimal_noise when use_het_noise is set *)
Variables (eval_noise het : bool) (nugget noise0 : R) (het_noise : vec) (tb_lo tb_hi nb_lo nb_hi : R).
Definition vec_of (l : list R) : vec := fun i => nth i l 0.
(** 200-329 at the kernel specification [s]; log10(0) = -inf as in HyperOpt_M2.v *)
Definition eval_at (s : kspec) (nug : R) (noise : vec) : ev par :=
  match reduced_likelihood qr rcond condF nt (n_regr po nx) (INR nt) (corr_matrix s nx nt Xn nug noise)
          (fun i j => fvec po nx (Xn i) j) yn ystd with
  | Fit v pr => if Req_EM_T (p_sigma2 pr) 0 then PosInf else Fin v pr
  | BadTheta => NegInf
  | IllF => Exc
  end.
(** 238-250; [d] is self.D.shape[1] *)
Definition est : bool := andb eval_noise (negb het).
Definition theta_part (d : nat) (v : list R) : list R := if est then firstn d v else v.
Definition noise_part (d : nat) (v : list R) : vec :=
  if het then het_noise else if eval_noise then (fun _ => nth d v 0) else (fun _ => noise0).
Definition nug : R := if eval_noise then 0 else nugget.
(** kplsk.py 24-46 with krg_based.py 938: opt=1 is the PLS step, opt=0 the full one *)
Definition lik_pls (v : list R) : ev par := eval_at (KPls SquarExp nc co (vec_of (theta_part nc v))) nug (noise_part nc v).
Definition lik_full (v : list R) : ev par := eval_at (KStd SquarExp (vec_of (theta_part nx v))) nug (noise_part nx v).
(** 905-917 and 945-957: the starting vector of a phase *)
Definition start_noise : R :=
  let n := if Req_EM_T noise0 0 then nb_lo else noise0 in
  if Rlt_dec n nb_lo then nb_lo else if Rlt_dec nb_hi n then nb_lo else n.
Definition start (rnd : nat -> R) (theta0 : list R) : list R :=
  start_theta tb_lo tb_hi rnd theta0 ++ (if est then [start_noise] else []).
(** 1107-1119: (theta * coeff_pls ** 2).sum(1) with numpy broadcasting; None is the ValueError.  The last entry
    of the best vector is dropped whenever eval_noise is set *)
Definition next_theta0 (best : list R) : option (list R) :=
  let theta := if eval_noise then removelast best else best in
  if Nat.eqb (length theta) nc then Some (map (fun j => rsum nc (fun l => nth l theta 0 * co j l ^ 2)) (seq 0 nx))
  else if Nat.eqb (length theta) 1 then Some (map (fun j => rsum nc (fun l => nth 0 theta 0 * co j l ^ 2)) (seq 0 nx))
  else if Nat.eqb nc 1 then Some (map (fun j => rsum (length theta) (fun l => nth l theta 0 * co j 0%nat ^ 2)) (seq 0 nx))
  else None.
(** optimiser: starting vector and attempt number to the behaviour of that attempt *)
Definition optimiser := list R -> nat -> attempt (list R).
Inductive result := Trained (v : R) (p : par) (theta : list R) | NoParameters | Raised.
(** what is left of a phase without a best point: best_optimal_theta = [] *)
Definition best_vec (b : option (par * list R)) : list R := match b with Some (_, t) => t | None => [] end.
(** 899-1127; nb_ill_matrix carries over from the first phase to the second.  C39_bounded: 10 + 2 nb attempts
    are always enough, so OutOfFuel does not occur *)
Definition phase1 (nb : nat) (opt : optimiser) (rnd : nat -> R) (theta0 : list R) : outcome (list R) par :=
  search (list R) par lik_pls (10 + 2 * nb) nb (opt (start rnd theta0)).
Definition phase2 (nb : nat) (opt : optimiser) (rnd : nat -> R) (theta0 : list R) : outcome (list R) par :=
  search (list R) par lik_full (10 + 2 * nb) nb (opt (start rnd theta0)).
Definition kplsk_train (nb : nat) (opt1 opt2 : optimiser) (rnd1 rnd2 : nat -> R) (theta0 : list R) : result :=
  match phase1 nb opt1 rnd1 theta0 with
  | Done _ nb' _ b =>
      match next_theta0 (best_vec b) with
      | None => Raised
      | Some theta0' =>
          match phase2 nb' opt2 rnd2 theta0' with
          | Done _ _ v (Some (p, t)) => Trained v p t
          | Done _ _ _ None => NoParameters
          | _ => Raised
          end
      end
  | _ => Raised
  end.
(** 632-664 after such a training, 183-187: the kernel used for prediction (opt defaults to 0) *)
Definition final_kernel (t : list R) : kspec := KStd SquarExp (vec_of (theta_part nx t)).
End Kplsk.
