(** Kriging's likelihood as the hyperparameter search of HyperOpt_M.v sees it. *)
From Coq Require Import Reals.
From Verif Require Import RSum Mat Krg_M HyperOpt_M.
Open Scope R_scope.
(** ** the likelihood of kriging as the search sees it: krg_based.py 200-329 with numpy's log10(0) = -inf
    (so the value is +inf when the estimated variance is 0) *)
Definition krg_eval {Th : Type} (qr : nat -> nat -> mat -> mat * mat) (rcond : nat -> mat -> R) (condF : nat -> nat -> mat -> R)
  (nx nt : nat) (po : poly) (sp : Th -> kspec) (nugget : R) (noise : vec) (X : nat -> vec) (y : vec) (t : Th) : ev par :=
  match reduced_likelihood qr rcond condF nt (n_regr po nx) (INR nt) (corr_matrix (sp t) nx nt (Xnorm nt X) nugget noise)
          (fun i j => fvec po nx (Xnorm nt X i) j) (ynorm nt y) (scale1 nt y) with
  | Fit v pr => if Req_EM_T (p_sigma2 pr) 0 then PosInf else Fin v pr
  | BadTheta => NegInf
  | IllF => Exc
  end.
