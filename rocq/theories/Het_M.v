(** Model of kriging training with eval_noise=True and use_het_noise=True (heteroscedastic noise estimated
    from replicated inputs): smt/surrogate_models/krg_based.py 133-162 with 238-256, and the
    shape of predict_values (surrogate_model.py 273-316, krg_based.py 658-664), for ny outputs.
    Simplifications: doubles are reals; np.unique(axis=0) is its documented result (distinct rows in
    lexicographic order, inverse indices, counts), here with rows named by the number of the first
    training row that holds them; theta is given (HyperOpt_M.v models its search). *)
From Coq Require Import Reals Arith Bool List.
From Verif Require Import RSum Mat Tri_M Kernels_M Krg_M.
Import ListNotations.
Open Scope list_scope.
Open Scope R_scope.

(** ** np.unique(X_norma, return_inverse=True, return_counts=True, axis=0), krg_based.py 142-144 *)
(** comparison of two rows as the structured items np.unique sorts: field by field *)
Fixpoint lexc (nx : nat) (a b : vec) : comparison :=
  match nx with
  | O => Eq
  | S k => if Rlt_dec (a 0%nat) (b 0%nat) then Lt else if Rlt_dec (b 0%nat) (a 0%nat) then Gt
           else lexc k (fun c => a (S c)) (fun c => b (S c))
  end.
Section Unique.
Variables (nx : nat) (X : nat -> vec).
Fixpoint ins (i : nat) (l : list nat) : list nat :=
  match l with
  | [] => [i]
  | j :: l' => match lexc nx (X i) (X j) with Lt => i :: l | Eq => l | Gt => j :: ins i l' end
  end.
(** the distinct rows in order, as row numbers *)
Definition uniq (n : nat) : list nat := fold_left (fun l i => ins i l) (seq 0 n) [].
(** return_inverse *)
Fixpoint pos (i : nat) (l : list nat) : nat :=
  match l with [] => O | j :: l' => match lexc nx (X i) (X j) with Eq => O | _ => S (pos i l') end end.
Definition inverse (n i : nat) : nat := pos i (uniq n).
End Unique.
(** v[index_unique == u].sum() and return_counts *)
Definition masked_sum (n : nat) (idx : nat -> nat) (u : nat) (v : vec) : R := rsum n (fun a => if Nat.eqb (idx a) u then v a else 0).
Definition count (n : nat) (idx : nat -> nat) (u : nat) : R := masked_sum n idx u (fun _ => 1).

(** ** 147-162: means and pointwise noise.  [noise0] is the option of that name; None is the ValueError of
    broadcasting a list whose length is neither 1 nor the number of distinct inputs *)
Definition bcast (nu : nat) (noise0 : list R) : option vec :=
  if Nat.eqb (length noise0) 1 then Some (fun _ => nth 0 noise0 0)
  else if Nat.eqb (length noise0) nu then Some (fun u => nth u noise0 0) else None.
(** np.mean and np.sum without axis: over all outputs too.  The selected block has count * ny entries *)
Definition block_sum (n ny : nat) (idx : nat -> nat) (u : nat) (v : nat -> vec) : R := masked_sum n idx u (fun a => rsum ny (v a)).
Definition block_size (n ny : nat) (idx : nat -> nat) (u : nat) : R := count n idx u * INR ny.
Definition y_mean_rep (n ny : nat) (idx : nat -> nat) (yn : nat -> vec) (u : nat) : R := block_sum n ny idx u yn / block_size n ny idx u.
Definition noise_rep (n ny : nat) (idx : nat -> nat) (yn : nat -> vec) (n0 : vec) (u : nat) : R :=
  let c := block_size n ny idx u in
  let diff : nat -> vec := fun a k => yn a k - y_mean_rep n ny idx yn u in
  let optimal :=
    if Req_EM_T (block_sum n ny idx u (fun a k => diff a k ^ 2)) 0 then n0 u
    else let md := block_sum n ny idx u diff / c in
         (sqrt (block_sum n ny idx u (fun a k => (diff a k - md) ^ 2) / (c - 1))) ^ 2 (* np.std(diff, ddof=1) ** 2 *) in
  optimal / count n idx u.

(** ** 116-190 with 238-256 for these options: the nugget is replaced by 0 (240-242); None: an exception.
    The model of output k: outputs share everything but y_mean, y_std and sigma2 *)
Definition het_train (qr : nat -> nat -> mat -> mat * mat) (rcond : nat -> mat -> R) (condF : nat -> nat -> mat -> R)
  (nx ny n : nat) (po : poly) (s : kspec) (nugget : R) (noise0 : list R) (X : nat -> vec) (y : nat -> vec) (k : nat) : option model :=
  let Xn := Xnorm n X in
  let yn : nat -> vec := fun a j => ynorm n (fun i => y i j) a in
  let l := uniq nx Xn n in
  let idx := inverse nx Xn n in
  let nt := length l in
  match bcast nt noise0 with
  | None => None
  | Some n0 =>
      let Xu : nat -> vec := fun u => Xn (nth u l 0%nat) in
      let p := n_regr po nx in
      let nugget := 0 in
      if Nat.leb nt 1 then None (* np.min of an empty array, 166 *)
      else if Nat.ltb nt p then None (* _check_F, 1185-1204 *)
      else match reduced_likelihood qr rcond condF nt p (INR nt) (corr_matrix s nx nt Xu nugget (noise_rep n ny idx yn n0))
                   (fun i j => fvec po nx (Xu i) j) (y_mean_rep n ny idx yn) (scale1 n (fun i => y i k)) with
           | Fit _ pr => Some {| m_nx := nx; m_nt := nt; m_poly := po; m_k := s; m_Xn := Xu;
                                 m_off := (fun c => mean n (fun a => X a c)); m_scale := (fun c => scale1 n (fun a => X a c));
                                 m_ymean := mean n (fun i => y i k); m_ystd := scale1 n (fun i => y i k); m_par := pr |}
           | _ => None
           end
  end.
(** ** krg_based.py 656-664 and surrogate_model.py 305-316 after such a training: beta and gamma are
    one-dimensional, so y_ has shape (n_eval,), and y_mean + y_std * y_ broadcasts it against (ny,); the result
    must reshape to (n_eval, ny).  None: ValueError *)
Definition het_predict (ny : nat) (m : nat -> model) (pts : list vec) : option (list (list R)) :=
  let n_eval := length pts in
  let flat :=
    if Nat.eqb ny 1 then Some (map (predict_value (m 0%nat)) pts)
    else if Nat.eqb n_eval 1 then Some (map (fun k => predict_value (m k) (nth 0 pts (fun _ => 0))) (seq 0 ny))
    else if Nat.eqb n_eval ny then Some (map (fun k => predict_value (m k) (nth k pts (fun _ => 0))) (seq 0 ny))
    else None in
  match flat with
  | None => None
  | Some v => if Nat.eqb (length v) (n_eval * ny)
              then Some (map (fun i => map (fun k => nth (i * ny + k) v 0) (seq 0 ny)) (seq 0 n_eval))
              else None
  end.
