(** Model of prediction on an array of n query points, with the loops, flat buffers (C order) and
    reshapes of the source: smt/surrogate_models/krg_based.py 632-840, smt/utils/kriging_utils.py
    125-177, 800-826 and 886-907; smt/src/idw/idw.cpp 37-117 and smt/surrogate_models/idw.py 80-122;
    smt/src/rbf/rbf.cpp 34-96 and smt/surrogate_models/rbf.py 147-195; smt/src/rmts/rmtb.cpp 195-262,
    rmtc.cpp 175-238, rmts.cpp 77-92, smt/surrogate_models/rmtb.py 101-127, rmtc.py 94-103 and rmts.py
    451-540.  The one-point models are in Krg_M, Idw_M, Rbf_M, Rmtb_M and Rmtc_M.
    Simplifications: doubles are reals, C ints unbounded; a buffer is a function from indexes, so a read
    of an entry never written shows as dependence on the initial contents. *)
From Coq Require Import Reals ZArith Arith Bool List.
From Verif Require Import RSum Mat Tri_M Kernels_M Krg_M Idw_M Rbf_M Index_M Rmtb_M Rmtc_M.
Import ListNotations.
Open Scope list_scope.
Open Scope R_scope.

(** for (int i = 0; i < n; i++) *)
Definition for_ {S : Type} (n : nat) (body : nat -> S -> S) (s : S) : S := fold_left (fun s i => body i s) (seq 0 n) s.
(** b[k] = v *)
Definition bset {A : Type} (b : nat -> A) (k : nat) (v : A) : nat -> A := fun q => if Nat.eqb q k then v else b q.
(** ndarray.flatten() and reshape((-1, nc)) of a two-dimensional array with nc columns *)
Definition flat2 {A : Type} (nc : nat) (T : nat -> nat -> A) : nat -> A := fun k => T (k / nc)%nat (k mod nc)%nat.
Definition rows_of {A : Type} (nc : nat) (b : nat -> A) : nat -> nat -> A := fun r c => b (r * nc + c)%nat.
(** ravel of a three-dimensional array of shape (_, n2, n3) *)
Definition flat3 {A : Type} (n2 n3 : nat) (T : nat -> nat -> nat -> A) : nat -> A :=
  fun k => T (k / (n2 * n3))%nat ((k / n3) mod n2)%nat (k mod n3)%nat.

(** ** inverse distance weighting *)
Section Idw.
Variables (nx nt : nat) (p : R) (xt : nat -> R).
(** idw.cpp 44-49 *)
Definition c_r2 (x : nat -> R) (i it : nat) : R :=
  for_ nx (fun ix r2 => r2 + (x (i * nx + ix)%nat - xt (it * nx + ix)%nat) ^ 2) 0.
(** idw.cpp 37-75; state (w, jac): the work array of the object and the output buffer *)
Definition idw_compute_jac (n : nat) (x w jac : nat -> R) : (nat -> R) * (nat -> R) :=
  for_ n (fun i st =>
    let '(w, jac) := st in
    let '(min_val, min_loc, w) := for_ nt (fun it st =>
        let '(min_val, min_loc, w) := st in
        let r2 := c_r2 x i it in
        let '(min_val, min_loc) := if Rlt_dec r2 min_val then (r2, it) else (min_val, min_loc) in
        (min_val, min_loc, bset w it (Rpower r2 (- p / 2)))) (1, 0%nat, w) in
    if Req_EM_T min_val 0 then
      (w, bset (for_ nt (fun it jac => bset jac (i * nt + it)%nat 0) jac) (i * nt + min_loc)%nat 1)
    else
      let sum := for_ nt (fun it s => s + w it) 0 in
      (w, for_ nt (fun it jac => bset jac (i * nt + it)%nat (w it / sum)) jac)) (w, jac).
(** idw.cpp 77-117; state (w, dw_dx, jac) *)
Definition idw_compute_jac_derivs (n kx : nat) (x w dw jac : nat -> R) : (nat -> R) * (nat -> R) * (nat -> R) :=
  for_ n (fun i st =>
    let '(w, dw, jac) := st in
    let '(min_val, min_loc, w, dw) := for_ nt (fun it st =>
        let '(min_val, min_loc, w, dw) := st in
        let r2 := c_r2 x i it in
        let d := x (i * nx + kx)%nat - xt (it * nx + kx)%nat in
        let dr2_dx := 2 * d in
        let '(min_val, min_loc) := if Rlt_dec r2 min_val then (r2, it) else (min_val, min_loc) in
        (min_val, min_loc, bset w it (Rpower r2 (- p / 2)), bset dw it (- p / 2 * Rpower r2 (- p / 2 - 1) * dr2_dx)))
      (1, 0%nat, w, dw) in
    if Req_EM_T min_val 0 then (w, dw, for_ nt (fun it jac => bset jac (i * nt + it)%nat 0) jac)
    else
      let '(sum, dsum) := for_ nt (fun it st => let '(s, ds) := st in (s + w it, ds + dw it)) (0, 0) in
      (w, dw, for_ nt (fun it jac => bset jac (i * nt + it)%nat ((dw it * sum - w it * dsum) / sum ^ 2)) jac)) (w, dw, jac).
End Idw.
(** idw.py 84-94: row e, output o; [w] and [jac] are the contents left in memory *)
Definition idw_predict (nx nt : nat) (p : R) (xt yt : nat -> nat -> R) (w jac : nat -> R) (n : nat) (X : nat -> vec) (e o : nat) : R :=
  let jac := rows_of nt (snd (idw_compute_jac nx nt p (flat2 nx xt) n (flat2 nx X) w jac)) in
  rsum nt (fun it => jac e it * yt it o).
(** idw.py 112-122 *)
Definition idw_predict_d (nx nt : nat) (p : R) (xt yt : nat -> nat -> R) (w dw jac : nat -> R) (n : nat) (X : nat -> vec) (kx e o : nat) : R :=
  let jac := rows_of nt (snd (idw_compute_jac_derivs nx nt p (flat2 nx xt) n kx (flat2 nx X) w dw jac)) in
  rsum nt (fun it => jac e it * yt it o).

(** ** radial basis functions *)
Section Rbf.
Variables (nx nt : nat) (deg : degree) (d0 xt : nat -> R).
Let nd := num_dof nx nt deg.
(** rbf.cpp 39-43 *)
Definition c_rr2 (x : nat -> R) (i it : nat) : R :=
  for_ nx (fun ix r2 => r2 + ((x (i * nx + ix)%nat - xt (it * nx + ix)%nat) / d0 ix) ^ 2) 0.
(** poly_degree >= 0, poly_degree == 1 *)
Definition has_const : bool := match deg with NoPoly => false | _ => true end.
Definition has_linear : bool := match deg with Linear => true | _ => false end.
(** rbf.cpp 34-61 *)
Definition rbf_compute_jac (n : nat) (x jac : nat -> R) : nat -> R :=
  let jac := for_ n (fun i jac => for_ nt (fun it jac => bset jac (i * nd + it)%nat (exp (- c_rr2 x i it))) jac) jac in
  let jac := if has_const then for_ n (fun i jac => bset jac (i * nd + nt)%nat 1) jac else jac in
  if has_linear then
    for_ n (fun i jac => for_ nx (fun ix jac => bset jac (i * nd + nt + 1 + ix)%nat (x (i * nx + ix)%nat)) jac) jac
  else jac.
(** rbf.cpp 63-96 *)
Definition rbf_compute_jac_derivs (n kx : nat) (x jac : nat -> R) : nat -> R :=
  let jac := for_ n (fun i jac => for_ nt (fun it jac =>
      let r2 := c_rr2 x i it in
      let d := x (i * nx + kx)%nat - xt (it * nx + kx)%nat in
      let dr2_dx := 2 * d / d0 kx ^ 2 in
      bset jac (i * nd + it)%nat (- exp (- r2) * dr2_dx)) jac) jac in
  let jac := if has_const then for_ n (fun i jac => bset jac (i * nd + nt)%nat 0) jac else jac in
  if has_linear then
    for_ n (fun i jac =>
      let jac := for_ nx (fun ix jac => bset jac (i * nd + nt + 1 + ix)%nat 0) jac in
      bset jac (i * nd + nt + 1 + kx)%nat 1) jac
  else jac.
End Rbf.
(** rbf.py 161-168: row e, output o *)
Definition rbf_predict (nx nt : nat) (deg : degree) (d0 : vec) (xt : nat -> vec) (sol : nat -> nat -> R) (jac : nat -> R)
  (n : nat) (X : nat -> vec) (e o : nat) : R :=
  let nd := num_dof nx nt deg in
  let jac := rows_of nd (rbf_compute_jac nx nt deg d0 (flat2 nx xt) n (flat2 nx X) jac) in
  rsum nd (fun j => jac e j * sol j o).
(** rbf.py 186-195 *)
Definition rbf_predict_d (nx nt : nat) (deg : degree) (d0 : vec) (xt : nat -> vec) (sol : nat -> nat -> R) (jac : nat -> R)
  (n : nat) (X : nat -> vec) (kx e o : nat) : R :=
  let nd := num_dof nx nt deg in
  let jac := rows_of nd (rbf_compute_jac_derivs nx nt deg d0 (flat2 nx xt) n kx (flat2 nx X) jac) in
  rsum nd (fun j => jac e j * sol j o).

(** ** regularised minimal-energy splines: sparse triples *)
Definition triples := ((nat -> R) * (nat -> nat) * (nat -> Z))%type.
(** rmtb.cpp 195-262; ix1, ix2 are 1-based with 0 = none (rmtb.py 119); the bases of one dimension are
    those of Rmtb_M (each call overwrites basis_vec entirely) *)
Definition rmtb_compute_jac (orders ncps : list nat) (ix1 ix2 n : nat) (params : nat -> R) (t : triples) : triples :=
  let nx := length orders in
  let nnz_row := for_ nx (fun ix k => (k * nth ix orders 0)%nat) 1%nat in
  let t := for_ n (fun i t => for_ nnz_row (fun inz_row (t : triples) =>
      let '(data, rows, cols) := t in
      let k := (i * nnz_row + inz_row)%nat in
      (bset data k 1, bset rows k i, bset cols k 0%Z)) t) t in
  for_ nx (fun ix t =>
    let order := nth ix orders 0%nat in
    let ncp := nth ix ncps 0%nat in
    let knots := knots_uniform order ncp in
    for_ n (fun i t =>
      let '(istart, basis_vec) := choose_basis ix1 ix2 ix order ncp (params (i * nx + ix)%nat) knots in
      for_ nnz_row (fun inz_row (t : triples) =>
        let '(data, rows, cols) := t in
        let d := inz_dim orders ix inz_row in
        let inz := (i * nnz_row + inz_row)%nat in
        let prod := prodl (skipn (S ix) ncps) in
        (bset data inz (data inz * basis_vec d), rows,
         bset cols inz (cols inz + (Z.of_nat d + istart) * Z.of_nat prod)%Z)) t) t) t.
(** rmtb.py 101-127; [t] is what np.empty left in the three arrays *)
Definition rmtb_raw (orders ncps : list nat) (lo up : vec) (t : triples) (ix1 ix2 n : nat) (X : nat -> vec) : triples :=
  let nx := length orders in
  let T := fun i kx => Rmin (Rmax ((X i kx - lo kx) / (up kx - lo kx)) (0 + eps)) (1 - eps) in
  let '(data, rows, cols) := rmtb_compute_jac orders ncps ix1 ix2 n (flat2 nx T) t in
  let data := match ix1 with O => data | S k => fun q => data q / (up k - lo k) end in
  let data := match ix2 with O => data | S k => fun q => data q / (up k - lo k) end in
  (data, rows, cols).
(** rmtc.cpp 175-238; state (inz, triples); the local coordinates are those of Rmtc_M *)
Definition rmtc_compute_jac (nelems : list nat) (lo up : vec) (ix1 ix2 n : nat) (x : nat -> R) (t : triples) : triples :=
  let nx := length nelems in
  let nterm_list := nterms nelems in
  snd (for_ n (fun i st =>
    let pt := fun ix => find_interval (lo ix) (up ix) (nth ix nelems 0%nat) (x (i * nx + ix)%nat) in
    let ielem := contract_index nelems (map (fun ix => Z.to_nat (fst (pt ix))) (seq 0 nx)) in
    for_ (nterm nelems) (fun iterm (st : nat * triples) =>
      let '(inz, (data, rows, cols)) := st in
      let iterm_list := expand_index nterm_list iterm in
      let prod := for_ nx (fun ix prod =>
          let power := nth ix iterm_list 0%nat in
          let xbar := snd (pt ix) in
          let dxb := 1 / ((up ix - lo ix) / INR (nth ix nelems 0%nat) / 2) in
          if negb (Nat.eqb (S ix) ix1) && negb (Nat.eqb (S ix) ix2) then prod * xbar ^ power
          else if Nat.eqb (S ix) ix1 && Nat.eqb (S ix) ix2 then
            if Nat.leb 2 power then prod * (INR power * (INR power - 1) * xbar ^ (power - 2) * dxb * dxb) else 0
          else if Nat.leb 1 power then prod * (INR power * xbar ^ (power - 1) * dxb) else 0) 1 in
      (S inz, (bset data inz prod, bset rows inz i, bset cols inz (Z.of_nat (ielem * nterm nelems + iterm))))) st) (0%nat, t)).
(** rmtc.py 94-103 *)
Definition rmtc_raw (nelems : list nat) (lo up : vec) (t : triples) (ix1 ix2 n : nat) (X : nat -> vec) : triples :=
  rmtc_compute_jac nelems lo up ix1 ix2 n (flat2 (length nelems) X) t.
(** rmts.cpp 77-92 *)
Definition compute_ext_dist (nx : nat) (lo up : vec) (n nterm : nat) (x dx : nat -> R) : nat -> R :=
  for_ n (fun i dx => for_ nx (fun ix dx =>
    let work := x (i * nx + ix)%nat in
    let work := Rmax (lo ix) work in
    let work := Rmin (up ix) work in
    let work := x (i * nx + ix)%nat - work in
    for_ nterm (fun iterm dx => bset dx (i * nterm * nx + iterm * nx + ix)%nat work) dx) dx) dx.
(** rmts.py 491-540; [raw] is _compute_jac_raw with the previous contents of the fresh arrays of each call
    ([mem c] for the call number c, [mem_dx] for dx); all arithmetic on the triples is elementwise *)
Definition prediction_mtx (nx support : nat) (lo up : vec) (raw : triples -> nat -> nat -> nat -> (nat -> vec) -> triples)
  (extrapolate : bool) (mem : nat -> triples) (mem_dx : nat -> R) (kx n : nat) (X : nat -> vec) : triples :=
  let t := raw (mem 0%nat) kx 0%nat n X in
  if extrapolate then
    let dx := rows_of nx (compute_ext_dist nx lo up n support (flat2 nx X) mem_dx) in
    let isexternal := fun q k => if Req_EM_T (dx q k) 0 then 0 else 1 in
    for_ nx (fun ix (t : triples) =>
      let '(data, _, _) := t in
      let '(data_tmp, rows, cols) := raw (mem (S ix)) kx (S ix) n X in
      let data_tmp := fun q => data_tmp q * dx q ix in
      let data_tmp := match kx with O => data_tmp | S k => fun q => data_tmp q * (1 - isexternal q k) end in
      (fun q => data q + data_tmp q, rows, cols)) t
  else t.
(** csc_matrix((data, (rows, cols))).dot(coef), row e: rmts.py 467-468, 486-487; nnz stored entries *)
Definition csc_dot (nnz : nat) (t : triples) (coef : Z -> R) (e : nat) : R :=
  let '(data, rows, cols) := t in rsum nnz (fun q => if Nat.eqb (rows q) e then data q * coef (cols q) else 0).
Definition rmtb_predict (orders ncps : list nat) (lo up : vec) (ext : bool) (mem : nat -> triples) (mem_dx : nat -> R)
  (coef : Z -> R) (kx n : nat) (X : nat -> vec) (e : nat) : R :=
  csc_dot (n * prodl orders) (prediction_mtx (length orders) (prodl orders) lo up (rmtb_raw orders ncps lo up) ext mem mem_dx kx n X) coef e.
Definition rmtc_predict (nelems : list nat) (lo up : vec) (ext : bool) (mem : nat -> triples) (mem_dx : nat -> R)
  (coef : Z -> R) (kx n : nat) (X : nat -> vec) (e : nat) : R :=
  csc_dot (n * nterm nelems) (prediction_mtx (length nelems) (nterm nelems) lo up (rmtc_raw nelems lo up) ext mem mem_dx kx n X) coef e.

(** ** kriging *)
(** kriging_utils.py 125-128 *)
Definition differences (nx nt : nat) (X Y : nat -> vec) : nat -> vec :=
  rows_of nx (flat3 nt nx (fun e i j => X e j - Y i j)).
(** while i * nb <= rows: out[i*nb:(i+1)*nb] = f(...); i += 1, on arrays of [rows] rows of any shape
    (kriging_utils.py 165-175, 806-826, 892-907); None when the fuel runs out *)
Fixpoint rows_loop {A : Type} (fuel nb rows : nat) (f : nat -> A) (i : nat) (r : nat -> A) : option (nat -> A) :=
  match fuel with
  | O => None
  | S fuel' =>
      if Nat.leb (i * nb) rows
      then rows_loop fuel' nb rows f (i + 1)
             (fun p => if andb (Nat.leb (i * nb) p) (andb (Nat.ltb p ((i + 1) * nb)) (Nat.ltb p rows)) then f p else r p)
      else Some r
  end.
Definition limit : nat := Z.to_nat 10000.
(** krg_based.py 650-656, 686-692, 740-746: distances, then correlations (a column of rows), reshaped to (n, nt) *)
Definition query_corr (s : kspec) (nx nt n : nat) (Xq Xt : nat -> vec) : option (nat -> vec) :=
  let D := differences nx nt Xq Xt in
  let rows := (n * nt)%nat in
  match rows_loop (S (rows + 1)) limit rows
          (fun p => match s with KStd c _ => comp_dist c (D p) | KPls c _ co _ => comp_dist_pls c nx co (D p) end) 0 (fun _ _ => 0) with
  | None => None
  | Some d =>
      match rows_loop (S (rows + 1)) limit rows
              (fun p => match s with
                        | KStd c theta => kernel c nx 0 theta (d p) None None
                        | KPls c ncomp _ theta => kernel c ncomp 0 theta (d p) None None
                        end) 0 (fun _ => 0) with
      | None => None
      | Some r => Some (rows_of nt r)
      end
  end.
Section Krg.
Variable m : model.
Let nx := m_nx m. Let nt := m_nt m. Let po := m_poly m. Let p := n_regr po nx.
(** normalised query points, 648, 684, 738, 782 *)
Definition xq (X : nat -> vec) : nat -> vec := fun e c => (X e c - m_off m c) / m_scale m c.
(** 632-664.  None: no query point at all (check_pairwise_arrays refuses an array without rows) *)
Definition krg_values (n : nat) (X : nat -> vec) : option vec :=
  if Nat.eqb n 0 then None else
  match query_corr (m_k m) nx nt n (xq X) (m_Xn m) with
  | None => None
  | Some r =>
      let f : mat := fun e j => fvec po nx (xq X e) j in
      let y_ := fun e => mv p f (p_beta (m_par m)) e + mv nt r (p_gamma (m_par m)) e in
      Some (fun e => m_ymean m + m_ystd m * y_ e)
  end.
(** 666-722 *)
Definition krg_derivatives (n : nat) (X : nat -> vec) (kx : nat) : option vec :=
  if Nat.eqb n 0 then None else
  match query_corr (m_k m) nx nt n (xq X) (m_Xn m) with
  | None => None
  | Some r =>
      match k_corr (m_k m), po with
      | SquarExp, PQuadratic => None
      | SquarExp, _ =>
          let df_dx := dot p (fun j => match df po j kx with Some v => v | None => 0 end) (p_beta (m_par m)) in
          let d_dx : mat := fun e i => xq X e kx - m_Xn m i kx in
          Some (fun e => (df_dx - 2 * eff_theta (m_k m) kx * mv nt (fun e i => d_dx e i * r e i) (p_gamma (m_par m)) e) * m_ystd m / m_scale m kx)
      | _, _ => None
      end
  end.
(** 724-763: the triangular systems have one right-hand side per query point (the columns of r.T) *)
Definition krg_variances (n : nat) (X : nat -> vec) : option vec :=
  if Nat.eqb n 0 then None else
  match query_corr (m_k m) nx nt n (xq X) (m_Xn m) with
  | None => None
  | Some r =>
      let rt : mat := fun i e => solve_triangular nt (p_C (m_par m)) (fun a => tr r a e) true i in
      let rhs : mat := fun j e => rsum nt (fun i => tr (p_Ft (m_par m)) j i * rt i e) - fvec po nx (xq X e) j in
      let u : mat := fun j e => solve_triangular p (tr (p_G (m_par m))) (fun a => rhs a e) false j in
      let B := fun e => 1 - rsum nt (fun i => rt i e ^ 2) + rsum p (fun j => u j e ^ 2) in
      let MSE := fun e => p_sigma2 (m_par m) * B e in
      Some (fun e => if Rlt_dec (MSE e) 0 then 0 else MSE e)
  end.
(** 765-840: r is the column of n*nt correlations (not reshaped), and the solve of 796 requires it to have
    as many rows as the factor has, nt; with one point the remaining lines are Krg_M's
    predict_variance_derivative *)
Definition krg_variance_derivatives (n : nat) (X : nat -> vec) (kx : nat) : option vec :=
  if Nat.eqb n 0 then None
  else if Nat.eqb (n * nt) nt then
    match predict_variance_derivative m (X 0%nat) kx with Some v => Some (fun _ => v) | None => None end
  else None.
End Krg.
