(** Theorems C32, C33, C77. *)
From Coq Require Import Reals Arith Bool List Lia Lra.
From Verif Require Import RSum Mat Kernels_M Kernels_S Kernels_P Kernels_P2 Kernels_P3.
Open Scope R_scope.

(** C32. The correlation of two points is the documented formula (a product over the dimensions, or the
    Gaussian of the projected difference for act_exp) ... *)
Theorem C32_textbook_formula : forall c nx ns theta x y, corr_of c nx ns theta x y = textbook c nx ns theta x y.
Proof. exact corr_textbook. Qed.
Print Assumptions C32_textbook_formula.
(** ... with PLS it is the same formula with the effective hyperparameters sum_l theta_l |w_jl|^p ... *)
Theorem C32_pls_formula : forall c nx ncomp co theta x y, c = AbsExp \/ c = SquarExp ->
  corr_of_pls c nx ncomp co theta x y =
  textbook c nx 0 (fun j => rsum ncomp (fun l => theta l * (match c with SquarExp => co j l ^ 2 | _ => Rabs (co j l) end))) x y.
Proof. exact pls_textbook. Qed.
Print Assumptions C32_pls_formula.
(** ... it is in (0,1], 1 for equal points and symmetric ... *)
Theorem C32_range : forall c nx ns theta x y, (c <> ActExp -> forall j, (j < nx)%nat -> 0 <= theta j) -> 0 < corr_of c nx ns theta x y <= 1.
Proof. exact corr_bounds. Qed.
Print Assumptions C32_range.
Theorem C32_unit_at_distance_zero : forall c nx ns theta x, corr_of c nx ns theta x x = 1.
Proof. exact corr_diag. Qed.
Print Assumptions C32_unit_at_distance_zero.
Theorem C32_symmetric : forall c nx ns theta x y, corr_of c nx ns theta x y = corr_of c nx ns theta y x.
Proof. exact corr_sym. Qed.
Print Assumptions C32_symmetric.
(** ... and every correlation matrix is positive semidefinite, strictly definite for positive
    hyperparameters and distinct points (distinct projections for act_exp). *)
Theorem C32_positive_semidefinite : forall c nx ns theta n (p : nat -> vec), (c <> ActExp -> forall j, (j < nx)%nat -> 0 <= theta j) ->
  forall w : vec, 0 <= rsum n (fun i => rsum n (fun j => w i * w j * corr_of c nx ns theta (p i) (p j))).
Proof. exact corr_psd_form. Qed.
Print Assumptions C32_positive_semidefinite.
Theorem C32_positive_definite : forall c nx ns theta n (p : nat -> vec),
  (c <> ActExp -> forall j, (j < nx)%nat -> 0 < theta j) ->
  (c <> ActExp -> forall i j, (i < n)%nat -> (j < n)%nat -> i <> j -> ~ (forall k, (k < nx)%nat -> p i k = p j k)) ->
  (c = ActExp -> forall i j, (i < n)%nat -> (j < n)%nat -> i <> j -> ~ (forall s, (s < ns)%nat -> rsum nx (fun k => theta (s * nx + k)%nat * (p i k - p j k)) = 0)) ->
  forall w : vec, (exists i, (i < n)%nat /\ w i <> 0) -> 0 < rsum n (fun i => rsum n (fun j => w i * w j * corr_of c nx ns theta (p i) (p j))).
Proof. exact corr_pd_form. Qed.
Print Assumptions C32_positive_definite.
Example C32_nonvacuous : corr_of SquarExp 2 0 (fun _ => 1) (fun _ => 1) (fun _ => 0) = exp (-2) /\
  (forall i j : nat, (i < 5)%nat -> (j < 5)%nat -> i <> j -> ~ (forall k : nat, (k < 2)%nat -> INR i = INR j)).
Proof.
  split.
  - unfold corr_of, kernel, k_exp, comp_dist. f_equal. cbn [rsum]. ring.
  - intros i j _ _ N E. apply N. apply INR_eq. exact (E 0%nat ltac:(lia)).
Qed.

(** C33. The hyperparameter gradient and Hessian are the partial derivatives of the value ... *)
Theorem C33_theta_gradient : forall c nc ns theta d g,
  (g < match c with ActExp => nc * ns | _ => nc end)%nat -> (c <> ActExp -> forall j, (j < nc)%nat -> 0 <= d j /\ 0 <= theta j) ->
  is_partial (fun th => kernel c nc ns th d None None) theta g (kernel c nc ns theta d (Some g) None).
Proof. exact theta_grad_ok. Qed.
Print Assumptions C33_theta_gradient.
Theorem C33_theta_hessian : forall c nc ns theta d g h,
  (g < match c with ActExp => nc * ns | _ => nc end)%nat -> (h < match c with ActExp => nc * ns | _ => nc end)%nat -> (c <> ActExp -> forall j, (j < nc)%nat -> 0 <= d j /\ 0 <= theta j) ->
  is_partial (fun th => kernel c nc ns th d (Some g) None) theta h (kernel c nc ns theta d (Some g) (Some h)).
Proof. exact theta_hess_ok. Qed.
Print Assumptions C33_theta_hessian.
(** ... the gradient with respect to the first point is the partial derivative of the correlation,
    except on the kink of abs_exp, where there is none ... *)
Theorem C33_input_gradient : forall c nc ns theta x y k, c <> ActExp -> (k < nc)%nat -> (forall j, (j < nc)%nat -> 0 <= theta j) -> (c = AbsExp -> x k <> y k) ->
  exists v, kernel_dx c nc theta (fun j => x j - y j) (corr_of c nc ns theta x y) k = Some v /\ is_partial (fun x => corr_of c nc ns theta x y) x k v.
Proof. exact dx_ok. Qed.
Print Assumptions C33_input_gradient.
Theorem C33_abs_exp_kink_refuted : forall nc ns theta x y k v, (k < nc)%nat -> 0 < theta k -> x k = y k ->
  ~ is_partial (fun x => corr_of AbsExp nc ns theta x y) x k v.
Proof. exact abs_exp_kink. Qed.
Print Assumptions C33_abs_exp_kink_refuted.
(** ... act_exp raises ... *)
Theorem C33_act_exp_raises : forall nc theta d r k, kernel_dx ActExp nc theta d r k = None.
Proof. reflexivity. Qed.
Print Assumptions C33_act_exp_raises.
(** ... and so is the gradient through PLS. *)
Theorem C33_pls_input_gradient : forall c nx ncomp co theta x y k, (c = AbsExp \/ c = SquarExp) -> (k < nx)%nat -> (forall l, (l < ncomp)%nat -> 0 <= theta l) -> (c = AbsExp -> x k <> y k) ->
  is_partial (fun x => corr_of_pls c nx ncomp co theta x y) x k (- (corr_of_pls c nx ncomp co theta x y * comp_dist_pls_dx c ncomp co theta (fun j => x j - y j) k)).
Proof. exact pls_dx_ok. Qed.
Print Assumptions C33_pls_input_gradient.
Example C33_nonvacuous : kernel SquarExp 1 0 (fun _ => 1) (fun _ => 2) (Some 0%nat) (Some 0%nat) = 4 * exp (-2) /\
  kernel_dx SquarExp 1 (fun _ => 1) (fun _ => 1) (exp (-1)) 0%nat = Some (- (exp (-1) * (2 * (1 * 1)))).
Proof. split; [|reflexivity]. unfold kernel, k_exp. cbn [rsum]. replace (- (0 + 1 * 2)) with (-2) by ring. ring. Qed.

(** C77. The loop over blocks of rows ends and applies the row function exactly once to every row,
    whatever the block size and the number of rows. *)
Theorem C77_every_row_once : forall nb n f r, (0 < nb)%nat ->
  exists r', chunk_loop (S (n + 1)) nb n f 0 r = Some r' /\ forall p, (p < n)%nat -> r' p = f p (r p).
Proof. exact chunk_loop_all. Qed.
Print Assumptions C77_every_row_once.
Example C77_nonvacuous : exists r', chunk_loop 6 2 4 (fun _ v => v + 1) 0 (fun _ => 0) = Some r' /\ r' 0%nat = 1 /\ r' 3%nat = 1.
Proof. eexists. split; [vm_compute; reflexivity|]. cbn. split; ring. Qed.
