(** Properties C30 (QP) and C31 (LS). *)
From Coq Require Import Reals Arith Bool List ZArith Lia Lra.
From Verif Require Import RSum Mat Poly_M Poly_P Poly_P2.
Open Scope R_scope.

(** C30. The basis holds 1, every x_i, every x_i^2, every x_i x_j ... *)
Theorem C30_basis : forall dim x,
  qp_row dim x 0%nat = 1 /\ (forall i, (i < dim)%nat -> qp_row dim x (1 + i)%nat = x i /\ qp_row dim x (1 + dim + i)%nat = x i ^ 2) /\
  (forall i j, (i < j)%nat -> (j < dim)%nat -> qp_row dim x (qp_k dim i j) = x i * x j).
Proof.
  intros dim x. split; [apply row_const|]. split; [intros i Hi; split; [apply row_linear; exact Hi|apply row_square; exact Hi]|intros i j; apply row_cross].
Qed.
Print Assumptions C30_basis.
(** ... and the index of the cross products is a bijection from pairs i < j onto the remaining columns. *)
Theorem C30_cross_index_bijective : forall dim,
  (forall i j, (i < j)%nat -> (j < dim)%nat -> (2 * dim + 1 <= qp_k dim i j < (dim + 2) * (dim + 1) / 2)%nat) /\
  (forall i j i' j', (i < j)%nat -> (j < dim)%nat -> (i' < j')%nat -> (j' < dim)%nat -> qp_k dim i j = qp_k dim i' j' -> i = i' /\ j = j') /\
  (forall c, (2 * dim + 1 <= c < (dim + 2) * (dim + 1) / 2)%nat -> exists i j, (i < j)%nat /\ (j < dim)%nat /\ c = qp_k dim i j).
Proof. intros dim. split; [exact (qp_k_range dim)|]. split; [exact (qp_k_inj dim)|exact (qp_k_onto dim)]. Qed.
Print Assumptions C30_cross_index_bijective.
(** The predicted derivative is the partial derivative of the predicted value. *)
Theorem C30_derivative : forall dim coef kx x, (kx < dim)%nat -> is_partial (qp_value dim coef) x kx (qp_derivative dim coef kx x).
Proof. exact qp_partial. Qed.
Print Assumptions C30_derivative.
(** The derivative call works for one output or one point only ... *)
Theorem C30_derivatives_shape : forall dim n ny coef kx x, (1 <= n)%nat -> (1 <= ny)%nat ->
  (qp_derivatives dim n ny coef kx x = None <-> (2 <= n)%nat /\ (2 <= ny)%nat) /\
  (forall d, qp_derivatives dim n ny coef kx x = Some d -> forall e o, (e < n)%nat -> (o < ny)%nat -> d e o = qp_derivative dim (fun a => coef a o) kx (x e)).
Proof.
  intros dim n ny coef kx x Hn Hy. unfold qp_derivatives. destruct (Nat.eqb_spec ny 1) as [-> | N1]; [|destruct (Nat.eqb_spec n 1) as [-> | N2]].
  - split; [split; [discriminate|lia]|]. intros d E e o He Ho. injection E as <-. replace o with 0%nat by lia. reflexivity.
  - split; [split; [discriminate|lia]|]. intros d E e o He Ho. injection E as <-. replace e with 0%nat by lia. reflexivity.
  - split; [split; [lia|reflexivity]|]. discriminate.
Qed.
Print Assumptions C30_derivatives_shape.
(** ... training fails exactly with fewer points than coefficients ... *)
Theorem C30_train_fails_iff : forall inv dim nt xt yt, qp_train inv dim nt xt yt = None <-> (nt < (dim + 2) * (dim + 1) / 2)%nat.
Proof. exact qp_train_none. Qed.
Print Assumptions C30_train_fails_iff.
(** ... otherwise it gives the least-squares fit among all quadratic polynomials ... *)
Theorem C30_least_squares : forall inv dim nt xt yt coef,
  let n := qp_napp dim in let XtX := mm nt (tr (fun e a => qp_row dim (xt e) a)) (fun e a => qp_row dim (xt e) a) in
  (forall i j, (i < n)%nat -> (j < n)%nat -> mm n XtX (inv XtX) i j = idm i j) ->
  qp_train inv dim nt xt yt = Some coef ->
  forall coef', rsum nt (fun e => (qp_value dim coef (xt e) - yt e) ^ 2) <= rsum nt (fun e => (qp_value dim coef' (xt e) - yt e) ^ 2).
Proof. exact qp_optimal. Qed.
Print Assumptions C30_least_squares.
(** ... and reproduces quadratic data everywhere. *)
Theorem C30_reproduces_quadratics : forall inv dim nt xt yt coef c0,
  let n := qp_napp dim in let XtX := mm nt (tr (fun e a => qp_row dim (xt e) a)) (fun e a => qp_row dim (xt e) a) in
  (forall i j, (i < n)%nat -> (j < n)%nat -> mm n (inv XtX) XtX i j = idm i j) ->
  qp_train inv dim nt xt yt = Some coef -> (forall e, (e < nt)%nat -> yt e = qp_value dim c0 (xt e)) ->
  forall x, qp_value dim coef x = qp_value dim c0 x.
Proof. exact qp_reproduces. Qed.
Print Assumptions C30_reproduces_quadratics.
Example C30_nonvacuous : map (fun ij => qp_k 4 (fst ij) (snd ij)) ((0,1)::(0,2)::(0,3)::(1,2)::(1,3)::(2,3)::nil)%nat = (9::10::11::12::13::14::nil)%nat /\
  (let xt := fun e (_ : nat) => INR e - 1 in let XtX := mm 3 (tr (fun e a => qp_row 1 (xt e) a)) (fun e a => qp_row 1 (xt e) a) in
   let inv := fun i j => if Nat.eqb (i * j) 1 then 1 / 2 else if Nat.eqb (i + j) 0 then 1 else if Nat.eqb (i * j) 4 then 3 / 2 else if Nat.eqb (i + j) 2 then -1 else 0 in
   forall i j, (i < 3)%nat -> (j < 3)%nat -> mm 3 XtX inv i j = idm i j).
Proof.
  split; [reflexivity|]. cbv zeta. intros i j Hi Hj. unfold mm, tr, idm.
  destruct i as [|[|[|i]]]; [| | |lia]; (destruct j as [|[|[|j]]]; [| | |lia]); unfold qp_row, upd; cbn; field.
Qed.

(** C31. With any least-squares routine for the centred data, the fitted affine model has the
    smallest training error of all affine models ... *)
Theorem C31_least_squares : forall lstsq nx nt xt yt,
  (forall (X : mat) (y : vec) k, (k < nx)%nat -> mv nt (tr X) (fun e => mv nx X (lstsq nt nx X y) e - y e) k = 0) -> (0 < nt)%nat ->
  forall b a, rsum nt (fun e => (ls_value nx (ls_fit lstsq nx nt xt yt) (xt e) - yt e) ^ 2) <= rsum nt (fun e => (rsum nx (fun k => xt e k * b k) + a - yt e) ^ 2).
Proof. exact ls_optimal. Qed.
Print Assumptions C31_least_squares.
(** ... affine data are fitted exactly, and reproduced everywhere when the points are affinely
    independent enough ... *)
Theorem C31_reproduces_affine_data : forall lstsq nx nt xt yt,
  (forall (X : mat) (y : vec) k, (k < nx)%nat -> mv nt (tr X) (fun e => mv nx X (lstsq nt nx X y) e - y e) k = 0) -> (0 < nt)%nat ->
  forall b a, (forall e, (e < nt)%nat -> yt e = a + rsum nx (fun k => b k * xt e k)) ->
  (forall e, (e < nt)%nat -> ls_value nx (ls_fit lstsq nx nt xt yt) (xt e) = yt e) /\
  ((forall a' (b' : vec), (forall i, (i < nt)%nat -> a' + rsum nx (fun k => b' k * xt i k) = 0) -> a' = 0 /\ forall k, (k < nx)%nat -> b' k = 0) ->
   forall x, ls_value nx (ls_fit lstsq nx nt xt yt) x = a + rsum nx (fun k => b k * x k)).
Proof.
  intros lstsq nx nt xt yt L N b a Y. split; [exact (ls_exact lstsq nx nt xt yt L N b a Y)|intros F; exact (ls_exact_everywhere lstsq nx nt xt yt L N b a F Y)].
Qed.
Print Assumptions C31_reproduces_affine_data.
(** ... and the predicted derivative is the partial derivative of the prediction. *)
Theorem C31_derivative : forall nx m x kx, (kx < nx)%nat -> is_partial (ls_value nx m) x kx (ls_derivative m kx x).
Proof. exact ls_partial. Qed.
Print Assumptions C31_derivative.
(** a least-squares routine for one column exists *)
Example C31_nonvacuous : forall (X : mat) (y : vec) k, (k < 1)%nat ->
  let lstsq := fun nt (_ : nat) (X : mat) (y : vec) (_ : nat) => rsum nt (fun e => X e 0%nat * y e) / rsum nt (fun e => X e 0%nat * X e 0%nat) in
  mv 2 (tr X) (fun e => mv 1 X (lstsq 2%nat 1%nat X y) e - y e) k = 0.
Proof.
  intros X y k Hk. assert (k = 0%nat) by lia. subst k. cbv zeta. unfold mv, tr. cbn [rsum].
  set (a := X 0%nat 0%nat). set (b := X 1%nat 0%nat).
  destruct (Req_EM_T (a * a + b * b) 0) as [E|E].
  - assert (a = 0 /\ b = 0) as [-> ->] by (split; nra). ring.
  - field. intros Z. apply E. lra.
Qed.
