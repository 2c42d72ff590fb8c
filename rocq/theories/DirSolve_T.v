(** C123: what the solver option does to RMTS training. *)
From Coq Require Import Reals ZArith Arith Bool List String Lia Lra.
From Verif Require Import RSum Mat Tri_M LineSearch_M RmtsTrain_M RmtsTrain_P3 Rmtc_S LinSolve_M LinSolve_S LinSolve_P LinSolve_P4 DirSolve_M DirSolve_S DirSolve_P DirSolve_P2 DirSolve_P3.
Import ListNotations.
Open Scope list_scope.
Open Scope R_scope.

(** "lu", "mg" (RMTS passes no transfer operators) and, when its triangular solves write into the array, "dense-chol" answer every symmetric positive definite
    system exactly, whatever the array holds; *)
Theorem C123_exact_solvers : forall splu spilu lapack gs_lu cg in_place n, direct_contract splu ->
  forall name s, get_solver name = Some s -> (name = "lu" \/ name = "mg" \/ (name = "dense-chol" /\ in_place = true))%string ->
  answers n (solver_call splu spilu lapack gs_lu cg in_place s n SparseMatrix).
Proof.
  intros splu spilu lapack gs_lu cg ip n HD name s G [->|[->|(-> & ->)]]; injection G as <-.
  - exact (lu_answers spilu lapack gs_lu cg ip splu n HD).
  - exact (mg_answers spilu lapack gs_lu cg ip splu n HD).
  - exact (chol_answers splu spilu lapack gs_lu cg n).
Qed.
Print Assumptions C123_exact_solvers.
(** any two solvers that do give the same trained coefficients, the same stored matrix or the same failure, for every even order; *)
Theorem C123_choice_is_irrelevant : forall n H blocks yt run run', msym n H -> mpd n H -> (forall b, In b blocks -> 0 <= b_c b) -> answers n run -> answers n run' ->
  forall bf tol p maxiter, (2 <= p)%nat -> Nat.even p = true ->
  same_training n (train_run n H blocks yt run (backtracking_search n bf) p maxiter tol) (train_run n H blocks yt run' (backtracking_search n bf) p maxiter tol).
Proof. exact train_agree. Qed.
Print Assumptions C123_choice_is_irrelevant.
(** for order 2 it is the strict minimum of the training objective. *)
Theorem C123_exact_training_is_optimal : forall n H blocks yt run, msym n H -> mpd n H -> (forall b, In b blocks -> 0 <= b_c b) -> answers n run ->
  forall bf maxiter tol, (1 <= bf)%nat -> 0 <= tol -> tol < opt_norm n H blocks 2 yt (fun _ => 0) ->
  exists sol mtx, train_run n H blocks yt run (backtracking_search n bf) 2 maxiter tol = TSol sol mtx /\
    forall sol', (exists i, (i < n)%nat /\ sol' i <> sol i) -> opt_func n H blocks 2 yt sol < opt_func n H blocks 2 yt sol'.
Proof. exact answers_min. Qed.
Print Assumptions C123_exact_training_is_optimal.
(** "dense-lu" never trains: the assembled matrix is sparse and the solver asserts a dense one. *)
Theorem C123_dense_lu_never_trains : forall splu spilu lapack gs_lu cg in_place s, get_solver "dense-lu" = Some s ->
  forall n H blocks yt search p maxiter tol,
  let t := train_run n H blocks yt (solver_call splu spilu lapack gs_lu cg in_place s n SparseMatrix) search p maxiter tol in t = TSolver RAssertion \/ t = TAttribute.
Proof. intros splu spilu lapack gsl cg ip s G. injection G as <-. intros. exact (dense_lu_never splu spilu lapack gsl cg ip n H blocks yt search p maxiter tol). Qed.
Print Assumptions C123_dense_lu_never_trains.
(** "null" trains without complaint and every coefficient is zero, whatever the data. *)
Theorem C123_null_trains_to_zero : forall splu spilu lapack gs_lu cg in_place s, get_solver "null" = Some s ->
  forall n H blocks yt bf p maxiter tol, (1 <= bf)%nat -> tol < opt_norm n H blocks 2 yt (fun _ => 0) ->
  exists sol mtx, train_run n H blocks yt (solver_call splu spilu lapack gs_lu cg in_place s n SparseMatrix) (backtracking_search n bf) p maxiter tol = TSol sol mtx /\ forall k, sol k = 0.
Proof. intros splu spilu lapack gsl cg ip s G. injection G as <-. intros. apply null_trains; assumption. Qed.
Print Assumptions C123_null_trains_to_zero.
(** "gs" starts from the fresh array: the first iteration of each of the two runs ends and lowers the objective. *)
Theorem C123_gs_first_iteration : forall splu spilu lapack gs_lu cg in_place s, get_solver "gs" = Some s -> lu_contract gs_lu ->
  forall n H blocks yt, msym n H -> mpd n H -> (forall b, In b blocks -> 0 <= b_c b) ->
  forall p tol sol mtx, (2 <= p)%nat -> Nat.even p = true -> 0 <= tol -> tol < opt_norm n H blocks p yt sol ->
  exists N, forall bf, (N <= bf)%nat -> exists sol' d',
    newton_run n H blocks yt (solver_call splu spilu lapack gs_lu cg in_place s n SparseMatrix) (backtracking_search n bf) p tol 1 sol (fun _ => 0) mtx
      = Done sol' d' (Some (opt_hess n H blocks p yt sol)) /\ opt_func n H blocks p yt sol' < opt_func n H blocks p yt sol.
Proof. intros splu spilu lapack gsl cg ip s G HL n H blocks yt Sy PD Hc. injection G as <-. exact (gs_first n H blocks yt gsl splu spilu lapack cg ip Sy PD Hc HL). Qed.
Print Assumptions C123_gs_first_iteration.
(** "dense-chol" when the triangular solves write into a copy (several outputs): the answer is the right-hand side itself, so a training step goes along minus the gradient
    and the columns of the output derivatives are minus the right-hand sides; *)
Theorem C123_dense_chol_copy : forall splu spilu lapack gs_lu cg s, get_solver "dense-chol" = Some s -> forall n A, msym n A -> mpd n A ->
  let run := solver_call splu spilu lapack gs_lu cg false s n SparseMatrix in
  (forall rhs sol, run A rhs sol = Left rhs) /\ forall rhs, derivative_column n run A rhs = Some (fun k => rhs k * -1).
Proof.
  intros splu spilu lapack gsl cg s G n A Sy PD. injection G as <-. cbv zeta. split; [intros; apply chol_copy; assumption|].
  intros rhs. unfold derivative_column. rewrite chol_copy by assumption. reflexivity.
Qed.
Print Assumptions C123_dense_chol_copy.
(** then training of order 2 need not end at the minimum, however many iterations are allowed. *)
Theorem C123_dense_chol_exact_refuted : forall splu spilu lapack gs_lu cg s, get_solver "dense-chol" = Some s -> forall bf, (2 <= bf)%nat ->
  msym 1 wH /\ mpd 1 wH /\ (forall b, In b wB -> 0 <= b_c b) /\
  (forall sol', (exists i, (i < 1)%nat /\ sol' i <> (fun _ : nat => 1 / 3) i) -> opt_func 1 wH wB 2 wy (fun _ => 1 / 3) < opt_func 1 wH wB 2 wy sol') /\
  forall maxiter, exists sol mtx, train_run 1 wH wB wy (solver_call splu spilu lapack gs_lu cg false s 1 SparseMatrix) (backtracking_search 1 bf) 2 maxiter 0 = TSol sol mtx /\
    sol 0%nat = 1 / 3 - 1 / 3 * (- (1 / 2)) ^ S maxiter /\ sol 0%nat <> 1 / 3.
Proof.
  intros splu spilu lapack gsl cg s G bf Hb. injection G as <-.
  split; [exact wH_sym|]. split; [exact wH_pd|]. split; [exact wB_pos|]. split; [exact (wmin bf Hb)|].
  intros maxiter. destruct (wtrain splu spilu lapack gsl cg bf Hb maxiter) as (sol & M & E & V). exists sol, M. split; [exact E|]. split; [exact V|].
  assert (N : (- (1 / 2)) ^ S maxiter <> 0) by (apply pow_nonzero; lra).
  intros C. apply N. rewrite V in C. lra.
Qed.
Print Assumptions C123_dense_chol_exact_refuted.
Example C123_nonvacuous : direct_contract direct_w /\ lu_contract lu_w /\ msym 1 wH /\ mpd 1 wH /\ 0 < opt_norm 1 wH wB 2 wy (fun _ => 0) /\
  (forall name, In name ["lu"; "mg"; "dense-chol"; "dense-lu"; "null"; "gs"]%string -> exists s, get_solver name = Some s).
Proof.
  split; [exact direct_w_ok|]. split; [exact lu_w_ok|]. split; [exact wH_sym|]. split; [exact wH_pd|]. split.
  - rewrite wnorm. apply Rabs_pos_lt. lra.
  - intros name [<-|[<-|[<-|[<-|[<-|[<-|[]]]]]]]; eexists; reflexivity.
Qed.
