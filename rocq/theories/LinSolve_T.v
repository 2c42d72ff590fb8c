(** C55, C86.  Specification: LinSolve_S.v.  lu stands for scipy's sparse LU of a triangular matrix, direct for the direct solver of the coarsest
    level; lu_w and direct_w (LinSolve_P4.v) meet the contracts assumed of them. *)
From Coq Require Import Reals Arith Bool List String Lia Lra.
From Coquelicot Require Import Coquelicot.
From Verif Require Import RSum Mat LinSolve_M LinSolve_S LinSolve_P LinSolve_P2 LinSolve_P3 LinSolve_P4.
Import ListNotations.
Open Scope R_scope.
(** a vector is left alone by one iteration exactly when it solves the system *)
Theorem C55_fixed_points_are_solutions : forall lu, lu_contract lu -> forall n A w, w <> 0 -> (forall i, (i < n)%nat -> A i i <> 0) ->
  forall k b x, same n (step lu k n A w b x) x <-> solves n A b x.
Proof. exact step_fixed. Qed.
Print Assumptions C55_fixed_points_are_solutions.
Theorem C55_iterations_keep_solutions : forall lu, lu_contract lu -> forall n A w, w <> 0 -> (forall i, (i < n)%nat -> A i i <> 0) ->
  forall k b ilimit x, solves n A b x -> same n (iterate lu k n A w b ilimit x) x.
Proof. exact iter_fixed. Qed.
Print Assumptions C55_iterations_keep_solutions.
(** diagonally dominant systems: both methods shrink the largest error by the factor 1 - w + w q at every iteration *)
Theorem C55_dominant_rate : forall lu, lu_contract lu -> forall n A w q b s, 0 < w <= 1 -> 0 <= q <= 1 -> dominant n A q -> solves n A b s ->
  forall k ilimit x m, err_le n x s m -> err_le n (iterate lu k n A w b ilimit x) s ((1 - w + w * q) ^ ilimit * m).
Proof.
  intros lu HL n A w q b s Hw Hq D Hs k l x m H. apply (iter_err lu HL n A w ltac:(lra) (fun i Hi => proj1 (D i Hi)) q b s D Hs Hw k l (proj2 Hq) x m H).
Qed.
Print Assumptions C55_dominant_rate.
(** symmetric systems with positive diagonal: Gauss-Seidel with damping between 0 and 2 never increases the energy, and leaves it only at solutions *)
Theorem C55_gs_energy : forall lu n A w, lu_contract lu -> msym n A -> 0 < w < 2 -> (forall i, (i < n)%nat -> 0 < A i i) -> forall b x,
  energy n A b (step lu GS n A w b x) <= energy n A b x /\ (energy n A b (step lu GS n A w b x) = energy n A b x -> solves n A b x).
Proof. intros lu n A w HL Sy Hw Pd b x. split; [exact (energy_step_le lu n A w HL Sy Hw b x Pd)|exact (energy_step_eq lu n A w HL Sy Hw b x Pd)]. Qed.
Print Assumptions C55_gs_energy.
(** symmetric positive definite systems: Gauss-Seidel with damping between 0 and 2 converges to the solution from every start *)
Theorem C55_gs_converges : forall lu n A w, lu_contract lu -> msym n A -> 0 < w < 2 -> mpd n A -> forall b s x0, solves n A b s ->
  forall i, (i < n)%nat -> is_lim_seq (fun k => iterate lu GS n A w b k x0 i) (s i).
Proof. intros lu n A w HL Sy Hw PD b s x0 Hs i Hi. exact (gs_converges lu n A w HL Sy Hw PD b s x0 Hs i Hi). Qed.
Print Assumptions C55_gs_converges.
Definition jA : mat := fun i j => if Nat.eqb i j then 3 else 2.
(** without dominance Jacobi may diverge although the matrix is symmetric positive definite: here by the factor 4/3 per iteration *)
Theorem C55_jacobi_refuted : msym 3 jA /\ mpd 3 jA /\ solves 3 jA (fun _ => 0) (fun _ => 0) /\
  forall lu k, same 3 (iterate lu Jacobi 3 jA 1 (fun _ => 0) k (fun _ => 1)) (fun _ => (- (4 / 3)) ^ k).
Proof.
  split; [|split; [|split]].
  - intros i j _ _. unfold jA. rewrite Nat.eqb_sym. reflexivity.
  - intros x (i & Hi & Hx). unfold dot, mv, jA. cbn [rsum Nat.eqb]. set (a := x 0%nat). set (b := x 1%nat). set (c := x 2%nat).
    assert (Q : 0 < a ^ 2 + b ^ 2 + c ^ 2 + 2 * (a + b + c) ^ 2); [|nra]. pose proof (pow2_ge_0 a). pose proof (pow2_ge_0 b). pose proof (pow2_ge_0 c). pose proof (pow2_ge_0 (a + b + c)).
    destruct i as [|[|[|i]]]; [| | |lia]; apply pow2_gt_0 in Hx; [change (x 0%nat) with a in Hx|change (x 1%nat) with b in Hx|change (x 2%nat) with c in Hx]; lra.
  - intros i Hi. apply mv_zero. reflexivity.
  - intros lu k. induction k as [|k IH]; intros i Hi; [reflexivity|]. rewrite iterate_S. cbn [step]. unfold jacobi, residual, mv. cbn [rsum]. rewrite !IH by lia. unfold jA. rewrite Nat.eqb_refl. cbn [pow].
    destruct i as [|[|[|i]]]; [| | |lia]; cbn [Nat.eqb]; field.
Qed.
Print Assumptions C55_jacobi_refuted.
Example C55_nonvacuous : lu_contract lu_w /\ msym 2 wA /\ mpd 2 wA /\ dominant 2 wA (1 / 2) /\ solves 2 wA wb (fun i => if Nat.eqb i 1 then 2 / 3 else - (1 / 3)).
Proof.
  split; [exact lu_w_ok|]. split; [exact wA_sym|]. split; [exact wA_pd|]. split.
  - intros i Hi. unfold wA. rewrite Nat.eqb_refl. split; [lra|]. destruct i as [|[|i]]; [| |lia]; cbn [rsum Nat.eqb]; rewrite Rabs_R1, (Rabs_pos_eq 2) by lra; lra.
  - intros i Hi. unfold mv, wA, wb. destruct i as [|[|i]]; [| |lia]; cbn [rsum Nat.eqb]; lra.
Qed.

(** ** C86 *)
(** the default multigrid solver (no smoother) on a symmetric positive definite system, after any earlier calls: the best approximation the coarsest level allows *)
Theorem C86_default_is_coarsest_approximation : forall direct, direct_contract direct -> forall ops last A, chained ops last -> msym (finest ops last) A -> mpd (finest ops last) A ->
  forall mg_cycles calls b, (exists y, same (finest ops last) (mg_call direct null mg_cycles ops last A calls b) (to_finest ops last y)) /\
  forall z, energy (finest ops last) A b (mg_call direct null mg_cycles ops last A calls b) <= energy (finest ops last) A b (to_finest ops last z).
Proof. exact mg_default. Qed.
Print Assumptions C86_default_is_coarsest_approximation.
(** so it does not depend on earlier calls nor on the number of cycles *)
Theorem C86_default_ignores_history : forall direct, direct_contract direct -> forall ops last A, chained ops last -> msym (finest ops last) A -> mpd (finest ops last) A ->
  forall mg_cycles calls mg_cycles' calls' b, same (finest ops last) (mg_call direct null mg_cycles ops last A calls b) (mg_call direct null mg_cycles' ops last A calls' b).
Proof. exact mg_default_history. Qed.
Print Assumptions C86_default_ignores_history.
(** without transfer operators the answer is the solution *)
Theorem C86_no_levels_exact : forall direct, direct_contract direct -> forall smooth n A, msym n A -> mpd n A -> forall mg_cycles calls b, solves n A b (mg_call direct smooth mg_cycles [] n A calls b).
Proof.
  intros direct HD smooth n A Sy PD mgc calls b. unfold mg_call, mg_solve. cbn [mg_setup]. generalize (mg_history direct smooth mgc [] n A calls). intros st. cbn [cycle]. clear st.
  assert (E : hd (fun _ => 0) (cycles direct smooth mgc [] n A b [direct n A b]) = direct n A b) by (induction mgc as [|k IH]; [reflexivity|cbn [cycles cycle]; exact IH]). rewrite E. apply HD; assumption.
Qed.
Print Assumptions C86_no_levels_exact.
(** two levels, any stationary smoother with any number of sweeps: an exact answer stays exact when the call is repeated *)
Theorem C86_two_levels_keep_solutions : forall direct lu, direct_contract direct -> lu_contract lu -> forall k w sweeps, w <> 0 ->
  forall mg_cycles n P last A calls b, independent n last P -> msym n A -> mpd n A ->
  solves n A b (mg_call direct (stationary lu k w sweeps) mg_cycles [(n, P)] last A calls b) ->
  same n (mg_call direct (stationary lu k w sweeps) mg_cycles [(n, P)] last A (calls ++ [b]) b) (mg_call direct (stationary lu k w sweeps) mg_cycles [(n, P)] last A calls b).
Proof. intros direct lu HD HL k w sw Hw mgc n P last A calls b. exact (two_level_keep direct (stationary lu k w sw) mgc n P last A calls b HD (stationary_fixes lu k w sw HL Hw)). Qed.
Print Assumptions C86_two_levels_keep_solutions.
(** with Gauss-Seidel smoothing the answer does depend on earlier calls: nothing resets the stored vectors, so the solver is not a function of the right-hand side *)
Theorem C86_history_matters_refuted : forall lu direct, lu_contract lu -> direct_contract direct -> forall sweeps,
  0 < mg_call direct (stationary lu GS 1 (S sweeps)) 0 [(2%nat, wP)] 1 wA [wb] (fun _ => 0) 1%nat /\ mg_call direct (stationary lu GS 1 (S sweeps)) 0 [(2%nat, wP)] 1 wA [] (fun _ => 0) 1%nat = 0.
Proof. exact history_matters. Qed.
Print Assumptions C86_history_matters_refuted.
(** every documented name gives a solver, and no other name does *)
Theorem C86_names : forall s, (exists v, get_solver s = Some v) <-> In s valid_solvers.
Proof.
  intros s. split.
  - intros [v H]. unfold get_solver in H.
    repeat match type of H with (if String.eqb s ?t then _ else _) = _ => destruct (String.eqb_spec s t) as [-> |]; [clear; unfold valid_solvers; cbn [In]; tauto|] | (if String.eqb s ?t || String.eqb s ?u then _ else _) = _ => destruct (String.eqb_spec s t) as [-> |]; [clear; unfold valid_solvers; cbn [In]; tauto|]; destruct (String.eqb_spec s u) as [-> |]; [clear; unfold valid_solvers; cbn [In]; tauto|]; cbn [orb] in H end. discriminate.
  - intros H. unfold valid_solvers in H. cbn [In] in H. repeat destruct H as [<- |H]; try contradiction; eexists; reflexivity.
Qed.
Print Assumptions C86_names.
(** default budgets: 100 Krylov iterations, 10 sweeps of a stationary method, also as a smoother (no tolerance stops the latter) *)
Theorem C86_iteration_limits : forall s v, get_solver s = Some v -> (s_class v = CKrylov -> s_limit v = 100%nat) /\ (s_class v = CStationary -> s_limit v = 10%nat) /\
  (s_class (clone v) = s_class v /\ s_limit (clone v) = s_limit v).
Proof.
  intros s v H. unfold get_solver in H.
  repeat match type of H with (if ?b then _ else _) = _ => destruct b end; try discriminate; injection H as <-; cbn; repeat split; try reflexivity; discriminate.
Qed.
Print Assumptions C86_iteration_limits.
(** which preconditioner each Krylov name gets: "krylov-dense" gets none, like "krylov" *)
Theorem C86_preconditioners : forall s v, get_solver s = Some v -> s_class v = CKrylov ->
  (s = "krylov-lu"%string /\ preconditioner v = Some (with_opt CDirect "lu")) \/ (s = "krylov-mg"%string /\ preconditioner v = Some (default CMultigrid)) \/ ((s = "krylov"%string \/ s = "krylov-dense"%string) /\ preconditioner v = None).
Proof.
  intros s v H Hc. assert (In s valid_solvers) as HI by (apply C86_names; exists v; exact H). unfold valid_solvers in HI. cbn [In] in HI.
  repeat destruct HI as [<- |HI]; try contradiction; vm_compute in H; inversion H; subst v; try discriminate Hc; vm_compute; intuition.
Qed.
Print Assumptions C86_preconditioners.
(** the smoother of a multigrid solver is rebuilt with default options: "jacobi" smooths by Gauss-Seidel, and a given solver object loses its options *)
Theorem C86_smoother_options_lost : (forall s, clone s = default (s_class s)) /\ smoother (with_opt CMultigrid "jacobi") = smoother (with_opt CMultigrid "gs") /\
  smoother (with_opt CMultigrid "jacobi") = Some (with_opt CStationary "gs").
Proof. split; [reflexivity|]. split; vm_compute; reflexivity. Qed.
Print Assumptions C86_smoother_options_lost.
Example C86_nonvacuous : direct_contract direct_w /\ lu_contract lu_w /\ chained [(2%nat, wP)] 1 /\ msym 2 wA /\ mpd 2 wA.
Proof. split; [exact direct_w_ok|]. split; [exact lu_w_ok|]. split; [split; [exact wP_ind|exact I]|]. split; [exact wA_sym|exact wA_pd]. Qed.
