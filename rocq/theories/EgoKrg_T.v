(** Property C113: EGO with Kriging - where the acquisition vanishes, no point is stored twice, virtual
    outputs, evaluation budget. *)
From Coq Require Import Reals QArith Qreals Arith Bool List Lia Lra.
From Coquelicot Require Import Coquelicot.
From Verif Require Import RSum Mat Kernels_M Krg_M Krg_S Krg_Qr EgoEI_M EgoEI_S Gauss_P EgoKrg_M EgoKrg_P2 EgoKrg_P3 Ego_M.
Import ListNotations.
Open Scope list_scope.
Open Scope R_scope.

(** Expected improvement is zero exactly where the predicted variance is ... *)
Theorem C113_ei_zero_iff : forall (cdf : R -> R) f_min pred var, is_cdf cdf -> 0 <= var -> (EI cdf f_min pred var = 0 <-> var = 0).
Proof. exact EI_zero_iff. Qed.
Print Assumptions C113_ei_zero_iff.
(** ... and otherwise strictly more than the improvement of the mean, by at most sqrt (var / (2 pi)) *)
Theorem C113_ei_bounds : forall (cdf : R -> R) f_min pred var, is_cdf cdf -> 0 < var ->
  Rmax (f_min - pred) 0 < EI cdf f_min pred var <= Rmax (f_min - pred) 0 + sqrt (var / (2 * PI)).
Proof. exact EI_bounds. Qed.
Print Assumptions C113_ei_bounds.
(** the distribution function used in EI exists, is unique and symmetric, and tends to 1 (the Gaussian integral) *)
Theorem C113_normal_distribution : (exists cdf, is_cdf cdf) /\ (forall c c', is_cdf c -> is_cdf c' -> forall z, c z = c' z) /\
  forall cdf, is_cdf cdf -> is_lim cdf p_infty 1 /\ forall z, cdf (- z) = 1 - cdf z /\ 0 < cdf z < 1.
Proof.
  split; [exists Phi; exact Phi_cdf|]. split; [exact cdf_unique|]. intros c H. split; [exact (cdf_lim_p c H)|]. intros z. split; [exact (cdf_sym c H z)|exact (cdf_pos c H z)].
Qed.
Print Assumptions C113_normal_distribution.
(** Kriging with any trend: the variance is zero exactly at the inputs given exactly, or everywhere if the
    estimated process variance is zero, ... *)
Theorem C113_variance_zero_iff : forall qr rcond condF, qr_contract qr -> rcond_contract rcond -> forall nx nt po nugget noise X y m,
  (forall i, (i < nt)%nat -> 0 <= nugget + noise i) -> forall c theta x,
  krg_train qr rcond condF nx nt po (KStd c theta) nugget noise X y = Some m -> c <> ActExp -> (forall j, (j < nx)%nat -> 0 < theta j) -> (0 < nx)%nat ->
  (predict_variance m x = 0 <-> p_sigma2 (m_par m) = 0 \/ exists i, (i < nt)%nat /\ (forall k, (k < nx)%nat -> x k = X i k) /\ nugget + noise i = 0).
Proof. exact zero_iff. Qed.
Print Assumptions C113_variance_zero_iff.
(** ... that is, if the outputs are exactly a function of the trend; *)
Theorem C113_process_variance_zero_iff : forall qr rcond condF nx nt po s nugget noise X y m, qr_contract qr -> rcond_contract rcond ->
  krg_train qr rcond condF nx nt po s nugget noise X y = Some m ->
  (p_sigma2 (m_par m) = 0 <-> exists b : vec, forall i, (i < nt)%nat -> y i = rsum (n_regr po nx) (fun j => b j * q_trend nx nt po X (X i) j)).
Proof. exact sigma2_zero_iff. Qed.
Print Assumptions C113_process_variance_zero_iff.
(** with a constant trend the variance at a training input is at most the process variance times nugget plus noise. *)
Theorem C113_variance_at_data : forall qr rcond condF, qr_contract qr -> rcond_contract rcond -> forall nx nt po nugget noise X y m,
  (forall i, (i < nt)%nat -> 0 <= nugget + noise i) -> forall s i, po = PConstant -> krg_train qr rcond condF nx nt po s nugget noise X y = Some m -> k_ok s nx -> (i < nt)%nat ->
  0 <= predict_variance m (X i) <= p_sigma2 (m_par m) * (nugget + noise i).
Proof. exact at_data_bound. Qed.
Print Assumptions C113_variance_at_data.
(** Without nugget and noise, as long as each proposed point has positive expected improvement under the model trained on the points
    stored so far (virtual ones included), no point is stored twice.  The kernel may be chosen anew for every data set. *)
Theorem C113_no_repeats : forall qr rcond condF cdf nx po (s : list (list R) -> list Q -> kspec) (f : list R -> Q) n_max runs virtual n_iter np xdoe ydoe r,
  qr_contract qr -> rcond_contract rcond ->
  (forall k p xs ys x, find_best_point n_max (runs k p xs ys) = Some x -> length ys = length xs ->
    exists m f_min, krg_train qr rcond condF nx (length xs) po (s xs ys) 0 (fun _ => 0) (fun i j => nth j (nth i xs []) 0) (fun i => Q2R (nth i ys 0%Q)) = Some m /\ k_ok (s xs ys) nx /\
      0 < EI cdf f_min (predict_value m (fun j => nth j x 0)) (predict_variance m (fun j => nth j x 0))) ->
  NoDup xdoe -> match ydoe with Some ys => length ys = length xdoe | None => True end ->
  optimize f None n_max runs virtual n_iter np xdoe ydoe = Some r -> NoDup (x_data r).
Proof. exact no_repeats. Qed.
Print Assumptions C113_no_repeats.
(** Virtual outputs: the three believer strategies are ordered, equal only without uncertainty; CLmin leaves the best value
    as it is, the others can only lower it. *)
Theorem C113_virtual_points : forall z pred var y0 ys, 0 <= var ->
  let v q := virtual_point q z pred var y0 ys in
  v KBLB <= v KB <= v KBUB /\ (v KBLB = v KBUB <-> var = 0) /\
  (forall q, np_min y0 (ys ++ [v q]) = Rmin (np_min y0 ys) (v q)) /\ np_min y0 (ys ++ [v CLmin]) = np_min y0 ys /\
  (np_min y0 ys <= y0 /\ (forall w, In w ys -> np_min y0 ys <= w) /\ In (np_min y0 ys) (y0 :: ys)).
Proof.
  intros z pred var y0 ys H v. split; [exact (virtual_order z pred var y0 ys H)|]. split.
  - unfold v. cbn [virtual_point]. split; [intros E; apply sqrt_eq_0; [exact H|lra]|intros ->; rewrite sqrt_0; ring].
  - split; [intros q; apply np_min_app|]. split; [rewrite np_min_app; unfold v; cbn [virtual_point]; apply Rmin_left; lra|apply np_min_le].
Qed.
Print Assumptions C113_virtual_points.
(** The criterion minimised: not positive for EI, zero only without uncertainty; UCB at most SBO *)
Theorem C113_criteria : forall (cdf : R -> R) f_min pred var, is_cdf cdf -> 0 <= var ->
  obj_k cdf CEI f_min pred var <= 0 /\ (obj_k cdf CEI f_min pred var = 0 <-> var = 0) /\ obj_k cdf CUCB f_min pred var <= obj_k cdf CSBO f_min pred var.
Proof.
  intros cdf f p v H Hv. cbn [obj_k]. pose proof (EgoEI_P.EI_nonneg cdf H f p v Hv). pose proof (EI_zero_iff cdf f p v H Hv) as [A B]. split; [lra|]. split; [split; intros E; [apply A; lra|rewrite (B E); ring]|].
  unfold UCB. pose proof (sqrt_pos v). lra.
Qed.
Print Assumptions C113_criteria.
(** Evaluation budget: whichever internal optimisations fail, the objective gets n_iter * n_parallel rows beyond the initial design; *)
Theorem C113_budget : forall (Pt : Type) (f : Pt -> Q) fold n_max runs virtual np n_iter xdoe ydoe r, (0 < np <= length xdoe)%nat ->
  optimize f fold n_max runs virtual n_iter np xdoe ydoe = Some r ->
  length (calls r) = (match ydoe with None => length xdoe | Some _ => 0 end + n_iter * np)%nat.
Proof. exact @budget. Qed.
Print Assumptions C113_budget.
(** if they all fail, nothing is added and the last n_parallel design points are evaluated again in every iteration. *)
Theorem C113_failures_reevaluate : forall (Pt : Type) (f : Pt -> Q) fold n_max runs virtual np n_iter xdoe ydoe r, (0 < np <= length xdoe)%nat ->
  (forall k p xs ys, find_best_point n_max (runs k p xs ys) = None) -> optimize f fold n_max runs virtual n_iter np xdoe ydoe = Some r ->
  x_data r = xdoe /\ calls r = match ydoe with None => xdoe | Some _ => [] end ++ concat (repeat (map (to_fun fold) (skipn (length xdoe - np) xdoe)) n_iter).
Proof.
  intros Pt f fold n_max runs virtual np n_iter xdoe ydoe r Hp H E. pose proof (all_fail f fold n_max runs virtual np n_iter xdoe ydoe r Hp H E) as Q. unfold tail in Q. destruct (Nat.eqb_spec np 0) as [->|_]; [lia|exact Q].
Qed.
Print Assumptions C113_failures_reevaluate.

(** the hypotheses are met: design 0, 1 with outputs 0, 1; the proposal 1/2 has positive expected improvement *)
Example C113_nonvacuous : find_best_point 20 (ex_runs 0 0 ex_doe ex_ys) = Some [1 / 2] /\ NoDup ex_doe /\
  forall cdf, is_cdf cdf -> forall k p xs ys x, find_best_point 20 (ex_runs k p xs ys) = Some x -> length ys = length xs ->
  exists m f_min, krg_train gs_qr rcond01 cond0 1 (length xs) PConstant (KStd SquarExp (fun _ => 1)) 0 (fun _ => 0) (fun i j => nth j (nth i xs []) 0) (fun i => Q2R (nth i ys 0%Q)) = Some m /\
    k_ok (KStd SquarExp (fun _ => 1)) 1 /\ 0 < EI cdf f_min (predict_value m (fun j => nth j x 0)) (predict_variance m (fun j => nth j x 0)).
Proof.
  split; [|split; [|exact ex_step]].
  - unfold ex_runs. destruct (list_eq_dec _ ex_doe ex_doe) as [_|N]; [|congruence]. destruct (list_eq_dec _ ex_ys ex_ys) as [_|N]; [|congruence]. reflexivity.
  - unfold ex_doe. constructor; [cbn; intros [E|[]]; injection E; lra|]. constructor; [cbn; tauto|constructor].
Qed.
