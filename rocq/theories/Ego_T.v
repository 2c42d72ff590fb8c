(** Theorems C41-C44: efficient global optimisation. *)
From Coq Require Import Reals QArith Arith List Lia.
From Coquelicot Require Import Coquelicot.
From Verif Require Import MixInt_M Ego_M Ego_P EgoEI_M EgoEI_S EgoEI_P.
Import ListNotations.
Open Scope list_scope.
Open Scope nat_scope.

(** C41, continuous problem: whatever the surrogate and the internal optimiser do (including failures), the
    stored outputs are the objective at the stored inputs, the initial design is kept, and the returned
    optimum is a stored point with the smallest stored output. *)
Theorem C41_data_consistent : forall (Pt : Type) (f : Pt -> Q) n_max runs virtual n_iter np xdoe ydoe,
  (ydoe = None \/ ydoe = Some (map f xdoe)) -> xdoe <> [] ->
  exists r, optimize f None n_max runs virtual n_iter np xdoe ydoe = Some r /\
  y_data r = map f (x_data r) /\ firstn (length xdoe) (x_data r) = xdoe /\
  length xdoe <= length (x_data r) <= length xdoe + n_iter * np /\
  nth_error (x_data r) (ind_best r) = Some (x_opt r) /\ y_opt r = f (x_opt r) /\ (forall x, In x (x_data r) -> (f (x_opt r) <= f x)%Q).
Proof.
  intros Pt f n_max runs virtual n_iter np xdoe ydoe Hy NE.
  assert (Ly : match ydoe with Some ys => length ys = length xdoe | None => True end) by (destruct Hy as [-> | ->]; [exact I|apply map_length]).
  destruct (optimize_total f None n_max runs virtual n_iter np xdoe ydoe NE Ly) as [r E]. exists r. split; [exact E|].
  destruct (optimize_spec f None n_max runs virtual n_iter np xdoe ydoe r Ly E) as (L & Fx & B & G & (x & Ix & Ox) & Iy & M & _). cbn [to_fun] in *.
  assert (Y : y_data r = map f (x_data r)).
  { apply zip_map; [exact L|]. intros i a b Ha Hb. destruct (G i a b Ha Hb) as [H|H]; [exact H|].
    assert (H' : nth_error (map f xdoe) i = Some b) by (destruct Hy as [-> | ->]; exact H). rewrite nth_error_map in H'.
    assert (Li : i < length xdoe) by (apply nth_error_Some; destruct (nth_error xdoe i); discriminate).
    rewrite <- Fx in H'. rewrite <- (firstn_skipn (length xdoe) (x_data r)), nth_error_app1 in Ha by (rewrite Fx; exact Li). rewrite Ha in H'. injection H' as <-. reflexivity. }
  split; [exact Y|]. split; [exact Fx|]. split; [exact B|]. rewrite Ox in *. split; [exact Ix|].
  assert (YO : y_opt r = f x) by (rewrite Y, nth_error_map, Ix in Iy; injection Iy as <-; reflexivity). split; [exact YO|].
  intros z Hz. apply In_nth_error in Hz. destruct Hz as [j Hj]. rewrite <- YO. apply (M j). rewrite Y, nth_error_map, Hj. reflexivity.
Qed.
Print Assumptions C41_data_consistent.
(** with other given outputs, or mixed-integer inputs: every added point is evaluated on its folded version,
    and an initial output is either kept or replaced by such an evaluation *)
Theorem C41_added_points_evaluated : forall (Pt : Type) (f : Pt -> Q) fold n_max runs virtual n_iter np xdoe ydoe r,
  match ydoe with Some ys => length ys = length xdoe | None => True end ->
  optimize f fold n_max runs virtual n_iter np xdoe ydoe = Some r ->
  length (y_data r) = length (x_data r) /\ firstn (length xdoe) (x_data r) = xdoe /\
  (forall i x y, nth_error (x_data r) i = Some x -> nth_error (y_data r) i = Some y -> 
     y = f (to_fun fold x) \/ (i < length xdoe /\ nth_error (match ydoe with Some ys => ys | None => map f xdoe end) i = Some y)) /\
  nth_error (y_data r) (ind_best r) = Some (y_opt r) /\ (forall j y, nth_error (y_data r) j = Some y -> (y_opt r <= y)%Q).
Proof.
  intros Pt f fold n_max runs virtual n_iter np xdoe ydoe r Ly E.
  destruct (optimize_spec f fold n_max runs virtual n_iter np xdoe ydoe r Ly E) as (L & Fx & B & G & _ & Iy & M & _).
  split; [exact L|]. split; [exact Fx|]. split; [|split; [exact Iy|exact M]]. intros i x y Hx Hy. destruct (G i x y Hx Hy) as [H|H]; [left; exact H|right]. split; [|exact H].
  assert (H2 := H). apply (f_equal (fun o => match o with Some _ => true | None => false end)) in H2.
  assert (LL : length (match ydoe with Some ys => ys | None => map f xdoe end) = length xdoe) by (destruct ydoe; [exact Ly|apply map_length]).
  rewrite <- LL. apply nth_error_Some. congruence.
Qed.
Print Assumptions C41_added_points_evaluated.
(** when no internal optimisation fails, exactly n_iter * n_parallel points are added *)
Theorem C41_number_of_points : forall (Pt : Type) (f : Pt -> Q) fold n_max runs virtual n_iter np xdoe ydoe r,
  (forall k p xs ys, find_best_point n_max (runs k p xs ys) <> None) -> match ydoe with Some ys => length ys = length xdoe | None => True end ->
  optimize f fold n_max runs virtual n_iter np xdoe ydoe = Some r -> length (x_data r) = length xdoe + n_iter * np.
Proof. exact @optimize_full. Qed.
Print Assumptions C41_number_of_points.
Definition ex_f (x : Q) : Q := ((x - 2) * (x - 2))%Q.
Definition ex_runs (k p : nat) (xs : list Q) (ys : list Q) (n : nat) : list (option (Q * Q)) :=
  match k, p, n with
  | O, O, _ => [None; Some ((inject_Z (Z.of_nat n) + 1)%Q, 0%Q)]
  | O, _, _ => [None]
  | _, _, 2 => [Some (5, 3); Some (2, 1)]%Q
  | _, _, _ => []
  end.
Example C41_nonvacuous : exists r, optimize ex_f None 20 ex_runs (fun _ _ _ _ _ => 0%Q) 2 2 [0; 3]%Q None = Some r /\ x_data r = [0; 3; inject_Z 1 + 1; 2; 2]%Q /\ Qeq (y_opt r) 0%Q /\ ind_best r = 2.
Proof. eexists. split; [vm_compute; reflexivity|]. split; [reflexivity|]. split; reflexivity. Qed.

(** C42: what the retry loop of the acquisition search returns.  A success at attempt n is reported exactly when
    n < n_max_optim (not n <= n_max_optim), and then it is the first best run of the first successful attempt. *)
Theorem C42_result_iff : forall (Pt : Type) n_max (runs : nat -> list (option (Pt * Q))) x,
  find_best_point n_max runs = Some x <->
  exists n, 1 <= n < n_max /\ (forall i a, 1 <= i < n -> ~ In (Some a) (runs i)) /\
    exists k v, nth_error (successes (runs n)) k = Some (x, v) /\
      (forall j x' v', nth_error (successes (runs n)) j = Some (x', v') -> (v <= v')%Q /\ (j < k -> ~ (v' <= v)%Q)).
Proof.
  intros Pt n_max runs x. rewrite find_spec. split; intros (n & N & D & K); exists n; (split; [exact N|]); (split; [|exact K]).
  - intros i a Hi Ha. apply in_successes in Ha. rewrite (D i Hi) in Ha. exact Ha.
  - intros i Hi. destruct (successes (runs i)) as [|a l] eqn:E; [reflexivity|]. elim (D i a Hi). apply in_successes. rewrite E. left. reflexivity.
Qed.
Print Assumptions C42_result_iff.
Theorem C42_reports_failure_iff : forall (Pt : Type) n_max (runs : nat -> list (option (Pt * Q))),
  find_best_point n_max runs = None <-> forall n a, 1 <= n < n_max -> ~ In (Some a) (runs n).
Proof.
  intros Pt n_max runs. split.
  - intros H n a. revert a. induction n as [n IH] using (well_founded_induction Wf_nat.lt_wf). intros a N Ha.
    assert (E : find_best_point n_max runs <> None); [|congruence].
    assert (NE : successes (runs n) <> []) by (intros Z; apply in_successes in Ha; rewrite Z in Ha; exact Ha).
    destruct (argmin_some (map snd (successes (runs n)))) as [k K]; [destruct (successes (runs n)); [congruence|discriminate]|].
    destruct (argmin_spec _ _ K) as (v & V & M & F). rewrite nth_error_map in V. destruct (nth_error (successes (runs n)) k) as [[x v']|] eqn:X; [|discriminate]. injection V as <-.
    assert (S : find_best_point n_max runs = Some x); [|rewrite S; discriminate]. apply find_spec. exists n. split; [exact N|]. split.
    + intros i Hi. destruct (successes (runs i)) as [|b l] eqn:E; [reflexivity|]. exfalso. apply (IH i (proj2 Hi) b); [lia|]. apply in_successes. rewrite E. left. reflexivity.
    + exists k, v'. split; [exact X|]. intros j x' w J. split; [apply (M j)|intros Hj; apply (F j w Hj)]; rewrite nth_error_map, J; reflexivity.
  - intros H. destruct (find_best_point n_max runs) as [x|] eqn:E; [|reflexivity]. apply find_spec in E. destruct E as (n & N & _ & k & v & K & _). elim (H n (x, v) N). apply in_successes. exact (nth_error_In _ _ K).
Qed.
Print Assumptions C42_reports_failure_iff.
(** the success of the last allowed attempt is reported as a failure *)
Theorem C42_last_attempt_refuted : forall (Pt : Type) n_max (x : Pt) (v : Q), 1 <= n_max ->
  find_best_point n_max (fun n => if Nat.eqb n n_max then [Some (x, v)] else []) = None.
Proof. intros Pt n_max x v H. apply C42_reports_failure_iff. intros n a N. destruct (Nat.eqb_spec n n_max); [lia|intros []]. Qed.
Print Assumptions C42_last_attempt_refuted.
Example C42_nonvacuous : find_best_point 3 (fun n => if Nat.eqb n 2 then [None; Some (7, 4); Some (8, 1); Some (9, 1)]%Q else [None]) = Some 8%Q.
Proof. reflexivity. Qed.

(** C43: expected improvement, for any distribution function with the normal density *)
Theorem C43_nonneg : forall cdf, is_cdf cdf -> forall f_min pred var, (0 <= var -> 0 <= EI cdf f_min pred var)%R.
Proof. exact EI_nonneg. Qed.
Print Assumptions C43_nonneg.
Theorem C43_no_uncertainty : forall cdf f_min pred, EI cdf f_min pred 0 = 0%R.
Proof. exact EI_novar. Qed.
Print Assumptions C43_no_uncertainty.
Theorem C43_monotone : forall cdf, is_cdf cdf -> forall f f' pred pred' var var', (0 <= var -> f <= f' -> pred' <= pred -> var <= var' -> EI cdf f pred var <= EI cdf f' pred' var')%R.
Proof. intros cdf C f f' p p' v v' H1 H2 H3 H4. eapply Rle_trans; [apply (EI_mono cdf C f f' p v H1 H2)|]. eapply Rle_trans; [apply (EI_pred cdf C f' p' p v H1 H3)|]. apply (EI_var cdf C); assumption. Qed.
Print Assumptions C43_monotone.
(** it is the expected improvement: as a function of the current best value it vanishes at -infinity and its
    derivative is the probability that the (normal) outcome is below that value *)
Theorem C43_expected_improvement : forall cdf, is_cdf cdf -> forall pred var, (0 < var)%R ->
  is_lim (fun f => EI cdf f pred var) m_infty 0%R /\ forall f, is_derive (fun f => EI cdf f pred var) f (cdf ((f - pred) / sqrt var)%R).
Proof. intros cdf C pred var H. split; [apply EI_lim; assumption|]. intros f. apply EI_derive; assumption. Qed.
Print Assumptions C43_expected_improvement.
Theorem C43_tunneling_bounds : forall cdf, is_cdf cdf -> forall f_min pred var others, (0 <= var -> 0 <= EI_tunneling cdf f_min pred var others <= EI cdf f_min pred var)%R.
Proof. exact tunneling. Qed.
Print Assumptions C43_tunneling_bounds.
(** the tunneling penalty in closed form: whatever the order of the evaluated points, each of lower expected improvement costs the
    difference over the fourth power of its distance, and the result is cut at zero *)
Theorem C43_tunneling_penalty : forall cdf, is_cdf cdf -> forall f_min pred var others, (0 <= var)%R ->
  EI_tunneling cdf f_min pred var others = Rmax (EI cdf f_min pred var - fold_right Rplus 0 (map (fun '(EIx, dist) => Rmax ((EI cdf f_min pred var - EIx) / dist ^ 4) 0) others))%R 0%R.
Proof. exact tunneling_sum. Qed.
Print Assumptions C43_tunneling_penalty.
(** the lower confidence bound lies three standard deviations below the prediction: the (normal) outcome falls
    below it with the probability that a standard normal variable is below -3 *)
Theorem C43_lower_confidence_bound : forall (cdf : R -> R) (pred var : R), (0 <= var)%R ->
  (UCB pred var <= pred)%R /\ (UCB pred var = pred <-> var = 0%R) /\
  ((0 < var)%R -> cdf ((UCB pred var - pred) / sqrt var)%R = cdf (-3)%R).
Proof. exact UCB_spec. Qed.
Print Assumptions C43_lower_confidence_bound.
Example C43_nonvacuous : exists cdf, is_cdf cdf. Proof. exact cdf_exists. Qed.

(** C44: mixed-integer optimisation.  [fold_of ts] is fold_with_enum_index on one row (an unusable row is left
    as it is; in the program it raises) *)
Definition fold_of (ts : list xtype) (x : list Q) : list Q := match fold_row ts x with Ok r => r | _ => x end.
(** rows passed to the objective: first the initial design as stored (unfolded), unless outputs are given; then
    folded stored points.  The returned optimum is the folded stored point. *)
Theorem C44_rows_passed : forall ts (f : list Q -> Q) n_max runs virtual n_iter np xdoe ydoe r,
  match ydoe with Some ys => length ys = length xdoe | None => True end ->
  optimize f (Some (fold_of ts)) n_max runs virtual n_iter np xdoe ydoe = Some r ->
  (exists c1, calls r = match ydoe with Some _ => [] | None => xdoe end ++ c1 /\ forall x, In x c1 -> exists u, In u (x_data r) /\ x = fold_of ts u) /\
  exists u, In u (x_data r) /\ x_opt r = fold_of ts u.
Proof.
  intros ts f n_max runs virtual n_iter np xdoe ydoe r Ly E. destruct (optimize_spec f (Some (fold_of ts)) n_max runs virtual n_iter np xdoe ydoe r Ly E) as (_ & _ & _ & _ & (x & Ix & Ox) & _ & _ & C).
  split; [exact C|]. exists x. split; [exact (nth_error_In _ _ Ix)|exact Ox].
Qed.
Print Assumptions C44_rows_passed.
(** folding does not round: without categorical variables the row is passed as stored *)
Theorem C44_integers_not_rounded : forall ts x, List.Forall (fun t => t = FLOAT \/ t = INT) ts -> length x = length ts -> fold_of ts x = x.
Proof.
  intros ts x H L. unfold fold_of. assert (E : fold_row ts x = Ok x); [|rewrite E; reflexivity]. revert x L. induction H as [|t ts [-> | ->] _ IH]; intros [|a x] L; try discriminate; try reflexivity; cbn; rewrite IH by (cbn in L; lia); reflexivity.
Qed.
Print Assumptions C44_integers_not_rounded.
(** so the objective is called on the enum masks of the initial design, and on non-integral integer variables,
    and a non-integral optimum is returned *)
Theorem C44_mixed_integer_refuted :
  (exists f runs virtual r, optimize f (Some (fold_of [ENUM 2])) 20 runs virtual 0 1 [[1%Q; 0%Q]] None = Some r /\ calls r = [[1%Q; 0%Q]]) /\
  (exists f runs virtual r, optimize f (Some (fold_of [INT])) 20 runs virtual 1 1 [[1%Q]] None = Some r /\ calls r = [[1%Q]; [(3 # 2)%Q]] /\ x_opt r = [(3 # 2)%Q]).
Proof.
  split.
  - exists (fun _ => 0%Q), (fun _ _ _ _ _ => []), (fun _ _ _ _ _ => 0%Q). eexists. split; [vm_compute; reflexivity|]. reflexivity.
  - exists (fun x => match x with a :: _ => (- a)%Q | [] => 0%Q end), (fun _ _ _ _ _ => [Some ([(3 # 2)%Q], 0%Q)]), (fun _ _ _ _ _ => 0%Q). eexists. split; [vm_compute; reflexivity|]. split; reflexivity.
Qed.
Print Assumptions C44_mixed_integer_refuted.
