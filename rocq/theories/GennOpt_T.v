(** C64, C88, C89: the optimiser of GENN. *)
From Coq Require Import Reals Arith Lia Lra Bool List.
From Verif Require Import GennOpt_M GennOpt_S GennOpt_P GennOpt_P2 GennOpt_P3.
Import ListNotations.
Open Scope list_scope.
Open Scope R_scope.
(** C64: the line search ends, from any state, whenever its factor is below 1; within 6 tries for the default factor and a learning rate up to 4294 *)
Theorem C64_line_search_ends : forall (K : Type) (f : (K -> R) -> R) c kd lr t x g tau st, (forall x, c x = Some (f x)) -> tau < 1 ->
  exists fuel, forall fuel', (fuel <= fuel')%nat -> exists r, backtracking_line_search fuel' kd c lr t x g tau st = Ret r.
Proof.
  intros K f c kd lr t x g tau st T L. destruct (clip_range tau) as ([C1 _] & C2 & _). destruct (rate_small lr (clip tau) ltac:(split; [exact C1|exact (C2 L)])) as [k Hk]. exists (S k). intros fuel' Hf. apply (ends_any f k fuel' kd c lr t x g (clip tau) st T ltac:(lia) Hk).
Qed.
Print Assumptions C64_line_search_ends.
Theorem C64_at_most_six_tries : forall (K : Type) (f : (K -> R) -> R) c kd lr t x g st fuel, (forall x, c x = Some (f x)) -> lr <= 4294 -> (6 <= fuel)%nat -> exists r, backtracking_line_search fuel kd c lr t x g (1 / 2) st = Ret r.
Proof.
  intros K f c kd lr t x g st fuel T L F. unfold backtracking_line_search. destruct (clip_range (1 / 2)) as (_ & _ & _ & C). unfold clip in C. rewrite C by lra. apply (ends_any f 5 fuel); [exact T|lia|apply default_tries; exact L].
Qed.
Print Assumptions C64_at_most_six_tries.
(** with factor 1 or more, gradient descent that does not decrease the cost never ends *)
Theorem C64_factor_one_refuted : forall (K : Type) (f : (K -> R) -> R) c lr t x g tau st, (forall x, c x = Some (f x)) -> 1 <= tau -> / 10 ^ 6 <= lr -> f x <= f (gd_point x g lr) ->
  forall fuel, backtracking_line_search fuel GD c lr t x g tau st = Loop.
Proof. intros K f. exact (tau_one f). Qed.
Print Assumptions C64_factor_one_refuted.
(** the accepted step decreased the cost or had an effective rate below 1e-6; its factor is the first one squared some number of times *)
Theorem C64_accepted : forall (K : Type) (f : (K -> R) -> R) c fuel kd lr t x g tau st x' st' tau', (forall x, c x = Some (f x)) -> backtracking_line_search fuel kd c lr t x g tau st = Ret (x', st', tau') ->
  (f x' < f x \/ lr * tau' < / 10 ^ 6) /\ exists k, (k < fuel)%nat /\ tau' = Rmax 0 (Rmin 1 tau) ^ (2 ^ k).
Proof. intros K f c fuel kd lr t x g tau st x' st' tau' T E. exact (accepted_any f fuel kd c lr t x g _ st x' st' tau' T E). Qed.
Print Assumptions C64_accepted.
(** the whole optimisation ends, and follows the specified sequence of points: every step is the first good one of its line search *)
Theorem C64_optimize_ends : forall (K : Type) (f : (K -> R) -> R) g c gr kd lr, (forall x, c x = Some (f x)) -> (forall x, gr x = Some (g x)) ->
  exists fuel, forall fuel' max_iter x0 b1 b2, (fuel <= fuel')%nat -> exists r, optimize fuel' kd c gr lr max_iter x0 (new_optimizer b1 b2) = Ret r.
Proof. intros K f g c gr kd lr. exact (optimize_ends f g kd c gr lr). Qed.
Print Assumptions C64_optimize_ends.
Theorem C64_optimize : forall (K : Type) (f : (K -> R) -> R) g c gr fuel kd lr max_iter x0 b1 b2 x st h, (forall x, c x = Some (f x)) -> (forall x, gr x = Some (g x)) ->
  optimize fuel kd c gr lr max_iter x0 (new_optimizer b1 b2) = Ret (x, st, h) ->
  exists n xs ds, run f g kd lr x0 n (x :: xs) ds /\ h = map f (rev (x :: xs)).
Proof. intros K f g c gr fuel kd lr max_iter x0 b1 b2 x st h T TG E. destruct (optimize_sound f g fuel kd c gr lr max_iter x0 b1 b2 x st h T TG E) as (n & xs & ds & A & B & _). exists n, xs, ds. split; assumption. Qed.
Print Assumptions C64_optimize.
(** the design returned is the last, not the best: it can be worse than the start, even for a convex parabola with its exact gradient *)
Theorem C64_worse_than_start_refuted : exists fuel x st h, optimize fuel GD (fun x => Some (steep x)) (fun x => Some (steep' x)) 1 1 (fun _ => 1) (new_optimizer (9 / 10) (99 / 100)) = Ret (x, st, h) /\ steep (fun _ => 1) < steep x.
Proof. exact steep_increases. Qed.
Print Assumptions C64_worse_than_start_refuted.
(** C88: beta1 and beta2 have no effect *)
Theorem C88_betas_ignored : forall (K : Type) fuel kd c gr lr max_iter (x0 : K -> R) b1 b2 b1' b2' x st h, optimize fuel kd c gr lr max_iter x0 (new_optimizer b1 b2) = Ret (x, st, h) ->
  exists st', optimize fuel kd c gr lr max_iter x0 (new_optimizer b1' b2') = Ret (x, st', h).
Proof.
  intros K fuel kd c gr lr max_iter x0 b1 b2 b1' b2' x st h E. pose proof (optimize_same fuel kd c gr lr max_iter x0 b1 b2 b1' b2') as S. rewrite E in S. destruct (optimize fuel kd c gr lr max_iter x0 (new_optimizer b1' b2')) as [[[y s'] h']| |]; cbn [same_res] in S; try contradiction. destruct S as (<- & _ & <-). exists s'. reflexivity.
Qed.
Print Assumptions C88_betas_ignored.
Theorem C88_betas_ignored_failures : forall (K : Type) fuel kd c gr lr max_iter (x0 : K -> R) b1 b2 b1' b2', (optimize fuel kd c gr lr max_iter x0 (new_optimizer b1 b2) = Raise <-> optimize fuel kd c gr lr max_iter x0 (new_optimizer b1' b2') = Raise).
Proof.
  intros K fuel kd c gr lr max_iter x0 b1 b2 b1' b2'. pose proof (optimize_same fuel kd c gr lr max_iter x0 b1 b2 b1' b2') as S. destruct (optimize fuel kd c gr lr max_iter x0 (new_optimizer b1 b2)) as [[[y s] h]| |]; destruct (optimize fuel kd c gr lr max_iter x0 (new_optimizer b1' b2')) as [[[y' s'] h']| |]; cbn [same_res] in S; try contradiction; split; intros X; try discriminate; reflexivity.
Qed.
Print Assumptions C88_betas_ignored_failures.
(** C89: exactly max_iter iterations, unless the cost has stalled for the last 101 iterations; never fewer than 103 for that reason *)
Theorem C89_stops_exactly : forall (K : Type) (f : (K -> R) -> R) g c gr fuel kd lr max_iter x0 b1 b2 x st h, (forall x, c x = Some (f x)) -> (forall x, gr x = Some (g x)) ->
  optimize fuel kd c gr lr max_iter x0 (new_optimizer b1 b2) = Ret (x, st, h) ->
  exists n, length h = S n /\ (n <= max_iter)%nat /\ (n = max_iter \/ stalled (fun j => nth j h 0) n) /\ forall j, (j < n)%nat -> ~ stalled (fun j => nth j h 0) j.
Proof.
  intros K f g c gr fuel kd lr max_iter x0 b1 b2 x st h T TG E. destruct (optimize_sound f g fuel kd c gr lr max_iter x0 b1 b2 x st h T TG E) as (n & xs & ds & A & B & C). exists n. split; [|exact C]. rewrite B, map_length, rev_length. apply (run_length f g _ _ _ _ _ _ A).
Qed.
Print Assumptions C89_stops_exactly.
Theorem C89_default_never_stops_early : forall (K : Type) (f : (K -> R) -> R) g c gr fuel kd lr max_iter x0 b1 b2 x st h, (forall x, c x = Some (f x)) -> (forall x, gr x = Some (g x)) -> (max_iter <= 103)%nat ->
  optimize fuel kd c gr lr max_iter x0 (new_optimizer b1 b2) = Ret (x, st, h) -> length h = S max_iter.
Proof.
  intros K f g c gr fuel kd lr max_iter x0 b1 b2 x st h T TG M E. destruct (C89_stops_exactly K f g c gr fuel kd lr max_iter x0 b1 b2 x st h T TG E) as (n & A & B & [C|[C _]] & _); rewrite A; f_equal; lia.
Qed.
Print Assumptions C89_default_never_stops_early.
(** a run: one step of gradient descent on the square from 1 with rate 1/2 is accepted at the first try and reaches 1/2 *)
Example C64_nonvacuous : exists st, optimize 3 GD (fun x : unit -> R => Some (x tt * x tt)) (fun x => Some (fun _ => 2 * x tt)) (1 / 2) 1 (fun _ => 1) (new_optimizer 0 0) = Ret (fun k => 1 - 1 / 2 * (1 / 2) * (2 * 1), st, [1 * 1; (1 - 1 / 2 * (1 / 2) * (2 * 1)) * (1 - 1 / 2 * (1 / 2) * (2 * 1))]).
Proof.
  unfold optimize, optimize_loop, backtracking_line_search. cbn [rlift rbind search_loop update]. replace (Rmax 0 (Rmin 1 (1 / 2))) with (1 / 2) by (unfold Rmax, Rmin; destruct (Rle_dec 1 (1 / 2)); destruct (Rle_dec 0 _); lra).
  destruct (Rlt_dec _ _) as [L|L]; [|exfalso; apply L; lra]. cbn [rlift rbind Nat.ltb Nat.leb rev app]. eexists. reflexivity.
Qed.
Print Assumptions C64_nonvacuous.
(** a cost that has stalled: a constant one *)
Example C89_nonvacuous : stalled (fun _ : nat => 1) 103.
Proof. split; [lia|]. left. intros j _ _. unfold small_absolute. rewrite Rminus_diag_eq, Rabs_R0 by reflexivity. lra. Qed.
Example C88_nonvacuous : exists x st h, optimize 10 Adam (fun x : unit -> R => Some (x tt)) (fun x => Some (fun _ => 1)) (1 / 2) 1 (fun _ => 1) (new_optimizer 0 0) = Ret (x, st, h) /\ length h = 2%nat.
Proof.
  destruct (ends_any (fun x : unit -> R => x tt) 5 10 Adam (fun x => Some (x tt)) (1 / 2) 1 (fun _ => 1) (fun _ => 1) (1 / 2) (new_optimizer 0 0) (fun _ => eq_refl) ltac:(lia) ltac:(apply default_tries; lra)) as [[[y s] tau] E].
  unfold optimize, optimize_loop, backtracking_line_search. replace (Rmax 0 (Rmin 1 (1 / 2))) with (1 / 2) by (unfold Rmax, Rmin; destruct (Rle_dec 1 (1 / 2)); destruct (Rle_dec 0 _); lra). cbn [rlift rbind]. cbn [Nat.add]. rewrite E. cbn [rbind rlift Nat.ltb Nat.leb rev app]. do 3 eexists. split; reflexivity.
Qed.
Print Assumptions C88_nonvacuous.
