From Coq Require Import Reals ZArith Arith Bool List String Lia Lra.
From Coquelicot Require Import Coquelicot.
From Verif Require Import RSum Mat Tri_M Tri_P LineSearch_M LineSearch_P Index_M Rmtb_M Rmtc_M RmtsTrain_M RmtsTrain_P RmtsTrain_P2 RmtsTrain_P3 RmtsTrain_P4 RmtsTrain_P5 Krg_P3 LinSolve_M LinSolve_S LinSolve_P LinSolve_P2 LinSolve_P3 DirSolve_M DirSolve_S DirSolve_P.
Import ListNotations.
Open Scope list_scope.
Open Scope R_scope.

Lemma hess_ext n H blocks p yt s s' i j : same n s s' -> opt_hess n H blocks p yt s i j = opt_hess n H blocks p yt s' i j.
Proof.
  intros E. rewrite !hess_eq. f_equal. apply lsum_ext. intros b _. apply rsum_ext. intros t Ht.
  assert (Q : resid n yt b s t = resid n yt b s' t) by (unfold resid; f_equal; apply mv_ext; [reflexivity|exact E]). rewrite Q. reflexivity.
Qed.
Lemma norm_ext n H blocks p yt s s' : same n s s' -> opt_norm n H blocks p yt s = opt_norm n H blocks p yt s'.
Proof. intros E. unfold opt_norm. f_equal. apply dot_ext; intros; apply grad_ext; exact E. Qed.
Lemma ls_point_ext n s s' d d' a : same n s s' -> same n d d' -> same n (ls_point s d a) (ls_point s' d' a).
Proof. intros E F i Hi. unfold ls_point. rewrite (E i Hi), (F i Hi). reflexivity. Qed.
Lemma decreased_ext n H blocks p yt s s' d d' u a : same n s s' -> same n d d' ->
  func_decreased n s d (opt_func n H blocks p yt) (opt_grad n H blocks p yt) u a = func_decreased n s' d' (opt_func n H blocks p yt) (opt_grad n H blocks p yt) u a.
Proof.
  intros E F. unfold func_decreased, phi, dphi.
  assert (A : forall b, opt_func n H blocks p yt (ls_point s d b) = opt_func n H blocks p yt (ls_point s' d' b)) by (intros; apply func_ext; apply ls_point_ext; assumption).
  rewrite !A.
  assert (B : dot n (opt_grad n H blocks p yt (ls_point s d 0)) d = dot n (opt_grad n H blocks p yt (ls_point s' d' 0)) d').
  { apply dot_ext; [intros; apply grad_ext; apply ls_point_ext; assumption|exact F]. }
  rewrite B. reflexivity.
Qed.
Lemma backtrack_ext n H blocks p yt s s' d d' u : same n s s' -> same n d d' -> forall fuel a rho,
  backtrack n s d (opt_func n H blocks p yt) (opt_grad n H blocks p yt) u fuel a rho = backtrack n s' d' (opt_func n H blocks p yt) (opt_grad n H blocks p yt) u fuel a rho.
Proof.
  intros E F. induction fuel as [|f IH]; intros a rho; cbn [backtrack]; [reflexivity|].
  rewrite (decreased_ext n H blocks p yt s s' d d' u a E F). destruct (func_decreased _ _ _ _ _ _ _); cbn [negb]; [reflexivity|apply IH].
Qed.
Lemma search_ext n H blocks p yt bf s s' d d' : same n s s' -> same n d d' ->
  match backtracking_search n bf s d (opt_func n H blocks p yt) (opt_grad n H blocks p yt), backtracking_search n bf s' d' (opt_func n H blocks p yt) (opt_grad n H blocks p yt) with
  | Some x, Some x' => same n x x' | None, None => True | _, _ => False end.
Proof.
  intros E F. unfold backtracking_search, backtracking. rewrite (backtrack_ext n H blocks p yt s s' d d' _ E F).
  destruct (backtrack n s' d' _ _ _ bf 1 (1 / 2)) as [a|]; [|exact I]. apply ls_point_ext; assumption.
Qed.
Lemma unique n A r v v' : mpd n A -> solves n A r v -> solves n A r v' -> same n v v'.
Proof. intros P E E' i Hi. apply (mpd_unique n A v v' P); [|exact Hi]. intros k Hk. rewrite (E k Hk), (E' k Hk). reflexivity. Qed.
Lemma solves_ext n A A' r r' v : (forall i j, (i < n)%nat -> (j < n)%nat -> A i j = A' i j) -> same n r r' -> solves n A r v -> solves n A' r' v.
Proof. intros E F S i Hi. rewrite <- (F i Hi), <- (S i Hi). unfold mv. apply rsum_ext. intros j Hj. rewrite E by assumption. reflexivity. Qed.

Section Agree.
Variables (n : nat) (H : mat) (blocks : list block) (yt : nat -> nat -> R) (run run' : mat -> vec -> vec -> sresult).
Hypothesis Hsym : msym n H. Hypothesis Hpd : mpd n H.
Hypothesis Hc : forall b, In b blocks -> 0 <= b_c b.
Hypothesis A1 : answers n run. Hypothesis A2 : answers n run'.
Variables (bf : nat) (tol : R).
Definition msame (M M' : option mat) : Prop :=
  match M, M' with Some a, Some b => forall i j, (i < n)%nat -> (j < n)%nat -> a i j = b i j | None, None => True | _, _ => False end.
Lemma newton_agree p : (2 <= p)%nat -> Nat.even p = true -> forall fuel s s' d d' M M', same n s s' -> msame M M' ->
  match newton_run n H blocks yt run (backtracking_search n bf) p tol fuel s d M, newton_run n H blocks yt run' (backtracking_search n bf) p tol fuel s' d' M' with
  | Done a _ N, Done a' _ N' => same n a a' /\ msame N N'
  | NoPoint, NoPoint => True
  | _, _ => False
  end.
Proof.
  intros Hp He. induction fuel as [|f IH]; intros s s' d d' M M' E EM; cbn [newton_run]; [split; assumption|].
  rewrite (norm_ext n H blocks p yt s s' E). destruct (Rlt_dec tol (opt_norm n H blocks p yt s')); [|split; assumption].
  assert (S1 : forall x, msym n (opt_hess n H blocks p yt x)) by (intros; apply hess_sym; exact Hsym).
  assert (P1 : forall x, mpd n (opt_hess n H blocks p yt x)) by (intros; apply hess_pd; assumption).
  destruct (A1 (opt_hess n H blocks p yt s) (fun k => - opt_grad n H blocks p yt s k) d (S1 s) (P1 s)) as (v & Ev & Sv).
  destruct (A2 (opt_hess n H blocks p yt s') (fun k => - opt_grad n H blocks p yt s' k) d' (S1 s') (P1 s')) as (v' & Ev' & Sv').
  rewrite Ev, Ev'.
  assert (V : same n v v').
  { apply (unique n (opt_hess n H blocks p yt s') (fun k => - opt_grad n H blocks p yt s' k)); [apply P1| |exact Sv'].
    apply (solves_ext n (opt_hess n H blocks p yt s) _ (fun k => - opt_grad n H blocks p yt s k)); [intros; apply hess_ext; exact E| |exact Sv].
    intros k Hk. rewrite (grad_ext n H blocks yt p s s' k E). reflexivity. }
  pose proof (search_ext n H blocks p yt bf s s' v v' E V) as X.
  destruct (backtracking_search n bf s v _ _) as [x|], (backtracking_search n bf s' v' _ _) as [x'|]; try contradiction; [|exact I].
  apply IH; [exact X|]. cbn. intros; apply hess_ext; exact E.
Qed.
Lemma train_agree p maxiter : (2 <= p)%nat -> Nat.even p = true ->
  same_training n (train_run n H blocks yt run (backtracking_search n bf) p maxiter tol) (train_run n H blocks yt run' (backtracking_search n bf) p maxiter tol).
Proof.
  intros Hp He. unfold train_run.
  pose proof (newton_agree 2 (le_n 2) eq_refl 1 (fun _ => 0) (fun _ => 0) (fun _ => 0) (fun _ => 0) None None (fun _ _ => eq_refl) I) as B.
  destruct (newton_run n H blocks yt run _ 2 tol 1 _ _ None) as [a da N|e|], (newton_run n H blocks yt run' _ 2 tol 1 _ _ None) as [a' da' N'|e'|]; try contradiction; [|exact I].
  destruct B as (B1 & B2).
  pose proof (newton_agree p Hp He maxiter a a' (fun _ => 0) (fun _ => 0) N N' B1 B2) as C.
  destruct (newton_run n H blocks yt run _ p tol maxiter a _ N) as [x dx K|e|], (newton_run n H blocks yt run' _ p tol maxiter a' _ N') as [x' dx' K'|e'|]; try contradiction; [|exact I].
  destruct C as (C1 & C2). destruct K, K'; cbn in C2 |- *; try contradiction; [split; assumption|exact I].
Qed.
End Agree.

(** order 2: the minimum *)
Lemma answers_pure n run : answers n run -> exists solve, exact_solver n solve /\ answers n (fun A r _ => Left (solve A r)).
Proof.
  intros A. exists (fun M r => match run M r (fun _ => 0) with Left v => v | _ => r end).
  assert (X : exact_solver n (fun M r => match run M r (fun _ => 0) with Left v => v | _ => r end)).
  { intros M r S P. destruct (A M r (fun _ => 0) S P) as (v & E & Q). rewrite E. exact Q. }
  split; [exact X|]. intros M r d S P. eexists. split; [reflexivity|]. exact (X M r S P).
Qed.
Lemma answers_min n H blocks yt run : msym n H -> mpd n H -> (forall b, In b blocks -> 0 <= b_c b) -> answers n run ->
  forall bf maxiter tol, (1 <= bf)%nat -> 0 <= tol -> tol < opt_norm n H blocks 2 yt (fun _ => 0) ->
  exists sol mtx, train_run n H blocks yt run (backtracking_search n bf) 2 maxiter tol = TSol sol mtx /\
    forall sol', (exists i, (i < n)%nat /\ sol' i <> sol i) -> opt_func n H blocks 2 yt sol < opt_func n H blocks 2 yt sol'.
Proof.
  intros S P C A bf maxiter tol B T L. destruct (answers_pure n run A) as (solve & X & A').
  destruct (quadratic_training_min n H blocks yt solve S P C X bf maxiter tol B T L) as (sol & mtx & E & Min).
  pose proof (train_agree n H blocks yt run (fun M r _ => Left (solve M r)) S P C A A' bf tol 2 maxiter (le_n 2) eq_refl) as G.
  rewrite train_pure, E in G.
  destruct (train_run n H blocks yt run _ 2 maxiter tol) as [s M| | |]; cbn in G; try contradiction. destruct G as (G & _).
  exists s, M. split; [reflexivity|]. intros sol' (i & Hi & N). rewrite (func_ext n H blocks 2 yt s sol G). apply Min. exists i. split; [exact Hi|]. rewrite <- (G i Hi). exact N.
Qed.

(** null: the result *)
Lemma newton_mtx_run n H blocks yt run search p tol : forall fuel s d M s' d' M', newton_run n H blocks yt run search p tol fuel s d (Some M) = Done s' d' M' -> M' <> None.
Proof.
  induction fuel as [|f IH]; intros s d M s' d' M' E; cbn [newton_run] in E; [injection E as <- <- <-; discriminate|].
  destruct (Rlt_dec _ _); [|injection E as <- <- <-; discriminate]. destruct (run _ _ _); try discriminate. destruct (search _ _ _ _); [|discriminate]. exact (IH _ _ _ _ _ _ E).
Qed.
Lemma null_training n H blocks yt bf p maxiter tol splu spilu lapack gsl cg ip : (1 <= bf)%nat ->
  match train_run n H blocks yt (solver_call splu spilu lapack gsl cg ip (default CNull) n SparseMatrix) (backtracking_search n bf) p maxiter tol with
  | TSol s _ => forall k, s k = 0 | TAttribute => True | TSolver _ | TNoPoint => False end.
Proof.
  intros Hb. change (solver_call splu spilu lapack gsl cg ip (default CNull) n SparseMatrix) with (fun (_ : mat) (_ x : vec) => Left x).
  unfold train_run.
  pose proof (null_keeps n H blocks yt bf 2 tol 1 (fun _ => 0) (fun _ => 0) None (fun _ => eq_refl) (fun _ => eq_refl)) as A.
  destruct (newton_run n H blocks yt _ _ 2 tol 1 _ _ None) as [s d M|e|]; [|contradiction|lia]. destruct A as (Zs & _).
  pose proof (null_keeps n H blocks yt bf p tol maxiter s (fun _ => 0) M Zs (fun _ => eq_refl)) as B.
  destruct (newton_run n H blocks yt _ _ p tol maxiter s _ M) as [s' d' [M'|]|e|]; [exact (proj1 B)|exact I|contradiction|lia].
Qed.
Lemma null_trains n H blocks yt bf p maxiter tol splu spilu lapack gsl cg ip : (1 <= bf)%nat -> tol < opt_norm n H blocks 2 yt (fun _ => 0) ->
  exists s M, train_run n H blocks yt (solver_call splu spilu lapack gsl cg ip (default CNull) n SparseMatrix) (backtracking_search n bf) p maxiter tol = TSol s M /\ forall k, s k = 0.
Proof.
  intros Hb L. pose proof (null_training n H blocks yt bf p maxiter tol splu spilu lapack gsl cg ip Hb) as A.
  destruct (train_run n H blocks yt _ _ p maxiter tol) as [s M| | |] eqn:E; try contradiction; [exists s, M; split; [reflexivity|exact A]|]. exfalso. clear A.
  revert E. change (solver_call splu spilu lapack gsl cg ip (default CNull) n SparseMatrix) with (fun (_ : mat) (_ x : vec) => Left x).
  unfold train_run. pose proof (null_keeps n H blocks yt bf 2 tol 1 (fun _ => 0) (fun _ => 0) None (fun _ => eq_refl) (fun _ => eq_refl)) as A.
  destruct (newton_run n H blocks yt _ _ 2 tol 1 _ _ None) as [s d M|e|] eqn:E; [|contradiction|lia].
  assert (HM : M <> None).
  { cbn [newton_run] in E. destruct (Rlt_dec _ _); [|contradiction]. destruct (backtracking_search _ _ _ _ _ _); [|discriminate]. injection E as <- <- <-. discriminate. }
  destruct M as [M|]; [|contradiction]. destruct (newton_run n H blocks yt _ _ p tol maxiter s _ (Some M)) as [s' d' [M'|]|e|] eqn:E2; try discriminate.
  exfalso. exact (newton_mtx_run _ _ _ _ _ _ _ _ _ _ _ _ _ _ _ E2 eq_refl).
Qed.
