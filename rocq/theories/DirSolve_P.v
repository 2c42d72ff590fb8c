From Coq Require Import Reals ZArith Arith Bool List String Lia Lra.
From Coquelicot Require Import Coquelicot.
From Verif Require Import RSum Mat Tri_M Tri_P LineSearch_M LineSearch_P Index_M Rmtb_M Rmtc_M RmtsTrain_M RmtsTrain_P RmtsTrain_P2 RmtsTrain_P3 RmtsTrain_P4 RmtsTrain_P5 Krg_P3 LinSolve_M LinSolve_S LinSolve_P LinSolve_P2 LinSolve_P3 DirSolve_M DirSolve_S.
Import ListNotations.
Open Scope list_scope.
Open Scope R_scope.

(** * the exact solvers *)
Lemma lu_answers spilu lapack gsl cg ip splu n : direct_contract splu ->
  answers n (solver_call splu spilu lapack gsl cg ip (with_opt CDirect "lu") n SparseMatrix).
Proof. intros HD A r d S P. exists (splu n A r). split; [reflexivity|apply HD; assumption]. Qed.
Lemma mg_answers spilu lapack gsl cg ip splu n : direct_contract splu ->
  answers n (solver_call splu spilu lapack gsl cg ip (default CMultigrid) n SparseMatrix).
Proof. intros HD A r d S P. exists (splu n A r). split; [reflexivity|apply HD; assumption]. Qed.
Lemma chol_answers splu spilu lapack gsl cg n : answers n (solver_call splu spilu lapack gsl cg true (default CDenseChol) n SparseMatrix).
Proof.
  intros A r d Sy PD.
  assert (Sy' : msym n (tr A)) by (intros i j Hi Hj; unfold tr; apply Sy; assumption).
  assert (PD' : mpd n (tr A)).
  { intros x Hx. rewrite (dot_ext n x (mv n (tr A) x) x (mv n A x)); [apply PD; exact Hx|reflexivity|].
    intros i Hi. unfold mv. apply rsum_ext. intros j Hj. unfold tr. rewrite (Sy j i) by assumption. reflexivity. }
  destruct (chol_complete n (tr A) Sy' PD') as [L E].
  exists (bsub n (tr L) (fsub L r n) n). split.
  - unfold solver_call. cbn [default s_class]. unfold dense_chol. rewrite E. reflexivity.
  - intros i Hi. rewrite <- (chol_solve n (tr A) L r Sy' (chol_sound n (tr A) L E) i Hi). unfold mv. apply rsum_ext. intros j Hj. unfold tr. rewrite (Sy i j) by assumption. reflexivity.
Qed.
Lemma chol_copy splu spilu lapack gsl cg n A r d : msym n A -> mpd n A ->
  solver_call splu spilu lapack gsl cg false (default CDenseChol) n SparseMatrix A r d = Left r.
Proof.
  intros Sy PD.
  assert (Sy' : msym n (tr A)) by (intros i j Hi Hj; unfold tr; apply Sy; assumption).
  assert (PD' : mpd n (tr A)).
  { intros x Hx. rewrite (dot_ext n x (mv n (tr A) x) x (mv n A x)); [apply PD; exact Hx|reflexivity|].
    intros i Hi. unfold mv. apply rsum_ext. intros j Hj. unfold tr. rewrite (Sy j i) by assumption. reflexivity. }
  destruct (chol_complete n (tr A) Sy' PD') as [L E].
  unfold solver_call. cbn [default s_class]. unfold dense_chol. rewrite E. reflexivity.
Qed.

(** * the refined iteration is the plain one when the solver ignores its array *)
Lemma newton_pure n H blocks yt solve search p tol : forall fuel s d M,
  match newton_run n H blocks yt (fun A r _ => Left (solve A r)) search p tol fuel s d M with
  | Done s' _ M' => newton n H blocks yt solve search p tol fuel (s, M) = Some (s', M')
  | NoPoint => newton n H blocks yt solve search p tol fuel (s, M) = None
  | Failed _ => False
  end.
Proof.
  induction fuel as [|f IH]; intros s d M; cbn [newton_run newton]; [reflexivity|]. cbn [fst].
  destruct (Rlt_dec tol (opt_norm n H blocks p yt s)); [|reflexivity].
  destruct (search s _ _ _) as [s1|]; [apply IH|reflexivity].
Qed.
Lemma train_pure n H blocks yt solve search p maxiter tol :
  train_run n H blocks yt (fun A r _ => Left (solve A r)) search p maxiter tol =
  match rmts_train n H blocks yt solve search p maxiter tol with Trained s M => TSol s M | AttributeError => TAttribute | NoLineSearchResult => TNoPoint end.
Proof.
  unfold train_run, rmts_train, rmts_solve.
  pose proof (newton_pure n H blocks yt solve search 2 tol 1 (fun _ => 0) (fun _ => 0) None) as A.
  destruct (newton_run n H blocks yt _ search 2 tol 1 _ _ None) as [s d M|e|]; [|contradiction|rewrite A; reflexivity]. rewrite A.
  pose proof (newton_pure n H blocks yt solve search p tol maxiter s (fun _ => 0) M) as B.
  destruct (newton_run n H blocks yt _ search p tol maxiter s _ M) as [s' d' [M'|]|e|]; [rewrite B; reflexivity|rewrite B; reflexivity|contradiction|rewrite B; reflexivity].
Qed.

(** * dense-lu *)
Lemma newton_refuse n H blocks yt search p tol e fuel s d M : (forall v, e <> Left v) ->
  newton_run n H blocks yt (fun _ _ _ => e) search p tol fuel s d M = Done s d M \/
  newton_run n H blocks yt (fun _ _ _ => e) search p tol fuel s d M = Failed e.
Proof.
  intros N. destruct fuel as [|f]; cbn [newton_run]; [left; reflexivity|]. destruct (Rlt_dec _ _); [|left; reflexivity].
  right. destruct e; [exfalso; exact (N _ eq_refl)|reflexivity..].
Qed.
Lemma dense_lu_never splu spilu lapack gsl cg ip n H blocks yt search p maxiter tol :
  let t := train_run n H blocks yt (solver_call splu spilu lapack gsl cg ip (default CDenseLU) n SparseMatrix) search p maxiter tol in
  t = TSolver RAssertion \/ t = TAttribute.
Proof.
  cbv zeta. change (solver_call splu spilu lapack gsl cg ip (default CDenseLU) n SparseMatrix) with (fun (_ : mat) (_ _ : vec) => RAssertion).
  unfold train_run. assert (N : forall v, RAssertion <> Left v) by discriminate.
  destruct (newton_refuse n H blocks yt search 2 tol RAssertion 1 (fun _ => 0) (fun _ => 0) None N) as [E|E]; rewrite E; [|left; reflexivity].
  destruct (newton_refuse n H blocks yt search p tol RAssertion maxiter (fun _ => 0) (fun _ => 0) None N) as [E2|E2]; rewrite E2; [right|left]; reflexivity.
Qed.

(** * null *)
Definition zero_vec (s : vec) : Prop := forall k, s k = 0.
Lemma null_keeps n H blocks yt bf p tol : forall fuel s d M, zero_vec s -> zero_vec d ->
  match newton_run n H blocks yt (fun _ _ x => Left x) (backtracking_search n bf) p tol fuel s d M with Done s' d' _ => zero_vec s' /\ zero_vec d' | Failed _ => False | NoPoint => bf = 0%nat end.
Proof.
  induction fuel as [|f IH]; intros s d M Zs Zd; cbn [newton_run]; [split; assumption|]. destruct (Rlt_dec _ _); [|split; assumption].
  unfold backtracking_search, backtracking. destruct bf as [|bf]; [reflexivity|]. cbn [backtrack].
  assert (D : func_decreased n s d (opt_func n H blocks p yt) (opt_grad n H blocks p yt) (1 / 10000) 1 = true).
  { apply dec_true. unfold phi, dphi. rewrite (dot_zero_r n (opt_grad n H blocks p yt (ls_point s d 0)) d) || rewrite dot_sym, (dot_zero_r n d) by (intros; apply Zd).
    - rewrite (func_ext n H blocks p yt (ls_point s d 1) (ls_point s d 0)); [lra|]. intros i _. unfold ls_point. rewrite Zd. ring.
    - intros; apply Zd. }
  rewrite D. cbn [negb]. apply IH; [|exact Zd]. intros k. unfold ls_point. rewrite Zs, Zd. ring.
Qed.
