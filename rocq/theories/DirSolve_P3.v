From Coq Require Import Reals ZArith Arith Bool List String Lia Lra.
From Coquelicot Require Import Coquelicot.
From Verif Require Import RSum Mat Tri_M Tri_P LineSearch_M LineSearch_P Index_M Rmtb_M Rmtc_M RmtsTrain_M RmtsTrain_P RmtsTrain_P2 RmtsTrain_P3 RmtsTrain_P4 RmtsTrain_P5 Krg_P3 LinSolve_M LinSolve_S LinSolve_P LinSolve_P2 LinSolve_P3 DirSolve_M DirSolve_S DirSolve_P DirSolve_P2.
Import ListNotations.
Open Scope list_scope.
Open Scope R_scope.

(** * descent directions *)
Lemma descent_step n H blocks p yt s d : msym n H -> (2 <= p)%nat -> dot n (opt_grad n H blocks p yt s) d < 0 ->
  exists N, forall bf, (N <= bf)%nat -> exists s', backtracking_search n bf s d (opt_func n H blocks p yt) (opt_grad n H blocks p yt) = Some s' /\
    opt_func n H blocks p yt s' < opt_func n H blocks p yt s.
Proof.
  intros Sy Hp Neg.
  assert (Sl : dphi n s d (opt_grad n H blocks p yt) 0 < 0).
  { unfold dphi. rewrite (dot_ext n _ d (opt_grad n H blocks p yt s) d); [exact Neg|intros; apply grad_ext; intros; apply ls0|reflexivity]. }
  destruct (backtrack_terminates n s d (opt_func n H blocks p yt) (opt_grad n H blocks p yt) (1 / 10000) 1 (1 / 2)) as (f & a & E); try lra.
  - apply line_derive; try assumption; try exact PD; try exact Hp; try exact He.
  - exists f. intros bf Hb. exists (ls_point s d a). unfold backtracking_search, backtracking.
    rewrite (backtrack_mono _ _ _ _ _ _ f bf _ _ _ Hb E). split; [reflexivity|].
    apply backtrack_spec in E. destruct E as (m & _ & Ea & D & _).
    fold (phi s d (opt_func n H blocks p yt) a).
    assert (P0 : phi s d (opt_func n H blocks p yt) 0 = opt_func n H blocks p yt s) by (unfold phi; apply func_ext; intros; apply ls0).
    rewrite P0 in D. assert (0 < a) by (rewrite Ea; apply Rmult_lt_0_compat; [lra|apply pow_lt; lra]).
    assert (0 < a * - dphi n s d (opt_grad n H blocks p yt) 0) by (apply Rmult_lt_0_compat; lra).
    assert (1 / 10000 * a * dphi n s d (opt_grad n H blocks p yt) 0 = - (1 / 10000 * (a * - dphi n s d (opt_grad n H blocks p yt) 0))) as Q by ring. rewrite Q in D. lra.
Qed.

(** * Gauss-Seidel from the fresh array *)
Lemma gs_iter_energy lu n A b : lu_contract lu -> msym n A -> mpd n A -> forall m x, energy n A b (iterate lu GS n A 1 b m x) <= energy n A b x.
Proof.
  intros HL Sy PD. induction m as [|m IH]; intros x; cbn [iterate step]; [lra|].
  pose proof (IH (gs lu n A 1 b x)) as Q. pose proof (energy_step_le lu n A 1 HL Sy ltac:(lra) b x (fun i Hi => mpd_diag n A i PD Hi)) as W. lra.
Qed.
Lemma gs_direction lu n A b m : lu_contract lu -> msym n A -> mpd n A -> (exists k, (k < n)%nat /\ b k <> 0) ->
  0 < dot n b (iterate lu GS n A 1 b (S m) (fun _ => 0)).
Proof.
  intros HL Sy PD (k & Hk & Nk). set (z := fun _ : nat => 0).
  assert (E0 : energy n A b z = 0).
  { unfold energy. rewrite (dot_zero_r n b z) by reflexivity. rewrite (dot_zero_r n z (mv n A z)) by (intros; apply mv_zero; reflexivity). field. }
  assert (L : energy n A b (gs lu n A 1 b z) < 0).
  { pose proof (energy_step_le lu n A 1 HL Sy ltac:(lra) b z (fun i Hi => mpd_diag n A i PD Hi)) as W. rewrite E0 in W.
    destruct W as [W|W]; [exact W|]. exfalso.
    pose proof (energy_step_eq lu n A 1 HL Sy ltac:(lra) b z (fun i Hi => mpd_diag n A i PD Hi)) as Q. rewrite E0 in Q. specialize (Q W k Hk).
    rewrite mv_zero in Q by reflexivity. apply Nk. symmetry. exact Q. }
  cbn [iterate step]. pose proof (gs_iter_energy lu n A b HL Sy PD m (gs lu n A 1 b z)) as I.
  set (d := iterate lu GS n A 1 b m (gs lu n A 1 b z)) in *.
  assert (X : energy n A b d < 0) by lra. unfold energy in X. pose proof (mpd_psd n A PD d). lra.
Qed.
Lemma gs_first n H blocks yt lu splu spilu lapack cg ip : msym n H -> mpd n H -> (forall b, In b blocks -> 0 <= b_c b) -> lu_contract lu ->
  forall p tol s M, (2 <= p)%nat -> Nat.even p = true -> 0 <= tol -> tol < opt_norm n H blocks p yt s ->
  exists N, forall bf, (N <= bf)%nat -> exists s' d',
    newton_run n H blocks yt (solver_call splu spilu lapack lu cg ip (with_opt CStationary "gs") n SparseMatrix) (backtracking_search n bf) p tol 1 s (fun _ => 0) M
      = Done s' d' (Some (opt_hess n H blocks p yt s)) /\ opt_func n H blocks p yt s' < opt_func n H blocks p yt s.
Proof.
  intros Sy PD Hc HL p tol s M Hp He T L.
  set (r := fun k => - opt_grad n H blocks p yt s k). set (A := opt_hess n H blocks p yt s).
  destruct (norm_pos_nonzero n H blocks yt p s tol T L) as (k & Hk & Gk).
  assert (Dir : 0 < dot n r (iterate lu GS n A 1 r 10 (fun _ => 0))).
  { apply gs_direction; [exact HL|apply hess_sym; exact Sy|apply hess_pd; assumption|]. exists k. split; [exact Hk|]. unfold r. lra. }
  destruct (descent_step n H blocks p yt s (iterate lu GS n A 1 r 10 (fun _ => 0)) Sy) as (N & Q); [lia| |].
  - replace (dot n (opt_grad n H blocks p yt s) (iterate lu GS n A 1 r 10 (fun _ => 0))) with (- dot n r (iterate lu GS n A 1 r 10 (fun _ => 0))); [lra|].
    unfold dot, r. rewrite <- rsum_opp. apply rsum_ext. intros; ring.
  - exists N. intros bf Hb. destruct (Q bf Hb) as (s' & E & F). exists s', (iterate lu GS n A 1 r 10 (fun _ => 0)). split; [|exact F].
    cbn [newton_run]. destruct (Rlt_dec tol (opt_norm n H blocks p yt s)); [|contradiction].
    change (solver_call splu spilu lapack lu cg ip (with_opt CStationary "gs") n SparseMatrix (opt_hess n H blocks p yt s) (fun k => - opt_grad n H blocks p yt s k) (fun _ => 0))
      with (Left (iterate lu GS n A 1 r 10 (fun _ => 0))). cbv iota. rewrite E. reflexivity.
Qed.

(** * the Cholesky solver whose result is written to a copy *)
Definition wH : mat := reg_hess 2.
Definition wB : list block := [mkB 0 1 (fun _ _ => 1) 1].
Definition wy : nat -> nat -> R := fun _ _ => 1.
Lemma wgrad s : opt_grad 1 wH wB 2 wy s 0%nat = 3 * s 0%nat - 1.
Proof. unfold opt_grad, wB, wH, wy, resid, mv, tr, reg_hess. cbn. lra. Qed.
Lemma wfunc s : opt_func 1 wH wB 2 wy s = s 0%nat ^ 2 + 1 / 2 * (s 0%nat - 1) ^ 2.
Proof. unfold opt_func, wB, wH, wy, resid, mv, dot, reg_hess. cbn. field. Qed.
Lemma wnorm s : opt_norm 1 wH wB 2 wy s = Rabs (3 * s 0%nat - 1).
Proof. unfold opt_norm, dot. cbn [rsum]. rewrite wgrad, <- sqrt_Rsqr_abs. f_equal. unfold Rsqr. ring. Qed.
Lemma wH_sym : msym 1 wH.
Proof. intros i j Hi Hj. replace i with 0%nat by lia. replace j with 0%nat by lia. reflexivity. Qed.
Lemma wH_pd : mpd 1 wH.
Proof.
  intros x (i & Hi & N). replace i with 0%nat in N by lia. unfold dot, mv, wH, reg_hess. cbn. pose proof (Rsqr_pos_lt _ N) as Q. unfold Rsqr in Q. lra.
Qed.
Lemma wB_pos : forall b, In b wB -> 0 <= b_c b.
Proof. intros b [<-|[]]. cbn. lra. Qed.
Section W.
Variables (splu spilu lapack gsl : nat -> mat -> vec -> vec) (cg : option solver -> nat -> mat -> vec -> vec -> vec) (bf : nat).
Hypothesis Hbf : (2 <= bf)%nat.
Notation run := (solver_call splu spilu lapack gsl cg false (default CDenseChol) 1 SparseMatrix).
Lemma wsearch s : s 0%nat <> 1 / 3 -> exists s', backtracking_search 1 bf s (fun k => - opt_grad 1 wH wB 2 wy s k) (opt_func 1 wH wB 2 wy) (opt_grad 1 wH wB 2 wy) = Some s' /\
  s' 0%nat - 1 / 3 = - (1 / 2) * (s 0%nat - 1 / 3).
Proof.
  intros N. set (d := fun k => - opt_grad 1 wH wB 2 wy s k).
  assert (D0 : d 0%nat = - (3 * s 0%nat - 1)) by (unfold d; rewrite wgrad; reflexivity).
  assert (Ph : forall a, phi s d (opt_func 1 wH wB 2 wy) a = 1 / 3 + 3 / 2 * ((1 - 3 * a) * (s 0%nat - 1 / 3)) ^ 2) by (intros a; unfold phi; rewrite wfunc; unfold ls_point; rewrite D0; field).
  assert (Dp : dphi 1 s d (opt_grad 1 wH wB 2 wy) 0 = - 9 * (s 0%nat - 1 / 3) ^ 2).
  { unfold dphi, dot. cbn [rsum]. rewrite wgrad. unfold ls_point. rewrite D0. field. }
  assert (Q : 0 < (s 0%nat - 1 / 3) ^ 2) by (rewrite <- Rsqr_pow2; apply Rsqr_pos_lt; lra).
  exists (ls_point s d (1 / 2)). split; [|unfold ls_point; rewrite D0; field].
  unfold backtracking_search, backtracking. destruct bf as [|[|bf']]; [lia|lia|]. cbn [backtrack].
  assert (F1 : func_decreased 1 s d (opt_func 1 wH wB 2 wy) (opt_grad 1 wH wB 2 wy) (1 / 10000) 1 = false).
  { unfold func_decreased. destruct (Rle_dec _ _) as [W|W]; [|reflexivity]. exfalso. rewrite !Ph, Dp in W. set (e := s 0%nat - 1 / 3) in *.
    replace (((1 - 3 * 1) * e) ^ 2) with (4 * e ^ 2) in W by ring. replace (((1 - 3 * 0) * e) ^ 2) with (e ^ 2) in W by ring. lra. }
  rewrite F1. cbn [negb]. replace (1 * (1 / 2)) with (1 / 2) by field.
  assert (F2 : func_decreased 1 s d (opt_func 1 wH wB 2 wy) (opt_grad 1 wH wB 2 wy) (1 / 10000) (1 / 2) = true).
  { apply dec_true. rewrite !Ph, Dp. set (e := s 0%nat - 1 / 3) in *.
    replace (((1 - 3 * (1 / 2)) * e) ^ 2) with (1 / 4 * e ^ 2) by field. replace (((1 - 3 * 0) * e) ^ 2) with (e ^ 2) by ring. lra. }
  rewrite F2. reflexivity.
Qed.
Lemma wsteps : forall fuel s d M, s 0%nat <> 1 / 3 -> exists s' d' M', newton_run 1 wH wB wy run (backtracking_search 1 bf) 2 0 fuel s d M = Done s' d' M' /\
  s' 0%nat - 1 / 3 = (- (1 / 2)) ^ fuel * (s 0%nat - 1 / 3) /\ (M <> None \/ fuel <> 0%nat -> M' <> None).
Proof.
  induction fuel as [|f IH]; intros s d M N.
  - exists s, d, M. split; [reflexivity|]. split; [cbn; ring|]. intros [Q|Q]; [exact Q|exfalso; apply Q; reflexivity].
  - cbn [newton_run]. rewrite wnorm. destruct (Rlt_dec 0 (Rabs (3 * s 0%nat - 1))) as [_|C]; [|exfalso; apply C; apply Rabs_pos_lt; lra].
    rewrite chol_copy; [|apply hess_sym; exact wH_sym|apply hess_pd; [exact wH_pd|lia|reflexivity|exact wB_pos]].
    destruct (wsearch s N) as (s1 & E & V). rewrite E.
    assert (N1 : s1 0%nat <> 1 / 3) by lra.
    destruct (IH s1 (fun k => - opt_grad 1 wH wB 2 wy s k) (Some (opt_hess 1 wH wB 2 wy s)) N1) as (s' & d' & M' & E' & V' & K).
    exists s', d', M'. split; [exact E'|]. split; [rewrite V', V; cbn [pow]; ring|]. intros _. apply K. left. discriminate.
Qed.
Lemma wtrain maxiter : exists s M, train_run 1 wH wB wy run (backtracking_search 1 bf) 2 maxiter 0 = TSol s M /\ s 0%nat = 1 / 3 - 1 / 3 * (- (1 / 2)) ^ S maxiter.
Proof.
  unfold train_run. destruct (wsteps 1 (fun _ => 0) (fun _ => 0) None) as (s & d & M & E & V & K); [lra|]. rewrite E.
  assert (N : s 0%nat <> 1 / 3) by (cbn in V; lra).
  destruct (wsteps maxiter s (fun _ => 0) M N) as (s' & d' & M' & E' & V' & K'). rewrite E'.
  destruct M' as [M'|]; [|exfalso; apply K'; [left; apply K; right; discriminate|reflexivity]].
  exists s', M'. split; [reflexivity|]. cbn [pow] in V |- *. rewrite V in V'. lra.
Qed.
Lemma wmin : forall sol', (exists i, (i < 1)%nat /\ sol' i <> (fun _ : nat => 1 / 3) i) -> opt_func 1 wH wB 2 wy (fun _ => 1 / 3) < opt_func 1 wH wB 2 wy sol'.
Proof.
  apply stationary_min; [exact wH_sym|exact wH_pd|lia|reflexivity|exact wB_pos|]. intros k Hk. replace k with 0%nat by lia. rewrite wgrad. lra.
Qed.
End W.
