From Coq Require Import Reals ZArith Arith Bool List Lia Lra.
From Coquelicot Require Import Coquelicot.
From Verif Require Import RSum Mat LineSearch_M LineSearch_P Index_M Rmtb_M Rmtc_M RmtsTrain_M RmtsTrain_P RmtsTrain_P2.
Import ListNotations.
Open Scope list_scope.
Open Scope R_scope.

Lemma backtrack_mono n x dx f g u1 : forall fuel fuel' a rho r, (fuel <= fuel')%nat ->
  backtrack n x dx f g u1 fuel a rho = Some r -> backtrack n x dx f g u1 fuel' a rho = Some r.
Proof.
  induction fuel as [|m IH]; intros [|m'] a rho r L E; cbn in *; try discriminate; try lia.
  destruct (func_decreased n x dx f g u1 a); cbn in *; [exact E|]. apply IH; [lia|exact E].
Qed.

(** exact linear solver: solves every symmetric positive definite system of size n *)
Definition exact_solver (n : nat) (solve : mat -> vec -> vec) : Prop :=
  forall M r, msym n M -> mpd n M -> forall k, (k < n)%nat -> mv n M (solve M r) k = r k.

Section N.
Variables (n : nat) (H : mat) (blocks : list block) (yt : nat -> nat -> R) (solve : mat -> vec -> vec).
Hypothesis Hsym : msym n H. Hypothesis Hpd : mpd n H.
Hypothesis Hc : forall b, In b blocks -> 0 <= b_c b.
Hypothesis Hsolve : exact_solver n solve.

Lemma grad_ext p s s' k : (forall i, (i < n)%nat -> s i = s' i) -> opt_grad n H blocks p yt s k = opt_grad n H blocks p yt s' k.
Proof.
  intros E. rewrite !grad_eq. f_equal.
  - apply mv_ext; [reflexivity|exact E].
  - apply lsum_ext. intros b _. apply rsum_ext. intros t Ht. f_equal. f_equal. unfold resid. f_equal. apply mv_ext; [reflexivity|exact E].
Qed.
Lemma ls0 s d i : ls_point s d 0 i = s i.
Proof. unfold ls_point. ring. Qed.
Lemma norm_pos_nonzero p s tol : 0 <= tol -> tol < opt_norm n H blocks p yt s -> exists k, (k < n)%nat /\ opt_grad n H blocks p yt s k <> 0.
Proof.
  intros T L. destruct (nonzero_dec n (opt_grad n H blocks p yt s)) as [W|W]; [exact W|]. exfalso.
  unfold opt_norm in L. rewrite (dot_zero_r n _ _ W), sqrt_0 in L. lra.
Qed.
Section Step.
Variables (p : nat) (s : vec). Hypothesis Hp : (2 <= p)%nat. Hypothesis He : Nat.even p = true.
Let Hs := opt_hess n H blocks p yt s.
Let d := solve Hs (fun k => - opt_grad n H blocks p yt s k).
Lemma d_solves : forall k, (k < n)%nat -> mv n Hs d k = - opt_grad n H blocks p yt s k.
Proof. intros k Hk. unfold d. rewrite (Hsolve Hs _); [reflexivity|apply hess_sym; exact Hsym|apply hess_pd; assumption|exact Hk]. Qed.
Lemma slope : dphi n s d (opt_grad n H blocks p yt) 0 = - dot n d (mv n Hs d).
Proof.
  unfold dphi. rewrite (dot_ext n _ d (opt_grad n H blocks p yt s) d); [|intros; apply grad_ext; intros; apply ls0|reflexivity].
  apply newton_descent. exact d_solves.
Qed.
Lemma step_decreases fuel s' : backtracking_search n fuel s d (opt_func n H blocks p yt) (opt_grad n H blocks p yt) = Some s' ->
  opt_func n H blocks p yt s' <= opt_func n H blocks p yt s.
Proof.
  unfold backtracking_search, backtracking. destruct (backtrack _ _ _ _ _ _ _ _ _) as [a|] eqn:E; [|discriminate]. intros [= <-].
  apply backtrack_spec in E. destruct E as (m & _ & Ea & D & _).
  fold (phi s d (opt_func n H blocks p yt) a).
  assert (P0 : phi s d (opt_func n H blocks p yt) 0 = opt_func n H blocks p yt s) by (unfold phi; apply func_ext; intros; apply ls0).
  rewrite P0, slope in D. assert (0 < a) by (rewrite Ea; apply Rmult_lt_0_compat; [lra|apply pow_lt; lra]).
  pose proof (mpd_psd n Hs (hess_pd n H blocks p yt s Hpd Hp He Hc) d).
  assert (0 <= a * dot n d (mv n Hs d)) by (apply Rmult_le_pos; lra).
  assert (1 / 10000 * a * - dot n d (mv n Hs d) = - (1 / 10000 * (a * dot n d (mv n Hs d)))) as Q by ring. rewrite Q in D. lra.
Qed.
Lemma step_terminates tol : 0 <= tol -> tol < opt_norm n H blocks p yt s ->
  exists N, forall fuel, (N <= fuel)%nat -> exists s', backtracking_search n fuel s d (opt_func n H blocks p yt) (opt_grad n H blocks p yt) = Some s'
     /\ backtracking_search n N s d (opt_func n H blocks p yt) (opt_grad n H blocks p yt) = Some s'.
Proof.
  intros T L. destruct (norm_pos_nonzero p s tol T L) as (k & Hk & Gk).
  assert (Nd : exists i, (i < n)%nat /\ d i <> 0).
  { destruct (nonzero_dec n d) as [W|W]; [exact W|]. exfalso. apply Gk. pose proof (d_solves k Hk) as E.
    rewrite (mv_zero n Hs d k W) in E. lra. }
  destruct (backtrack_terminates n s d (opt_func n H blocks p yt) (opt_grad n H blocks p yt) (1 / 10000) 1 (1 / 2)) as (f & a & E); try lra.
  - apply line_derive; assumption.
  - rewrite slope. pose proof (hess_pd n H blocks p yt s Hpd Hp He Hc d Nd). fold Hs in H0. lra.
  - exists f. intros fuel Hf. exists (ls_point s d a). unfold backtracking_search, backtracking. rewrite E.
    rewrite (backtrack_mono _ _ _ _ _ _ f fuel _ _ _ Hf E). split; reflexivity.
Qed.
End Step.

Lemma newton_monotone p tol bf : (2 <= p)%nat -> Nat.even p = true -> forall fuel s M s' M',
  newton n H blocks yt solve (backtracking_search n bf) p tol fuel (s, M) = Some (s', M') ->
  opt_func n H blocks p yt s' <= opt_func n H blocks p yt s.
Proof.
  intros Hp He. induction fuel as [|f IH]; intros s M s' M' E; cbn in E; [injection E as -> ->; lra|].
  destruct (Rlt_dec tol (opt_norm n H blocks p yt s)); [|injection E as -> ->; lra].
  destruct (backtracking_search n bf s _ _ _) as [s1|] eqn:S1; [|discriminate].
  apply IH in E. pose proof (step_decreases p s Hp He bf s1 S1). lra.
Qed.
Lemma newton_terminates p tol : 0 <= tol -> (2 <= p)%nat -> Nat.even p = true -> forall fuel st,
  exists N st', forall bf, (N <= bf)%nat -> newton n H blocks yt solve (backtracking_search n bf) p tol fuel st = Some st'.
Proof.
  intros T Hp He. induction fuel as [|f IH]; intros st; [exists 0%nat, st; reflexivity|]. cbn [newton].
  destruct (Rlt_dec tol (opt_norm n H blocks p yt (fst st))) as [L|L]; [|exists 0%nat, st; reflexivity].
  destruct (step_terminates p (fst st) Hp He tol T L) as (N1 & Q1).
  destruct (Q1 N1 (le_n _)) as (s1 & E1 & _).
  destruct (IH (s1, Some (opt_hess n H blocks p yt (fst st)))) as (N2 & st' & Q2).
  exists (N1 + N2)%nat, st'. intros bf Hb. destruct (Q1 bf ltac:(lia)) as (s2 & E2 & E2'). rewrite E1 in E2'. injection E2' as <-.
  rewrite E2. apply Q2. lia.
Qed.
Lemma train_terminates p maxiter tol : 0 <= tol -> (2 <= p)%nat -> Nat.even p = true ->
  exists N, forall bf, (N <= bf)%nat -> rmts_train n H blocks yt solve (backtracking_search n bf) p maxiter tol <> NoLineSearchResult.
Proof.
  intros T Hp He. destruct (newton_terminates 2 tol T (le_n 2) eq_refl 1%nat (fun _ => 0, None)) as (N1 & st1 & E1).
  destruct (newton_terminates p tol T Hp He maxiter st1) as (N2 & st2 & E2).
  exists (N1 + N2)%nat. intros bf Hb. unfold rmts_train, rmts_solve. rewrite E1 by lia. rewrite E2 by lia.
  destruct st2 as [sol [M|]]; discriminate.
Qed.
(** quadratic case *)
Lemma grad2_affine s h k : (k < n)%nat -> opt_grad n H blocks 2 yt (fun i => s i + h i) k = opt_grad n H blocks 2 yt s k + mv n (opt_hess n H blocks 2 yt s) h k.
Proof.
  intros Hk. rewrite !grad_eq, hess_mv, mv_plus.
  replace (lsum (fun b => rsum (b_nt b) (fun t => 1 / 2 * b_c b * b_J b t k * INR 2 * resid n yt b (fun i => s i + h i) t ^ (2 - 1))) blocks)
    with (lsum (fun b => rsum (b_nt b) (fun t => 1 / 2 * b_c b * b_J b t k * INR 2 * resid n yt b s t ^ (2 - 1))) blocks +
          lsum (fun b => rsum (b_nt b) (fun t => b_J b t k * (1 / 2 * b_c b * (INR 2 * (INR 2 - 1) * resid n yt b s t ^ (2 - 2)) * mv n (b_J b) h t))) blocks); [ring|].
  rewrite <- lsum_plus. apply lsum_ext. intros b _. rewrite <- rsum_plus. apply rsum_ext. intros t Ht.
  rewrite resid_plus. cbn. ring.
Qed.
Lemma func2_expand s h : opt_func n H blocks 2 yt (fun i => s i + h i) = opt_func n H blocks 2 yt s + dot n h (opt_grad n H blocks 2 yt s) + 1 / 2 * dot n h (mv n (opt_hess n H blocks 2 yt s) h).
Proof.
  rewrite !func_eq, grad_dot, hess_form, (quad_expand n H Hsym).
  enough (E : lsum (fun b => 1 / 2 * b_c b * rsum (b_nt b) (fun t => resid n yt b (fun i => s i + h i) t ^ 2)) blocks =
     lsum (fun b => 1 / 2 * b_c b * rsum (b_nt b) (fun t => resid n yt b s t ^ 2)) blocks +
     (lsum (fun b => 1 / 2 * b_c b * rsum (b_nt b) (fun t => INR 2 * resid n yt b s t ^ (2 - 1) * mv n (b_J b) h t)) blocks +
      1 / 2 * lsum (fun b => rsum (b_nt b) (fun t => 1 / 2 * b_c b * (INR 2 * (INR 2 - 1) * resid n yt b s t ^ (2 - 2)) * (mv n (b_J b) h t * mv n (b_J b) h t))) blocks)) by (rewrite E; field).
  rewrite <- lsum_scal, <- !lsum_plus. apply lsum_ext. intros b _. rewrite <- !rsum_scal_l, <- !rsum_plus. apply rsum_ext. intros t Ht.
  rewrite resid_plus. cbn. field.
Qed.
Lemma newton2_step bf s : (1 <= bf)%nat -> let d := solve (opt_hess n H blocks 2 yt s) (fun k => - opt_grad n H blocks 2 yt s k) in
  backtracking_search n bf s d (opt_func n H blocks 2 yt) (opt_grad n H blocks 2 yt) = Some (ls_point s d 1) /\
  (forall k, (k < n)%nat -> opt_grad n H blocks 2 yt (ls_point s d 1) k = 0).
Proof.
  intros Hb d. pose proof (d_solves 2 s (le_n 2) eq_refl) as Ds. cbv zeta in Ds. fold d in Ds.
  assert (Lp : forall i, (i < n)%nat -> ls_point s d 1 i = s i + d i) by (intros; unfold ls_point; ring).
  split.
  - unfold backtracking_search, backtracking. destruct bf as [|bf]; [lia|]. cbn [backtrack].
    assert (D : func_decreased n s d (opt_func n H blocks 2 yt) (opt_grad n H blocks 2 yt) (1 / 10000) 1 = true); [|rewrite D; reflexivity].
    apply dec_true. pose proof (slope 2 s (le_n 2) eq_refl) as Sl. cbv zeta in Sl. fold d in Sl. rewrite Sl.
    assert (P0 : phi s d (opt_func n H blocks 2 yt) 0 = opt_func n H blocks 2 yt s) by (unfold phi; apply func_ext; intros; apply ls0).
    assert (P1 : phi s d (opt_func n H blocks 2 yt) 1 = opt_func n H blocks 2 yt (fun i => s i + d i)) by (unfold phi; apply func_ext; exact Lp).
    rewrite P0, P1, func2_expand.
    pose proof (newton_descent n H blocks 2 yt s d Ds) as N. rewrite dot_sym in N. rewrite N.
    pose proof (mpd_psd n _ (hess_pd n H blocks 2 yt s Hpd (le_n 2) eq_refl Hc) d) as Q. lra.
  - intros k Hk. rewrite (grad_ext 2 (ls_point s d 1) (fun i => s i + d i) k Lp). rewrite grad2_affine by exact Hk. rewrite Ds by exact Hk. ring.
Qed.
Lemma norm_zero p s : (forall k, (k < n)%nat -> opt_grad n H blocks p yt s k = 0) -> opt_norm n H blocks p yt s = 0.
Proof. intros Z. unfold opt_norm. rewrite (dot_zero_r n _ _ Z). apply sqrt_0. Qed.
Lemma quadratic_training bf maxiter tol : (1 <= bf)%nat -> 0 <= tol -> tol < opt_norm n H blocks 2 yt (fun _ => 0) ->
  exists sol mtx, rmts_train n H blocks yt solve (backtracking_search n bf) 2 maxiter tol = Trained sol mtx /\
    (forall k, (k < n)%nat -> opt_grad n H blocks 2 yt sol k = 0) /\ mtx = opt_hess n H blocks 2 yt (fun _ => 0).
Proof.
  intros Hb T L. destruct (newton2_step bf (fun _ => 0) Hb) as (E & Z).
  set (d := solve _ _) in *. exists (ls_point (fun _ => 0) d 1), (opt_hess n H blocks 2 yt (fun _ => 0)). split; [|split; [exact Z|reflexivity]].
  unfold rmts_train, rmts_solve. cbn [newton fst]. destruct (Rlt_dec tol _) as [_|C]; [|contradiction].
  fold d. rewrite E. destruct maxiter as [|m]; cbn [newton fst]; [reflexivity|].
  destruct (Rlt_dec tol _) as [C|_]; [rewrite (norm_zero 2 _ Z) in C; lra|reflexivity].
Qed.
(** sensitivity to the training outputs *)
Lemma lsum_bt_swap (f : block -> nat -> R) (g : block -> nat -> nat -> R) :
  rsum n (fun j => lsum (fun b => rsum (b_nt b) (fun t => f b t * g b t j)) blocks) = lsum (fun b => rsum (b_nt b) (fun t => f b t * rsum n (g b t))) blocks.
Proof.
  rewrite <- lsum_rsum. apply lsum_ext. intros b _. rewrite rsum_swap. apply rsum_ext. intros t Ht. rewrite rsum_scal_l. reflexivity.
Qed.
Lemma sensitivity yt' sol sol' sol0 dy :
  (forall k, (k < n)%nat -> opt_grad n H blocks 2 yt sol k = 0) -> (forall k, (k < n)%nat -> opt_grad n H blocks 2 yt' sol' k = 0) ->
  dot n dy sol' - dot n dy sol = lsum (fun b => rsum (b_nt b) (fun t =>
     output_derivative n solve (opt_hess n H blocks 2 yt sol0) blocks 2 yt sol b dy t * (yt' (b_kx b) t - yt (b_kx b) t))) blocks.
Proof.
  intros Z Z'. set (A := opt_hess n H blocks 2 yt sol0).
  assert (As : msym n A) by (apply hess_sym; exact Hsym). assert (Ap : mpd n A) by (apply hess_pd; auto; lia).
  set (w := fun j => lsum (fun b => rsum (b_nt b) (fun t => (yt' (b_kx b) t - yt (b_kx b) t) * (solve A (fun k => opt_dgrad_dyt n 2 yt sol b k t) j * -1))) blocks).
  assert (W : forall i, (i < n)%nat -> w i = sol' i - sol i).
  { apply (mpd_unique n A w (fun i => sol' i - sol i) Ap). intros i Hi. rewrite mv_minus.
    assert (L : mv n A w i = lsum (fun b => rsum (b_nt b) (fun t => (yt' (b_kx b) t - yt (b_kx b) t) * (b_c b * b_J b t i))) blocks).
    { unfold mv, w. rewrite (rsum_ext n _ (fun j => lsum (fun b => rsum (b_nt b) (fun t => (yt' (b_kx b) t - yt (b_kx b) t) * (A i j * (solve A (fun k => opt_dgrad_dyt n 2 yt sol b k t) j * -1)))) blocks)).
      - rewrite lsum_bt_swap. apply lsum_ext. intros b _. apply rsum_ext. intros t Ht. f_equal.
        rewrite (rsum_ext n _ (fun j => (A i j * solve A (fun k => opt_dgrad_dyt n 2 yt sol b k t) j) * -1)) by (intros; ring).
        rewrite rsum_scal_r. fold (mv n A (solve A (fun k => opt_dgrad_dyt n 2 yt sol b k t)) i). rewrite (Hsolve A _ As Ap i Hi).
        unfold opt_dgrad_dyt, tr. cbn. field.
      - intros j Hj. rewrite <- lsum_scal. apply lsum_ext. intros b _. rewrite <- rsum_scal_l. apply rsum_ext. intros. ring. }
    rewrite L. unfold A. rewrite !hess_mv. specialize (Z i Hi). specialize (Z' i Hi). rewrite grad_eq in Z, Z'.
    cbn [INR Nat.sub pow] in *.
    assert (X : forall y s, lsum (fun b => rsum (b_nt b) (fun t => 1 / 2 * b_c b * b_J b t i * (1 + 1) * (resid n y b s t * 1))) blocks =
      lsum (fun b => rsum (b_nt b) (fun t => b_c b * b_J b t i * mv n (b_J b) s t)) blocks - lsum (fun b => rsum (b_nt b) (fun t => b_c b * b_J b t i * y (b_kx b) t)) blocks).
    { intros y s. rewrite (lsum_ext _ (fun b => rsum (b_nt b) (fun t => b_c b * b_J b t i * mv n (b_J b) s t) + -1 * rsum (b_nt b) (fun t => b_c b * b_J b t i * y (b_kx b) t))).
      - rewrite lsum_plus, lsum_scal. ring.
      - intros b _. rewrite <- rsum_scal_l, <- rsum_plus. apply rsum_ext. intros t Ht. unfold resid. field. }
    rewrite X in Z, Z'.
    assert (Y : forall s, lsum (fun b => rsum (b_nt b) (fun t => b_J b t i * (1 / 2 * b_c b * ((1 + 1) * (1 + 1 - 1) * 1) * mv n (b_J b) s t))) blocks =
       lsum (fun b => rsum (b_nt b) (fun t => b_c b * b_J b t i * mv n (b_J b) s t)) blocks).
    { intros s. apply lsum_ext. intros b _. apply rsum_ext. intros. field. }
    rewrite !Y.
    assert (V : lsum (fun b => rsum (b_nt b) (fun t => (yt' (b_kx b) t - yt (b_kx b) t) * (b_c b * b_J b t i))) blocks =
       lsum (fun b => rsum (b_nt b) (fun t => b_c b * b_J b t i * yt' (b_kx b) t)) blocks + -1 * lsum (fun b => rsum (b_nt b) (fun t => b_c b * b_J b t i * yt (b_kx b) t)) blocks).
    { rewrite <- lsum_scal, <- lsum_plus. apply lsum_ext. intros b _. rewrite <- rsum_scal_l, <- rsum_plus. apply rsum_ext. intros. ring. }
    rewrite V. lra. }
  rewrite <- dot_minus_r. rewrite (dot_ext n dy _ dy w); [|reflexivity|intros i Hi; rewrite W by exact Hi; reflexivity].
  unfold dot, w. rewrite (rsum_ext n _ (fun j => lsum (fun b => rsum (b_nt b) (fun t => (yt' (b_kx b) t - yt (b_kx b) t) * (dy j * (solve A (fun k => opt_dgrad_dyt n 2 yt sol b k t) j * -1)))) blocks)).
  - rewrite lsum_bt_swap. apply lsum_ext. intros b _. apply rsum_ext. intros t Ht. unfold output_derivative. ring.
  - intros j Hj. rewrite <- lsum_scal. apply lsum_ext. intros b _. rewrite <- rsum_scal_l. apply rsum_ext. intros. ring.
Qed.
End N.
(** when the stored matrix is missing *)
Lemma newton_mtx n H blocks yt solve search p tol : forall fuel s M s' M', newton n H blocks yt solve search p tol fuel (s, Some M) = Some (s', M') -> M' <> None.
Proof.
  induction fuel as [|f IH]; intros s M s' M' E; cbn in E; [injection E as <- <-; discriminate|].
  destruct (Rlt_dec _ _); [|injection E as <- <-; discriminate]. destruct (search _ _ _ _); [|discriminate]. apply IH in E. exact E.
Qed.
Lemma newton_nomtx n H blocks yt solve search p tol fuel s s' : newton n H blocks yt solve search p tol fuel (s, None) = Some (s', None) <->
  s' = s /\ (fuel = 0%nat \/ ~ tol < opt_norm n H blocks p yt s).
Proof.
  destruct fuel as [|f]; cbn.
  - split; [intros [= <-]; auto|intros (-> & _); reflexivity].
  - destruct (Rlt_dec tol (opt_norm n H blocks p yt s)) as [L|L].
    + split.
      * destruct (search _ _ _ _); [|discriminate]. intros E. apply newton_mtx in E. congruence.
      * intros (_ & [C|C]); [discriminate|contradiction].
    + split; [intros [= <-]; auto|intros (-> & _); reflexivity].
Qed.
Lemma attribute_error_iff n H blocks yt solve search p maxiter tol :
  rmts_train n H blocks yt solve search p maxiter tol = AttributeError <->
  opt_norm n H blocks 2 yt (fun _ => 0) <= tol /\ (maxiter = 0%nat \/ opt_norm n H blocks p yt (fun _ => 0) <= tol).
Proof.
  unfold rmts_train, rmts_solve. split.
  - destruct (newton n H blocks yt solve search 2 tol 1 (fun _ => 0, None)) as [[s1 [M1|]]|] eqn:E1; [| |discriminate].
    + destruct (newton n H blocks yt solve search p tol maxiter (s1, Some M1)) as [[s2 [M2|]]|] eqn:E2; try discriminate.
      apply newton_mtx in E2. congruence.
    + apply newton_nomtx in E1. destruct E1 as (-> & [C|C]); [discriminate|].
      destruct (newton n H blocks yt solve search p tol maxiter (fun _ => 0, None)) as [[s2 [M2|]]|] eqn:E2; try discriminate.
      intros _. apply newton_nomtx in E2. destruct E2 as (-> & E2). split; [apply Rnot_lt_le; exact C|]. destruct E2 as [E2|E2]; [left; exact E2|right; apply Rnot_lt_le; exact E2].
  - intros (A & B).
    assert (E1 : newton n H blocks yt solve search 2 tol 1 (fun _ => 0, None) = Some (fun _ => 0, None)) by (apply newton_nomtx; split; [reflexivity|right; lra]).
    rewrite E1. assert (E2 : newton n H blocks yt solve search p tol maxiter (fun _ => 0, None) = Some (fun _ => 0, None)).
    { apply newton_nomtx; split; [reflexivity|]. destruct B; [left; assumption|right; lra]. }
    rewrite E2. reflexivity.
Qed.
Lemma zero_outputs_norm n H blocks p yt : (2 <= p)%nat -> (forall b t, In b blocks -> (t < b_nt b)%nat -> yt (b_kx b) t = 0) ->
  opt_norm n H blocks p yt (fun _ => 0) = 0.
Proof.
  intros Hp Z. apply norm_zero. intros k Hk. rewrite grad_eq, mv_zero by reflexivity. rewrite lsum_zero; [ring|].
  intros b Hb. apply rsum_zero. intros t Ht. unfold resid. rewrite mv_zero by reflexivity. rewrite (Z b t Hb Ht).
  replace (0 - 0) with 0 by ring. rewrite pow_i by lia. ring.
Qed.
Lemma zero_outputs_error n H blocks yt solve search p maxiter tol : (2 <= p)%nat -> 0 <= tol ->
  (forall b t, In b blocks -> (t < b_nt b)%nat -> yt (b_kx b) t = 0) ->
  rmts_train n H blocks yt solve search p maxiter tol = AttributeError.
Proof.
  intros Hp T Z. apply attribute_error_iff. rewrite !zero_outputs_norm by (assumption || lia). auto.
Qed.
