From Coq Require Import Reals Arith Bool List Lia Lra.
From Coquelicot Require Import Coquelicot.
From Verif Require Import RSum Mat Tri_M Tri_P Rmtc_S Mfk_S Mfk_P4 LinSolve_M LinSolve_S LinSolve_P.
Open Scope R_scope.
Lemma lim_rsum n (u : nat -> nat -> R) : (forall j, (j < n)%nat -> is_lim_seq (fun k => u k j) 0) -> is_lim_seq (fun k => rsum n (u k)) 0.
Proof.
  induction n as [|n IH]; intros H; [apply is_lim_seq_const|]. cbn [rsum]. replace (Finite 0) with (Finite (0 + 0)) by (f_equal; ring). apply is_lim_seq_plus'; [apply IH; intros j Hj; apply H; lia|apply H; lia].
Qed.
Lemma lim_mv n M (d : nat -> vec) i : (forall j, (j < n)%nat -> is_lim_seq (fun k => d k j) 0) -> is_lim_seq (fun k => mv n M (d k) i) 0.
Proof.
  intros H. unfold mv. apply (lim_rsum n (fun k j => M i j * d k j)). intros j Hj. replace (Finite 0) with (Finite (M i j * 0)) by (f_equal; ring). apply is_lim_seq_mult'; [apply is_lim_seq_const|apply H; exact Hj].
Qed.
Lemma lim_sq (d : nat -> R) : is_lim_seq (fun k => d k ^ 2) 0 -> is_lim_seq d 0.
Proof.
  intros H. apply is_lim_seq_abs_0. apply (is_lim_seq_ext (fun k => sqrt (d k ^ 2))); [intros k; rewrite <- Rsqr_pow2; apply sqrt_Rsqr_abs|].
  replace (Finite 0) with (Finite (sqrt 0)) by (rewrite sqrt_0; reflexivity). apply is_lim_seq_continuous; [apply continuity_pt_sqrt; lra|exact H].
Qed.
Lemma mpd_diag n A i : mpd n A -> (i < n)%nat -> 0 < A i i.
Proof.
  intros H Hi. specialize (H (fun j => if Nat.eqb j i then 1 else 0)). assert (P : 0 < dot n (fun j => if Nat.eqb j i then 1 else 0) (mv n A (fun j => if Nat.eqb j i then 1 else 0))).
  { apply H. exists i. rewrite Nat.eqb_refl. split; [exact Hi|lra]. }
  unfold dot in P. rewrite (rsum_ext n _ (fun k => if Nat.eqb k i then mv n A (fun j => if Nat.eqb j i then 1 else 0) k else 0)) in P by (intros j _; destruct (Nat.eqb j i); ring).
  rewrite (rsum_single n (fun k => mv n A (fun j => if Nat.eqb j i then 1 else 0) k) i Hi) in P. unfold mv in P.
  rewrite (rsum_ext n _ (fun j => if Nat.eqb j i then A i j else 0)) in P by (intros j _; destruct (Nat.eqb j i); ring). rewrite (rsum_single n (fun j => A i j) i Hi) in P. exact P.
Qed.
(** the energy of x is that of the solution plus half the error form *)
Lemma energy_gap n A b s x : msym n A -> solves n A b s -> energy n A b x = energy n A b s + dot n (fun i => x i - s i) (mv n A (fun i => x i - s i)) / 2.
Proof.
  intros Sy Hs. unfold energy. rewrite (dot_ext n _ (mv n A (fun i => x i - s i)) (fun i => x i - s i) (fun i => mv n A x i - mv n A s i)) by (intros; first [reflexivity|apply mv_minus]).
  rewrite dot_minus_l, !dot_minus_r. rewrite (dot_mv_sym n A s x Sy).
  rewrite (dot_sym n b x), (dot_sym n b s). rewrite (dot_ext n x b x (mv n A s)) by (intros; try reflexivity; symmetry; apply Hs; assumption).
  rewrite (dot_ext n s b s (mv n A s)) by (intros; try reflexivity; symmetry; apply Hs; assumption). field.
Qed.
Lemma solution_ex n A b : msym n A -> mpd n A -> exists s, solves n A b s.
Proof.
  intros Sy PD. exists (mv n (chol_inv n A) b). intros i Hi. rewrite <- mv_mm. transitivity (mv n idm b i); [|apply mv_id; exact Hi]. apply mv_ext; [|reflexivity]. intros j Hj.
  exact (proj1 (chol_inv_contract n A Sy PD i j Hi Hj)).
Qed.
Lemma iterate_S lu k n A w b m : forall x, iterate lu k n A w b (S m) x = step lu k n A w b (iterate lu k n A w b m x).
Proof. induction m as [|m IH]; intros x; [reflexivity|]. change (iterate lu k n A w b (S m) (step lu k n A w b x) = step lu k n A w b (iterate lu k n A w b (S m) x)). rewrite IH. reflexivity. Qed.

Section Conv.
Variables (lu : nat -> mat -> vec -> vec) (n : nat) (A : mat) (w : R).
Hypotheses (HL : lu_contract lu) (Sy : msym n A) (Hw : 0 < w < 2).
Lemma coef_pos : 0 < / w - / 2.
Proof. assert (/ 2 < / w) by (apply Rinv_lt_contravar; lra). lra. Qed.
Lemma energy_step_le b x : (forall i, (i < n)%nat -> 0 < A i i) -> energy n A b (gs lu n A w b x) <= energy n A b x.
Proof.
  intros Pd. rewrite (energy_gs lu n A w HL Sy Pd) by lra. pose proof coef_pos as C. assert (P : 0 <= rsum n (fun i => A i i * (gs lu n A w b x i - x i) ^ 2)).
  { apply rsum_nonneg. intros i Hi. apply Rmult_le_pos; [left; apply Pd; exact Hi|apply pow2_ge_0]. }
  assert (0 <= (/ w - / 2) * rsum n (fun i => A i i * (gs lu n A w b x i - x i) ^ 2)) by (apply Rmult_le_pos; [lra|exact P]). lra.
Qed.
Lemma energy_step_eq b x : (forall i, (i < n)%nat -> 0 < A i i) -> energy n A b (gs lu n A w b x) = energy n A b x -> solves n A b x.
Proof.
  intros Pd E. rewrite (energy_gs lu n A w HL Sy Pd) in E by lra. pose proof coef_pos as C.
  assert (Z : rsum n (fun i => A i i * (gs lu n A w b x i - x i) ^ 2) = 0). { apply (Rmult_eq_reg_l (/ w - / 2)); lra. }
  apply (gs_fixed lu HL n A w); [lra|intros i Hi; specialize (Pd i Hi); lra|]. intros i Hi.
  assert (T : A i i * (gs lu n A w b x i - x i) ^ 2 = 0). { apply (rsum_zero_inv n (fun i => A i i * (gs lu n A w b x i - x i) ^ 2)); [|exact Z|exact Hi]. intros j Hj. apply Rmult_le_pos; [left; apply Pd; exact Hj|apply pow2_ge_0]. }
  apply Rmult_integral in T. destruct T as [T|T]; [specialize (Pd i Hi); lra|]. assert (gs lu n A w b x i - x i = 0) by nra. lra.
Qed.
Hypothesis PD : mpd n A.
Variables (b s x0 : vec).
Hypothesis Hs : solves n A b s.
Let X (k : nat) : vec := iterate lu GS n A w b k x0.
Lemma XS k : X (S k) = gs lu n A w b (X k).
Proof. unfold X. rewrite iterate_S. reflexivity. Qed.
Let Pd : forall i, (i < n)%nat -> 0 < A i i := fun i Hi => mpd_diag n A i PD Hi.
Lemma diff_lim i : (i < n)%nat -> is_lim_seq (fun k => X (S k) i - X k i) 0.
Proof.
  intros Hi. pose proof coef_pos as C. set (u := fun k => energy n A b (X k)).
  assert (D : ex_finite_lim_seq u). { apply (ex_finite_lim_seq_decr u (energy n A b s)); intros k; unfold u; [rewrite XS; apply energy_step_le; exact Pd|]. rewrite (energy_gap n A b s (X k) Sy Hs). pose proof (mpd_psd n A PD (fun i => X k i - s i)). lra. }
  destruct D as [l D]. assert (D' : is_lim_seq (fun k => u k - u (S k)) 0). { replace (Finite 0) with (Finite (l - l)) by (f_equal; ring). apply is_lim_seq_minus'; [exact D|]. apply (is_lim_seq_incr_1 u). exact D. }
  apply lim_sq. set (c := (/ w - / 2) * A i i). assert (Pc : 0 < c) by (apply Rmult_lt_0_compat; [exact C|apply Pd; exact Hi]).
  apply (is_lim_seq_le_le (fun _ => 0) _ (fun k => (u k - u (S k)) * / c)).
  - intros k. split; [apply pow2_ge_0|]. unfold u. rewrite XS, (energy_gs lu n A w HL Sy Pd) by lra. set (d := fun i => gs lu n A w b (X k) i - X k i).
    apply (Rmult_le_reg_r c); [exact Pc|]. rewrite (Rmult_assoc _ (/ c)), Rinv_l, Rmult_1_r by lra.
    assert (T : A i i * d i ^ 2 <= rsum n (fun i => A i i * d i ^ 2)). { apply (rsum_ge_term n (fun i => A i i * d i ^ 2)); [|exact Hi]. intros j Hj. apply Rmult_le_pos; [left; apply Pd; exact Hj|apply pow2_ge_0]. }
    assert (T2 : (/ w - / 2) * (A i i * d i ^ 2) <= (/ w - / 2) * rsum n (fun i => A i i * d i ^ 2)) by (apply Rmult_le_compat_l; [lra|exact T]). change (gs lu n A w b (X k) i - X k i) with (d i). change (fun i => A i i * (gs lu n A w b (X k) i - X k i) ^ 2) with (fun i => A i i * d i ^ 2). unfold c. lra.
  - apply is_lim_seq_const.
  - replace (Finite 0) with (Finite (0 * / c)) by (f_equal; ring). apply is_lim_seq_mult'; [exact D'|apply is_lim_seq_const].
Qed.
Lemma residual_lim i : (i < n)%nat -> is_lim_seq (fun k => residual n A b (X k) i) 0.
Proof.
  intros Hi. apply (is_lim_seq_ext (fun k => mv n (gs_matrix A w) (fun j => X (S k) j - X k j) i)).
  - intros k. assert (Hd : forall i, (i < n)%nat -> A i i <> 0) by (intros j Hj; specialize (Pd j Hj); lra). assert (Hw0 : w <> 0) by lra. rewrite <- (M_solve lu HL n A w Hw0 Hd (residual n A b (X k)) i Hi).
    apply mv_ext; [reflexivity|]. intros j Hj. rewrite XS. unfold gs. ring.
  - apply (lim_mv n (gs_matrix A w) (fun k j => X (S k) j - X k j)). exact diff_lim.
Qed.
Lemma gs_converges i : (i < n)%nat -> is_lim_seq (fun k => iterate lu GS n A w b k x0 i) (s i).
Proof.
  intros Hi. apply (is_lim_seq_ext (fun k => s i - mv n (chol_inv n A) (residual n A b (X k)) i)).
  - intros k. enough (mv n (chol_inv n A) (residual n A b (X k)) i = s i - X k i) by (unfold X in *; lra).
    transitivity (mv n (chol_inv n A) (mv n A (fun j => s j - X k j)) i).
    + apply mv_ext; [reflexivity|]. intros j Hj. unfold residual. rewrite mv_minus, (Hs j Hj). reflexivity.
    + rewrite <- mv_mm. transitivity (mv n idm (fun j => s j - X k j) i); [|apply (mv_id n (fun j => s j - X k j) i Hi)]. apply mv_ext; [|reflexivity]. intros j Hj. exact (proj2 (chol_inv_contract n A Sy PD i j Hi Hj)).
  - replace (Finite (s i)) with (Finite (s i - 0)) by (f_equal; ring). apply is_lim_seq_minus'; [apply is_lim_seq_const|]. apply (lim_mv n (chol_inv n A) (fun k => residual n A b (X k))). exact residual_lim.
Qed.
End Conv.
