From Coq Require Import Reals Arith Bool List Lia Lra.
From Verif Require Import RSum Mat Tri_M Tri_P LinSolve_M LinSolve_S.
Open Scope R_scope.
Section L.
Variables (lu : nat -> mat -> vec -> vec).
Hypothesis HL : lu_contract lu.
Variables (n : nat) (A : mat) (w : R).
Notation M := (gs_matrix A w).
Lemma M_lower i j : (i < n)%nat -> (i < j)%nat -> M i j = 0.
Proof. clear HL. intros _ H. unfold gs_matrix, split_lower, split_diag. destruct (Nat.ltb_spec j i); [lia|]. destruct (Nat.eqb_spec i j); [lia|]. unfold Rdiv. ring. Qed.
Lemma M_diag i : M i i = A i i / w.
Proof. clear HL. unfold gs_matrix, split_lower, split_diag. rewrite Nat.ltb_irrefl, Nat.eqb_refl. ring. Qed.
Hypotheses (Hw : w <> 0) (Hd : forall i, (i < n)%nat -> A i i <> 0).
Lemma M_nz i : (i < n)%nat -> M i i <> 0.
Proof. clear HL. intros H. rewrite M_diag. unfold Rdiv. apply Rmult_integral_contrapositive_currified; [apply Hd; exact H|apply Rinv_neq_0_compat; exact Hw]. Qed.
Lemma M_solve r : solves n M r (lu n M r).
Proof. apply HL; [exact M_lower|exact M_nz]. Qed.
(** fixed points *)
Lemma jacobi_fixed b x : same n (jacobi n A w b x) x <-> solves n A b x.
Proof.
  clear HL. split.
  - intros H i Hi. specialize (H i Hi). unfold jacobi, residual in H. assert (E : w / A i i * (b i - mv n A x i) = 0) by lra. apply Rmult_integral in E. destruct E as [E|E]; [|lra]. exfalso.
    unfold Rdiv in E. apply Rmult_integral in E. destruct E as [E|E]; [contradiction|]. apply (Rinv_neq_0_compat _ (Hd i Hi)). exact E.
  - intros H i Hi. unfold jacobi, residual. rewrite (H i Hi). ring.
Qed.
Lemma gs_fixed b x : same n (gs lu n A w b x) x <-> solves n A b x.
Proof.
  unfold gs. cbv zeta. pose proof (M_solve (residual n A b x)) as S. set (d := lu n M (residual n A b x)) in *. split.
  - intros H i Hi. specialize (S i Hi). assert (Z : mv n M d i = 0) by (apply mv_zero; intros j Hj; specialize (H j Hj); cbv beta in H; lra). rewrite Z in S. unfold residual in S. lra.
  - intros H. assert (Z : forall i, (i < n)%nat -> d i = 0). { apply (lower_inj n M); [|exact M_nz|]. { intros i j H1 H2; apply M_lower; lia. } intros i Hi. rewrite (S i Hi). unfold residual. rewrite (H i Hi). ring. }
    intros i Hi. cbv beta. rewrite (Z i Hi). ring.
Qed.
Lemma step_fixed k b x : same n (step lu k n A w b x) x <-> solves n A b x.
Proof. destruct k; [apply gs_fixed|apply jacobi_fixed]. Qed.
Lemma iter_fixed k b m : forall x, solves n A b x -> same n (iterate lu k n A w b m x) x.
Proof.
  induction m as [|m IH]; intros x H i Hi; [reflexivity|]. cbn [iterate]. pose proof (proj2 (step_fixed k b x) H) as F. rewrite IH; [apply F; exact Hi| |exact Hi].
  intros j Hj. rewrite <- (H j Hj). apply mv_ext; [reflexivity|]. intros; apply F; assumption.
Qed.
(** row form of a Gauss-Seidel step *)
Lemma gs_row b x i : (i < n)%nat -> gs lu n A w b x i = x i + w / A i i * (b i - rsum i (fun j => A i j * gs lu n A w b x j) - rsum (n - i) (fun j => A i (i + j)%nat * x (i + j)%nat)).
Proof.
  intros Hi. unfold gs. cbv zeta. pose proof (M_solve (residual n A b x) i Hi) as S. set (d := lu n M (residual n A b x)) in *. unfold mv in S. rewrite (rsum_tail_zero n (Datatypes.S i)) in S; [|lia|intros j Hj; rewrite M_lower by lia; ring].
  cbn [rsum] in S. rewrite M_diag in S. rewrite (rsum_ext i _ (fun j => A i j * d j)) in S.
  2:{ intros j Hj. unfold gs_matrix, split_lower, split_diag. destruct (Nat.ltb_spec j i); [|lia]. destruct (Nat.eqb_spec i j); [lia|]. unfold Rdiv. ring. }
  unfold residual, mv in S. replace n with (i + (n - i))%nat in S at 1 by lia. rewrite rsum_app in S.
  rewrite (rsum_ext i (fun j => A i j * (x j + d j)) (fun j => A i j * x j + A i j * d j)) by (intros; ring). rewrite rsum_plus.
  set (s1 := rsum i (fun j => A i j * x j)) in *. set (s2 := rsum (n - i) (fun j => A i (i + j)%nat * x (i + j)%nat)) in *. set (s3 := rsum i (fun j => A i j * d j)) in *.
  assert (E : b i - (s1 + s3) - s2 = A i i / w * d i) by lra. rewrite E. field. split; [exact Hw|apply Hd; exact Hi].
Qed.
(** ** convergence for dominant matrices *)
Variables (q : R) (b s : vec).
Hypotheses (Hq : 0 <= q) (Dm : dominant n A q) (Hs : solves n A b s) (W1 : 0 < w <= 1).
Lemma row_sum i (f : nat -> R) (m : R) : (i < n)%nat -> (forall j, (j < n)%nat -> Rabs (f j) <= m) ->
  Rabs (rsum n (fun j => if Nat.eqb j i then 0 else A i j * f j)) <= q * Rabs (A i i) * m.
Proof.
  clear HL Hd Hs W1 Hw. intros Hi Hf. eapply Rle_trans; [apply rsum_abs|]. destruct (Dm i Hi) as [_ H].
  assert (Hm : 0 <= m) by (eapply Rle_trans; [apply Rabs_pos|apply (Hf i Hi)]).
  eapply Rle_trans; [apply (rsum_le n _ (fun j => (if Nat.eqb j i then 0 else Rabs (A i j)) * m))|].
  - intros j Hj. destruct (Nat.eqb j i); [rewrite Rabs_R0; lra|]. rewrite Rabs_mult. apply Rmult_le_compat_l; [apply Rabs_pos|apply Hf; exact Hj].
  - rewrite rsum_scal_r. apply Rmult_le_compat_r; assumption.
Qed.
Definition rate : R := 1 - w + w * q.
Lemma combine i (e t m : R) : (i < n)%nat -> Rabs e <= m -> Rabs t <= q * Rabs (A i i) * m -> Rabs ((1 - w) * e - w / A i i * t) <= rate * m.
Proof.
  clear HL Hs Dm. intros Hi He Ht. assert (Hm : 0 <= m) by (eapply Rle_trans; [apply Rabs_pos|exact He]). unfold Rminus at 1. eapply Rle_trans; [apply Rabs_triang|]. rewrite Rabs_Ropp, !Rabs_mult. unfold rate.
  rewrite (Rabs_pos_eq (1 - w)) by lra. assert (P : 0 < Rabs (A i i)) by (apply Rabs_pos_lt, Hd, Hi).
  replace (Rabs (w / A i i)) with (w / Rabs (A i i)). 2:{ unfold Rdiv. rewrite Rabs_mult, Rabs_inv, (Rabs_pos_eq w) by lra. reflexivity. }
  assert (H1 : (1 - w) * Rabs e <= (1 - w) * m) by (apply Rmult_le_compat_l; lra).
  assert (H2 : w / Rabs (A i i) * Rabs t <= w / Rabs (A i i) * (q * Rabs (A i i) * m)) by (apply Rmult_le_compat_l; [unfold Rdiv; apply Rmult_le_pos; [lra|left; apply Rinv_0_lt_compat; exact P]|exact Ht]).
  replace (w / Rabs (A i i) * (q * Rabs (A i i) * m)) with (w * q * m) in H2 by (field; lra). lra.
Qed.
Lemma row_s i : (i < n)%nat -> b i = A i i * s i + rsum n (fun j => if Nat.eqb j i then 0 else A i j * s j).
Proof. clear - Hs. intros Hi. rewrite <- (Hs i Hi). unfold mv. apply (rsum_split n (fun j => A i j * s j) i Hi). Qed.
Lemma jacobi_err x m : err_le n x s m -> err_le n (jacobi n A w b x) s (rate * m).
Proof.
  clear HL. intros H i Hi. unfold jacobi, residual. rewrite (row_s i Hi). unfold mv. rewrite (rsum_split n (fun j => A i j * x j) i Hi). cbv beta.
  set (sx := rsum n (fun j => if Nat.eqb j i then 0 else A i j * x j)). set (ss := rsum n (fun j => if Nat.eqb j i then 0 else A i j * s j)).
  replace (x i + w / A i i * (A i i * s i + ss - (A i i * x i + sx)) - s i) with ((1 - w) * (x i - s i) - w / A i i * (sx - ss)) by (field; apply Hd; exact Hi).
  apply combine; [exact Hi|apply H; exact Hi|]. unfold sx, ss. rewrite <- rsum_minus.
  rewrite (rsum_ext n _ (fun j => if Nat.eqb j i then 0 else A i j * (x j - s j))) by (intros j Hj; destruct (Nat.eqb j i); ring). apply row_sum; [exact Hi|exact H].
Qed.
Lemma rsum_cut (f g : nat -> R) i : (i < n)%nat -> rsum i f + rsum (n - i) (fun j => g (i + j)%nat) = rsum n (fun j => if Nat.ltb j i then f j else g j).
Proof.
  clear. intros Hi. replace n with (i + (n - i))%nat at 2 by lia. rewrite rsum_app. f_equal; apply rsum_ext; intros j Hj.
  - destruct (Nat.ltb_spec j i); [reflexivity|lia].
  - destruct (Nat.ltb_spec (i + j) i); [lia|reflexivity].
Qed.
Lemma gs_err x m : q <= 1 -> err_le n x s m -> err_le n (gs lu n A w b x) s (rate * m).
Proof.
  intros Q1 H i. induction i as [i IH] using (well_founded_induction lt_wf). intros Hi. assert (Hm : 0 <= m) by (eapply Rle_trans; [apply Rabs_pos|apply (H i Hi)]).
  rewrite (gs_row b x i Hi). rewrite (row_s i Hi). set (g := gs lu n A w b x) in *.
  replace (x i + w / A i i * (A i i * s i + rsum n (fun j => if Nat.eqb j i then 0 else A i j * s j) - rsum i (fun j => A i j * g j) - rsum (n - i) (fun j => A i (i + j)%nat * x (i + j)%nat)) - s i)
    with ((1 - w) * (x i - s i) - w / A i i * rsum n (fun j => if Nat.eqb j i then 0 else A i j * ((if Nat.ltb j i then g j else x j) - s j))).
  - apply combine; [exact Hi|apply H; exact Hi|]. apply row_sum; [exact Hi|]. intros j Hj. destruct (Nat.ltb_spec j i) as [L|L]; [|apply H; exact Hj].
    eapply Rle_trans; [apply (IH j L Hj)|]. unfold rate. assert (w * q <= w * 1) by (apply Rmult_le_compat_l; lra). assert ((1 - w + w * q) * m <= 1 * m) by (apply Rmult_le_compat_r; lra). lra.
  - pose proof (rsum_cut (fun j => A i j * g j) (fun j => A i j * x j) i Hi) as C. cbv beta in C.
    set (s1 := rsum i (fun j => A i j * g j)) in *. set (s2 := rsum (n - i) (fun j => A i (i + j)%nat * x (i + j)%nat)) in *.
    rewrite (rsum_split n (fun j => if Nat.ltb j i then A i j * g j else A i j * x j) i Hi) in C. cbv beta in C. rewrite Nat.ltb_irrefl in C.
    rewrite (rsum_ext n (fun j => if Nat.eqb j i then 0 else A i j * ((if Nat.ltb j i then g j else x j) - s j)) (fun j => (if Nat.eqb j i then 0 else if Nat.ltb j i then A i j * g j else A i j * x j) - (if Nat.eqb j i then 0 else A i j * s j))) by (intros j Hj; destruct (Nat.eqb j i), (Nat.ltb j i); ring).
    rewrite rsum_minus. set (s3 := rsum n (fun i0 => if Nat.eqb i0 i then 0 else if Nat.ltb i0 i then A i i0 * g i0 else A i i0 * x i0)) in *. set (s4 := rsum n (fun j => if Nat.eqb j i then 0 else A i j * s j)) in *.
    replace s3 with (s1 + s2 - A i i * x i) by lra. field. apply Hd. exact Hi.
Qed.
Lemma step_err k x m : q <= 1 -> err_le n x s m -> err_le n (step lu k n A w b x) s (rate * m).
Proof. destruct k; [apply gs_err|intros _; apply jacobi_err]. Qed.
Lemma iter_err k l : q <= 1 -> forall x m, err_le n x s m -> err_le n (iterate lu k n A w b l x) s (rate ^ l * m).
Proof.
  intros Q1. induction l as [|l IH]; intros x m H; cbn [iterate pow]; [rewrite Rmult_1_l; exact H|]. replace (rate * rate ^ l * m) with (rate ^ l * (rate * m)) by ring. apply IH. apply step_err; assumption.
Qed.
End L.
(** ** energy decrease for symmetric matrices with positive diagonal *)
Section En.
Variables (lu : nat -> mat -> vec -> vec) (n : nat) (A : mat) (w : R).
Hypotheses (HL : lu_contract lu) (Sy : msym n A) (Pd : forall i, (i < n)%nat -> 0 < A i i) (Hw : w <> 0).
Lemma energy_gs b x : energy n A b (gs lu n A w b x) = energy n A b x - (/ w - / 2) * rsum n (fun i => A i i * (gs lu n A w b x i - x i) ^ 2).
Proof.
  assert (Hd : forall i, (i < n)%nat -> A i i <> 0) by (intros i Hi; specialize (Pd i Hi); lra).
  unfold gs. cbv zeta. pose proof (M_solve lu HL n A w Hw Hd (residual n A b x)) as S. set (d := lu n _ (residual n A b x)) in *.
  unfold energy. rewrite (dot_ext n (fun i => x i + d i) (mv n A (fun i => x i + d i)) (fun i => x i + d i) (fun i => mv n A x i + mv n A d i)) by (intros; try reflexivity; apply mv_plus).
  rewrite dot_plus_l, !dot_plus_r. rewrite (dot_mv_sym n A d x Sy).
  assert (E : dot n d (residual n A b x) = dot n d (fun i => rsum n (fun j => split_lower A i j * d j)) + rsum n (fun i => A i i * d i ^ 2) / w).
  { rewrite <- (dot_ext n d (mv n (gs_matrix A w) d) d (residual n A b x)) by (intros i Hi; first [reflexivity|apply S; exact Hi]).
    unfold Rdiv. rewrite <- rsum_scal_r. unfold dot. rewrite <- rsum_plus. apply rsum_ext. intros i Hi. unfold mv, gs_matrix. rewrite (rsum_ext n _ (fun j => split_lower A i j * d j + (if Nat.eqb j i then A i i / w * d i else 0))).
    2:{ intros j Hj. unfold split_diag. rewrite (Nat.eqb_sym i j). destruct (Nat.eqb_spec j i) as [-> |]; unfold Rdiv; ring. }
    rewrite rsum_plus. rewrite (rsum_single n (fun _ => A i i / w * d i) i Hi). unfold Rdiv. ring. }
  assert (L : dot n d (mv n A d) = 2 * dot n d (fun i => rsum n (fun j => split_lower A i j * d j)) + rsum n (fun i => A i i * d i ^ 2)).
  { assert (T : dot n d (fun i => rsum n (fun j => split_lower A i j * d j)) = dot n d (fun i => rsum n (fun j => split_lower A j i * d j))).
    { unfold dot. rewrite (rsum_ext n _ (fun i => rsum n (fun j => d i * (split_lower A i j * d j)))) by (intros; rewrite rsum_scal_l; reflexivity). rewrite rsum_swap. apply rsum_ext. intros i Hi. rewrite <- rsum_scal_l. apply rsum_ext. intros j Hj. ring. }
    rewrite double. rewrite T at 2. unfold dot. rewrite <- !rsum_plus. apply rsum_ext. intros i Hi. unfold mv.
    replace (d i * rsum n (fun j => split_lower A i j * d j) + d i * rsum n (fun j => split_lower A j i * d j) + A i i * d i ^ 2) with (d i * (rsum n (fun j => split_lower A i j * d j) + rsum n (fun j => split_lower A j i * d j) + A i i * d i)) by ring. f_equal.
    rewrite <- (rsum_single n (fun _ => A i i * d i) i Hi). rewrite <- !rsum_plus. apply rsum_ext. intros j Hj. unfold split_lower. destruct (Nat.ltb_spec j i), (Nat.ltb_spec i j), (Nat.eqb_spec j i); subst; try lia; try ring. rewrite (Sy j i) by assumption. ring. }
  assert (Rr : dot n d (residual n A b x) = dot n b d - dot n x (mv n A d)) by (unfold residual; rewrite dot_minus_r, (dot_sym n d b), (dot_mv_sym n A d x Sy); reflexivity).
  rewrite (rsum_ext n (fun i => A i i * (x i + d i - x i) ^ 2) (fun i => A i i * d i ^ 2)) by (intros i Hi; ring). set (Z := rsum n (fun i => A i i * d i ^ 2)) in *. set (Y := dot n d (fun i => rsum n (fun j => split_lower A i j * d j))) in *.
  assert (E2 : dot n x (mv n A d) = dot n b d - (Y + Z / w)) by lra. rewrite L, E2. field. exact Hw.
Qed.
End En.
