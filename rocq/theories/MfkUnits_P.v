(** Pooled standardisation of multi-fidelity data. *)
From Coq Require Import Reals Arith Bool List Lia Lra.
From Verif Require Import RSum Mat Tri_M Kernels_M Krg_M Krg_S Krg_P Krg_P2 Krg_P3 Krg_P4 Het_S Het_P4 Mfk_M Mfk_S MfkUnits_S.
Import ListNotations.
Open Scope list_scope.
Open Scope R_scope.
Lemma pool (g : R -> R) col l : rsum (total l) (fun i => g (cat l col i)) = fold_right (fun d s => rsum (d_nt d) (fun i => g (col d i)) + s) 0 l.
Proof.
  induction l as [|d l IH]; [reflexivity|]. change (total (d :: l)) with (d_nt d + total l)%nat. rewrite rsum_app. cbn [fold_right]. f_equal.
  - apply rsum_ext. intros i Hi. cbn [cat]. replace (Nat.ltb i (d_nt d)) with true by (symmetry; apply Nat.ltb_lt; exact Hi). reflexivity.
  - rewrite <- IH. apply rsum_ext. intros i Hi. cbn [cat]. replace (Nat.ltb (d_nt d + i) (d_nt d)) with false by (symmetry; apply Nat.ltb_ge; lia).
    replace (d_nt d + i - d_nt d)%nat with i by lia. reflexivity.
Qed.
Section Two.
Variables (nx : nat) (A B : vec) (a b : R).
Lemma total_eq all all' : same_data nx A B a b all all' -> total all' = total all.
Proof. induction 1 as [|d d' l l' (E & _) _ IH]; [reflexivity|]. cbn [total fold_right] in *. unfold total in IH. rewrite E, IH. reflexivity. Qed.
Lemma pool_two all all' (col : data -> vec) (s t : R) : same_data nx A B a b all all' ->
  (forall d d' f i, reorder (d_nt d) f -> (forall i, (i < d_nt d)%nat -> (forall c, (c < nx)%nat -> d_X d' i c = A c * d_X d (f i) c + B c) /\ d_y d' i = a * d_y d (f i) + b /\ d_noise d' i = d_noise d (f i)) ->
     (i < d_nt d)%nat -> col d' i = s * col d (f i) + t) ->
  forall g : R -> R, rsum (total all') (fun i => g (cat all' col i)) = rsum (total all) (fun i => g (s * cat all col i + t)).
Proof.
  intros H HC g. rewrite pool. rewrite (pool (fun v => g (s * v + t))). induction H as [|d d' l l' (E & _ & f & RO & Hd) _ IH]; [reflexivity|]. cbn [fold_right]. f_equal; [|exact IH].
  rewrite E. rewrite (rsum_ext _ _ (fun i => (fun i => g (s * col d i + t)) (f i))) by (intros i Hi; rewrite (HC d d' f i RO Hd Hi); reflexivity).
  apply (rsum_reorder (d_nt d) f (fun i => g (s * col d i + t)) RO).
Qed.
Lemma mean_two all all' col s t : total all' = total all -> (forall g : R -> R, rsum (total all') (fun i => g (cat all' col i)) = rsum (total all) (fun i => g (s * cat all col i + t))) ->
  mean (total all') (cat all' col) = mean (total all) (fun i => s * cat all col i + t).
Proof. intros E H. unfold mean. rewrite (H (fun v => v) : rsum (total all') (cat all' col) = _), E. reflexivity. Qed.
Lemma scale_two all all' col s t : total all' = total all -> (forall g : R -> R, rsum (total all') (fun i => g (cat all' col i)) = rsum (total all) (fun i => g (s * cat all col i + t))) ->
  scale1 (total all') (cat all' col) = scale1 (total all) (fun i => s * cat all col i + t).
Proof.
  intros E H. assert (S : std1 (total all') (cat all' col) = std1 (total all) (fun i => s * cat all col i + t)).
  { unfold std1. rewrite (mean_two all all' col s t E H). set (m := mean (total all) _). rewrite (H (fun v => (v - m) ^ 2)), E. reflexivity. }
  unfold scale1. rewrite S. reflexivity.
Qed.
End Two.
Lemma cat_in l col d i : In d l -> (i < d_nt d)%nat -> exists k, (k < total l)%nat /\ cat l col k = col d i.
Proof.
  induction l as [|e l IH]; intros H Hi; [destruct H|]. destruct H as [-> | H].
  - exists i. split; [cbn [total fold_right]; lia|]. cbn [cat]. replace (Nat.ltb i (d_nt d)) with true by (symmetry; apply Nat.ltb_lt; exact Hi). reflexivity.
  - destruct (IH H Hi) as (k & Hk & E). exists (d_nt e + k)%nat. split; [change (total (e :: l)) with (d_nt e + total l)%nat; lia|]. cbn [cat]. replace (Nat.ltb (d_nt e + k) (d_nt e)) with false by (symmetry; apply Nat.ltb_ge; lia).
    replace (d_nt e + k - d_nt e)%nat with k by lia. exact E.
Qed.
Lemma varies_std all col : varies all col -> (2 <= total all)%nat /\ std1 (total all) (cat all col) <> 0.
Proof.
  intros (d & e & i & j & Hd & He & Hi & Hj & N). destruct (cat_in all col d i Hd Hi) as (k & Hk & Ek). destruct (cat_in all col e j He Hj) as (l & Hl & El).
  assert (k <> l) by (intros ->; congruence). split; [lia|]. intros Z. apply N. rewrite <- Ek, <- El. rewrite !(std_zero (total all) (cat all col)) by (assumption || lia). reflexivity.
Qed.
Section Std.
Variables (nx : nat) (A B : vec) (a b : R) (all all' : list data).
Hypotheses (HA : forall c, (c < nx)%nat -> 0 < A c) (Ha : 0 < a) (D : same_data nx A B a b all all').
Hypotheses (VX : forall c, (c < nx)%nat -> varies all (fun d i => d_X d i c)) (VY : varies all d_y).
Let px c (Hc : (c < nx)%nat) : forall g : R -> R, rsum (total all') (fun i => g (cat all' (fun d i => d_X d i c) i)) = rsum (total all) (fun i => g (A c * cat all (fun d i => d_X d i c) i + B c)).
Proof. apply (pool_two nx A B a b all all' (fun d i => d_X d i c) (A c) (B c) D). intros d d' f i RO Hd Hi. apply (Hd i Hi). exact Hc. Qed.
Let py : forall g : R -> R, rsum (total all') (fun i => g (cat all' d_y i)) = rsum (total all) (fun i => g (a * cat all d_y i + b)).
Proof. apply (pool_two nx A B a b all all' d_y a b D). intros d d' f i RO Hd Hi. apply (Hd i Hi). Qed.
Lemma xoff c : (c < nx)%nat -> x_off all' c = A c * x_off all c + B c.
Proof. intros Hc. unfold x_off. rewrite (mean_two all all' _ (A c) (B c) (total_eq nx A B a b all all' D) (px c Hc)). apply mean_affine. pose proof (proj1 (varies_std _ _ (VX c Hc))). lia. Qed.
Lemma xscale c : (c < nx)%nat -> x_scale all' c = A c * x_scale all c.
Proof. intros Hc. unfold x_scale. rewrite (scale_two all all' _ (A c) (B c) (total_eq nx A B a b all all' D) (px c Hc)). pose proof (varies_std _ _ (VX c Hc)) as [N1 N2]. apply scale_affine; [lia|apply HA; exact Hc|exact N2]. Qed.
Lemma yoff : y_off all' = a * y_off all + b.
Proof. unfold y_off. rewrite (mean_two all all' _ a b (total_eq nx A B a b all all' D) py). apply mean_affine. pose proof (proj1 (varies_std _ _ VY)). lia. Qed.
Lemma yscale : y_scale all' = a * y_scale all.
Proof. unfold y_scale. rewrite (scale_two all all' _ a b (total_eq nx A B a b all all' D) py). pose proof (varies_std _ _ VY) as [N1 N2]. apply scale_affine; [lia|exact Ha|exact N2]. Qed.
Lemma std_query x x' c : (c < nx)%nat -> x' c = A c * x c + B c -> stdx all' x' c = stdx all x c.
Proof. intros Hc E. unfold stdx. rewrite xoff, xscale, E by exact Hc. pose proof (HA c Hc). assert (x_scale all c <> 0) by apply scale1_nz. field. split; [assumption|lra]. Qed.
Lemma std_y d d' f i : (forall i, (i < d_nt d)%nat -> (forall c, (c < nx)%nat -> d_X d' i c = A c * d_X d (f i) c + B c) /\ d_y d' i = a * d_y d (f i) + b /\ d_noise d' i = d_noise d (f i)) -> (i < d_nt d)%nat ->
  lv_y all' d' i = lv_y all d (f i).
Proof. intros H Hi. unfold lv_y. rewrite yoff, yscale. destruct (H i Hi) as (_ & -> & _). assert (y_scale all <> 0) by apply scale1_nz. field. split; [assumption|lra]. Qed.
End Std.
