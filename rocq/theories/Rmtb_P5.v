From Coq Require Import Reals ZArith Arith Bool List Lia Lra.
From Coquelicot Require Import Coquelicot.
From Verif Require Import RSum Index_M Index_P Rmtb_M Rmtb_S Rmtb_P Rmtb_P2 Rmtb_P3 Rmtb_P4.
Import ListNotations.
Open Scope list_scope.
Open Scope R_scope.

Section D.
Variables (order ncp : nat) (t : R).
Hypothesis Ho : (1 <= order <= ncp)%nat.
Hypothesis Ht : 0 <= t < 1.
Notation kn := (knots_uniform order ncp).
Lemma cox_de_boor :
  let s := fst (compute_basis_0 order ncp t kn) in let b := snd (compute_basis_0 order ncp t kn) in
  (0 <= s <= Z.of_nat ncp - Z.of_nat order)%Z /\
  (forall j, (j < order)%nat -> b j = bspline (uniform_knots order ncp) (order - 1) (s + Z.of_nat j) t) /\
  (forall n, (n < s \/ s + Z.of_nat order <= n)%Z -> bspline (uniform_knots order ncp) (order - 1) n t = 0).
Proof.
  cbn [fst snd compute_basis_0]. split; [apply dim_start; assumption|]. split.
  - intros j Hj. apply dim_basis0; assumption.
  - intros n Hn. apply dim_supp; [assumption|assumption|lia].
Qed.
Lemma unity : let b := snd (compute_basis_0 order ncp t kn) in
  (forall j, (j < order)%nat -> 0 <= b j) /\ rsum order b = 1.
Proof.
  cbn [fst snd compute_basis_0]. split.
  - intros j Hj. rewrite dim_basis0 by assumption. apply dim_nonneg; assumption.
  - apply dim_sum; assumption.
Qed.
Lemma unity_all : rsum ncp (fun i => bspline (uniform_knots order ncp) (order - 1) (Z.of_nat i) t) = 1.
Proof.
  pose proof (dim_start order ncp t Ho Ht) as (A & _). destruct cox_de_boor as (_ & B & C). destruct unity as (_ & S).
  cbn [fst snd compute_basis_0] in B, C, S. set (s := compute_i_start order ncp kn t) in *.
  transitivity (rsum (Z.to_nat s + (order + (ncp - Z.to_nat s - order))) (fun i => bspline (uniform_knots order ncp) (order - 1) (Z.of_nat i) t)); [f_equal; lia|].
  rewrite !rsum_app. rewrite (rsum_zero (Z.to_nat s)), (rsum_zero (ncp - _ - _)).
  - rewrite Rplus_0_l, Rplus_0_r, <- S. apply rsum_ext. intros j Hj. rewrite B by exact Hj. f_equal. lia.
  - intros i Hi. apply C. lia.
  - intros i Hi. apply C. lia.
Qed.
Lemma b1_eq j : (j < order)%nat -> snd (compute_basis_1 order ncp t kn) j = dpiece order kn (fst (compute_basis_0 order ncp t kn)) (order - 1) (fst (compute_basis_0 order ncp t kn) + Z.of_nat j) t.
Proof. intros Hj. apply basis_1_spec; [apply knots_inc; lia|lia|apply dim_start; assumption|exact Hj]. Qed.
Lemma b2_eq j : (j < order)%nat -> snd (compute_basis_2 order ncp t kn) j = d2piece order kn (fst (compute_basis_0 order ncp t kn)) (order - 1) (fst (compute_basis_0 order ncp t kn) + Z.of_nat j) t.
Proof. intros Hj. apply basis_2_spec; [apply knots_inc; lia|lia|apply dim_start; assumption|exact Hj]. Qed.
Lemma deriv_sums : rsum order (snd (compute_basis_1 order ncp t kn)) = 0 /\ rsum order (snd (compute_basis_2 order ncp t kn)) = 0.
Proof.
  pose proof (dim_start order ncp t Ho Ht) as (A & B). split.
  - rewrite <- (dpiece_sum order kn (fst (compute_basis_0 order ncp t kn))) with (k := (order - 1)%nat) (x := t); [|apply knots_inc; lia|lia|lia].
    apply rsum_ext. intros j Hj. apply b1_eq. exact Hj.
  - rewrite <- (d2piece_sum order kn (fst (compute_basis_0 order ncp t kn))) with (k := (order - 1)%nat) (x := t); [|apply knots_inc; lia|lia|lia].
    apply rsum_ext. intros j Hj. apply b2_eq. exact Hj.
Qed.
Lemma same_start : fst (compute_basis_1 order ncp t kn) = fst (compute_basis_0 order ncp t kn) /\ fst (compute_basis_2 order ncp t kn) = fst (compute_basis_0 order ncp t kn).
Proof. split; reflexivity. Qed.
End D.

Lemma near order ncp t : (1 <= order <= ncp)%nat -> 0 <= t < 1 -> (forall i, t <> uniform_knots order ncp i) ->
  locally t (fun y => 0 <= y < 1 /\ fst (compute_basis_0 order ncp y (knots_uniform order ncp)) = fst (compute_basis_0 order ncp t (knots_uniform order ncp))).
Proof.
  intros Ho Ht Hn. pose proof (dim_start order ncp t Ho Ht) as (A & B). set (s := compute_i_start order ncp (knots_uniform order ncp) t) in *.
  assert (I : forall i j, (i < j)%Z -> knots_uniform order ncp i < knots_uniform order ncp j) by (apply knots_inc; lia).
  set (a := knots_uniform order ncp (s + Z.of_nat order - 1)%Z) in *. set (b := knots_uniform order ncp (s + Z.of_nat order - 1 + 1)%Z) in *.
  assert (La : a < t) by (destruct B as [[B|B] _]; [exact B|exfalso; apply (Hn (s + Z.of_nat order - 1)%Z); rewrite <- knots_eq; symmetry; exact B]).
  assert (La0 : 0 <= a). { rewrite <- (knots_0 order ncp). apply (kn_le_ _ I). lia. }
  assert (Lb1 : b <= 1). { rewrite <- (knots_1 order ncp) by lia. apply (kn_le_ _ I). lia. }
  apply (nhood (fun y => y) a b); [apply continuous_id|lra|]. intros y Hy. split; [lra|].
  cbn [fst snd compute_basis_0]. destruct (dim_start order ncp y Ho ltac:(lra)) as (A' & B').
  set (s' := compute_i_start order ncp (knots_uniform order ncp) y) in *.
  assert (E : (s' + Z.of_nat order - 1)%Z = (s + Z.of_nat order - 1)%Z); [|fold s; lia].
  apply (interval_unique (knots_uniform order ncp) y); [exact I|exact B'|]. fold a b. lra.
Qed.

Lemma basis_1_derive order ncp t : (1 <= order <= ncp)%nat -> 0 <= t < 1 -> (forall i, t <> uniform_knots order ncp i) ->
  let s := fst (compute_basis_1 order ncp t (knots_uniform order ncp)) in
  forall j, (j < order)%nat ->
  is_derive (bspline (uniform_knots order ncp) (order - 1) (s + Z.of_nat j)) t (snd (compute_basis_1 order ncp t (knots_uniform order ncp)) j) /\
  is_derive (fun y => snd (compute_basis_1 order ncp y (knots_uniform order ncp)) j) t (snd (compute_basis_2 order ncp t (knots_uniform order ncp)) j).
Proof.
  intros Ho Ht Hn s j Hj. rewrite b1_eq, b2_eq by assumption. split.
  - apply dim_local; assumption.
  - apply (is_derive_ext_loc (dpiece order (knots_uniform order ncp) (fst (compute_basis_0 order ncp t (knots_uniform order ncp))) (order - 1)
             (fst (compute_basis_0 order ncp t (knots_uniform order ncp)) + Z.of_nat j))).
    + refine (filter_imp _ _ _ (near order ncp t Ho Ht Hn)). intros y (H1 & H2).
      rewrite (b1_eq order ncp y Ho H1 j Hj), H2. reflexivity.
    + apply dim_local; assumption.
Qed.

Lemma reads order ncp t kn kn' : (1 <= order <= ncp)%nat -> (0 <= fst (compute_basis_0 order ncp t kn) <= Z.of_nat ncp - Z.of_nat order)%Z ->
  (forall i, (0 <= i < Z.of_nat order + Z.of_nat ncp)%Z -> kn i = kn' i) ->
  compute_basis_0 order ncp t kn = compute_basis_0 order ncp t kn' /\
  compute_basis_1 order ncp t kn = compute_basis_1 order ncp t kn' /\
  compute_basis_2 order ncp t kn = compute_basis_2 order ncp t kn'.
Proof.
  intros Ho Hs Ha. cbn [fst compute_basis_0] in Hs. unfold compute_basis_0, compute_basis_1, compute_basis_2.
  rewrite <- (reads_i_start order ncp kn kn' t Ho Ha). repeat split; f_equal;
  [apply (reads_0 order ncp kn kn' t)|apply (reads_1 order ncp kn kn' t)|apply (reads_2 order ncp kn kn' t)]; assumption.
Qed.

Lemma right_end order ncp : (2 <= order <= ncp)%nat -> fst (compute_basis_0 order ncp 1 (knots_uniform order ncp)) = (-1)%Z.
Proof.
  intros Ho. cbn [fst compute_basis_0]. unfold compute_i_start.
  assert (I : forall i j, (i < j)%Z -> knots_uniform order ncp i < knots_uniform order ncp j) by (apply knots_inc; lia).
  destruct (Req_EM_T _ _) as [E|_].
  - pose proof (I (Z.of_nat ncp) (Z.of_nat order + Z.of_nat ncp - 1)%Z ltac:(lia)) as H. rewrite knots_1 in H by lia. lra.
  - assert (G : forall m a s0, (a + m <= ncp)%nat -> fold_left (fun s (k : nat) => if in_interval (knots_uniform order ncp) 1 (Z.of_nat k) then (Z.of_nat k - Z.of_nat order + 1)%Z else s) (seq a m) s0 = s0).
    { induction m as [|m IH]; intros a s0 H; cbn [seq fold_left]; [reflexivity|]. rewrite IH by lia.
      destruct (in_interval _ 1 (Z.of_nat a)) eqn:E; [|reflexivity]. apply in_interval_iff in E.
      pose proof (kn_le_ _ I (Z.of_nat a + 1) (Z.of_nat ncp) ltac:(lia)) as H'. rewrite knots_1 in H' by lia. lra. }
    apply G. lia.
Qed.
Lemma clamped order ncp lo up x : (1 <= order <= ncp)%nat ->
  (0 <= fst (compute_basis_0 order ncp (to_param lo up x) (knots_uniform order ncp)) <= Z.of_nat ncp - Z.of_nat order)%Z.
Proof. intros Ho. apply dim_start; [exact Ho|apply to_param_01]. Qed.

(** without extrapolation the value is constant outside the box but the derivative is not zero *)
Lemma clamped_value orders ncps lo up coef kx x : Forall2 (fun o n => (1 <= o <= n)%nat) orders ncps -> (forall k, (k < length orders)%nat -> lo k < up k) ->
  (kx < length orders)%nat -> (x kx < lo kx \/ up kx < x kx) -> is_partial (rmtb_value orders ncps lo up false coef) x kx 0.
Proof.
  intros Hd Hb Hk Ho. unfold is_partial. apply (is_derive_loc_const _ _ (rmtb_value orders ncps lo up false coef x)).
  refine (filter_imp _ _ _ (U_const_out orders ncps lo up coef Hd Hb 0 0 kx x Hk Ho)). intros z Hz.
  rewrite !value_eq. rewrite Hz. reflexivity.
Qed.
Lemma clamped_example : rmtb_derivative [2%nat] [2%nat] (fun _ => 0) (fun _ => 1) false (fun k => IZR k) 0 (fun _ => 2) = 1.
Proof.
  assert (Hd : Forall2 (fun o n => (1 <= o <= n)%nat) [2%nat] [2%nat]) by (constructor; [lia|constructor]).
  rewrite deriv_eq, Rplus_0_r, (U_eq _ _ _ _ _ Hd). unfold grid_sum, fac, wid. cbn [msum rsum lprod Nat.eqb nth contract_index combine fold_right fst snd].
  unfold fac1. cbn [nth Nat.sub]. set (p := fun k : nat => _).
  assert (E : start [2%nat] [2%nat] p 0 = 0%Z).
  { unfold start. cbn [nth]. destruct (dim_start 2 2 (p 0%nat) ltac:(lia)) as (A & _); [unfold p; apply to_param_01|]. cbn in A. lia. }
  rewrite E. cbn [dpiece piece]. unfold knots_uniform. cbn. lra.
Qed.
Lemma quarter_not_knot i : / 4 <> uniform_knots 2 3 i.
Proof.
  unfold uniform_knots. cbn [INR]. intros E.
  assert (E2 : IZR (2 * i) = IZR 3) by (rewrite mult_IZR; lra). apply eq_IZR in E2. lia.
Qed.
Lemma nonvac19 : (1 <= 2 <= 3)%nat /\ 0 <= / 4 < 1 /\ fst (compute_basis_0 2 3 (/ 4) (knots_uniform 2 3)) = 0%Z /\
  snd (compute_basis_0 2 3 (/ 4) (knots_uniform 2 3)) 0%nat = / 2 /\ (forall i, / 4 <> uniform_knots 2 3 i).
Proof.
  split; [lia|]. split; [lra|].
  assert (S : fst (compute_basis_0 2 3 (/ 4) (knots_uniform 2 3)) = 0%Z).
  { cbn [fst compute_basis_0]. destruct (dim_start 2 3 (/ 4) ltac:(lia) ltac:(lra)) as (A & B).
    set (s := compute_i_start 2 3 (knots_uniform 2 3) (/ 4)) in *. assert (s = 0 \/ s = 1)%Z as [X|X] by lia; [exact X|].
    rewrite X in B. unfold knots_uniform in B. cbn in B. lra. }
  split; [exact S|]. split; [|exact quarter_not_knot].
  cbn [snd compute_basis_0]. cbn [fst compute_basis_0] in S. rewrite S. unfold basis_0_vec. cbn [seq Nat.sub fold_left].
  unfold basis_0_step, lfac, rfac, node, upd, vzero, knots_uniform. cbn. destruct (Req_EM_T _ _); lra.
Qed.
Lemma nonvac69 : Forall2 (fun o n => (1 <= o <= n)%nat) [2%nat; 4%nat] [3%nat; 7%nat] /\
  (forall k, (k < 2)%nat -> (fun _ : nat => 0) k < (fun _ : nat => 1) k) /\
  (let t := (/ 4 - 0) / (1 - 0) in / 10 ^ 15 < t < 1 - / 10 ^ 15 /\ forall i, t <> uniform_knots 2 3 i).
Proof.
  split; [repeat constructor; lia|]. split; [intros; lra|]. cbv zeta. replace ((/ 4 - 0) / (1 - 0)) with (/ 4) by field.
  split; [|exact quarter_not_knot].
  assert (/ 10 ^ 15 < / 10). { apply Rinv_lt_contravar; [|]; cbn; lra. } lra.
Qed.
