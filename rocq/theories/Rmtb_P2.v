From Coq Require Import Reals ZArith Arith Bool List Lia Lra.
From Coquelicot Require Import Coquelicot.
From Verif Require Import RSum Index_M Index_P Rmtb_M Rmtb_S Rmtb_P.
Import ListNotations.
Open Scope list_scope.
Open Scope R_scope.

Lemma fold_left_ext_in {A B} (f g : A -> B -> A) l : (forall a b, In b l -> f a b = g a b) -> forall a, fold_left f l a = fold_left g l a.
Proof.
  induction l as [|x l IH]; intros H a; cbn; [reflexivity|]. rewrite H by (left; reflexivity). apply IH. intros; apply H; right; assumption.
Qed.

(** interval search *)
Lemma in_interval_iff kn t i : in_interval kn t i = true <-> kn i <= t < kn (i + 1)%Z.
Proof.
  unfold in_interval. destruct (Rle_dec (kn i) t), (Rlt_dec t (kn (i + 1)%Z)); split; intros; try discriminate; try lra; split; lra.
Qed.
Lemma interval_exists kn t : forall m (a : Z), kn a <= t < kn (a + Z.of_nat m)%Z -> exists i, (a <= i < a + Z.of_nat m)%Z /\ kn i <= t < kn (i + 1)%Z.
Proof.
  induction m as [|m IH]; intros a H.
  - replace (a + Z.of_nat 0)%Z with a in H by lia. lra.
  - destruct (Rlt_dec t (kn (a + 1)%Z)) as [L|L].
    + exists a. split; [lia|lra].
    + destruct (IH (a + 1)%Z) as (i & Hi & E).
      { replace (a + 1 + Z.of_nat m)%Z with (a + Z.of_nat (S m))%Z by lia. lra. }
      exists i. split; [lia|exact E].
Qed.
Lemma interval_unique kn t i j : (forall i j, (i < j)%Z -> kn i < kn j) -> kn i <= t < kn (i + 1)%Z -> kn j <= t < kn (j + 1)%Z -> i = j.
Proof.
  intros Hinc A B. destruct (Z.lt_trichotomy i j) as [C|[C|C]]; [|exact C|]; exfalso.
  - pose proof (kn_le_ kn Hinc (i + 1) j ltac:(lia)). lra.
  - pose proof (kn_le_ kn Hinc (j + 1) i ltac:(lia)). lra.
Qed.
Lemma i_start_spec order ncp kn t : (forall i j, (i < j)%Z -> kn i < kn j) -> (1 <= order <= ncp)%nat ->
  kn (Z.of_nat order - 1)%Z <= t < kn (Z.of_nat ncp) ->
  let s := compute_i_start order ncp kn t in
  (0 <= s <= Z.of_nat ncp - Z.of_nat order)%Z /\ kn (s + Z.of_nat order - 1)%Z <= t < kn (s + Z.of_nat order - 1 + 1)%Z.
Proof.
  intros Hinc Ho Ht s.
  destruct (interval_exists kn t (ncp - order + 1) (Z.of_nat order - 1)%Z) as (i & Hi & Ei).
  { replace (Z.of_nat order - 1 + Z.of_nat (ncp - order + 1))%Z with (Z.of_nat ncp) by lia. exact Ht. }
  assert (E : s = (i - Z.of_nat order + 1)%Z).
  { unfold s, compute_i_start.
    destruct (Req_EM_T t (kn (Z.of_nat order + Z.of_nat ncp - 1)%Z)) as [E|_].
    - pose proof (kn_le_ kn Hinc (Z.of_nat ncp) (Z.of_nat order + Z.of_nat ncp - 1) ltac:(lia)). lra.
    - assert (G : forall m a s0, (Z.of_nat a <= i < Z.of_nat a + Z.of_nat m)%Z \/ s0 = (i - Z.of_nat order + 1)%Z ->
        fold_left (fun s (k : nat) => if in_interval kn t (Z.of_nat k) then (Z.of_nat k - Z.of_nat order + 1)%Z else s) (seq a m) s0 = (i - Z.of_nat order + 1)%Z).
      { induction m as [|m IH]; intros a s0 H; cbn [seq fold_left]; [lia|]. apply IH.
        destruct (in_interval kn t (Z.of_nat a)) eqn:Ea.
        - right. apply in_interval_iff in Ea. rewrite (interval_unique kn t _ _ Hinc Ea Ei). reflexivity.
        - destruct H as [H| ->]; [|right; reflexivity].
          left. assert (Z.of_nat a <> i); [|lia]. intros X. rewrite X in Ea. apply in_interval_iff in Ei. congruence. }
      apply G. left. lia. }
  rewrite E. split; [lia|]. replace (i - Z.of_nat order + 1 + Z.of_nat order - 1)%Z with i by lia. exact Ei.
Qed.

(** uniform knots *)
Lemma knots_eq order ncp i : knots_uniform order ncp i = uniform_knots order ncp i.
Proof.
  unfold knots_uniform, uniform_knots. rewrite !INR_IZR_INZ. rewrite !plus_IZR, !minus_IZR. reflexivity.
Qed.
Lemma knots_inc order ncp : (order <= ncp)%nat -> forall i j, (i < j)%Z -> knots_uniform order ncp i < knots_uniform order ncp j.
Proof.
  intros H i j L. unfold knots_uniform. apply Rmult_lt_compat_r; [|apply IZR_lt; lia].
  apply Rinv_0_lt_compat. apply IZR_lt. lia.
Qed.
Lemma knots_0 order ncp : knots_uniform order ncp (Z.of_nat order - 1)%Z = 0.
Proof. unfold knots_uniform. replace (Z.of_nat order - 1 - Z.of_nat order + 1)%Z with 0%Z by lia. unfold Rdiv. ring. Qed.
Lemma knots_1 order ncp : (order <= ncp)%nat -> knots_uniform order ncp (Z.of_nat ncp) = 1.
Proof.
  intros H. unfold knots_uniform. apply Rinv_r. apply not_0_IZR. lia.
Qed.
Lemma bspline_ext kn kn' k : (forall i, kn i = kn' i) -> forall n t, bspline kn k n t = bspline kn' k n t.
Proof.
  intros E. induction k as [|k IH]; intros n t; cbn [bspline].
  - rewrite !E. reflexivity.
  - rewrite !IH, !E. reflexivity.
Qed.

(** one dimension with uniform knots *)
Section Dim.
Variables (order ncp : nat) (t : R).
Hypothesis Ho : (1 <= order <= ncp)%nat.
Hypothesis Ht : 0 <= t < 1.
Let kn := knots_uniform order ncp.
Let s := compute_i_start order ncp kn t.
Lemma dim_start : (0 <= s <= Z.of_nat ncp - Z.of_nat order)%Z /\ kn (s + Z.of_nat order - 1)%Z <= t < kn (s + Z.of_nat order - 1 + 1)%Z.
Proof.
  apply i_start_spec; [apply knots_inc; lia|exact Ho|]. unfold kn. rewrite knots_0, knots_1 by lia. exact Ht.
Qed.
Lemma dim_basis0 j : (j < order)%nat -> basis_0_vec order kn t s j = bspline (uniform_knots order ncp) (order - 1) (s + Z.of_nat j)%Z t.
Proof.
  intros Hj. pose proof dim_start as (A & B).
  rewrite (basis_0_spec order kn t s); [|apply knots_inc; lia|lia|exact B|exact Hj].
  apply bspline_ext. apply knots_eq.
Qed.
Lemma dim_supp n : ~ (s <= n < s + Z.of_nat order)%Z -> bspline (uniform_knots order ncp) (order - 1) n t = 0.
Proof.
  intros H. pose proof dim_start as (A & B).
  rewrite <- (bspline_ext kn) by apply knots_eq.
  apply (N_supp order kn t s); [apply knots_inc; lia|lia|exact B|lia].
Qed.
Lemma dim_nonneg n : 0 <= bspline (uniform_knots order ncp) (order - 1) n t.
Proof.
  pose proof dim_start as (A & B). rewrite <- (bspline_ext kn) by apply knots_eq.
  apply (N_nonneg order kn t s); [apply knots_inc; lia|lia|exact B].
Qed.
Lemma dim_sum : rsum order (fun j => basis_0_vec order kn t s j) = 1.
Proof.
  pose proof dim_start as (A & B). rewrite <- (N_sum order kn t s) with (k := (order - 1)%nat); [|apply knots_inc; lia|lia|exact B|lia].
  apply rsum_ext. intros j Hj. apply basis_0_spec; [apply knots_inc; lia|lia|exact B|exact Hj].
Qed.
End Dim.

(** inside a knot interval the interval index is locally constant *)
Lemma dim_local order ncp t : (1 <= order <= ncp)%nat -> 0 <= t < 1 ->
  (forall i, t <> uniform_knots order ncp i) ->
  let s := compute_i_start order ncp (knots_uniform order ncp) t in
  forall k n, is_derive (bspline (uniform_knots order ncp) k n) t (dpiece order (knots_uniform order ncp) s k n t) /\
              (forall n, is_derive (dpiece order (knots_uniform order ncp) s k n) t (d2piece order (knots_uniform order ncp) s k n t)).
Proof.
  intros Ho Ht Hn s k n. pose proof (dim_start order ncp t Ho Ht) as (A & B). fold s in A, B.
  assert (I : forall i j, (i < j)%Z -> knots_uniform order ncp i < knots_uniform order ncp j) by (apply knots_inc; lia).
  split; [|intros n'; apply dpiece_derive; [exact I|lia]].
  apply (is_derive_ext_loc (piece order (knots_uniform order ncp) s k n)).
  - set (a := knots_uniform order ncp (s + Z.of_nat order - 1)%Z) in *. set (b := knots_uniform order ncp (s + Z.of_nat order - 1 + 1)%Z) in *.
    assert (a < t) by (destruct B as [[B|B] _]; [exact B|exfalso; apply (Hn (s + Z.of_nat order - 1)%Z); rewrite <- knots_eq; symmetry; exact B]).
    assert (P : 0 < Rmin (t - a) (b - t)) by (apply Rmin_glb_lt; lra).
    exists (mkposreal _ P). intros y Hy. cbn in Hy. unfold ball in Hy. cbn in Hy. unfold AbsRing_ball, abs, minus, plus, opp in Hy. cbn in Hy.
    assert (Rabs (y + - t) < t - a) by (eapply Rlt_le_trans; [exact Hy|apply Rmin_l]).
    assert (Rabs (y + - t) < b - t) by (eapply Rlt_le_trans; [exact Hy|apply Rmin_r]).
    apply Rabs_def2 in H0. apply Rabs_def2 in H1.
    rewrite <- (bspline_ext (knots_uniform order ncp)) by apply knots_eq. symmetry.
    apply (N_piece order (knots_uniform order ncp) y s); [exact I|lia|]. fold a b. lra.
  - apply piece_derive; [exact I|lia].
Qed.

(** reads stay inside the knot array *)
Section Reads.
Variables (order ncp : nat) (kn kn' : Z -> R) (t : R).
Hypothesis Ho : (1 <= order <= ncp)%nat.
Hypothesis Hag : forall i, (0 <= i < Z.of_nat order + Z.of_nat ncp)%Z -> kn i = kn' i.
Lemma reads_i_start : compute_i_start order ncp kn t = compute_i_start order ncp kn' t.
Proof.
  unfold compute_i_start. rewrite Hag by lia. destruct (Req_EM_T _ _); [reflexivity|].
  apply fold_left_ext_in. intros a b Hb. apply in_seq in Hb. unfold in_interval. rewrite !Hag by lia. reflexivity.
Qed.
Variable s : Z.
Hypothesis Hs : (0 <= s <= Z.of_nat ncp - Z.of_nat order)%Z.
Lemma reads_0 : basis_0_vec order kn t s = basis_0_vec order kn' t s.
Proof.
  unfold basis_0_vec. apply fold_left_ext_in. intros b i Hi. apply in_seq in Hi. unfold basis_0_step.
  rewrite (fold_left_ext_in _ (fun (b : vec) j => upd (upd b j (lfac kn' t i (node s j) (b j))) j
                                     (upd b j (lfac kn' t i (node s j) (b j)) j + rfac kn' t i (node s j) (b (j + 1)%nat)))).
  - unfold lfac, rfac, node. rewrite !Hag by lia. reflexivity.
  - intros c j Hj. apply in_seq in Hj. unfold lfac, rfac, node. rewrite !Hag by lia. reflexivity.
Qed.
Lemma reads_1 : basis_1_vec order kn t s = basis_1_vec order kn' t s.
Proof.
  unfold basis_1_vec. f_equal. apply fold_left_ext_in. intros b i Hi. apply in_seq in Hi. unfold basis_1_step.
  apply fold_left_ext_in. intros [b0 b1] j Hj. apply in_seq in Hj. unfold lfac, rfac, lder, rder, node.
  rewrite (Hag (s + Z.of_nat j + Z.of_nat i)%Z), (Hag (s + Z.of_nat j)%Z) by lia.
  destruct (Nat.eqb_spec j (order - 1)); [reflexivity|]. rewrite !Hag by lia. reflexivity.
Qed.
Lemma reads_2 : basis_2_vec order kn t s = basis_2_vec order kn' t s.
Proof.
  unfold basis_2_vec. f_equal. apply fold_left_ext_in. intros b i Hi. apply in_seq in Hi. unfold basis_2_step.
  apply fold_left_ext_in. intros [[b0 b1] b2] j Hj. apply in_seq in Hj. unfold lfac, rfac, lder, rder, lder2, rder2, node.
  rewrite (Hag (s + Z.of_nat j + Z.of_nat i)%Z), (Hag (s + Z.of_nat j)%Z) by lia.
  destruct (Nat.eqb_spec j (order - 1)); [reflexivity|]. rewrite !Hag by lia. reflexivity.
Qed.
End Reads.

(** tensor products *)
Lemma inz_dim_spec : forall orders ix inz, (ix < length orders)%nat -> inz_dim orders ix inz = nth ix (expand_index orders inz) 0%nat.
Proof.
  intros orders ix inz H. unfold inz_dim.
  assert (G : forall m pre os rem d0, os <> [] -> (m < length os)%nat -> 
    snd (fold_left (fun (acc : nat * nat) jx => let '(rem, _) := acc in let prod := prodl (skipn (S jx) (pre ++ os)) in
          let d := (rem / prod)%nat in ((rem - d * prod)%nat, d)) (seq (length pre) (S m)) (rem, d0)) = nth m (expand_index os rem) 0%nat).
  { induction m as [|m IH]; intros pre os rem d0 Ne Hm; destruct os as [|o os]; try contradiction.
    - cbn [seq fold_left snd expand_index nth]. replace (skipn (S (length pre)) (pre ++ o :: os)) with os; [reflexivity|].
      clear. induction pre; cbn in *; auto.
    - cbn [seq]. cbn [fold_left]. replace (skipn (S (length pre)) (pre ++ o :: os)) with os by (clear; induction pre; cbn in *; auto).
      cbn [expand_index nth]. replace (pre ++ o :: os) with ((pre ++ [o]) ++ os) by (rewrite <- app_assoc; reflexivity).
      specialize (IH (pre ++ [o]) os (rem - rem / prodl os * prodl os)%nat (rem / prodl os)%nat).
      rewrite app_length in IH. cbn [length] in IH. rewrite Nat.add_1_r in IH. cbn [seq fold_left] in IH |- *.
      apply IH; [|cbn in Hm; lia]. intros ->. cbn in Hm. lia. }
  apply (G ix [] orders inz 0%nat); [|exact H]. intros ->. cbn in H. lia.
Qed.
Lemma fold_lprod (f : nat -> nat -> R) : forall is d a, fold_left (fun acc ix => acc * f ix (nth (ix - d) is 0%nat)) (seq d (length is)) a = a * lprod d is f.
Proof.
  induction is as [|i is IH]; intros d a; cbn [length seq fold_left lprod]; [ring|].
  rewrite (fold_left_ext_in _ (fun acc ix => acc * f ix (nth (ix - S d) is 0%nat))).
  - rewrite IH. rewrite Nat.sub_diag. cbn [nth]. ring.
  - intros acc b Hb. apply in_seq in Hb. replace (b - d)%nat with (S (b - S d)) by lia. reflexivity.
Qed.
Lemma jac_data_lprod orders ncps ix1 ix2 p inz :
  jac_data orders ncps ix1 ix2 p inz = lprod 0 (expand_index orders inz) (fun ix => snd (dim_basis orders ncps ix1 ix2 p ix)).
Proof.
  unfold jac_data. rewrite <- (Rmult_1_l (lprod _ _ _)), <- fold_lprod, expand_length.
  apply fold_left_ext_in. intros a ix Hix. apply in_seq in Hix. rewrite Nat.sub_0_r, inz_dim_spec by lia. reflexivity.
Qed.
Lemma fold_contract (st : nat -> Z) : forall ns is d a, length is = length ns -> (forall ix, (d <= ix < d + length is)%nat -> (0 <= st ix)%Z) ->
  fold_left (fun c ix => (c + (Z.of_nat (nth (ix - d) is 0%nat) + st ix) * Z.of_nat (prodl (skipn (S (ix - d)) ns)))%Z) (seq d (length is)) a
  = (a + Z.of_nat (contract_index ns (map (fun p => (fst p + snd p)%nat) (combine (map (fun ix => Z.to_nat (st ix)) (seq d (length is))) is))))%Z.
Proof.
  induction ns as [|n ns IH]; intros is d a L Hst; destruct is as [|i is]; try discriminate.
  - cbn. lia.
  - cbn [length seq fold_left map combine]. rewrite contract_cons'.
    + rewrite (fold_left_ext_in _ (fun c ix => (c + (Z.of_nat (nth (ix - S d) is 0%nat) + st ix) * Z.of_nat (prodl (skipn (S (ix - S d)) ns)))%Z)).
      * rewrite IH; [|cbn in L; lia|intros; apply Hst; cbn; lia]. cbn [fst snd]. rewrite Nat.sub_diag. cbn [nth skipn].
        rewrite Nat2Z.inj_add, Nat2Z.inj_mul, Nat2Z.inj_add, Z2Nat.id by (apply Hst; cbn; lia). ring.
      * intros c b Hb. apply in_seq in Hb. replace (b - d)%nat with (S (b - S d)) by lia. reflexivity.
    + rewrite map_length, combine_length, map_length, seq_length. cbn in L. lia.
Qed.
Lemma jac_col_contract orders ncps ix1 ix2 p inz : length ncps = length orders ->
  (forall ix, (ix < length orders)%nat -> (0 <= fst (dim_basis orders ncps ix1 ix2 p ix))%Z) ->
  jac_col orders ncps ix1 ix2 p inz = Z.of_nat (contract_index ncps (map (fun q => (fst q + snd q)%nat)
      (combine (map (fun ix => Z.to_nat (fst (dim_basis orders ncps ix1 ix2 p ix))) (seq 0 (length orders))) (expand_index orders inz)))).
Proof.
  intros L H. unfold jac_col.
  pose proof (fold_contract (fun ix => fst (dim_basis orders ncps ix1 ix2 p ix)) ncps (expand_index orders inz) 0 0%Z ltac:(rewrite expand_length; lia) ltac:(intros; apply H; rewrite expand_length in *; lia)) as E.
  rewrite expand_length in E. rewrite Z.add_0_l in E. rewrite <- E. apply fold_left_ext_in. intros a ix Hix. apply in_seq in Hix.
  rewrite Nat.sub_0_r, inz_dim_spec by lia. reflexivity.
Qed.
