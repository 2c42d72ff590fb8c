(** C112: change of units, RMTB and RMTC. *)
From Coq Require Import Reals ZArith Arith Bool List Lia Lra FunctionalExtensionality.
From Verif Require Import RSum Mat Index_M Rmtb_M Rmtb_P2 Rmtc_M RmtsTrain_M RmtsTrain_P4.
Import ListNotations.
Open Scope list_scope.
Open Scope R_scope.

(** factor by which a derivative of kind [kx] (0: none, k + 1: in x_k) is divided *)
Definition unit_of (A : nat -> R) (kx : nat) : R := match kx with O => 1 | S k => A k end.

Section Ext.
Variables (A B lo up : nat -> R).
Let mp (v : nat -> R) : nat -> R := fun k => A k * v k + B k.
Lemma ext_units k x : 0 < A k -> ext_dist (mp lo k) (mp up k) (mp x k) = A k * ext_dist (lo k) (up k) (x k).
Proof.
  intros P. unfold ext_dist, nearest, mp.
  assert (M : forall a b, Rmax (A k * a + B k) (A k * b + B k) = A k * Rmax a b + B k).
  { intros a b. unfold Rmax. destruct (Rle_dec a b), (Rle_dec (A k * a + B k) (A k * b + B k)); try reflexivity; exfalso; nra. }
  assert (N : forall a b, Rmin (A k * a + B k) (A k * b + B k) = A k * Rmin a b + B k).
  { intros a b. unfold Rmin. destruct (Rle_dec a b), (Rle_dec (A k * a + B k) (A k * b + B k)); try reflexivity; exfalso; nra. }
  rewrite M, N. ring.
Qed.
Lemma isext_units k x : 0 < A k -> isexternal (mp lo) (mp up) (mp x) k = isexternal lo up x k.
Proof.
  intros P. unfold isexternal. rewrite ext_units by exact P. destruct (Req_EM_T (A k * _) 0) as [E|E], (Req_EM_T (ext_dist _ _ _) 0) as [F|F]; try reflexivity; exfalso.
  - destruct (Rmult_integral _ _ E); [lra|contradiction].
  - apply E. rewrite F. ring.
Qed.
Section Pred.
Variables (nx nnz : nat) (data data' : nat -> nat -> (nat -> R) -> nat -> R) (col col' : nat -> nat -> (nat -> R) -> nat -> Z) (x : nat -> R).
Hypothesis HA : forall k, (k < nx)%nat -> 0 < A k.
Hypothesis Hd : forall i1 i2 inz, (i1 <= nx)%nat -> (i2 <= nx)%nat -> data' i1 i2 (mp x) inz = data i1 i2 x inz / unit_of A i1 / unit_of A i2.
Hypothesis Hc : forall i1 i2 inz, col' i1 i2 (mp x) inz = col i1 i2 x inz.
Lemma unit_pos kx : (kx <= nx)%nat -> 0 < unit_of A kx.
Proof. intros H. destruct kx as [|k]; cbn; [lra|apply HA; lia]. Qed.
Lemma predict_units ext coef kx : (kx <= nx)%nat ->
  predict nx nnz (mp lo) (mp up) data' col' ext coef kx (mp x) = predict nx nnz lo up data col ext coef kx x / unit_of A kx.
Proof.
  intros Hk. unfold predict. unfold Rdiv at 1. rewrite <- rsum_scal_r. apply rsum_ext. intros inz _. pose proof (unit_pos kx Hk) as U.
  replace (pred_col nx col' ext kx (mp x) inz) with (pred_col nx col ext kx x inz) by (unfold pred_col; rewrite !Hc; destruct ext, nx; rewrite ?Hc; reflexivity).
  replace (pred_data nx (mp lo) (mp up) data' ext kx (mp x) inz) with (pred_data nx lo up data ext kx x inz * / unit_of A kx); [ring|].
  unfold pred_data. destruct ext; [|rewrite Hd by lia; cbn; field; lra].
  assert (G : forall l d d', (forall i, In i l -> (i < nx)%nat) -> d' = d * / unit_of A kx ->
    fold_left (fun d0 ix => d0 + match kx with O => data kx (S ix) x inz * ext_dist (lo ix) (up ix) (x ix) | S k => data kx (S ix) x inz * ext_dist (lo ix) (up ix) (x ix) * (1 - isexternal lo up x k) end) l d * / unit_of A kx =
    fold_left (fun d0 ix => d0 + match kx with O => data' kx (S ix) (mp x) inz * ext_dist (mp lo ix) (mp up ix) (mp x ix) | S k => data' kx (S ix) (mp x) inz * ext_dist (mp lo ix) (mp up ix) (mp x ix) * (1 - isexternal (mp lo) (mp up) (mp x) k) end) l d').
  { induction l as [|i l IH]; intros d d' I E; cbn [fold_left]; [rewrite E; reflexivity|]. apply IH; [intros; apply I; right; assumption|].
    assert (Hi : (i < nx)%nat) by (apply I; left; reflexivity). pose proof (HA i Hi) as Pi. rewrite E, Hd by lia. rewrite ext_units by exact Pi.
    destruct kx as [|k].
    - cbn [unit_of]. field. lra.
    - rewrite isext_units by (apply HA; lia). cbn [unit_of] in *. field. split; lra. }
  apply G; [intros i I; apply in_seq in I; lia|]. rewrite Hd by lia. cbn [unit_of]. field. lra.
Qed.
End Pred.
End Ext.

Section B.
Variables (orders ncps : list nat) (A B lo up : nat -> R).
Hypothesis HA : forall k, (k < length orders)%nat -> 0 < A k.
Hypothesis Hb : forall k, (k < length orders)%nat -> lo k < up k.
Let mp (v : nat -> R) : nat -> R := fun k => A k * v k + B k.
Lemma param_units x k : (k < length orders)%nat -> to_param (mp lo k) (mp up k) (mp x k) = to_param (lo k) (up k) (x k).
Proof.
  intros Hk. unfold to_param, mp. replace ((A k * x k + B k - (A k * lo k + B k)) / (A k * up k + B k - (A k * lo k + B k))) with ((x k - lo k) / (up k - lo k)); [reflexivity|].
  pose proof (HA k Hk). pose proof (Hb k Hk).
  replace (A k * x k + B k - (A k * lo k + B k)) with (A k * (x k - lo k)) by ring.
  replace (A k * up k + B k - (A k * lo k + B k)) with (A k * (up k - lo k)) by ring. field. split; lra.
Qed.
Lemma dimb_units ix1 ix2 x ix : (ix < length orders)%nat ->
  dim_basis orders ncps ix1 ix2 (fun k => to_param (mp lo k) (mp up k) (mp x k)) ix = dim_basis orders ncps ix1 ix2 (fun k => to_param (lo k) (up k) (x k)) ix.
Proof. intros H. unfold dim_basis. rewrite param_units by exact H. reflexivity. Qed.
Lemma rawcol_units i1 i2 x inz : raw_col orders ncps (mp lo) (mp up) i1 i2 (mp x) inz = raw_col orders ncps lo up i1 i2 x inz.
Proof. unfold raw_col, jac_col. apply fold_left_ext_in. intros c ix I. apply in_seq in I. rewrite dimb_units by lia. reflexivity. Qed.
Lemma rawdata_units i1 i2 x inz : (i1 <= length orders)%nat -> (i2 <= length orders)%nat ->
  raw_data orders ncps (mp lo) (mp up) i1 i2 (mp x) inz = raw_data orders ncps lo up i1 i2 x inz / unit_of A i1 / unit_of A i2.
Proof.
  intros H1 H2. unfold raw_data.
  replace (jac_data orders ncps i1 i2 (fun k => to_param (mp lo k) (mp up k) (mp x k)) inz) with (jac_data orders ncps i1 i2 (fun k => to_param (lo k) (up k) (x k)) inz)
    by (unfold jac_data; apply fold_left_ext_in; intros c ix I; apply in_seq in I; rewrite dimb_units by lia; reflexivity).
  set (d := jac_data _ _ _ _ _ _).
  assert (W : forall k, (k < length orders)%nat -> mp up k - mp lo k = A k * (up k - lo k)) by (intros; unfold mp; ring).
  assert (P : forall k, (k < length orders)%nat -> 0 < A k /\ 0 < up k - lo k) by (intros k Hk; pose proof (HA k Hk); pose proof (Hb k Hk); split; lra).
  destruct i1 as [|k1], i2 as [|k2]; cbn [unit_of].
  - field.
  - rewrite W by lia. destruct (P k2); [lia|]. field. split; lra.
  - rewrite W by lia. destruct (P k1); [lia|]. field. split; lra.
  - rewrite !W by lia. destruct (P k1); [lia|]. destruct (P k2); [lia|]. field. repeat split; lra.
Qed.
Lemma rmtb_pred_units ext coef x : rmtb_value orders ncps (mp lo) (mp up) ext coef (mp x) = rmtb_value orders ncps lo up ext coef x /\
  forall kx, (kx < length orders)%nat -> rmtb_derivative orders ncps (mp lo) (mp up) ext coef kx (mp x) = rmtb_derivative orders ncps lo up ext coef kx x / A kx.
Proof.
  unfold rmtb_value, rmtb_derivative. split; [|intros kx Hk].
  - unfold mp at 1 2 5. rewrite (predict_units A B lo up (length orders) (prodl orders) (raw_data orders ncps lo up) (raw_data orders ncps (mp lo) (mp up)) (raw_col orders ncps lo up) (raw_col orders ncps (mp lo) (mp up)) x HA).
    + cbn. field.
    + intros. apply rawdata_units; assumption.
    + intros. apply rawcol_units.
    + lia.
  - unfold mp at 1 2 5. rewrite (predict_units A B lo up (length orders) (prodl orders) (raw_data orders ncps lo up) (raw_data orders ncps (mp lo) (mp up)) (raw_col orders ncps lo up) (raw_col orders ncps (mp lo) (mp up)) x HA).
    + reflexivity.
    + intros. apply rawdata_units; assumption.
    + intros. apply rawcol_units.
    + lia.
Qed.
Lemma rmtb_jac_units kx xt : (kx <= length orders)%nat -> rmtb_jac orders ncps (mp lo) (mp up) kx (fun t => mp (xt t)) = fun t j => rmtb_jac orders ncps lo up kx xt t j / unit_of A kx.
Proof.
  intros Hk. apply functional_extensionality. intros t. apply functional_extensionality. intros j. unfold rmtb_jac, scatter. unfold Rdiv at 1. rewrite <- rsum_scal_r. apply rsum_ext. intros inz _.
  rewrite rawcol_units, rawdata_units by lia. destruct (Z.eqb _ _); [|ring]. cbn [unit_of]. field. 
  destruct kx as [|k]; cbn; [lra|]. pose proof (HA k ltac:(lia)). lra.
Qed.
End B.

Section Energy.
Variables (nelems : list nat) (A B lo up sm : nat -> R).
Let nx := length nelems.
Hypothesis HA : forall k, (k < nx)%nat -> 0 < A k.
Hypothesis Hb : forall k, (k < nx)%nat -> lo k < up k.
Hypothesis He : forall k, (k < nx)%nat -> (0 < nth k nelems 0)%nat.
Let mp (v : nat -> R) : nat -> R := fun k => A k * v k + B k.
Lemma volf_units : vol_fraction nelems (fun k => mp up k - mp lo k) = vol_fraction nelems (fun k => up k - lo k).
Proof.
  unfold vol_fraction. fold nx.
  rewrite (rprod_ext nx (fun k => (mp up k - mp lo k) / INR (2 * nth k nelems 0%nat)) (fun k => A k * ((up k - lo k) / INR (2 * nth k nelems 0%nat)))) by (intros; unfold mp, Rdiv; ring).
  rewrite (rprod_ext nx (fun k => mp up k - mp lo k) (fun k => A k * (up k - lo k))) by (intros; unfold mp; ring).
  rewrite !rprod_mult. field. split; apply Rgt_not_eq, rprod_pos; [intros k Hk; pose proof (Hb k Hk); lra|exact HA].
Qed.
Lemma energy_units nq (D D' : nat -> mat) (sm' : nat -> R) : (forall kx i j, (kx < nx)%nat -> sq_mtx nq D' (fun k => mp up k - mp lo k) kx i j = sq_mtx nq D (fun k => up k - lo k) kx i j) ->
  energy_hess nx nq D' (fun k => mp up k - mp lo k) sm' (vol_fraction nelems (fun k => mp up k - mp lo k)) =
  energy_hess nx nq D (fun k => up k - lo k) (fun k => sm' k / A k ^ 4) (vol_fraction nelems (fun k => up k - lo k)).
Proof.
  intros E. apply functional_extensionality. intros i. apply functional_extensionality. intros j. unfold energy_hess. apply rsum_ext. intros kx Hk.
  rewrite E by exact Hk. rewrite volf_units. set (q := sq_mtx _ _ _ _ _ _). set (v := vol_fraction _ _).
  replace (mp up kx - mp lo kx) with (A kx * (up kx - lo kx)) by (unfold mp; ring). pose proof (HA kx Hk). pose proof (Hb kx Hk). field. split; lra.
Qed.
Lemma mp_lt : forall k, (k < nx)%nat -> mp lo k < mp up k.
Proof. intros k Hk. unfold mp. pose proof (HA k Hk). pose proof (Hb k Hk). nra. Qed.
Lemma rmtb_energy_units orders ncps sm' : length orders = nx ->
  energy_hess nx (nquad nelems) (rmtb_energy_row orders ncps nelems (mp lo) (mp up)) (fun k => mp up k - mp lo k) sm' (vol_fraction nelems (fun k => mp up k - mp lo k)) =
  energy_hess nx (nquad nelems) (rmtb_energy_row orders ncps nelems lo up) (fun k => up k - lo k) (fun k => sm' k / A k ^ 4) (vol_fraction nelems (fun k => up k - lo k)).
Proof. intros L. apply energy_units. intros kx i j Hk. apply rmtb_cache; rewrite ?L; [exact mp_lt|exact Hb|exact Hk]. Qed.
Lemma rmtc_energy_units nc M sm' :
  energy_hess nx (nquad nelems) (fun k => mm nc (rmtc_energy_row nelems (mp lo) (mp up) k) M) (fun k => mp up k - mp lo k) sm' (vol_fraction nelems (fun k => mp up k - mp lo k)) =
  energy_hess nx (nquad nelems) (fun k => mm nc (rmtc_energy_row nelems lo up k) M) (fun k => up k - lo k) (fun k => sm' k / A k ^ 4) (vol_fraction nelems (fun k => up k - lo k)).
Proof. apply energy_units. intros kx i j Hk. apply rmtc_cache; [exact He|exact mp_lt|exact Hb|exact Hk]. Qed.
End Energy.

Section C.
Variables (nelems : list nat) (A B lo up : nat -> R).
Let nx := length nelems.
Hypothesis HA : forall k, (k < nx)%nat -> 0 < A k.
Hypothesis Hb : forall k, (k < nx)%nat -> lo k < up k.
Hypothesis He : forall k, (k < nx)%nat -> (0 < nth k nelems 0)%nat.
Let mp (v : nat -> R) : nat -> R := fun k => A k * v k + B k.
Lemma loc_units x k : (k < nx)%nat -> loc nelems (mp lo) (mp up) (mp x) k = loc nelems lo up x k.
Proof.
  intros Hk. unfold loc. pose proof (HA k Hk) as P. pose proof (Hb k Hk) as Q.
  assert (L : mp lo k < mp up k) by (apply (mp_lt nelems A B lo up HA Hb); exact Hk).
  set (f := (x k - lo k) / (up k - lo k)).
  replace (mp x k) with (mp lo k + f * (mp up k - mp lo k)) by (unfold mp, f; field; lra).
  replace (x k) with (lo k + f * (up k - lo k)) by (unfold f; field; lra).
  rewrite !fi_scale by (exact L || exact Q || apply He; exact Hk). reflexivity.
Qed.
Definition ufac (i ix : nat) : R := if Nat.eqb (S ix) i then A ix else 1.
Lemma mono_units i1 i2 x k p : (k < nx)%nat -> mono_factor nelems (mp lo) (mp up) i1 i2 (mp x) k p = mono_factor nelems lo up i1 i2 x k p * (/ ufac i1 k * / ufac i2 k).
Proof.
  intros Hk. unfold mono_factor, ufac. rewrite loc_units by exact Hk. set (s := snd _).
  assert (X : dxb_dx nelems (mp lo) (mp up) k = dxb_dx nelems lo up k * / A k).
  { unfold dxb_dx. replace (mp up k - mp lo k) with (A k * (up k - lo k)) by (unfold mp; ring). pose proof (HA k Hk). pose proof (Hb k Hk).
    assert (0 < INR (nth k nelems 0%nat)) by (apply lt_0_INR; apply He; exact Hk). field. repeat split; lra. }
  rewrite X. pose proof (HA k Hk). destruct (Nat.eqb (S k) i1), (Nat.eqb (S k) i2); cbn [negb andb]; destruct (Nat.leb 2 p), (Nat.leb 1 p); field; lra.
Qed.
Lemma ufac_prod i : (i <= nx)%nat -> rprod nx (fun k => / ufac i k) = / unit_of A i.
Proof.
  intros H. destruct i as [|k]; cbn [unit_of].
  - rewrite rprod_one; [field|]. intros. unfold ufac. cbn. field.
  - rewrite (rprod_split nx _ k) by lia. rewrite rprod_one.
    + unfold ufac. rewrite Nat.eqb_refl. ring.
    + intros j _. unfold ufac. destruct (Nat.eqb_spec j k) as [|N]; [reflexivity|]. destruct (Nat.eqb_spec (S j) (S k)); [lia|]. field.
Qed.
Lemma rmtc_data_units i1 i2 x t : (i1 <= nx)%nat -> (i2 <= nx)%nat ->
  rmtc_data nelems (mp lo) (mp up) i1 i2 (mp x) t = rmtc_data nelems lo up i1 i2 x t / unit_of A i1 / unit_of A i2.
Proof.
  intros H1 H2. unfold rmtc_data. rewrite !(fold_rprod (length nelems)). fold nx.
  rewrite (rprod_ext nx (fun ix => mono_factor nelems (mp lo) (mp up) i1 i2 (mp x) ix (nth ix (expand_index (nterms nelems) t) 0%nat))
     (fun ix => mono_factor nelems lo up i1 i2 x ix (nth ix (expand_index (nterms nelems) t) 0%nat) * (/ ufac i1 ix * / ufac i2 ix))) by (intros; apply mono_units; assumption).
  rewrite rprod_mult, rprod_mult. rewrite !ufac_prod by assumption. unfold Rdiv. ring.
Qed.
Lemma rmtc_col_units i1 i2 x t : rmtc_col nelems (mp lo) (mp up) i1 i2 (mp x) t = rmtc_col nelems lo up i1 i2 x t.
Proof.
  unfold rmtc_col, elem_list. f_equal. f_equal. f_equal. f_equal. apply map_ext_in. intros k I. apply in_seq in I. rewrite loc_units by (unfold nx; lia). reflexivity.
Qed.
Lemma rmtc_pred_units ext inv dof x : rmtc_value nelems (mp lo) (mp up) ext inv dof (mp x) = rmtc_value nelems lo up ext inv dof x /\
  forall kx, (kx < nx)%nat -> rmtc_derivative nelems (mp lo) (mp up) ext inv dof kx (mp x) = rmtc_derivative nelems lo up ext inv dof kx x / A kx.
Proof.
  unfold rmtc_value, rmtc_derivative. fold nx. split; [|intros kx Hk].
  - unfold mp at 1 2 5. rewrite (predict_units A B lo up nx (nterm nelems) (rmtc_data nelems lo up) (rmtc_data nelems (mp lo) (mp up)) (rmtc_col nelems lo up) (rmtc_col nelems (mp lo) (mp up)) x HA).
    + cbn. field.
    + intros. apply rmtc_data_units; assumption.
    + intros. apply rmtc_col_units.
    + lia.
  - unfold mp at 1 2 5. rewrite (predict_units A B lo up nx (nterm nelems) (rmtc_data nelems lo up) (rmtc_data nelems (mp lo) (mp up)) (rmtc_col nelems lo up) (rmtc_col nelems (mp lo) (mp up)) x HA).
    + reflexivity.
    + intros. apply rmtc_data_units; assumption.
    + intros. apply rmtc_col_units.
    + lia.
Qed.
Lemma rmtc_jac_units inv kx xt : (kx <= nx)%nat -> rmtc_jac nelems (mp lo) (mp up) inv kx (fun t => mp (xt t)) = fun t j => rmtc_jac nelems lo up inv kx xt t j / unit_of A kx.
Proof.
  intros Hk. apply functional_extensionality. intros t. apply functional_extensionality. intros j. unfold rmtc_jac, mm. unfold Rdiv at 1. rewrite <- rsum_scal_r. apply rsum_ext. intros c _.
  replace (scatter (nterm nelems) (rmtc_data nelems (mp lo) (mp up) kx 0 (mp (xt t))) (rmtc_col nelems (mp lo) (mp up) kx 0 (mp (xt t))) c) with
    (scatter (nterm nelems) (rmtc_data nelems lo up kx 0 (xt t)) (rmtc_col nelems lo up kx 0 (xt t)) c * / unit_of A kx); [ring|].
  unfold scatter. rewrite <- rsum_scal_r. apply rsum_ext. intros z _. rewrite rmtc_col_units, rmtc_data_units by lia. destruct (Z.eqb _ _); [|ring]. cbn [unit_of]. field.
  destruct kx as [|k]; cbn; [lra|]. pose proof (HA k ltac:(unfold nx in *; lia)). lra.
Qed.
End C.
