From Coq Require Import Reals ZArith Arith Bool List Lia Lra.
From Verif Require Import RSum Mat Index_M Rmtb_M Rmtb_P2 Rmtc_M RmtsTrain_M.
Import ListNotations.
Open Scope list_scope.
Open Scope R_scope.

Lemma fold_rprod n (f : nat -> R) : fold_left (fun d ix => d * f ix) (seq 0 n) 1 = rprod n f.
Proof. induction n as [|n IH]; [reflexivity|]. rewrite seq_S, fold_left_app, IH. reflexivity. Qed.
Lemma quad_param lo up n i : lo < up -> (quad_coord lo up n i - lo) / (up - lo) = (1 + 2 * INR i) / 2 / INR n.
Proof. intros H. unfold quad_coord. set (f := (1 + 2 * INR i) / 2 / INR n). replace (lo + f * (up - lo) - lo) with (f * (up - lo)) by ring. field. lra. Qed.

Section B.
Variables (orders ncps nelems : list nat) (lo up lo' up' : nat -> R).
Hypothesis Hb : forall k, (k < length orders)%nat -> lo k < up k.
Hypothesis Hb' : forall k, (k < length orders)%nat -> lo' k < up' k.
Let q2 := map (fun m => 2 * m)%nat nelems.
Let x (q : nat) := quad_point lo up q2 q.
Let x' (q : nat) := quad_point lo' up' q2 q.
Lemma param_same q k : (k < length orders)%nat -> to_param (lo k) (up k) (x q k) = to_param (lo' k) (up' k) (x' q k).
Proof. intros Hk. unfold to_param, x, x', quad_point. rewrite !quad_param by auto. reflexivity. Qed.
Lemma basis_same ix1 ix2 q ix : (ix < length orders)%nat ->
  dim_basis orders ncps ix1 ix2 (fun k => to_param (lo k) (up k) (x q k)) ix = dim_basis orders ncps ix1 ix2 (fun k => to_param (lo' k) (up' k) (x' q k)) ix.
Proof. intros H. unfold dim_basis. rewrite param_same by exact H. reflexivity. Qed.
Lemma rmtb_row_scaled kx q j : (kx < length orders)%nat ->
  rmtb_energy_row orders ncps nelems lo up kx q j * (up kx - lo kx) ^ 2 = rmtb_energy_row orders ncps nelems lo' up' kx q j * (up' kx - lo' kx) ^ 2.
Proof.
  intros Hk. unfold rmtb_energy_row, scatter. rewrite <- !rsum_scal_r. apply rsum_ext. intros inz _.
  fold q2. fold (x q) (x' q). unfold raw_col, raw_data, jac_col, jac_data.
  rewrite (fold_left_ext_in (fun c ix => (c + (Z.of_nat (inz_dim orders ix inz) + fst (dim_basis orders ncps (S kx) (S kx) (fun k => to_param (lo k) (up k) (x q k)) ix)) * Z.of_nat (prodl (skipn (S ix) ncps)))%Z)
     (fun c ix => (c + (Z.of_nat (inz_dim orders ix inz) + fst (dim_basis orders ncps (S kx) (S kx) (fun k => to_param (lo' k) (up' k) (x' q k)) ix)) * Z.of_nat (prodl (skipn (S ix) ncps)))%Z))
    by (intros a b I; apply in_seq in I; rewrite basis_same by lia; reflexivity).
  rewrite (fold_left_ext_in (fun d ix => d * snd (dim_basis orders ncps (S kx) (S kx) (fun k => to_param (lo k) (up k) (x q k)) ix) (inz_dim orders ix inz))
     (fun d ix => d * snd (dim_basis orders ncps (S kx) (S kx) (fun k => to_param (lo' k) (up' k) (x' q k)) ix) (inz_dim orders ix inz)))
    by (intros a b I; apply in_seq in I; rewrite basis_same by lia; reflexivity).
  destruct (Z.eqb _ _); [|ring].
  set (d := fold_left _ _ 1). pose proof (Hb kx Hk). pose proof (Hb' kx Hk). field. split; lra.
Qed.
End B.

Lemma sq_mtx_scaled nq (D D' : nat -> mat) (w w' : nat -> R) kx i j :
  (forall q j, D kx q j * w kx ^ 2 = D' kx q j * w' kx ^ 2) -> sq_mtx nq D w kx i j = sq_mtx nq D' w' kx i j.
Proof.
  intros E. unfold sq_mtx, mm, tr. rewrite <- !rsum_scal_r. apply rsum_ext. intros q _.
  replace (D kx q i * D kx q j * w kx ^ 4) with ((D kx q i * w kx ^ 2) * (D kx q j * w kx ^ 2)) by ring. rewrite !E. ring.
Qed.

Lemma fi_scale a b num f : a < b -> (0 < num)%nat -> find_interval a b num (a + f * (b - a)) = find_interval 0 1 num f.
Proof.
  intros H Hn. assert (N : 0 < INR num) by (apply lt_0_INR; exact Hn). unfold find_interval.
  replace ((a + f * (b - a) - a) / (b - a) * INR num) with ((f - 0) / (1 - 0) * INR num) by (field; lra).
  set (z := Z.min _ _). f_equal. f_equal. f_equal. field. repeat split; try lra; nra.
Qed.
Section C.
Variables (nelems : list nat) (lo up lo' up' : nat -> R).
Hypothesis He : forall k, (k < length nelems)%nat -> (0 < nth k nelems 0)%nat.
Hypothesis Hb : forall k, (k < length nelems)%nat -> lo k < up k.
Hypothesis Hb' : forall k, (k < length nelems)%nat -> lo' k < up' k.
Let q2 := map (fun m => 2 * m)%nat nelems.
Let x (q : nat) := quad_point lo up q2 q.
Let x' (q : nat) := quad_point lo' up' q2 q.
Lemma loc_same q k : (k < length nelems)%nat -> loc nelems lo up (x q) k = loc nelems lo' up' (x' q) k.
Proof. intros Hk. unfold loc, x, x', quad_point, quad_coord. rewrite !fi_scale by auto. reflexivity. Qed.
Lemma mono_same kx q k p : (k < length nelems)%nat -> k <> kx -> mono_factor nelems lo up (S kx) (S kx) (x q) k p = mono_factor nelems lo' up' (S kx) (S kx) (x' q) k p.
Proof. intros Hk N. unfold mono_factor. rewrite loc_same by exact Hk. destruct (Nat.eqb_spec (S k) (S kx)); [lia|]. reflexivity. Qed.
Lemma mono_k kx q p : (kx < length nelems)%nat ->
  mono_factor nelems lo up (S kx) (S kx) (x q) kx p * (up kx - lo kx) ^ 2 = mono_factor nelems lo' up' (S kx) (S kx) (x' q) kx p * (up' kx - lo' kx) ^ 2.
Proof.
  intros Hk. unfold mono_factor. rewrite loc_same by exact Hk. rewrite Nat.eqb_refl. cbn [negb andb].
  destruct (Nat.leb 2 p); [|ring]. set (s := snd _). unfold dxb_dx.
  pose proof (Hb kx Hk). pose proof (Hb' kx Hk). assert (0 < INR (nth kx nelems 0%nat)) by (apply lt_0_INR; apply He; exact Hk).
  field. repeat split; lra.
Qed.
Lemma rmtc_row_scaled kx q j : (kx < length nelems)%nat ->
  rmtc_energy_row nelems lo up kx q j * (up kx - lo kx) ^ 2 = rmtc_energy_row nelems lo' up' kx q j * (up' kx - lo' kx) ^ 2.
Proof.
  intros Hk. unfold rmtc_energy_row, scatter. rewrite <- !rsum_scal_r. apply rsum_ext. intros t _.
  fold q2. fold (x q) (x' q). unfold rmtc_col, elem_list.
  assert (E : map (fun ix => Z.to_nat (fst (loc nelems lo up (x q) ix))) (seq 0 (length nelems)) = map (fun ix => Z.to_nat (fst (loc nelems lo' up' (x' q) ix))) (seq 0 (length nelems))).
  { apply map_ext_in. intros k I. apply in_seq in I. rewrite loc_same by lia. reflexivity. }
  rewrite E. destruct (Z.eqb _ _); [|ring]. unfold rmtc_data.
  rewrite !(fold_rprod (length nelems)).
  rewrite (rprod_split _ (fun ix => mono_factor nelems lo up (S kx) (S kx) (x q) ix (nth ix (expand_index (nterms nelems) t) 0%nat)) kx Hk).
  rewrite (rprod_split _ (fun ix => mono_factor nelems lo' up' (S kx) (S kx) (x' q) ix (nth ix (expand_index (nterms nelems) t) 0%nat)) kx Hk).
  rewrite (rprod_ext _ (fun i => if Nat.eqb i kx then 1 else mono_factor nelems lo up (S kx) (S kx) (x q) i (nth i (expand_index (nterms nelems) t) 0%nat))
     (fun i => if Nat.eqb i kx then 1 else mono_factor nelems lo' up' (S kx) (S kx) (x' q) i (nth i (expand_index (nterms nelems) t) 0%nat))).
  - set (P := rprod _ _). pose proof (mono_k kx q (nth kx (expand_index (nterms nelems) t) 0%nat) Hk) as M.
    match goal with |- ?a * P * ?b = ?c * P * ?d => replace (a * P * b) with (P * (a * b)) by ring; replace (c * P * d) with (P * (c * d)) by ring end.
    rewrite M. reflexivity.
  - intros i Hi. destruct (Nat.eqb_spec i kx) as [|N]; [reflexivity|]. apply mono_same; assumption.
Qed.
End C.
Lemma rmtb_cache orders ncps nelems lo up lo' up' : (forall k, (k < length orders)%nat -> lo k < up k) -> (forall k, (k < length orders)%nat -> lo' k < up' k) ->
  forall nq kx i j, (kx < length orders)%nat ->
  sq_mtx nq (rmtb_energy_row orders ncps nelems lo up) (fun k => up k - lo k) kx i j = sq_mtx nq (rmtb_energy_row orders ncps nelems lo' up') (fun k => up' k - lo' k) kx i j.
Proof. intros B B' nq kx i j Hk. apply sq_mtx_scaled. intros. apply rmtb_row_scaled; assumption. Qed.
Lemma rmtc_cache nelems lo up lo' up' : (forall k, (k < length nelems)%nat -> (0 < nth k nelems 0)%nat) ->
  (forall k, (k < length nelems)%nat -> lo k < up k) -> (forall k, (k < length nelems)%nat -> lo' k < up' k) ->
  forall nc (dof2coeff : mat) nq kx i j, (kx < length nelems)%nat ->
  sq_mtx nq (fun k => mm nc (rmtc_energy_row nelems lo up k) dof2coeff) (fun k => up k - lo k) kx i j =
  sq_mtx nq (fun k => mm nc (rmtc_energy_row nelems lo' up' k) dof2coeff) (fun k => up' k - lo' k) kx i j.
Proof.
  intros E B B' nc M nq kx i j Hk. apply sq_mtx_scaled. intros q c. unfold mm. rewrite <- !rsum_scal_r. apply rsum_ext. intros r _.
  replace (rmtc_energy_row nelems lo up kx q r * M r c * (up kx - lo kx) ^ 2) with (rmtc_energy_row nelems lo up kx q r * (up kx - lo kx) ^ 2 * M r c) by ring.
  rewrite (rmtc_row_scaled nelems lo up lo' up' E B B' kx q r Hk). ring.
Qed.
