From Coq Require Import Reals ZArith Arith Bool List Lia Lra.
From Coquelicot Require Import Coquelicot.
From Verif Require Import RSum Index_M Index_P Rmtb_M Rmtb_P2 Rmtb_P3 Rmtb_P4 Rmtc_M Rmtc_S Rmtc_P.
Import ListNotations.
Open Scope list_scope.
Open Scope R_scope.

Section R.
Variables (nelems : list nat) (lo up : nat -> R).
Let nx := length nelems.
Notation nterms := (Rmtc_M.nterms nelems).
Notation nterm := (Rmtc_M.nterm nelems).
Notation nelem := (Rmtc_M.nelem nelems).

Lemma nterms_length : length nterms = nx.
Proof. apply map_length. Qed.
Lemma nterms_nth k : (k < nx)%nat -> nth k nterms 0%nat = 4%nat.
Proof.
  unfold Rmtc_M.nterms, nx. revert k. induction nelems as [|n l IH]; intros k H; cbn in *; [lia|]. destruct k; [reflexivity|]. apply IH. lia.
Qed.
Lemma term_lt t k : (t < nterm)%nat -> (k < nx)%nat -> (nth k (expand_index nterms t) 0 < 4)%nat.
Proof.
  intros Ht Hk. rewrite <- (nterms_nth k Hk). apply (F2_nth lt); [apply expand_bounds; exact Ht|rewrite nterms_length; exact Hk].
Qed.
Lemma fold_dims (f : nat -> nat -> R) is : length is = nx ->
  fold_left (fun prod ix => prod * f ix (nth ix is 0%nat)) (seq 0 nx) 1 = lprod 0 is f.
Proof.
  intros L. rewrite <- L. rewrite (fold_left_ext_in _ (fun acc ix => acc * f ix (nth (ix - 0) is 0%nat))).
  - rewrite fold_lprod. ring.
  - intros a b _. rewrite Nat.sub_0_r. reflexivity.
Qed.
Definition kron (t l : nat) : R := lprod 0 (expand_index nterms t) (fun ix p => Bc p (nth ix (expand_index nterms l) 0%nat)).
Lemma c2n_lprod i m : coeff2nodal nelems i m = lprod 0 (expand_index nterms m) (fun ix p => c2n_factor (nth ix (expand_index nterms i) 0%nat) p).
Proof. unfold coeff2nodal. apply (fold_dims (fun ix p => c2n_factor (nth ix (expand_index nterms i) 0%nat) p)). rewrite expand_length. apply nterms_length. Qed.
Lemma nth_ext_nat (l l' : list nat) : length l = length l' -> (forall k, (k < length l)%nat -> nth k l 0%nat = nth k l' 0%nat) -> l = l'.
Proof. intros H1 H2. apply (nth_ext l l' 0%nat 0%nat H1 H2). Qed.
Lemma c2n_kron i j : (i < nterm)%nat -> (j < nterm)%nat -> rsum nterm (fun m => coeff2nodal nelems i m * kron m j) = if Nat.eqb i j then 1 else 0.
Proof.
  intros Hi Hj.
  transitivity (msum nterms (fun ms => lprod 0 ms (fun ix p => c2n_factor (nth ix (expand_index nterms i) 0%nat) p * Bc p (nth ix (expand_index nterms j) 0%nat)))).
  { rewrite <- msum_expand. apply rsum_ext. intros m Hm. rewrite c2n_lprod. unfold kron. rewrite lprod_mult. reflexivity. }
  rewrite msum_lprod.
  rewrite (sprod_delta (fun ix => nth ix (expand_index nterms i) 0%nat) (fun ix => nth ix (expand_index nterms j) 0%nat)).
  - cbn [Nat.add]. destruct (Nat.eqb_spec i j) as [-> |N].
    + assert (T : forallb (fun k => Nat.eqb (nth k (expand_index nterms j) 0%nat) (nth k (expand_index nterms j) 0%nat)) (seq 0 (length nterms)) = true).
      { apply forallb_forall. intros k _. apply Nat.eqb_refl. }
      rewrite T. reflexivity.
    + destruct (forallb _ _) eqn:T; [|reflexivity]. exfalso. apply N. rewrite forallb_forall in T.
      rewrite <- (contract_expand nterms i Hi), <- (contract_expand nterms j Hj). f_equal.
      apply nth_ext_nat; [rewrite !expand_length; reflexivity|]. intros k Hk. rewrite expand_length in Hk.
      apply Nat.eqb_eq. apply T. apply in_seq. lia.
  - intros k Hk. cbn [Nat.add]. rewrite nterms_length in Hk. rewrite nterms_nth by exact Hk. apply A4; apply term_lt; assumption.
Qed.
Lemma inv_kron inv : (forall i j, (i < nterm)%nat -> (j < nterm)%nat -> rsum nterm (fun k => inv i k * coeff2nodal nelems k j) = if Nat.eqb i j then 1 else 0) ->
  forall i j, (i < nterm)%nat -> (j < nterm)%nat -> inv i j = kron i j.
Proof.
  intros H i j Hi Hj.
  transitivity (rsum nterm (fun m => inv i m * rsum nterm (fun k => coeff2nodal nelems m k * kron k j))).
  - rewrite (rsum_ext nterm _ (fun m => if Nat.eqb m j then inv i m else 0)).
    + symmetry. apply (rsum_single nterm (fun m => inv i m) j Hj).
    + intros m Hm. rewrite c2n_kron by assumption. destruct (Nat.eqb m j); ring.
  - transitivity (rsum nterm (fun k => rsum nterm (fun m => inv i m * coeff2nodal nelems m k) * kron k j)).
    + rewrite (rsum_ext nterm _ (fun m => rsum nterm (fun k => inv i m * coeff2nodal nelems m k * kron k j))).
      * rewrite rsum_swap. apply rsum_ext. intros k Hk. rewrite <- rsum_scal_r. reflexivity.
      * intros m Hm. rewrite <- rsum_scal_l. apply rsum_ext. intros; ring.
    + rewrite (rsum_ext nterm _ (fun k => if Nat.eqb k i then kron k j else 0)).
      * apply (rsum_single nterm (fun k => kron k j) i Hi).
      * intros k Hk. rewrite H by assumption. rewrite (Nat.eqb_sym i k). destruct (Nat.eqb k i); ring.
Qed.

Lemma block_sum (g : nat -> nat -> R) e t : (e < nelem)%nat -> (t < nterm)%nat ->
  rsum nelem (fun e' => rsum nterm (fun t' => if Nat.eqb (e' * nterm + t') (e * nterm + t) then g e' t' else 0)) = g e t.
Proof.
  intros He Ht.
  rewrite (rsum_ext nelem _ (fun e' => if Nat.eqb e' e then g e' t else 0)).
  - apply (rsum_single nelem (fun e' => g e' t) e He).
  - intros e' He'. destruct (Nat.eqb_spec e' e) as [-> |N].
    + rewrite (rsum_ext nterm _ (fun t' => if Nat.eqb t' t then g e t' else 0)).
      * apply (rsum_single nterm (fun t' => g e t') t Ht).
      * intros t' _. destruct (Nat.eqb_spec (e * nterm + t') (e * nterm + t)); destruct (Nat.eqb_spec t' t); try reflexivity; lia.
    + apply rsum_zero. intros t' Ht'. destruct (Nat.eqb_spec (e' * nterm + t') (e * nterm + t)) as [E|_]; [|reflexivity].
      exfalso. apply N. nia.
Qed.
Lemma dof2coeff_eq inv dof e t : (e < nelem)%nat -> (t < nterm)%nat ->
  dof2coeff nelems inv dof (e * nterm + t) = rsum nterm (fun t2 => inv t t2 * dof (uniq_col nelems e t2)).
Proof.
  intros He Ht. unfold dof2coeff, full_from_block_mul.
  transitivity (rsum nelem (fun e' => rsum nterm (fun t1 => if Nat.eqb (e' * nterm + t1) (e * nterm + t)
     then rsum nterm (fun t2 => inv t1 t2 * uniq2elem_mul nelems dof (e' * nterm + t2)) else 0))).
  { apply rsum_ext. intros e' _. apply rsum_ext. intros t1 _. destruct (Nat.eqb _ _); [reflexivity|]. apply rsum_0. }
  rewrite (block_sum (fun e' t1 => rsum nterm (fun t2 => inv t1 t2 * uniq2elem_mul nelems dof (e' * nterm + t2)))) by assumption.
  apply rsum_ext. intros t2 Ht2. f_equal. unfold uniq2elem_mul.
  rewrite (block_sum (fun e t => 1 * dof (uniq_col nelems e t))) by assumption. ring.
Qed.

Hypothesis Hbox : forall k, (k < nx)%nat -> lo k < up k.
Hypothesis Hel : forall k, (k < nx)%nat -> (0 < nth k nelems 0)%nat.
Notation E x := (elem_list nelems lo up x).
Lemma E_length x : length (E x) = nx.
Proof. unfold elem_list. rewrite map_length, seq_length. reflexivity. Qed.
Lemma E_nth x k : (k < nx)%nat -> nth k (E x) 0%nat = Z.to_nat (fst (loc nelems lo up x k)).
Proof.
  intros H. unfold elem_list. set (f := fun ix => Z.to_nat (fst (loc nelems lo up x ix))).
  rewrite (nth_indep _ 0%nat (f 0%nat)) by (rewrite map_length, seq_length; exact H). rewrite map_nth, seq_nth by exact H. reflexivity.
Qed.
Lemma loc_range x k : (k < nx)%nat -> (0 <= fst (loc nelems lo up x k) < Z.of_nat (nth k nelems 0%nat))%Z /\ -1 <= snd (loc nelems lo up x k) <= 1.
Proof. intros H. apply fi_range; [apply Hbox; exact H|apply Hel; exact H]. Qed.
Lemma F2_intro (P : nat -> nat -> Prop) : forall l l', length l = length l' -> (forall k, (k < length l)%nat -> P (nth k l 0%nat) (nth k l' 0%nat)) -> Forall2 P l l'.
Proof.
  induction l as [|a l IH]; intros [|b l'] L H; cbn in L; try discriminate; constructor.
  - apply (H 0%nat). cbn. lia.
  - apply IH; [lia|]. intros k Hk. apply (H (S k)). cbn. lia.
Qed.
Lemma E_bounds x : Forall2 lt (E x) nelems.
Proof.
  apply F2_intro; [apply E_length|]. intros k Hk. rewrite E_length in Hk. rewrite E_nth by exact Hk.
  pose proof (loc_range x k Hk) as (A & _). lia.
Qed.
Lemma elem_lt x : (contract_index nelems (E x) < nelem)%nat.
Proof. apply contract_lt. apply E_bounds. Qed.

Variables (inv : nat -> nat -> R) (dof : nat -> R).
Hypothesis Hinv : forall i j, (i < nterm)%nat -> (j < nterm)%nat -> rsum nterm (fun k => inv i k * coeff2nodal nelems k j) = if Nat.eqb i j then 1 else 0.
Definition hfac (ix1 ix2 : nat) (x : nat -> R) (ix l : nat) : R := rsum 4 (fun p => mono_factor nelems lo up ix1 ix2 x ix p * Bc p l).
Notation U := (rawsum nterm (rmtc_data nelems lo up) (rmtc_col nelems lo up) (fun z => dof2coeff nelems inv dof (Z.to_nat z))).
Lemma U_eq ix1 ix2 x : U ix1 ix2 x = msum nterms (fun ls => lprod 0 ls (hfac ix1 ix2 x) * dof (uniq_col_l nelems (E x) ls)).
Proof.
  unfold rawsum.
  transitivity (rsum nterm (fun t => rsum nterm (fun l => rmtc_data nelems lo up ix1 ix2 x t * kron t l * dof (uniq_col nelems (contract_index nelems (E x)) l)))).
  { apply rsum_ext. intros t Ht. unfold rmtc_col. rewrite Nat2Z.id, dof2coeff_eq by (try exact Ht; apply elem_lt).
    rewrite <- rsum_scal_l. apply rsum_ext. intros l Hl. rewrite (inv_kron inv Hinv) by assumption. ring. }
  rewrite rsum_swap.
  change nterm with (prodl nterms) at 1.
  rewrite <- (msum_expand nterms (fun ls => lprod 0 ls (hfac ix1 ix2 x) * dof (uniq_col_l nelems (E x) ls))).
  apply rsum_ext. intros l Hl. rewrite rsum_scal_r. unfold uniq_col. rewrite (expand_contract nelems (E x) (E_bounds x)). f_equal.
  transitivity (msum nterms (fun ts => lprod 0 ts (fun ix p => mono_factor nelems lo up ix1 ix2 x ix p * Bc p (nth ix (expand_index nterms l) 0%nat)))).
  { rewrite <- msum_expand. apply rsum_ext. intros t Ht. unfold rmtc_data, kron. rewrite lprod_mult. f_equal.
    apply (fold_dims (mono_factor nelems lo up ix1 ix2 x)). rewrite expand_length. apply nterms_length. }
  rewrite msum_lprod.
  assert (G : forall ts d is, (forall k, (k < length is)%nat -> nth k ts 0%nat = 4%nat) -> length ts = length is ->
     sprod d ts (fun ix p => mono_factor nelems lo up ix1 ix2 x ix p * Bc p (nth (ix - d) is 0%nat)) = lprod d is (hfac ix1 ix2 x)).
  { induction ts as [|a ts IH]; intros d [|i is] H4 L; cbn in L; try discriminate; [reflexivity|]. cbn [sprod lprod].
    rewrite Nat.sub_diag. cbn [nth]. pose proof (H4 0%nat ltac:(cbn; lia)) as Ha. cbn in Ha. subst a. f_equal.
    rewrite <- (IH (S d) is); [|intros k Hk; apply (H4 (S k)); cbn; lia|lia].
    clear. assert (X : forall ts e (f g : nat -> nat -> R), (forall ix p, (e <= ix)%nat -> f ix p = g ix p) -> sprod e ts f = sprod e ts g).
    { induction ts0 as [|b ts0 IH]; intros e f g H; cbn; [reflexivity|]. f_equal; [apply rsum_ext; intros; apply H; lia|]. apply IH. intros; apply H; lia. }
    apply X. intros ix p Hx. f_equal. f_equal. replace (ix - d)%nat with (S (ix - S d)) by lia. reflexivity. }
  rewrite <- (G nterms 0%nat (expand_index nterms l)).
  - assert (X : forall ts e (f g : nat -> nat -> R), (forall ix p, f ix p = g ix p) -> sprod e ts f = sprod e ts g).
    { induction ts as [|b ts IH]; intros e f g H; cbn; [reflexivity|]. f_equal; [apply rsum_ext; intros; apply H; lia|]. apply IH. intros; apply H; lia. }
    apply X. intros ix p. rewrite Nat.sub_0_r. reflexivity.
  - intros k Hk. rewrite expand_length in Hk. apply nterms_nth. rewrite <- nterms_length. exact Hk.
  - symmetry. apply expand_length.
Qed.
(** the local factors *)
Lemma hfac_0 ix1 ix2 x ix l : S ix <> ix1 -> S ix <> ix2 -> (l < 4)%nat -> hfac ix1 ix2 x ix l = herm l (snd (loc nelems lo up x ix)).
Proof.
  intros H1 H2 Hl. unfold hfac, mono_factor. destruct (Nat.eqb_spec (S ix) ix1); [contradiction|]. destruct (Nat.eqb_spec (S ix) ix2); [contradiction|].
  set (s := snd _). unfold Bc. four l Hl; cbn; lra.
Qed.
Lemma hfac_1 ix1 ix2 x ix l : (S ix = ix1 /\ S ix <> ix2) \/ (S ix <> ix1 /\ S ix = ix2) -> (l < 4)%nat ->
  hfac ix1 ix2 x ix l = dherm l (snd (loc nelems lo up x ix)) * dxb_dx nelems lo up ix.
Proof.
  intros H Hl. unfold hfac, mono_factor. 
  assert (B : negb (Nat.eqb (S ix) ix1) && negb (Nat.eqb (S ix) ix2) = false /\ Nat.eqb (S ix) ix1 && Nat.eqb (S ix) ix2 = false).
  { destruct (Nat.eqb_spec (S ix) ix1); destruct (Nat.eqb_spec (S ix) ix2); cbn; try tauto; lia. }
  destruct B as (-> & ->). set (s := snd _). unfold Bc. four l Hl; cbn; lra.
Qed.
Lemma hfac_2 x ix l : (l < 4)%nat -> hfac (S ix) (S ix) x ix l = d2herm l (snd (loc nelems lo up x ix)) * (dxb_dx nelems lo up ix * dxb_dx nelems lo up ix).
Proof.
  intros Hl. unfold hfac, mono_factor. rewrite !Nat.eqb_refl. cbn [negb andb]. set (s := snd _). unfold Bc. four l Hl; cbn; lra.
Qed.
End R.
