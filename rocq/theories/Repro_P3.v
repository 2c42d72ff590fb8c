From Coq Require Import Reals ZArith Arith Bool List Lia Lra FunctionalExtensionality.
From Coquelicot Require Import Coquelicot.
From Verif Require Import RSum Index_M Index_P Rmtb_M Rmtb_P2 Rmtb_P3 Rmtc_M Rmtc_S Rmtc_P Rmtc_P2 Rmtc_P3 Rmtc_P4 Rmtc_P5 Repro_S Repro_P2.
Import ListNotations.
Open Scope list_scope.
Open Scope R_scope.

Section M.
Variables (nx : nat) (f : pt -> R) (h : nat -> R).
Hypothesis Hf : multi_affine nx f.
Lemma ms_aff : forall flags d x k z, (k < nx)%nat -> (k < d)%nat ->
  (1 - z) * mixed_slope d flags h f (upd x k 0) + z * mixed_slope d flags h f (upd x k 1) = mixed_slope d flags h f (upd x k z).
Proof.
  induction flags as [|g r IH]; intros d x k z Hk L; cbn [mixed_slope].
  - apply (aff nx f Hf). exact Hk.
  - destruct (Nat.eqb g 0).
    + apply IH; lia.
    + rewrite !(upd_comm x k d) by lia. rewrite <- !(IH (S d) _ k z Hk) by lia. ring.
Qed.
Lemma ms_ext : forall flags d x y, (forall k, (k < nx)%nat -> x k = y k) -> mixed_slope d flags h f x = mixed_slope d flags h f y.
Proof.
  induction flags as [|g r IH]; intros d x y E; cbn [mixed_slope].
  - apply (f_ext nx f Hf). exact E.
  - destruct (Nat.eqb g 0); [apply IH; exact E|].
    f_equal. f_equal; apply IH; intros k Hk; unfold upd; destruct (Nat.eqb k d); auto.
Qed.
Lemma Phi_ms (V : nat -> nat -> R) : forall ls d x, (d + length ls <= nx)%nat ->
  Phi (fun _ l => if Nat.eqb (derv_map l) 0 then 1 else 0) (fun k l => if Nat.eqb (derv_map l) 0 then V k l else h k) d ls f x
  = mixed_slope d (map derv_map ls) h f (subst_pt V d ls x).
Proof.
  induction ls as [|l r IH]; intros d x L; cbn [Phi map mixed_slope length] in *.
  - f_equal. apply functional_extensionality. intros k. unfold subst_pt. cbn [length]. destruct (Nat.leb_spec d k), (Nat.ltb_spec k (d + 0)); try reflexivity; lia.
  - rewrite !IH by lia. rewrite !(subst_cons_f V d l r). destruct (Nat.eqb (derv_map l) 0).
    + rewrite ms_aff by lia. rewrite subst_head. reflexivity.
    + ring.
Qed.
End M.

Section R.
Variables (nelems : list nat) (lo up : nat -> R) (inv : nat -> nat -> R) (f : pt -> R).
Let nx := length nelems.
Notation nterms := (Rmtc_M.nterms nelems).
Notation nterm := (Rmtc_M.nterm nelems).
Hypothesis Hbox : forall k, (k < nx)%nat -> lo k < up k.
Hypothesis Hel : forall k, (k < nx)%nat -> (0 < nth k nelems 0)%nat.
Hypothesis Hinv : forall i j, (i < nterm)%nat -> (j < nterm)%nat -> rsum nterm (fun k => inv i k * coeff2nodal nelems k j) = if Nat.eqb i j then 1 else 0.
Hypothesis Hf : multi_affine nx f.
Notation E x := (elem_list nelems lo up x).
Let dof := vertex_values nelems lo up f.
Let hw (k : nat) : R := (up k - lo k) / INR (nth k nelems 0%nat) / 2.
Let V (x : pt) (k l : nat) : R := lo k + (up k - lo k) * (INR (nth k (E x) 0 + side_map l)%nat / INR (nth k nelems 0%nat)).
Let B (x : pt) (k l : nat) : R := if Nat.eqb (derv_map l) 0 then V x k l else hw k.
Lemma dof_Phi x ls y : Forall2 lt ls nterms -> 
  dof (uniq_col_l nelems (E x) ls) = Phi (fun _ l => if Nat.eqb (derv_map l) 0 then 1 else 0) (B x) 0 ls f y.
Proof.
  intros H. pose proof (F2_length _ _ _ H) as L. rewrite nterms_length in L. fold nx in L.
  unfold B. rewrite (Phi_ms nx f hw Hf) by lia. unfold dof, vertex_values, uniq_col_l. fold (verts (E x) ls).
  pose proof (verts_lt nelems (E x) ls (E_bounds nelems lo up Hbox Hel x) L) as Hv.
  pose proof (contract_lt _ _ Hv) as Lv. pose proof (derv_lt ls) as Hd. rewrite <- (ndofs_map nelems ls L) in Hd.
  change (prodl (map Datatypes.S nelems)) with (nuniq nelems). fold (nuniq nelems) in Lv.
  set (a := contract_index (ndofs_list nelems) (map derv_map ls)). set (b := contract_index (nuniqs nelems) (verts (E x) ls)) in *.
  assert (((a * nuniq nelems + b) / nuniq nelems)%nat = a /\ ((a * nuniq nelems + b) mod nuniq nelems)%nat = b) as (-> & ->).
  { split; [rewrite Nat.div_add_l by lia; rewrite Nat.div_small by lia; lia|]. rewrite Nat.add_comm, Nat.mod_add by lia. apply Nat.mod_small. lia. }
  unfold a, b. change (map (fun _ => 2%nat) nelems) with (ndofs_list nelems). change (map Datatypes.S nelems) with (nuniqs nelems).
  rewrite !expand_contract by assumption. 
  apply (ms_ext nx f _ Hf). intros k Hk. unfold subst_pt. cbn [Nat.leb Nat.add andb]. rewrite Nat.sub_0_r. destruct (Nat.ltb_spec k (length ls)) as [K|K]; [|lia].
  unfold V. do 3 f_equal. unfold verts.
  set (g := fun et : nat * nat => (fst et + side_map (snd et))%nat).
  rewrite (nth_indep _ 0%nat (g (0%nat, 0%nat))) by (rewrite map_length, combine_length, E_length; fold nx; lia).
  rewrite map_nth, combine_nth by (rewrite E_length; fold nx; lia). reflexivity.
Qed.
Lemma hw_pos k : (k < nx)%nat -> 0 < hw k.
Proof.
  intros H. unfold hw. pose proof (Hbox k H). pose proof (lt_0_INR _ (Hel k H)). apply Rdiv_lt_0_compat; [apply Rdiv_lt_0_compat; lra|lra].
Qed.
Lemma dim_value_c x k : (k < nx)%nat ->
  rsum 4 (fun l => hfac nelems lo up 0 0 x k l * (if Nat.eqb (derv_map l) 0 then 1 else 0)) = 1 /\
  rsum 4 (fun l => hfac nelems lo up 0 0 x k l * B x k l) = nearest (lo k) (up k) (x k).
Proof.
  intros H. pose proof (Hbox k H) as Hb. pose proof (Hel k H) as He. pose proof (lt_0_INR _ He) as Hn.
  rewrite (rsum_ext 4 (fun l => hfac nelems lo up 0 0 x k l * B x k l) (fun l => herm l (snd (loc nelems lo up x k)) * B x k l)).
  2:{ intros l Hl. rewrite hfac_0 by lia. reflexivity. }
  rewrite (rsum_ext 4 _ (fun l => herm l (snd (loc nelems lo up x k)) * (if Nat.eqb (derv_map l) 0 then 1 else 0))) by (intros l Hl; rewrite hfac_0 by lia; reflexivity).
  split; [cbn [rsum derv_map Nat.leb Nat.eqb herm]; field|].
  pose proof (element_search (lo k) (up k) (nth k nelems 0%nat) (x k) Hb He) as ES. cbv zeta in ES. destruct ES as (R1 & _ & R3). fold (loc nelems lo up x k) in R1, R3.
  unfold nearest. rewrite <- R3.
  assert (EE : IZR (fst (loc nelems lo up x k)) = INR (nth k (E x) 0%nat)).
  { rewrite E_nth by exact H. rewrite INR_IZR_INZ, Z2Nat.id by lia. reflexivity. }
  rewrite EE. unfold B, V, hw. cbn [rsum]. change (derv_map 0) with 0%nat. change (derv_map 1) with 0%nat. change (derv_map 2) with 1%nat. change (derv_map 3) with 1%nat.
  cbn [Nat.eqb]. change (side_map 0) with 0%nat. change (side_map 1) with 1%nat. rewrite !plus_INR. cbn [INR herm]. field. lra.
Qed.
Lemma dim_slope_c x k : (k < nx)%nat ->
  rsum 4 (fun l => hfac nelems lo up (S k) 0 x k l * (if Nat.eqb (derv_map l) 0 then 1 else 0)) = 0 /\
  rsum 4 (fun l => hfac nelems lo up (S k) 0 x k l * B x k l) = 1.
Proof.
  intros H. pose proof (Hbox k H) as Hb. pose proof (Hel k H) as He. pose proof (lt_0_INR _ He) as Hn.
  rewrite (rsum_ext 4 (fun l => hfac nelems lo up (S k) 0 x k l * B x k l) (fun l => dherm l (snd (loc nelems lo up x k)) * dxb_dx nelems lo up k * B x k l)).
  2:{ intros l Hl. rewrite (hfac_1 nelems lo up dof (Datatypes.S k) 0 x k l (or_introl (conj eq_refl (Nat.neq_succ_0 k))) Hl). reflexivity. }
  rewrite (rsum_ext 4 _ (fun l => dherm l (snd (loc nelems lo up x k)) * dxb_dx nelems lo up k * (if Nat.eqb (derv_map l) 0 then 1 else 0))).
  2:{ intros l Hl. rewrite (hfac_1 nelems lo up dof (Datatypes.S k) 0 x k l (or_introl (conj eq_refl (Nat.neq_succ_0 k))) Hl). reflexivity. }
  split; [cbn [rsum derv_map Nat.leb Nat.eqb dherm]; field|].
  unfold B, V, hw, dxb_dx. cbn [rsum]. change (derv_map 0) with 0%nat. change (derv_map 1) with 0%nat. change (derv_map 2) with 1%nat. change (derv_map 3) with 1%nat.
  cbn [Nat.eqb]. change (side_map 0) with 0%nat. change (side_map 1) with 1%nat. rewrite !plus_INR. cbn [INR dherm]. field. lra.
Qed.
Definition clamp_c (x : pt) : pt := fun k => nearest (lo k) (up k) (x k).
Lemma hfac_off kx x k l : k <> kx -> hfac nelems lo up (S kx) 0 x k l = hfac nelems lo up 0 0 x k l.
Proof. intros N. unfold hfac, mono_factor. destruct (Nat.eqb_spec (S k) (S kx)); [lia|]. reflexivity. Qed.
Theorem rmtc_reproduces x : rmtc_value nelems lo up false inv dof x = f (clamp_c x).
Proof.
  rewrite (value_eq nelems lo up inv dof). unfold gen_value. rewrite Rplus_0_r, (Ueq nelems lo up inv dof Hbox Hel Hinv).
  rewrite (msum_ext nterms _ (fun ls => lprod 0 ls (hfac nelems lo up 0 0 x) * Phi (fun _ l => if Nat.eqb (derv_map l) 0 then 1 else 0) (B x) 0 ls f x))
    by (intros ls Hls; f_equal; apply dof_Phi; exact Hls).
  assert (LT : length nterms = nx) by apply nterms_length.
  rewrite (msum_Phi _ (B x) _ f (fun _ => 1) (clamp_c x)).
  - rewrite (Phi_value nx f Hf) by (try reflexivity; rewrite LT; lia).
    apply (f_ext nx f Hf). intros k Hk. unfold subst_pt. cbn [Nat.leb Nat.add andb]. destruct (Nat.ltb_spec k (length nterms)) as [|N]; [reflexivity|rewrite LT in N; lia].
  - intros k Hk. rewrite LT in Hk. cbn [Nat.add]. rewrite nterms_nth by exact Hk. apply dim_value_c. exact Hk.
  - intros k Hk. rewrite LT in Hk. cbn [Nat.add]. rewrite nterms_nth by exact Hk. apply (dim_value_c x k Hk).
Qed.
Theorem rmtc_reproduces_slope kx x : (kx < nx)%nat -> rmtc_derivative nelems lo up false inv dof kx x = slope f kx (clamp_c x).
Proof.
  intros Hk. rewrite (deriv_eq nelems lo up inv dof). unfold gen_deriv. rewrite Rplus_0_r, (Ueq nelems lo up inv dof Hbox Hel Hinv).
  rewrite (msum_ext nterms _ (fun ls => lprod 0 ls (hfac nelems lo up (S kx) 0 x) * Phi (fun _ l => if Nat.eqb (derv_map l) 0 then 1 else 0) (B x) 0 ls f x))
    by (intros ls Hls; f_equal; apply dof_Phi; exact Hls).
  assert (LT : length nterms = nx) by apply nterms_length.
  rewrite (msum_Phi _ (B x) _ f (fun k => if Nat.eqb k kx then 0 else 1) (fun k => if Nat.eqb k kx then 1 else clamp_c x k)).
  - rewrite (Phi_slope nx f Hf _ _ kx 1).
    + rewrite Rmult_1_r.
      apply (slope_ext nx f Hf). intros k Hk' N. unfold subst_pt. cbn [Nat.leb Nat.add andb]. destruct (Nat.ltb_spec k (length nterms)) as [|N']; [|rewrite LT in N'; lia].
      destruct (Nat.eqb_spec k kx); [contradiction|reflexivity].
    + rewrite LT. lia.
    + rewrite LT. lia.
    + intros k _ N. cbn [Nat.add] in *. destruct (Nat.eqb_spec k kx); [contradiction|reflexivity].
    + rewrite Nat.eqb_refl. reflexivity.
    + rewrite Nat.eqb_refl. reflexivity.
  - intros k Hk'. rewrite LT in Hk'. cbn [Nat.add]. rewrite nterms_nth by exact Hk'. destruct (Nat.eqb_spec k kx) as [-> |N].
    + apply dim_slope_c. exact Hk.
    + rewrite <- (proj1 (dim_value_c x k Hk')) at 1. apply rsum_ext. intros i _. rewrite hfac_off by exact N. reflexivity.
  - intros k Hk'. rewrite LT in Hk'. cbn [Nat.add]. rewrite nterms_nth by exact Hk'. destruct (Nat.eqb_spec k kx) as [-> |N].
    + apply dim_slope_c. exact Hk.
    + change (clamp_c x k) with (nearest (lo k) (up k) (x k)). rewrite <- (proj2 (dim_value_c x k Hk')). apply rsum_ext. intros i _. rewrite hfac_off by exact N. reflexivity.
Qed.
End R.
