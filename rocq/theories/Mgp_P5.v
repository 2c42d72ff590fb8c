From Coq Require Import Reals Arith Bool List Lia Lra FunctionalExtensionality.
From Coquelicot Require Import Coquelicot.
From Verif Require Import RSum Mat Psd Psd2 Tri_M Tri_P Kernels_M Kernels_P Kernels_P2 Kernels_P3 Krg_M Krg_S Krg_P Krg_P2 Krg_P4 Rbf_P Poly_P LikGrad_M LikGrad_S LikGrad_P1 LikGrad_P2 LikGrad_P3 LikGrad_P4 Mgp_M Mgp_S Mgp_P1 Mgp_P2 Mgp_P3 Mgp_P4.
Import ListNotations.
Open Scope list_scope.
Open Scope R_scope.

Lemma lsolve_same lsolve n M b b' : lsolve_contract lsolve -> msym n M -> (forall i, (i < n)%nat -> b i = b' i) ->
  match lsolve n M b, lsolve n M b' with None, None => True | Some x, Some x' => forall i, (i < n)%nat -> x i = x' i | _, _ => False end.
Proof.
  intros [S N] Sy E. destruct (lsolve n M b) as [x|] eqn:A; destruct (lsolve n M b') as [x'|] eqn:B; [|apply (N n M b' Sy) in B; apply (N n M b Sy) in B; congruence|apply (N n M b Sy) in A; apply (N n M b' Sy) in A; congruence|exact I].
  intros i Hi. destruct (Req_dec (x i - x' i) 0) as [Z|Z]; [lra|]. exfalso. assert (X : lsolve n M b = None); [|congruence]. apply (N n M b Sy). exists (fun i => x i - x' i). split; [exists i; split; assumption|].
  intros k Hk. rewrite mv_minus, (S n M b x A k Hk), (S n M b' x' B k Hk), E by exact Hk. ring.
Qed.

Section T.
Variables (qr : nat -> nat -> mat -> mat * mat) (rcond : nat -> mat -> R) (condF : nat -> nat -> mat -> R) (lsolve : nat -> mat -> vec -> option vec).
Variables (nx nt nc : nat) (po : poly) (pv nugget : R) (noise : vec) (X : nat -> vec) (y : vec).
Notation p := (n_regr po nx).
Notation Xn := (Xnorm nt X).
Notation F := (fun i j => fvec po nx (Xnorm nt X i) j).
Notation yn := (ynorm nt y).
Notation g := (GStd ActExp nc).
Notation rlm := (rl qr rcond condF g nx nt p Xn F yn (scale1 nt y) nugget noise (INR nt)).
Notation trn := (mgp_train qr rcond condF nx nt nc po pv nugget noise X y).
Notation mk := (mk qr rcond condF nx nt nc po pv nugget noise X y).
Hypotheses (HQ : qr_contract qr) (HR : rcond_contract rcond).
Lemma dnt_eq : data_not_trend nx nt po X y -> not_trend nt p F yn.
Proof. intros H. exact H. Qed.
(** *** inv_sigma_R is symmetric *)
Lemma isr_sym theta : (p <= nt)%nat -> msym (nx * nc) (inv_sigma_R qr rcond condF nx nt nc po pv nugget noise X y theta).
Proof. intros Hp a b Ha Hb. rewrite !(isr_ok qr rcond condF nx nt nc po pv nugget noise X y HQ HR Hp theta) by assumption. rewrite (mgp_hess_sym qr rcond condF nx nt nc po pv nugget noise X y HQ HR Hp). reflexivity. Qed.
(** *** queries *)
Lemma norm_x theta pr x : normalise (mk theta pr) nx x = Some (xnrm nt X x, None).
Proof. unfold normalise. cbn [Mgp_P2.mk g_nx g_nc g_off g_scale]. rewrite Nat.ltb_irrefl, Nat.eqb_refl. reflexivity. Qed.
Lemma norm_u theta pr u x : (nc < nx)%nat -> get_x_from_u (mk theta pr) u = Some x -> normalise (mk theta pr) nc u = Some (xnrm nt X x, Some (fun s => u s * nB nx nt nc X theta - g_Umean (mk theta pr) s)).
Proof.
  intros H E. unfold normalise. rewrite E. cbn [Mgp_P2.mk g_nx g_nc g_off g_scale g_norm]. replace (Nat.ltb nc nx) with true by (symmetry; apply Nat.ltb_lt; exact H). rewrite Nat.eqb_refl. reflexivity.
Qed.
Lemma norm_bad theta pr n x : (n <> nx)%nat -> (n <> nc \/ nx <= nc)%nat -> normalise (mk theta pr) n x = None.
Proof.
  intros A B. unfold normalise. cbn [Mgp_P2.mk g_nx g_nc]. destruct (Nat.ltb_spec n nx) as [L|L].
  - destruct (Nat.eqb_spec n nc); [lia|reflexivity].
  - destruct (Nat.eqb_spec n nx); [lia|reflexivity].
Qed.
Section Emb.
Variables (theta : vec) (m : mgp).
Hypotheses (Ht : trn theta = Some m).
Lemma t_round_trip u x : (nc <= nx)%nat -> get_x_from_u m u = Some x -> forall s, (s < nc)%nat -> get_u_from_x m x s = u s.
Proof. intros Hc. apply train_iff in Ht. destruct Ht as (_ & _ & Z & v & pr & _ & ->). apply (gu_gx qr rcond condF nx nt nc po pv nugget noise X y theta pr HQ Hc). Qed.
Lemma t_defined_iff u : (nc <= nx)%nat -> (exists x, get_x_from_u m u = Some x) <-> independent_directions nx nc theta.
Proof.
  intros Hc. apply train_iff in Ht. destruct Ht as (_ & _ & Z & v & pr & _ & ->).
  assert (Q : full_rank_C nx nt nc X theta <-> independent_directions nx nc theta).
  { assert (K : forall b j, rsum nc (fun s => theta (s * nx + j)%nat * b s) = nB nx nt nc X theta * sc nt X j * mv nc (Cm nx nt nc X theta) b j).
    { intros b j. unfold mv. rewrite <- rsum_scal_l. apply rsum_ext. intros s Hs. transitivity (sc nt X j * (nB nx nt nc X theta * Cm nx nt nc X theta j s) * b s); [|ring]. rewrite (C_theta nx nt nc X theta Z j s). field. apply sc_nz. }
    split; intros H b Hb; apply H; intros j Hj; specialize (Hb j Hj).
    - rewrite K in Hb. apply Rmult_integral in Hb. destruct Hb as [Hb|Hb]; [|exact Hb]. exfalso. apply Rmult_integral in Hb. destruct Hb as [Hb|Hb]; [exact (Z Hb)|exact (sc_nz nt X j Hb)].
    - rewrite K, Hb. ring. }
  rewrite <- Q. split.
  - intros (x & E). apply (rank_diag qr rcond condF nx nt nc po pv nugget noise X y theta pr HQ Hc). apply (gx_none qr rcond condF nx nt nc po pv nugget noise X y theta pr Hc u x E).
  - apply (gx_some qr rcond condF nx nt nc po pv nugget noise X y theta pr HQ Hc u).
Qed.
Lemma t_bad_dim n x : (n <> nx)%nat -> (n <> nc \/ nx <= nc)%nat -> mgp_value m n x = None /\ mgp_variance lsolve m n x = None.
Proof. intros A B. apply train_iff in Ht. destruct Ht as (_ & _ & Z & v & pr & _ & ->). unfold mgp_value, mgp_variance. rewrite norm_bad by assumption. split; reflexivity. Qed.
Lemma t_same_value u x : (nc < nx)%nat -> get_x_from_u m u = Some x -> mgp_value m nc u = mgp_value m nx x.
Proof.
  intros Hc E. pose proof (t_round_trip u x ltac:(lia) E) as RT. apply train_iff in Ht. destruct Ht as (_ & _ & Z & v & pr & _ & ->). unfold mgp_value. rewrite (norm_u theta pr u x Hc E), norm_x. f_equal. f_equal. f_equal. unfold f_of. cbn [fst]. f_equal.
  apply dot_ext; [|reflexivity]. intros i Hi. apply (r_embed qr rcond condF nx nt nc po pv nugget noise X y theta pr Z x u None i ltac:(lia) RT). discriminate.
Qed.
Lemma t_same_variance u x : (nc < nx)%nat -> lsolve_contract lsolve -> get_x_from_u m u = Some x -> mgp_variance lsolve m nc u = mgp_variance lsolve m nx x.
Proof.
  intros Hc LC E. pose proof (t_round_trip u x ltac:(lia) E) as RT. apply train_iff in Ht. destruct Ht as (_ & Hp & Z & v & pr & _ & ->). unfold mgp_variance. rewrite (norm_u theta pr u x Hc E), norm_x.
  set (q := (xnrm nt X x, Some (fun s => u s * nB nx nt nc X theta - g_Umean (mk theta pr) s))). set (q' := (xnrm nt X x, None)).
  assert (Er : forall gr i, (forall k, gr = Some k -> (k < nx * nc)%nat) -> r_of (mk theta pr) q gr i = r_of (mk theta pr) q' gr i) by (intros gr i H; apply (r_embed qr rcond condF nx nt nc po pv nugget noise X y theta pr Z x u gr i ltac:(lia) RT H)).
  assert (E0 : r_of (mk theta pr) q None = r_of (mk theta pr) q' None) by (apply functional_extensionality; intros i; apply Er; discriminate).
  assert (E1 : forall k, (k < nx * nc)%nat -> r_of (mk theta pr) q (Some k) = r_of (mk theta pr) q' (Some k)) by (intros k Hk; apply functional_extensionality; intros i; apply Er; intros k' [= <-]; exact Hk).
  assert (EM : mgp_mse (mk theta pr) q = mgp_mse (mk theta pr) q') by (unfold mgp_mse, mgp_u, mgp_rt; rewrite E0; reflexivity).
  assert (Ey : forall k, (k < nx * nc)%nat -> dy_hyper (mk theta pr) q k = dy_hyper (mk theta pr) q' k) by (intros k Hk; unfold dy_hyper; rewrite E0, (E1 k Hk); reflexivity).
  assert (Ed : forall k, (k < nx * nc)%nat -> dmse_hyper (mk theta pr) q k = dmse_hyper (mk theta pr) q' k) by (intros k Hk; unfold dmse_hyper, mgp_u, mgp_rt; rewrite EM, E0, (E1 k Hk); reflexivity).
  cbv zeta. cbn [Mgp_P2.mk g_nx g_nc g_isr]. fold (mk theta pr).
  pose proof (lsolve_same lsolve (nx * nc) _ _ _ LC (isr_sym theta Hp) Ey) as Ly. pose proof (lsolve_same lsolve (nx * nc) _ _ _ LC (isr_sym theta Hp) Ed) as Ld.
  destruct (lsolve _ _ (dy_hyper _ q)) as [a|]; destruct (lsolve _ _ (dy_hyper _ q')) as [a'|]; try contradiction; [|reflexivity].
  destruct (lsolve _ _ (dmse_hyper _ q)) as [b|]; destruct (lsolve _ _ (dmse_hyper _ q')) as [b'|]; try contradiction; [|reflexivity].
  rewrite EM, (dot_ext _ _ a _ a' Ey Ly), (dot_ext _ _ b _ b' Ed Ld). reflexivity.
Qed.
Lemma t_active x x' : po = PConstant -> (forall s, (s < nc)%nat -> get_u_from_x m x s = get_u_from_x m x' s) ->
  mgp_value m nx x = mgp_value m nx x' /\ mgp_mse m (xnrm nt X x, None) = mgp_mse m (xnrm nt X x', None).
Proof.
  intros Ep Hu. apply train_iff in Ht. destruct Ht as (_ & Hp & Z & v & pr & _ & ->).
  assert (E0 : r_of (mk theta pr) (xnrm nt X x, None) None = r_of (mk theta pr) (xnrm nt X x', None) None) by (apply functional_extensionality; intros i; apply (r_same_u qr rcond condF nx nt nc po pv nugget noise X y theta pr Z x x' i Hu)).
  assert (Ef : f_of (mk theta pr) (xnrm nt X x, None) = f_of (mk theta pr) (xnrm nt X x', None)) by (unfold f_of; cbn [Mgp_P2.mk g_po g_nx fst]; rewrite Ep; reflexivity).
  split; [unfold mgp_value; rewrite !norm_x, E0, Ef; reflexivity|]. unfold mgp_mse, mgp_u, mgp_rt. rewrite E0, Ef. reflexivity.
Qed.
(** *** zero at training points *)
Lemma R_entry th i j : (i < nt)%nat -> (j < nt)%nat -> R_of g nx nt Xn nugget noise th i j = if Nat.eqb i j then 1 + nugget + noise i else corr_of ActExp nx nc th (Xn i) (Xn j).
Proof.
  intros Hi Hj. unfold R_of. rewrite fill_spec by assumption. destruct (Nat.eqb_spec i j) as [-> | N]; [ring|]. unfold kern, D_row. cbn [g_corr g_cols g_ns g_dist].
  assert (K : forall i j, (i < j < nt)%nat -> kernel ActExp nx nc th (comp_dist ActExp (snd (fst (cross_distances nt Xn)) (row_of nt i j))) None None = corr_of ActExp nx nc th (Xn i) (Xn j)).
  { intros a b Hab. destruct (row_ij nt Xn a b Hab) as (Q1 & Q2 & _). pose proof (cd_each nt Xn (row_of nt a b) Q1) as Q3. destruct (cross_distances nt Xn) as [[ij D] ll]. cbn [fst snd] in *. destruct Q3 as [_ Q3]. rewrite Q2 in Q3. cbn [fst snd] in Q3.
    unfold corr_of. f_equal. apply functional_extensionality. intros c. unfold comp_dist. rewrite Q3. reflexivity. }
  destruct (lt_dec i j) as [L|L]; [apply K; lia|]. rewrite row_of_sym, corr_sym. apply K. lia.
Qed.
End Emb.
End T.
