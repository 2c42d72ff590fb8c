From Coq Require Import Reals Arith Bool List Lia Lra FunctionalExtensionality Classical_Prop.
From Coquelicot Require Import Coquelicot.
From Verif Require Import RSum Mat Psd Psd2 Tri_M Tri_P Kernels_M Kernels_P Kernels_P2 Kernels_P3 Krg_M Krg_S Krg_P Krg_P2 Krg_P3 Krg_P4 Krg_P5 Krg_Qr Rbf_P Poly_P LikGrad_M LikGrad_S LikGrad_P1 LikGrad_P2 LikGrad_P3 LikGrad_P4 Mgp_M Mgp_S Mgp_P1 Mgp_P2 Mgp_P3 Mgp_P4 Mgp_P5 Mgp_P6 Mgp_P7.
Import ListNotations.
Open Scope list_scope.
Open Scope R_scope.

(** ** the scaling theorem *)
Lemma t_scaling qr rcond condF lsolve nx nt nc po pv nugget noise X y : qr_contract qr -> rcond_contract rcond -> lsolve_contract lsolve -> data_not_trend nx nt po X y ->
  forall theta m x v M, mgp_train qr rcond condF nx nt nc po pv nugget noise X y theta = Some m -> mgp_variance lsolve m nx x = Some (v, M) ->
  exists K c q sy, normalise m nx x = Some q /\ (forall i, (i < nx * nc)%nat -> mv (nx * nc) (g_isr m) sy i = dy_hyper m q i) /\ c = dot (nx * nc) (dy_hyper m q) sy /\
  (v = if Req_EM_T M 0 then 0 else Rmax 0 (K + c)) /\
  forall a b, 0 < a -> exists m' v', mgp_train qr rcond condF nx nt nc po pv nugget noise X (fun i => a * y i + b) theta = Some m' /\
    mgp_value m' nx x = Some (a * the (mgp_value m nx x) + b) /\ mgp_variance lsolve m' nx x = Some (v', a ^ 2 * M) /\
    (v' = if Req_EM_T M 0 then 0 else Rmax 0 (a ^ 2 * K + c)) /\ (a <> 1 -> 0 < v -> 0 < v' -> (v' = a ^ 2 * v <-> c = 0)).
Proof.
  intros HQ HR LC NT theta m x v M E EV. pose proof E as E0. apply train_iff in E0. destruct E0 as (H2 & Hp & Z & vl & pr & Er & Em). pose proof EV as EV0. unfold mgp_variance in EV0. destruct (normalise m nx x) as [q|] eqn:Eq; [|discriminate]. cbv zeta in EV0.
  replace (g_nx m * g_nc m)%nat with (nx * nc)%nat in EV0 by (subst m; reflexivity).
  destruct (lsolve (nx * nc)%nat (g_isr m) (dy_hyper m q)) as [sy|] eqn:Ey; [|discriminate]. destruct (lsolve (nx * nc)%nat (g_isr m) (dmse_hyper m q)) as [sM|] eqn:EM; [|discriminate]. injection EV0 as EV1 EV2.
  exists (4 / 3 * M + dot (nx * nc) (dmse_hyper m q) sM / (3 * M)), (dot (nx * nc) (dy_hyper m q) sy), q, sy. split; [exact eq_refl|]. split; [apply (proj1 LC _ _ _ _ Ey)|]. split; [reflexivity|].
  assert (V : v = if Req_EM_T M 0 then 0 else Rmax 0 (4 / 3 * M + dot (nx * nc) (dmse_hyper m q) sM / (3 * M) + dot (nx * nc) (dy_hyper m q) sy)).
  { rewrite <- EV1, EV2. destruct (Req_EM_T M 0) as [Z0|Z0]; [destruct (Rlt_dec 0 0); reflexivity|]. match goal with |- (if Rlt_dec ?s 0 then 0 else ?s) = Rmax 0 ?s' => replace s' with s by (unfold Rdiv; ring); generalize s end.
    intros s. unfold Rmax. destruct (Rlt_dec s 0), (Rle_dec 0 s); lra. }
  split; [exact V|]. intros a b Ha.
  destruct (t_scale_one qr rcond condF lsolve nx nt nc po pv nugget noise X y a b Ha HQ HR NT H2 theta m x v M E LC EV q sy sM Eq Ey EM) as (m' & v' & A1 & A2 & A3 & A4). exists m', v'. split; [exact A1|]. split; [exact A2|]. split; [exact A3|]. split; [exact A4|].
  intros N P P'. destruct (Req_EM_T M 0) as [Z0|Z0]; [lra|]. 
  set (K := 4 / 3 * M + _) in *. set (c := dot _ _ sy) in *.
  assert (V1 : v = K + c) by (rewrite V; apply Rmax_right; rewrite V in P; unfold Rmax in P; destruct (Rle_dec 0 (K + c)); lra).
  assert (V2 : v' = a ^ 2 * K + c) by (rewrite A4; apply Rmax_right; rewrite A4 in P'; unfold Rmax in P'; destruct (Rle_dec 0 (a ^ 2 * K + c)); lra).
  rewrite V1, V2. split; [|intros ->; ring]. intros Q. assert (Q' : (1 - a) * ((1 + a) * c) = 0) by nra. apply Rmult_integral in Q'. destruct Q' as [Q'|Q']; [lra|]. apply Rmult_integral in Q'. destruct Q'; [lra|assumption].
Qed.

(** ** _components *)
Definition sumR (l : list R) : R := fold_right Rplus 0 l.
Lemma sumR_app l l' : sumR (l ++ l') = sumR l + sumR l'. Proof. unfold sumR. induction l as [|x l IH]; cbn [app fold_right]; [lra|]. rewrite IH. lra. Qed.
Lemma first_above_some l : forall acc thr k0 k, first_above l acc thr k0 = Some k <-> exists j, k = (k0 + j)%nat /\ (1 <= j <= length l)%nat /\ thr < acc + sumR (firstn j l) /\ forall i, (1 <= i < j)%nat -> acc + sumR (firstn i l) <= thr.
Proof.
  induction l as [|s r IH]; intros acc thr k0 k; cbn [first_above].
  - split; [discriminate|]. intros (j & _ & H & _). cbn in H. lia.
  - destruct (Rlt_dec thr (acc + s)) as [L|L].
    + split.
      * intros [= <-]. exists 1%nat. split; [reflexivity|]. split; [cbn; lia|]. split; [unfold sumR; cbn; lra|]. intros; lia.
      * intros (j & -> & H & _ & W). destruct (Nat.eq_dec j 1) as [-> | N]; [reflexivity|]. specialize (W 1%nat ltac:(lia)). unfold sumR in W. cbn in W. lra.
    + rewrite IH. split.
      * intros (j & -> & H & A & B). exists (S j). split; [lia|]. split; [cbn [length]; lia|]. split; [cbn [firstn]; unfold sumR in *; cbn [fold_right]; lra|].
        intros i Hi. destruct i as [|i]; [lia|]. cbn [firstn]. unfold sumR in *. cbn [fold_right]. destruct i as [|i]; [cbn; lra|]. specialize (B (S i) ltac:(lia)). lra.
      * intros (j & -> & H & A & B). destruct j as [|j]; [lia|]. destruct j as [|j]; [unfold sumR in A; cbn in A; lra|]. exists (S j). split; [lia|]. split; [cbn [length] in H; lia|]. split; [cbn [firstn] in *; unfold sumR in *; cbn [fold_right] in *; lra|].
        intros i Hi. specialize (B (S i) ltac:(lia)). cbn [firstn] in B. unfold sumR in *. cbn [fold_right] in B. lra.
Qed.
Lemma firstn_mono l i j : List.Forall (fun s => 0 <= s) l -> (i <= j)%nat -> sumR (firstn i l) <= sumR (firstn j l).
Proof.
  intros H. revert i j. induction H as [|s l Hs H IH]; intros i j L; [rewrite !firstn_nil; lra|]. destruct i as [|i]; destruct j as [|j]; try lia; cbn [firstn]; unfold sumR in *; cbn [fold_right]; [lra| |].
  - specialize (IH 0%nat j ltac:(lia)). cbn in IH. lra.
  - specialize (IH i j ltac:(lia)). lra.
Qed.
Lemma ncomp_ok l : List.Forall (fun s => 0 <= s) l ->
  (forall k, best_ncomp l = Some k <-> (1 <= k <= length l)%nat /\ sumR (firstn (k - 1) l) <= 99 / 100 * sumR l < sumR (firstn k l)) /\ (best_ncomp l = None <-> List.Forall (fun s => s = 0) l).
Proof.
  intros H. assert (P0 : 0 <= sumR l) by (pose proof (firstn_mono l 0 (length l) H ltac:(lia)) as Q; rewrite firstn_all in Q; cbn in Q; exact Q).
  assert (S1 : forall k, best_ncomp l = Some k <-> (1 <= k <= length l)%nat /\ sumR (firstn (k - 1) l) <= 99 / 100 * sumR l < sumR (firstn k l)).
  { intros k. unfold best_ncomp. rewrite first_above_some. split.
    - intros (j & -> & A & B & C). cbn [Nat.add]. fold (sumR l) in *. split; [exact A|]. split; [|lra]. destruct (Nat.eq_dec j 1) as [-> | N]; [unfold sumR at 1; cbn; lra|]. specialize (C (j - 1)%nat ltac:(lia)). lra.
    - intros (A & B & C). exists k. split; [reflexivity|]. split; [exact A|]. fold (sumR l). split; [lra|]. intros i Hi. pose proof (firstn_mono l i (k - 1) H ltac:(lia)). lra. }
  split; [exact S1|]. split.
  - intros N. apply Forall_forall. intros s Hs. destruct (Rle_lt_dec (sumR l) 0) as [Z|Z].
    + apply in_split in Hs. destruct Hs as (l1 & l2 & ->). rewrite sumR_app in Z. apply Forall_app in H. destruct H as [H1 H2']. inversion_clear H2' as [|? ? Hs H2]. unfold sumR in Z. cbn [fold_right] in Z. fold (sumR l1) in Z. fold (sumR l2) in Z.
      pose proof (firstn_mono l1 0 (length l1) H1 ltac:(lia)) as Q1. pose proof (firstn_mono l2 0 (length l2) H2 ltac:(lia)) as Q2. rewrite firstn_all in Q1, Q2. unfold sumR at 1 in Q1. unfold sumR at 1 in Q2. cbn [firstn fold_right] in Q1, Q2. lra.
    + exfalso. assert (X : forall n, (n <= length l)%nat -> 99 / 100 * sumR l < sumR (firstn n l) -> exists k, best_ncomp l = Some k).
      { induction n as [|n IH]; intros Hn L; [unfold sumR at 2 in L; cbn in L; lra|]. destruct (Rle_lt_dec (sumR (firstn n l)) (99 / 100 * sumR l)) as [G|G]; [|apply IH; [lia|exact G]]. exists (S n). apply S1. replace (S n - 1)%nat with n by lia. split; [lia|]. split; assumption. }
      destruct (X (length l) (le_n _)) as [k Ek]; [rewrite firstn_all; lra|]. congruence.
  - intros Z. destruct (best_ncomp l) as [k|] eqn:E; [|reflexivity]. exfalso. destruct (proj1 (S1 k) eq_refl) as (_ & A & B).
    assert (Q : forall l, List.Forall (fun s => s = 0) l -> sumR l = 0) by (intros l0 H0; unfold sumR; induction H0 as [|? ? -> _ IH]; cbn [fold_right]; lra).
    assert (W : forall n, sumR (firstn n l) = 0) by (intros n; apply Q; rewrite Forall_forall in *; intros s Hs; apply Z; revert Hs; clear; revert n; induction l as [|a l IH]; intros [|n]; cbn [firstn]; try tauto; [intros []|intros [-> | G]; [left; reflexivity|right; apply (IH n G)]]).
    rewrite W, (Q l Z) in B. lra.
Qed.
Lemma check_ok c h nx nc len n : check_param c h nx nc len = Some n <-> c = true /\ h = true /\ n = (nc * nx)%nat /\ (len = 1 \/ len = nc * nx)%nat.
Proof.
  unfold check_param. cbv zeta. destruct c; cbn [negb]; [|split; [discriminate|intros (H & _); discriminate]]. destruct h; cbn [negb]; [|split; [discriminate|intros (_ & H & _); discriminate]].
  destruct (Nat.eqb_spec len (nc * nx)) as [E|E]; cbn [negb].
  - split; [intros [= <-]; subst len; repeat split; auto|]. intros (_ & _ & -> & _). rewrite E. reflexivity.
  - destruct (Nat.eqb_spec len 1) as [E'|E']; [|split; [discriminate|intros (_ & _ & _ & [H|H]); contradiction]]. split; [intros [= <-]; subst len; repeat split; auto|intros (_ & _ & -> & _); reflexivity].
Qed.

(** ** instances *)
(** linalg.solve through the Cholesky factor of M M' *)
Definition lsolve_n (n : nat) (M : mat) (b : vec) : option vec :=
  match cholesky n (fun i j => rsum n (fun k => M i k * M j k)) with
  | Some C => Some (mv n (tr M) (solve_triangular n (tr C) (solve_triangular n C b true) false))
  | None => None
  end.
Lemma gram_sym n M : msym n (fun i j => rsum n (fun k => M i k * M j k)).
Proof. intros i j _ _. apply rsum_ext. intros; ring. Qed.
Lemma gram_mv n (M : mat) z i : mv n (fun i j => rsum n (fun k => M i k * M j k)) z i = mv n M (mv n (tr M) z) i.
Proof.
  unfold mv, tr. rewrite (rsum_ext n (fun j => rsum n (fun k => M i k * M j k) * z j) (fun j => rsum n (fun k => M i k * M j k * z j))) by (intros; rewrite rsum_scal_r; reflexivity). rewrite rsum_swap. apply rsum_ext. intros k _. rewrite <- rsum_scal_l. apply rsum_ext. intros; ring.
Qed.
Lemma lsolve_n_ok : lsolve_contract lsolve_n.
Proof.
  split.
  - intros n M b x E i Hi. unfold lsolve_n in E. destruct (cholesky n _) as [C|] eqn:EC; [|discriminate]. injection E as <-. rewrite <- gram_mv. apply chol_sound in EC. unfold solve_triangular.
    set (z := bsub _ _ _ _).
    rewrite <- (chol_mv n _ C z (gram_sym n M) EC i Hi).
    assert (U : forall j, (j < n)%nat -> mv n (tr C) z j = fsub C b n j).
    { apply bsub_solves; [intros a c Ha Hc; apply (chol_lower _ _ _ EC); assumption|intros a Ha; apply (chol_diag _ _ _ EC); assumption]. }
    rewrite (mv_ext n C C (mv n (tr C) z) (fsub C b n) i (fun _ _ => eq_refl) U).
    apply (fsub_solves n C b (chol_lower _ _ _ EC) (chol_diag _ _ _ EC) i Hi).
  - intros n M b Sy. unfold lsolve_n. 
    assert (Q : (exists L, cholesky n (fun i j => rsum n (fun k => M i k * M j k)) = Some L) <-> ~ singular n M).
    { rewrite (chol_iff n _ (gram_sym n M)). 
      assert (FM : forall z, dot n z (mv n (fun i j => rsum n (fun k => M i k * M j k)) z) = dot n (mv n M z) (mv n M z)).
      { intros z. rewrite (dot_ext n z _ z (mv n M (mv n (tr M) z))) by (intros; try reflexivity; apply gram_mv). rewrite (dot_mv_sym n M z (mv n (tr M) z) Sy). apply dot_ext; [|reflexivity]. intros i Hi. apply rsum_ext. intros j Hj. unfold tr. rewrite (Sy j i Hj Hi). reflexivity. }
      split.
      - intros P (z & Nz & Ez). pose proof (P z Nz) as W. rewrite FM, (dot_zero_r n _ _ Ez) in W. lra.
      - intros N z Nz. rewrite FM. destruct (nonzero_dec n (mv n M z)) as [H|H]; [|exfalso; apply N; exists z; split; assumption]. destruct H as (i & Hi & H). apply (dot_self_pos n _ i Hi H). }
    destruct (cholesky n _) as [C|].
    + split; [discriminate|]. intros S. exfalso. apply Q; [exists C; reflexivity|exact S].
    + split; [|reflexivity]. intros _. destruct (classic (singular n M)) as [S|S]; [exact S|]. apply Q in S. destruct S as [L S]. discriminate.
Qed.
