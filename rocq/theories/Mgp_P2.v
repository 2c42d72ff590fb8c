From Coq Require Import Reals Arith Bool List Lia Lra FunctionalExtensionality.
From Coquelicot Require Import Coquelicot.
From Verif Require Import RSum Mat Psd Psd2 Tri_M Tri_P Kernels_M Kernels_P Kernels_P2 Kernels_P3 Krg_M Krg_S Krg_P Krg_P2 Rbf_P Poly_P LikGrad_M LikGrad_S LikGrad_P1 LikGrad_P2 LikGrad_P3 LikGrad_P4 Mgp_M Mgp_P1.
Import ListNotations.
Open Scope list_scope.
Open Scope R_scope.

Section Train.
Variables (qr : nat -> nat -> mat -> mat * mat) (rcond : nat -> mat -> R) (condF : nat -> nat -> mat -> R).
Variables (nx nt nc : nat) (po : poly) (pm pv nugget : R) (noise : vec) (X : nat -> vec) (y : vec).
Notation p := (n_regr po nx).
Notation Xn := (Xnorm nt X).
Notation F := (fun i j => fvec po nx (Xnorm nt X i) j).
Notation yn := (ynorm nt y).
Notation g := (GStd ActExp nc).
Notation rlm := (rl qr rcond condF g nx nt p Xn F yn (scale1 nt y) nugget noise (INR nt)).
Notation trn := (mgp_train qr rcond condF nx nt nc po pv nugget noise X y).
Definition sc : vec := fun c => scale1 nt (fun a => X a c).
Definition ofs : vec := fun c => mean nt (fun a => X a c).
Definition Bm (theta : vec) : mat := fun j s => theta (s * nx + j)%nat / sc j.
Definition nB (theta : vec) : R := sqrt (rsum nx (fun j => rsum nc (fun s => Bm theta j s ^ 2))).
Definition Cm (theta : vec) : mat := fun j s => Bm theta j s / nB theta.
Definition mk (theta : vec) (pr : par) : mgp :=
  {| g_nx := nx; g_nc := nc; g_nt := nt; g_po := po; g_theta := theta; g_Xn := Xn; g_off := ofs; g_scale := sc;
              g_ymean := mean nt y; g_ystd := scale1 nt y; g_par := pr;
              g_dbeta := dbeta_of g nx nt p Xn pr theta;
              g_Rdg := Rinv_dR_gamma_of g nx nt Xn pr theta;
              g_Rdmu := Rinv_dmu_of g nx nt p Xn F pr theta;
              g_dR := dR_of g nx nt Xn theta;
              g_dsigma := dsigma_of g nx nt p Xn F (scale1 nt y) pr theta;
              g_isr := inv_sigma_R qr rcond condF nx nt nc po pv nugget noise X y theta;
              g_C := Cm theta; g_norm := nB theta; g_Q := fst (qr nx nc (Cm theta)); g_R := snd (qr nx nc (Cm theta));
              g_Un := (fun i s => rsum nx (fun j => Xn i j * theta (s * nx + j)%nat));
              g_Umean := (fun s => rsum nx (fun j => ofs j * Cm theta j s) * nB theta) |}.
Lemma train_iff theta m : trn theta = Some m <-> (2 <= nt)%nat /\ (p <= nt)%nat /\ nB theta <> 0 /\ exists v pr, rlm theta = Fit v pr /\ m = mk theta pr.
Proof.
  unfold mgp_train. destruct (Nat.leb_spec nt 1) as [L|L]; [split; [discriminate|intros (H & _); lia]|]. destruct (Nat.ltb_spec nt p) as [L'|L']; [split; [discriminate|intros (_ & H & _); lia]|].
  destruct (rlm theta) as [v pr| |] eqn:E; [|split; [discriminate|intros (_ & _ & _ & v & pr & H & _); discriminate]|split; [discriminate|intros (_ & _ & _ & v & pr & H & _); discriminate]].
  cbv zeta. change (sqrt (rsum nx (fun j => rsum nc (fun s => (theta (s * nx + j)%nat / scale1 nt (fun a => X a j)) ^ 2)))) with (nB theta).
  destruct (Req_EM_T (nB theta) 0) as [Z|Z]; [split; [discriminate|intros (_ & _ & H & _); contradiction]|].
  change (fun j s => theta (s * nx + j)%nat / scale1 nt (fun a => X a j) / nB theta) with (Cm theta).
  destruct (qr nx nc (Cm theta)) as [Q0 R0] eqn:EQ.
  assert (EM : {| g_nx := nx; g_nc := nc; g_nt := nt; g_po := po; g_theta := theta; g_Xn := Xn; g_off := ofs; g_scale := sc;
              g_ymean := mean nt y; g_ystd := scale1 nt y; g_par := pr;
              g_dbeta := dbeta_of g nx nt p Xn pr theta;
              g_Rdg := Rinv_dR_gamma_of g nx nt Xn pr theta;
              g_Rdmu := Rinv_dmu_of g nx nt p Xn F pr theta;
              g_dR := dR_of g nx nt Xn theta;
              g_dsigma := dsigma_of g nx nt p Xn F (scale1 nt y) pr theta;
              g_isr := inv_sigma_R qr rcond condF nx nt nc po pv nugget noise X y theta;
              g_C := Cm theta; g_norm := nB theta; g_Q := Q0; g_R := R0;
              g_Un := (fun i s => rsum nx (fun j => Xn i j * theta (s * nx + j)%nat));
              g_Umean := (fun s => rsum nx (fun j => ofs j * Cm theta j s) * nB theta) |} = mk theta pr) by (unfold mk; rewrite EQ; reflexivity).
  split.
  - intros E1. split; [lia|]. split; [exact L'|]. split; [exact Z|]. exists v, pr. split; [reflexivity|]. rewrite <- EM. injection E1 as <-. reflexivity.
  - intros (_ & _ & _ & v' & pr' & H & ->). injection H as <- <-. rewrite <- EM. reflexivity.
Qed.
Lemma sc_nz j : sc j <> 0.
Proof. apply scale1_nz. Qed.
(** ** queries *)
Section Model.
Variables (theta : vec) (pr : par).
Hypotheses (Z : nB theta <> 0).
Notation m := (mk theta pr).
Lemma C_theta j s : nB theta * Cm theta j s = theta (s * nx + j)%nat / sc j.
Proof. unfold Cm, Bm. field. split; [apply sc_nz|exact Z]. Qed.
Definition xnrm (x : vec) : vec := fun j => (x j - ofs j) / sc j.
Definition dxi (x : vec) (i : nat) : vec := fun j => xnrm x j - Xn i j.
Lemma u_dA x i s : get_u_from_x m x s * nB theta - g_Umean m s - g_Un m i s = act_dA nx theta (dxi x i) s.
Proof.
  unfold get_u_from_x, act_dA. cbn [mk g_nx g_C g_Umean g_Un]. rewrite <- !rsum_scal_r, <- !rsum_minus. apply rsum_ext. intros j Hj. unfold dxi, xnrm.
  transitivity ((x j - ofs j) * (nB theta * Cm theta j s) - Xn i j * theta (s * nx + j)%nat); [ring|]. rewrite C_theta. field. apply sc_nz.
Qed.
Lemma eye_dA d s : (s < nc)%nat -> act_dA nc (fun k => if Nat.eqb (k / nc) (k mod nc) then 1 else 0) d s = d s.
Proof.
  intros Hs. unfold act_dA. rewrite (rsum_ext nc _ (fun j => if Nat.eqb j s then d j else 0)); [apply (rsum_single nc d s Hs)|].
  intros j Hj. rewrite (Nat.div_add_l s nc j) by lia. rewrite (Nat.div_small j nc) by exact Hj. rewrite Nat.add_0_r, (Nat.add_comm (s * nc) j), Nat.mod_add, Nat.mod_small by lia. rewrite (Nat.eqb_sym s j). destruct (Nat.eqb j s); ring.
Qed.
(** correlations of a point given by its coordinates u and of a point x with these coordinates *)
Lemma r_embed x u gr i : (1 <= nx)%nat -> (forall s, (s < nc)%nat -> get_u_from_x m x s = u s) -> (forall k, gr = Some k -> (k < nx * nc)%nat) ->
  r_of m (xnrm x, Some (fun s => u s * nB theta - g_Umean m s)) gr i = r_of m (xnrm x, None) gr i.
Proof.
  intros Hx Hu Hg. unfold r_of, act_exp. cbn [mk g_nx g_nc g_Xn g_theta].
  assert (E : forall s, (s < nc)%nat -> act_dA nc (fun k => if Nat.eqb (k / nc) (k mod nc) then 1 else 0) (fun s => u s * nB theta - g_Umean m s - g_Un m i s) s = act_dA nx theta (dxi x i) s).
  { intros s Hs. rewrite eye_dA by exact Hs. rewrite <- u_dA, Hu by exact Hs. reflexivity. }
  rewrite (rsum_ext nc _ (fun s => act_dA nx theta (dxi x i) s ^ 2)) by (intros s Hs; f_equal; apply (E s Hs)).
  destruct gr as [k|]; [|reflexivity]. specialize (Hg k eq_refl). f_equal. f_equal. apply E. apply Nat.div_lt_upper_bound; lia.
Qed.
(** correlations only depend on u *)
Lemma r_same_u x x' i : (forall s, (s < nc)%nat -> get_u_from_x m x s = get_u_from_x m x' s) -> r_of m (xnrm x, None) None i = r_of m (xnrm x', None) None i.
Proof.
  intros Hu. unfold r_of, act_exp. cbn [mk g_nx g_nc g_Xn g_theta]. f_equal. f_equal. apply rsum_ext. intros s Hs. f_equal.
  change (act_dA nx theta (dxi x i) s = act_dA nx theta (dxi x' i) s). rewrite <- !u_dA, Hu by exact Hs. reflexivity.
Qed.
Section QR.
Hypotheses (HQ : qr_contract qr) (Hc : (nc <= nx)%nat).
Definition full_rank_C : Prop := forall b : vec, (forall j, (j < nx)%nat -> mv nc (Cm theta) b j = 0) -> forall s, (s < nc)%nat -> b s = 0.
Lemma qc : (forall i j, (i < nc)%nat -> (j < nc)%nat -> rsum nx (fun a => g_Q m a i * g_Q m a j) = if Nat.eqb i j then 1 else 0) /\
  (forall a j, (a < nx)%nat -> (j < nc)%nat -> Cm theta a j = rsum nc (fun k => g_Q m a k * g_R m k j)) /\ upper nc (g_R m).
Proof. cbn [mk g_Q g_R]. pose proof (HQ nx nc (Cm theta) Hc) as H. destruct (qr nx nc (Cm theta)) as [Q0 R0]. exact H. Qed.
Lemma C_mv b a : (a < nx)%nat -> mv nc (Cm theta) b a = mv nc (g_Q m) (mv nc (g_R m) b) a.
Proof.
  intros Ha. destruct qc as (_ & Q2 & _). unfold mv. rewrite (rsum_ext nc _ (fun j => rsum nc (fun k => g_Q m a k * (g_R m k j * b j)))).
  - rewrite rsum_swap. apply rsum_ext. intros k Hk. rewrite rsum_scal_l. reflexivity.
  - intros j Hj. rewrite Q2 by assumption. rewrite <- rsum_scal_r. apply rsum_ext. intros; ring.
Qed.
Lemma QtQ z s : (s < nc)%nat -> rsum nx (fun a => g_Q m a s * mv nc (g_Q m) z a) = z s.
Proof.
  intros Hs. destruct qc as (Q1 & _ & _). unfold mv. rewrite (rsum_ext nx _ (fun a => rsum nc (fun k => g_Q m a s * g_Q m a k * z k))) by (intros; rewrite <- rsum_scal_l; apply rsum_ext; intros; ring).
  rewrite rsum_swap. rewrite (rsum_ext nc _ (fun k => if Nat.eqb k s then z k else 0)); [apply (rsum_single nc z s Hs)|].
  intros k Hk. rewrite rsum_scal_r, Q1 by assumption. rewrite (Nat.eqb_sym s k). destruct (Nat.eqb k s); ring.
Qed.
Lemma rank_diag : full_rank_C <-> diagnz nc (g_R m).
Proof.
  destruct qc as (Q1 & Q2 & Q3). split.
  - intros FR. apply upper_diagnz; [exact Q3|]. intros x Hx i Hi. apply FR; [|exact Hi]. intros j Hj. rewrite C_mv by exact Hj. apply mv_zero. exact Hx.
  - intros D b Hb s Hs. apply (upper_inj nc (g_R m) Q3 D); [|exact Hs]. intros i Hi. rewrite <- (QtQ (mv nc (g_R m) b) i Hi). apply rsum_zero. intros a Ha. rewrite <- C_mv, Hb by exact Ha. ring.
Qed.
Lemma gx_some u : full_rank_C -> exists x, get_x_from_u m u = Some x.
Proof.
  intros FR. apply rank_diag in FR. unfold get_x_from_u. match goal with |- context [if ?b then _ else _] => replace b with true; [eexists; reflexivity|] end. symmetry. apply forallb_forall. intros s Hs. apply in_seq in Hs.
  cbn [mk g_nc] in Hs. destruct (Req_EM_T (g_R m s s) 0) as [E|_]; [|reflexivity]. exfalso. apply (FR s); [lia|exact E].
Qed.
Lemma gx_none u x : get_x_from_u m u = Some x -> diagnz nc (g_R m) /\ x = mv nc (g_Q m) (solve_triangular nc (tr (g_R m)) u true).
Proof.
  unfold get_x_from_u. intros E. match type of E with context [if ?b then _ else _] => destruct b eqn:B; [|discriminate] end. injection E as <-. split; [|reflexivity].
  intros s Hs Z0. rewrite forallb_forall in B. specialize (B s). cbn [mk g_nc] in B. rewrite in_seq in B. specialize (B ltac:(lia)). destruct (Req_EM_T (g_R m s s) 0); [discriminate|contradiction].
Qed.
Lemma gu_gx u x : get_x_from_u m u = Some x -> forall s, (s < nc)%nat -> get_u_from_x m x s = u s.
Proof.
  intros E s Hs. destruct (gx_none u x E) as [D ->]. destruct qc as (Q1 & Q2 & Q3). unfold get_u_from_x. cbn [mk g_nx g_C].
  set (z := solve_triangular nc (tr (g_R m)) u true).
  rewrite (rsum_ext nx _ (fun a => rsum nc (fun k => g_R m k s * (g_Q m a k * mv nc (g_Q m) z a)))) by (intros a Ha; rewrite Q2 by assumption; rewrite <- rsum_scal_l; apply rsum_ext; intros; ring).
  rewrite rsum_swap. rewrite (rsum_ext nc _ (fun k => g_R m k s * z k)) by (intros k Hk; rewrite rsum_scal_l, QtQ by exact Hk; reflexivity).
  change (mv nc (tr (g_R m)) z s = u s). unfold z, solve_triangular. apply fsub_solves; [|exact D|exact Hs]. intros a b Ha Hb. apply Q3; assumption.
Qed.
End QR.
End Model.
End Train.
