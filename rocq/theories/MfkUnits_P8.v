(** Example for the units of each level. *)
From Coq Require Import Reals Arith Bool List Lia Lra FunctionalExtensionality.
From Verif Require Import RSum Mat Tri_M Tri_P Kernels_M Krg_M Krg_S Krg_P Krg_P2 Krg_P3 Krg_Qr Mfk_M Mfk_S Mfk_P Mfk_P2 Mfk_P6 MfkUnits_S MfkUnits_P7.
Import ListNotations.
Open Scope list_scope.
Open Scope R_scope.
Section W.
Variable W : list data.
Hypothesis EX : stdx W = stdx w_all.
Lemma v_pd y : mpd 3 (corr_matrix (d_k (w_d y)) 1 3 (fun i => stdx W (d_X (w_d y) i)) 0 (d_noise (w_d y))).
Proof. rewrite EX. apply w_pd. Qed.
Definition v_m (y : vec) (i : nat) : R := (y i - y_off W) / y_scale W.
Lemma v_inj (y : vec) (b0 b1 : R) : y 0%nat <> y 1%nat -> (forall i, (i < 3)%nat -> v_m y i * b0 + b1 = 0) -> b0 = 0 /\ b1 = 0.
Proof.
  intros N H. pose proof (H 0%nat ltac:(lia)) as H0. pose proof (H 1%nat ltac:(lia)) as H1. assert (D : (v_m y 1%nat - v_m y 0%nat) * b0 = 0) by lra.
  assert (Q : v_m y 1%nat - v_m y 0%nat <> 0). { unfold v_m, Rdiv. intros Z. apply N. assert (I : / y_scale W <> 0) by (apply Rinv_neq_0_compat, ys_nz). assert (Q : (y 1%nat - y 0%nat) * / y_scale W = 0) by lra. apply Rmult_integral in Q. destruct Q as [Q|Q]; [lra|contradiction]. }
  apply Rmult_integral in D. destruct D as [D|D]; [contradiction|]. split; [exact D|]. rewrite D in H0. lra.
Qed.
Lemma v_step done d0 lv0 dd : train_level 1 PConstant PConstant gs_qr rcond01 cond0 0 W done (w_d d0) = Some lv0 -> d0 0%nat <> d0 1%nat ->
  exists lv, train_level 1 PConstant PConstant gs_qr rcond01 cond0 0 W (done ++ [lv0]) (w_d dd) = Some lv.
Proof.
  intros T N. apply (train_level_ok 1 PConstant PConstant gs_qr rcond01 cond0 0 W gs_contract rcond01_contract) in T.
  assert (M : forall i, (i < 3)%nat -> last_mean 1 PConstant PConstant (done ++ [lv0]) (stdx W (w_X i)) = Some (v_m d0 i)).
  { intros i Hi. rewrite last_snoc. f_equal. pose proof (level_interp 1 PConstant PConstant 0 W done (w_d d0) lv0 T i Hi) as I. cbn [d_X w_d d_noise] in I. rewrite I. unfold lv_y, v_m. cbn [d_y w_d]. ring. }
  assert (Q : lq 1 PConstant (done ++ [lv0]) = 1%nat) by (destruct done; reflexivity). apply level_gs; [rewrite Q; cbn; lia|apply v_pd|]. rewrite Q. intros b Hb. cbn [d_nt w_d np n_regr Nat.add] in *.
  destruct (v_inj d0 (b 0%nat) (b 1%nat) N) as [B0 B1].
  - intros i Hi. specialize (Hb i Hi). unfold mv, lF in Hb. cbn [d_X w_d] in Hb. rewrite (M i Hi) in Hb. unfold basis, nq, np in Hb. cbn [n_regr Nat.add rsum Nat.ltb Nat.leb Nat.sub] in Hb. rewrite !MfkUnits_P6.fvec_0 in Hb. lra.
  - intros j Hj. unfold np in Hj. cbn in Hj. destruct j as [|[|j]]; [exact B0|exact B1|lia].
Qed.
Lemma v_train y0 y1 y2 : W = [w_d y0; w_d y1; w_d y2] -> y0 0%nat <> y0 1%nat -> y1 0%nat <> y1 1%nat -> exists lvls, mfk_train 1 PConstant PConstant gs_qr rcond01 cond0 0 W = Some lvls.
Proof.
  intros E N0 N1. enough (G : exists lvls, train_levels 1 PConstant PConstant gs_qr rcond01 cond0 0 W [] [w_d y0; w_d y1; w_d y2] = Some lvls) by (unfold mfk_train; rewrite <- E in G; exact G). clear E. cbn [train_levels].
  destruct (level_gs 1 PConstant PConstant 0 W [] (w_d y0)) as [lv0 T0]; [cbn; lia|apply v_pd| |].
  { intros b Hb j Hj. cbn in Hj. assert (j = 0%nat) as -> by lia. specialize (Hb 0%nat ltac:(cbn; lia)). unfold mv, lF in Hb. cbn in Hb. lra. }
  rewrite T0. destruct (v_step [] y0 lv0 y1 T0 N0) as (lv1 & T1). cbn [app] in *. rewrite T1. destruct (v_step [lv0] y1 lv1 y2 T1 N1) as (lv2 & T2). cbn [app] in *. rewrite T2. eexists. reflexivity.
Qed.
End W.
(** the levels of [w_all] in three different units, one of them with the sign reversed *)
Definition v_a (k : nat) : R := match k with O => -2 | S O => 3 | _ => 1 end.
Definition v_b (k : nat) : R := INR k.
Lemma v_nz k : v_a k <> 0.
Proof. unfold v_a. destruct k as [|[|k]]; lra. Qed.
Lemma v_ok : exists lvls, mfk_train 1 PConstant PConstant gs_qr rcond01 cond0 0 (level_units v_a v_b 0 w_all) = Some lvls.
Proof.
  eapply (v_train (level_units v_a v_b 0 w_all) (units_std v_a v_b 0 w_all)); [reflexivity| |]; cbn; lra.
Qed.
