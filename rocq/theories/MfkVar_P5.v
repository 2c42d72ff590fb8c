(** C105: three levels on the same three points, with any outputs that have the given values there. *)
From Coq Require Import Reals Arith Bool List Lia Lra FunctionalExtensionality.
From Coquelicot Require Import Coquelicot.
From Verif Require Import RSum Mat Tri_M Tri_P Kernels_M Krg_M Krg_S Krg_P Krg_P2 Krg_P3 Krg_P4 Krg_Qr Rbf_P Poly_P Mfk_M Mfk_S Mfk_P Mfk_P2 Mfk_P3 Mfk_P4 Mfk_P5 Mfk_P6 Mfk_T Het_M MfkVar_M MfkVar_S MfkVar_P1 MfkVar_P4.
Import ListNotations.
Open Scope list_scope.
Open Scope R_scope.

Section W.
Variables y0 y1 y2 : vec.
Hypotheses (E0 : forall i, (i < 3)%nat -> y0 i = if Nat.eqb i 1 then 1 else 0) (E1 : forall i, (i < 3)%nat -> y1 i = if Nat.eqb i 1 then 1 else 0) (E2 : forall i, (i < 3)%nat -> y2 i = if Nat.eqb i 2 then 1 else 0).
Definition ga : list data := [w_d y0; w_d y1; w_d y2].
Lemma gw_pd y : mpd 3 (corr_matrix (d_k (w_d y)) 1 3 (fun i => stdx ga (d_X (w_d y) i)) 0 (d_noise (w_d y))).
Proof.
  apply corr_matrix_pd_distinct; [discriminate|intros; lra| |intros; cbn; lra]. apply (std_distinct 1 ga w_X 3).
  intros i j Hi Hj N H. specialize (H 0%nat ltac:(lia)). unfold w_X in H. apply INR_eq in H. congruence.
Qed.
Definition gw_m (y : vec) (i : nat) : R := (y i - y_off ga) / y_scale ga.
Lemma gw_inj (y : vec) (b0 b1 : R) : y 0%nat <> y 1%nat -> (forall i, (i < 3)%nat -> gw_m y i * b0 + b1 = 0) -> b0 = 0 /\ b1 = 0.
Proof.
  intros N H. pose proof (H 0%nat ltac:(lia)) as H0. pose proof (H 1%nat ltac:(lia)) as H1. assert (D : (gw_m y 1%nat - gw_m y 0%nat) * b0 = 0) by lra.
  assert (Q : gw_m y 1%nat - gw_m y 0%nat <> 0). { unfold gw_m, Rdiv. intros Z. apply N. assert (I : / y_scale ga <> 0) by (apply Rinv_neq_0_compat, ys_nz). assert (Q : (y 1%nat - y 0%nat) * / y_scale ga = 0) by lra. apply Rmult_integral in Q. destruct Q as [Q|Q]; [lra|contradiction]. }
  apply Rmult_integral in D. destruct D as [D|D]; [contradiction|]. split; [exact D|]. rewrite D in H0. lra.
Qed.
Lemma gw_step done d0 lv0 dd : train_level 1 PConstant PConstant gs_qr rcond01 cond0 0 ga done (w_d d0) = Some lv0 -> d0 0%nat <> d0 1%nat ->
  (forall i, (i < 3)%nat -> last_mean 1 PConstant PConstant (done ++ [lv0]) (stdx ga (w_X i)) = Some (gw_m d0 i)) /\
  exists lv, train_level 1 PConstant PConstant gs_qr rcond01 cond0 0 ga (done ++ [lv0]) (w_d dd) = Some lv.
Proof.
  intros T N. apply (train_level_ok 1 PConstant PConstant gs_qr rcond01 cond0 0 ga gs_contract rcond01_contract) in T.
  assert (M : forall i, (i < 3)%nat -> last_mean 1 PConstant PConstant (done ++ [lv0]) (stdx ga (w_X i)) = Some (gw_m d0 i)).
  { intros i Hi. rewrite last_snoc. f_equal. pose proof (level_interp 1 PConstant PConstant 0 ga done (w_d d0) lv0 T i Hi) as I. cbn [d_X w_d d_noise] in I. rewrite I. unfold lv_y, gw_m. cbn [d_y w_d]. ring. }
  split; [exact M|]. assert (Q : lq 1 PConstant (done ++ [lv0]) = 1%nat) by (destruct done; reflexivity). apply level_gs; [rewrite Q; cbn; lia|apply gw_pd|]. rewrite Q. intros b Hb. cbn [d_nt w_d np n_regr Nat.add] in *.
  destruct (gw_inj d0 (b 0%nat) (b 1%nat) N) as [B0 B1].
  - intros i Hi. specialize (Hb i Hi). unfold mv, lF in Hb. cbn [d_X w_d] in Hb. rewrite (M i Hi) in Hb. unfold basis, nq, np in Hb. cbn [n_regr Nat.add rsum Nat.ltb Nat.leb Nat.sub] in Hb. rewrite !fvec_0 in Hb. lra.
  - intros j Hj. unfold np in Hj. cbn in Hj. destruct j as [|[|j]]; [exact B0|exact B1|lia].
Qed.
Lemma gw_train : exists lvls, mfk_train 1 PConstant PConstant gs_qr rcond01 cond0 0 ga = Some lvls.
Proof.
  unfold mfk_train. unfold ga at 2. cbn [train_levels].
  destruct (level_gs 1 PConstant PConstant 0 ga [] (w_d y0)) as [lv0 T0]; [cbn; lia|apply gw_pd| |].
  { intros b Hb j Hj. cbn in Hj. assert (j = 0%nat) as -> by lia. specialize (Hb 0%nat ltac:(cbn; lia)). unfold mv, lF in Hb. cbn in Hb. lra. }
  rewrite T0. destruct (gw_step [] y0 lv0 y1 T0) as (M0 & lv1 & T1); [rewrite !E0 by lia; cbn; lra|]. cbn [app] in *. rewrite T1.
  destruct (gw_step [lv0] y1 lv1 y2 T1) as (M1 & lv2 & T2); [rewrite !E1 by lia; cbn; lra|]. cbn [app] in *. rewrite T2. eexists. reflexivity.
Qed.
Lemma gw_yoff : y_off ga <> 0.
Proof.
  unfold y_off, mean. assert (H : rsum (total ga) (cat ga d_y) = 3) by (change (total ga) with 9%nat; cbn [rsum cat ga w_d d_nt d_y Nat.ltb Nat.leb Nat.sub]; rewrite !E0, !E1, !E2 by lia; cbn; ring). rewrite H. apply Rmult_integral_contrapositive_currified; [lra|]. apply Rinv_neq_0_compat. change (total ga) with 9%nat. apply not_0_INR. lia.
Qed.
Lemma gthird_level : exists lvls, mfk_train 1 PConstant PConstant gs_qr rcond01 cond0 0 ga = Some lvls /\ forall pls, 0 < nth 2 (mfk_variances 1 PConstant PConstant chol_inv pls ga lvls (w_X 0)) 0.
Proof.
  destruct gw_train as [lvls T]. exists lvls. split; [exact T|]. intros pls.
  destruct (get 1 PConstant PConstant gs_qr rcond01 cond0 0 ga lvls gs_contract rcond01_contract T 2 _ eq_refl) as (lv & Hl & K).
  destruct (get 1 PConstant PConstant gs_qr rcond01 cond0 0 ga lvls gs_contract rcond01_contract T 1 _ eq_refl) as (lv1 & Hl1 & K1).
  pose proof (fun i Hi => interp_k 1 PConstant PConstant 0 ga lvls 1 _ lv1 Hl1 K1 i Hi) as I1. cbn [d_X d_y d_noise d_nt w_d] in I1.
  assert (L2 : forall i, (i < 3)%nat -> lpred 1 PConstant PConstant ga lvls 2 (w_X i) = if Nat.eqb i 1 then 1 else 0) by (intros i Hi; unfold lpred; rewrite (I1 i Hi), (E1 i Hi); ring).
  set (d2 := w_d y2) in *.
  assert (S2 : lv_sigma2 1 PConstant PConstant 0 ga lvls 2 d2 (p_sigma2 (l_par lv))) by (eapply (sigma2_k 1 PConstant PConstant gs_qr rcond01 cond0 0 ga lvls T 2 d2 lv eq_refl Hl K)).
  apply (var_train_pos 1 PConstant PConstant gs_qr rcond01 cond0 0 ga lvls gs_contract rcond01_contract T chol_inv pls chol_inv_contract 2 d2 0 (p_sigma2 (l_par lv))).
  - intros d Hd. cbn in Hd. destruct Hd as [<- |[<- |[<- |[]]]]; (split; [apply Mfk_P6.w_kok|intros; cbn; lra]).
  - lia.
  - reflexivity.
  - cbn; lia.
  - cbn; ring.
  - exact S2.
  - intros Z. destruct S2 as (b & v & [(g & Hg & Hv) _] & Ev). rewrite Z in Ev. cbn [d_nt w_d d2] in *.
    assert (V0 : v = 0). { symmetry in Ev. apply Rmult_integral in Ev. destruct Ev as [Ev|Ev]; [|exfalso; revert Ev; apply pow_nonzero, ys_nz]. unfold Rdiv in Ev. apply Rmult_integral in Ev. destruct Ev as [Ev|Ev]; [exact Ev|]. exfalso. revert Ev. apply Rinv_neq_0_compat. unfold lv_p. cbn. lra. }
    assert (G0 : forall i, (i < 3)%nat -> g i = 0).
    { intros i Hi. destruct (nonzero_dec 3 g) as [W|W]; [|apply W; exact Hi]. exfalso. pose proof (gw_pd y2 g W) as P. rewrite (dot_ext 3 g _ g (fun i => lv_y ga d2 i - mv (lv_p 1 PConstant PConstant 2) (lv_F 1 PConstant PConstant ga lvls 2 d2) b i)) in P; [lra|reflexivity|].
      intros j Hj. rewrite <- (Hg j Hj). apply mv_ext; [|reflexivity]. intros a Ha. apply (R_eq 1 0 ga d2 j a Hj Ha). }
    assert (Yb : forall i, (i < 3)%nat -> lv_y ga d2 i = mv 2 (lv_F 1 PConstant PConstant ga lvls 2 d2) b i).
    { intros i Hi. pose proof (Hg i Hi) as H. rewrite mv_zero in H by exact G0. change (lv_p 1 PConstant PConstant 2) with 2%nat in H. lra. }
    pose proof (Yb 0%nat ltac:(lia)) as Y0. pose proof (Yb 2%nat ltac:(lia)) as Y2.
    assert (F02 : forall j, (j < 2)%nat -> lv_F 1 PConstant PConstant ga lvls 2 d2 0 j = lv_F 1 PConstant PConstant ga lvls 2 d2 2 j).
    { intros j Hj. unfold lv_F, lv_trend. cbn [Nat.eqb]. change (d_X d2) with w_X. rewrite !L2 by lia. cbn [Nat.eqb n_regr]. destruct j as [|[|j]]; [| |lia]; cbn [Nat.ltb Nat.leb Nat.sub]; rewrite !fvec_0; reflexivity. }
    rewrite (mv_ext 2 _ (fun _ => lv_F 1 PConstant PConstant ga lvls 2 d2 2) b b 0) in Y0; [|intros j Hj; apply F02; exact Hj|reflexivity].
    change (mv 2 (fun _ => lv_F 1 PConstant PConstant ga lvls 2 d2 2) b 0) with (mv 2 (lv_F 1 PConstant PConstant ga lvls 2 d2) b 2) in Y0. rewrite <- Y2 in Y0. unfold lv_y in Y0. cbn [d_y d2 w_d] in Y0. rewrite !E2 in Y0 by lia. cbn [Nat.eqb] in Y0.
    apply (Rmult_eq_compat_r (y_scale ga)) in Y0. unfold Rdiv in Y0. rewrite !Rmult_assoc, Rinv_l, !Rmult_1_r in Y0 by apply ys_nz. lra.
  - change (d_X d2) with w_X. rewrite L2 by lia. cbn [Nat.eqb]. intros Z. symmetry in Z. revert Z. apply gw_yoff.
Qed.
End W.
(** a surrogate with estimated noise whose three levels have these data *)
Definition e_o (y : vec) : obs := {| o_nt := 3; o_X := w_X; o_y := y; o_noise0 := [0] |}.
Definition e_y0 : vec := fun i => if Nat.eqb i 1 then 1 else 0.
Definition e_y2 : vec := fun i => if Nat.eqb i 2 then 1 else 0.
Definition e_st : store := {| s_obs := [e_o e_y0; e_o e_y0; e_o e_y2]; s_eval := true |}.
Definition e_search : bool -> list obs -> nat -> kspec * R := fun _ _ _ => (w_k, 0).
Notation e_train ov := (train 1 PConstant PConstant gs_qr rcond01 cond0 0 false ov e_search).
Notation e_fit := (fit 1 PConstant PConstant gs_qr rcond01 cond0 0 false e_search).
Lemma e_stage1 : exists lvls1, e_fit true (s_obs e_st) = Some lvls1.
Proof.
  destruct (gw_train e_y0 e_y0 e_y2) as [lvls T]; try reflexivity. exists lvls. apply fit_back; [reflexivity| | |exact T].
  - intros o [<- |[<- |[<- |[]]]]; reflexivity.
  - intros o _. left. reflexivity.
Qed.
Lemma e_interp lvls1 k o i : e_fit true (s_obs e_st) = Some lvls1 -> nth_error (s_obs e_st) k = Some o -> (i < 3)%nat ->
  lpred 1 PConstant PConstant (datas false e_search true (s_obs e_st)) lvls1 (S k) (o_X o i) = o_y o i.
Proof.
  intros F Ho Hi. apply (fit_plain 1 PConstant PConstant gs_qr rcond01 cond0 0 false e_search true) in F; [|reflexivity]. unfold lpred.
  pose proof (C50_interpolates 1 PConstant PConstant gs_qr rcond01 cond0 0 _ lvls1 gs_contract rcond01_contract F k _ (datas_nth false e_search true _ k o Ho) i) as Q.
  assert (N : d_nt (data_of false e_search true (s_obs e_st) k o) = 3%nat). { destruct k as [|[|[|k]]]; cbn in Ho; try (injection Ho as <-; reflexivity). destruct k; discriminate. }
  rewrite N in Q. specialize (Q Hi). cbn [d_noise data_of e_search snd andb negb d_X d_y] in Q. rewrite Q by ring. reflexivity.
Qed.
Lemma e_stage2 : exists all lvls, snd (e_train true e_st) = Some (all, lvls) /\ forall pls, 0 < nth 2 (mfk_variances 1 PConstant PConstant chol_inv pls all lvls (w_X 0)) 0.
Proof.
  destruct e_stage1 as [l1 F1].
  set (a1 := datas false e_search true (s_obs e_st)). set (y := fun (k : nat) (i : nat) => lpred 1 PConstant PConstant a1 l1 (S k) (w_X i)).
  assert (Er : replaced 1 PConstant PConstant a1 l1 0 (s_obs e_st) = [e_o (y 0%nat); e_o (y 1%nat); e_o (y 2%nat)]) by reflexivity.
  destruct (gthird_level (y 0%nat) (y 1%nat) (y 2%nat)) as (lvls & T & P).
  - intros i Hi. exact (e_interp l1 0 _ i F1 eq_refl Hi).
  - intros i Hi. exact (e_interp l1 1 _ i F1 eq_refl Hi).
  - intros i Hi. exact (e_interp l1 2 _ i F1 eq_refl Hi).
  - exists (ga (y 0%nat) (y 1%nat) (y 2%nat)), lvls. split; [|exact P].
    assert (F2 : e_fit false (replaced 1 PConstant PConstant a1 l1 0 (s_obs e_st)) = Some lvls).
    { rewrite Er. apply fit_back; [reflexivity| | |exact T].
      - intros o [<- |[<- |[<- |[]]]]; reflexivity.
      - intros o [<- |[<- |[<- |[]]]]; right; discriminate. }
    unfold train. change (s_eval e_st) with true. rewrite F1. cbv zeta. cbn [andb snd]. fold a1. rewrite F2, Er. reflexivity.
Qed.
