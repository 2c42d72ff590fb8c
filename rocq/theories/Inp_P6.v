(** With a linear trend the reported variance depends on the order of the input variables: a witness. *)
From Coq Require Import Reals Arith Bool List Lia Lra FunctionalExtensionality ZArith.
From Verif Require Import RSum Mat Tri_M Tri_P Kernels_M Krg_M Krg_S Krg_P Krg_P2 Krg_P3 Krg_P5 Krg_P6 Krg_Qr Het_S Het_P4 Order_S Order_P1 Order_P2 Order_P3 Order_P4 Trend_T Inp_S Inp_P1 Inp_P2 Inp_P3 Inp_P4.
Import ListNotations.
Open Scope list_scope.
Open Scope R_scope.
Definition Xo : nat -> vec := fun i c => nth i (if Nat.eqb c 0 then [-3; 1; 1; 1] else [5; 5; -3; -7]) 0.
Definition yo : vec := fun i => nth i [0; 0; 1; 0] 0.
Definition so : kspec := KStd AbsExp (fun c => if Nat.eqb c 0 then ln 2 else 3 / 2 * ln 2).
Definition qo : vec := fun c => if Nat.eqb c 0 then -1 else 5.
Definition turn (c : nat) : nat := (1 - c)%nat.
Lemma mean_o0 : mean 4 (fun a => Xo a 0%nat) = 0. Proof. unfold mean, Xo. cbn [rsum nth Nat.eqb]. lra. Qed.
Lemma mean_o1 : mean 4 (fun a => Xo a 1%nat) = 0. Proof. unfold mean, Xo. cbn [rsum nth Nat.eqb]. lra. Qed.
Lemma I4 : INR 4 - 1 = 3. Proof. rewrite (INR_lit 4 4) by reflexivity. lra. Qed.
Lemma scale_o0 : scale1 4 (fun a => Xo a 0%nat) = 2.
Proof.
  unfold scale1. assert (E : std1 4 (fun a => Xo a 0%nat) = 2). { unfold std1. rewrite mean_o0. apply sqrt_square_eq; [lra|]. unfold Xo. cbn [rsum nth Nat.eqb]. cbn. lra. }
  rewrite E. destruct (Req_EM_T 2 0); lra.
Qed.
Lemma scale_o1 : scale1 4 (fun a => Xo a 1%nat) = 6.
Proof.
  unfold scale1. assert (E : std1 4 (fun a => Xo a 1%nat) = 6). { unfold std1. rewrite mean_o1. apply sqrt_square_eq; [lra|]. unfold Xo. cbn [rsum nth Nat.eqb]. cbn. lra. }
  rewrite E. destruct (Req_EM_T 6 0); lra.
Qed.
Definition n0 (i : nat) : R := nth i [-3/2; 1/2; 1/2; 1/2] 0.
Definition n1 (i : nat) : R := nth i [5/6; 5/6; -1/2; -7/6] 0.
Lemma Xn_o0 i : (i < 4)%nat -> Xnorm 4 Xo i 0%nat = n0 i.
Proof. intros H. unfold Xnorm. rewrite mean_o0, scale_o0. unfold n0, Xo. destruct i as [|[|[|[|i]]]]; try lia; cbn [Nat.eqb nth]; lra. Qed.
Lemma Xn_o1 i : (i < 4)%nat -> Xnorm 4 Xo i 1%nat = n1 i.
Proof. intros H. unfold Xnorm. rewrite mean_o1, scale_o1. unfold n1, Xo. destruct i as [|[|[|[|i]]]]; try lia; cbn [Nat.eqb nth]; lra. Qed.
Lemma kf_o (n : nat) (u v : vec) : Rabs (u 0%nat - v 0%nat) + 3 / 2 * Rabs (u 1%nat - v 1%nat) = INR n -> kf so 2 u v = (/ 2) ^ n.
Proof.
  intros E. unfold kf, kd, so, kernel, k_exp, comp_dist. cbn [rsum Nat.eqb]. rewrite <- Rpower_pow by lra. unfold Rpower. f_equal. rewrite <- E. rewrite ln_Rinv by lra. ring.
Qed.
Definition ro : list (list R) := [[1; 1/4; 1/16; 1/32]; [1/4; 1; 1/4; 1/8]; [1/16; 1/4; 1; 1/2]; [1/32; 1/8; 1/2; 1]].
Definition no : list (list nat) := [[0; 2; 4; 5]; [2; 0; 2; 3]; [4; 2; 0; 1]; [5; 3; 1; 0]]%nat.
Ltac absall := repeat match goal with |- context [Rabs ?e] => first [rewrite (Rabs_right e) by lra | rewrite (Rabs_left e) by lra] end.
Lemma R_o i j : (i < 4)%nat -> (j < 4)%nat -> corr_matrix so 2 4 (Xnorm 4 Xo) 0 (fun _ => 0) i j = nth j (nth i ro []) 0.
Proof.
  intros Hi Hj. rewrite corr_matrix_spec by assumption. destruct (Nat.eqb_spec i j) as [<- |N].
  - destruct i as [|[|[|[|i]]]]; try lia; unfold ro; cbn [nth]; lra.
  - rewrite (kf_o (nth j (nth i no []) 0%nat)).
    + destruct i as [|[|[|[|i]]]]; try lia; destruct j as [|[|[|[|j]]]]; try lia; unfold ro, no; cbn [nth pow]; lra.
    + rewrite !Xn_o0, !Xn_o1 by assumption. destruct i as [|[|[|[|i]]]]; try lia; destruct j as [|[|[|[|j]]]]; try lia; unfold n0, n1, no; cbn [nth INR]; absall; lra.
Qed.
Lemma xq_o0 : xq 4 Xo qo 0%nat = -1/2. Proof. unfold xq. rewrite mean_o0, scale_o0. unfold qo. cbn [Nat.eqb]. lra. Qed.
Lemma xq_o1 : xq 4 Xo qo 1%nat = 5/6. Proof. unfold xq. rewrite mean_o1, scale_o1. unfold qo. cbn [Nat.eqb]. lra. Qed.
Lemma r_o i : (i < 4)%nat -> rq 2 4 so Xo qo i = nth i [1/2; 1/2; 1/8; 1/16] 0.
Proof.
  intros Hi. unfold rq. rewrite (kf_o (nth i [1; 1; 3; 4]%nat 0%nat)).
  - destruct i as [|[|[|[|i]]]]; try lia; cbn [nth pow]; lra.
  - rewrite xq_o0, xq_o1, Xn_o0, Xn_o1 by exact Hi. destruct i as [|[|[|[|i]]]]; try lia; unfold n0, n1; cbn [nth INR]; absall; lra.
Qed.
Lemma F_o i j : (i < 4)%nat -> Fmat PLinear 2 4 Xo i j = nth j [1; n0 i; n1 i] 0.
Proof.
  intros Hi. unfold Fmat, fvec. cbn [regr seq map nth]. rewrite Xn_o0, Xn_o1 by exact Hi. reflexivity.
Qed.
Definition zo : list (list R) := [[4/5; 3/5; 7/15; 2/3]; [-26/15; 5/6; 7/30; 1/3]; [2/3; 77/90; -13/90; -11/9]].
Lemma zo_ok k i : (k < 3)%nat -> (i < 4)%nat -> mv 4 (corr_matrix so 2 4 (Xnorm 4 Xo) 0 (fun _ => 0)) (fun j => nth j (nth k zo []) 0) i = Fmat PLinear 2 4 Xo i k.
Proof.
  intros Hk Hi. unfold mv. cbn [rsum]. rewrite !R_o by lia. rewrite F_o by exact Hi. destruct k as [|[|[|k]]]; try lia; destruct i as [|[|[|[|i]]]]; try lia; unfold zo, ro, n0, n1; cbn [nth]; lra.
Qed.
Definition go : vec := fun j => nth j [2/5; 2/5; 0; 0] 0.
Lemma go_ok i : (i < 4)%nat -> mv 4 (corr_matrix so 2 4 (Xnorm 4 Xo) 0 (fun _ => 0)) go i = rq 2 4 so Xo qo i.
Proof. intros Hi. unfold mv. cbn [rsum]. rewrite !R_o by lia. rewrite r_o by exact Hi. unfold go. destruct i as [|[|[|[|i]]]]; try lia; unfold ro; cbn [nth]; lra. Qed.
Definition S3 : list (list R) := [[38/15; -1/3; 7/45]; [-1/3; 33/10; -113/90]; [7/45; -113/90; 83/30]].
Lemma pd_o : mpd 4 (corr_matrix so 2 4 (Xnorm 4 Xo) 0 (fun _ => 0)).
Proof.
  assert (P : forall j, (j < 2)%nat -> 0 < (fun c => if Nat.eqb c 0 then ln 2 else 3 / 2 * ln 2) j).
  { intros j _. cbn beta. assert (0 < ln 2) by (rewrite <- ln_1; apply ln_increasing; lra). destruct (Nat.eqb j 0); lra. }
  apply (corr_matrix_pd_distinct AbsExp); [congruence|exact P|apply Xnorm_distinct|intros; lra].
  intros i j Hi Hj N E. pose proof (E 0%nat ltac:(lia)) as E0. pose proof (E 1%nat ltac:(lia)) as E1. unfold Xo in E0, E1. destruct i as [|[|[|[|i]]]]; try lia; destruct j as [|[|[|[|j]]]]; try lia; cbn [Nat.eqb nth] in E0, E1; lra.
Qed.
Section G.
Variables (nx nt : nat) (po : poly) (s : kspec) (nugget : R) (noise : vec) (X : nat -> vec) (y : vec) (m : model).
Hypothesis T : trained nx nt po s nugget noise X y m.
Lemma gram_z z i j : (i < n_regr po nx)%nat -> (j < n_regr po nx)%nat -> (forall a, (a < nt)%nat -> mv nt (corr_matrix s nx nt (Xnorm nt X) nugget noise) z a = Fmat po nx nt X a i) ->
  rsum (n_regr po nx) (fun k => p_G (m_par m) k i * p_G (m_par m) k j) = dot nt z (fun a => Fmat po nx nt X a j).
Proof.
  intros Hi Hj Hz. pose proof (t_fit _ _ _ _ _ _ _ _ _ T) as O. rewrite (qr_gram nt (n_regr po nx) (p_Ft (m_par m)) (p_Q (m_par m)) (p_G (m_par m)) (fo_Q _ _ _ _ _ _ O) (fo_QG _ _ _ _ _ _ O) i j Hi Hj).
  rewrite (dot_ext nt _ _ _ _ (fun a Ha => Ft_fsub nt _ _ _ _ (m_par m) i a O Ha) (fun a Ha => Ft_fsub nt _ _ _ _ (m_par m) j a O Ha)).
  apply (dot_fsub nt _ _ _ _ z (corr_matrix_sym s nx nt (Xnorm nt X) nugget noise) (fo_C _ _ _ _ _ _ O)). exact Hz.
Qed.
Lemma rt_z z x : (forall a, (a < nt)%nat -> mv nt (corr_matrix s nx nt (Xnorm nt X) nugget noise) z a = rq nx nt s X x a) -> dot nt (rt m x) (rt m x) = dot nt z (rq nx nt s X x).
Proof.
  intros Hz. pose proof (t_fit _ _ _ _ _ _ _ _ _ T) as O. unfold rt. assert (E : m_nt m = nt /\ rvec m x = rq nx nt s X x) by (rewrite (t_m _ _ _ _ _ _ _ _ _ T); split; reflexivity). destruct E as [-> ->]. unfold solve_triangular.
  apply (dot_fsub nt _ _ _ _ z (corr_matrix_sym s nx nt (Xnorm nt X) nugget noise) (fo_C _ _ _ _ _ _ O)). exact Hz.
Qed.
End G.
Lemma turn_reorder : reorder 2 turn. Proof. unfold turn. split; intros; lia. Qed.
(** variance from the squares of the diagonal *)
Lemma three (G : mat) (s00 s01 s02 s11 s12 s22 : R) : upper 3 G -> diagnz 3 G ->
  rsum 3 (fun k => G k 0%nat * G k 0%nat) = s00 -> rsum 3 (fun k => G k 0%nat * G k 1%nat) = s01 -> rsum 3 (fun k => G k 0%nat * G k 2%nat) = s02 ->
  rsum 3 (fun k => G k 1%nat * G k 1%nat) = s11 -> rsum 3 (fun k => G k 1%nat * G k 2%nat) = s12 -> rsum 3 (fun k => G k 2%nat * G k 2%nat) = s22 ->
  G 0%nat 0%nat ^ 2 = s00 /\ G 1%nat 1%nat ^ 2 = s11 - s01 ^ 2 / s00 /\ G 2%nat 2%nat ^ 2 = (s22 - s02 ^ 2 / s00) - (s12 - s01 * s02 / s00) ^ 2 / (s11 - s01 ^ 2 / s00).
Proof.
  intros U D E00 E01 E02 E11 E12 E22. cbn [rsum] in *. rewrite !(U 1%nat 0%nat), !(U 2%nat 0%nat) in * by lia. rewrite !(U 2%nat 1%nat) in * by lia.
  pose proof (D 0%nat ltac:(lia)) as D0. pose proof (D 1%nat ltac:(lia)) as D1. pose proof (D 2%nat ltac:(lia)) as D2.
  set (a := G 0%nat 0%nat) in *. set (b := G 0%nat 1%nat) in *. set (c := G 0%nat 2%nat) in *. set (d := G 1%nat 1%nat) in *. set (e := G 1%nat 2%nat) in *. set (h := G 2%nat 2%nat) in *.
  assert (A : s00 = a ^ 2) by lra. assert (B : s01 = a * b) by lra. assert (C : s02 = a * c) by lra. assert (Q1 : s11 = b ^ 2 + d ^ 2) by lra. assert (Q2 : s12 = b * c + d * e) by lra. assert (Q3 : s22 = c ^ 2 + e ^ 2 + h ^ 2) by lra.
  clear E00 E01 E02 E11 E12 E22. subst s00 s01 s02 s11 s12 s22. split; [reflexivity|]. assert (X1 : d ^ 2 = b ^ 2 + d ^ 2 - (a * b) ^ 2 / a ^ 2) by (field; exact D0). split; [exact X1|]. rewrite <- X1. field. split; assumption.
Qed.
Lemma order_refuted : exists m m', krg_train gs_qr rcond01 cond0 2 4 PLinear so 0 (fun _ => 0) Xo yo = Some m /\
  krg_train gs_qr rcond01 cond0 2 4 PLinear (swap_k turn so) 0 (fun _ => 0) (fun i => swap_in turn (Xo i)) yo = Some m' /\
  predict_variance m' (swap_in turn qo) <> predict_variance m qo.
Proof.
  destruct (train_gs 2 4 PLinear so 0 (fun _ => 0) Xo yo ltac:(lia) ltac:(cbn; lia) pd_o) as [m Em].
  { intros b Hb j Hj. pose proof (Hb 0%nat ltac:(lia)) as E0. pose proof (Hb 1%nat ltac:(lia)) as E1. pose proof (Hb 2%nat ltac:(lia)) as E2. cbn [n_regr Nat.add] in *. unfold mv in E0, E1, E2. cbn [rsum] in E0, E1, E2. rewrite !F_o in E0, E1, E2 by lia. unfold n0, n1 in E0, E1, E2. cbn [nth] in E0, E1, E2.
    destruct j as [|[|[|j]]]; [lra|lra|lra|lia]. }
  destruct (w_trains 2 4 PLinear so 0 (fun _ => 0) Xo yo turn turn_reorder gs_qr rcond01 cond0 gs_contract rcond01_contract rcond01_cols cond0_cols m Em) as [m' Em'].
  exists m, m'. split; [exact Em|]. split; [exact Em'|].
  pose proof (train_inv _ _ _ _ _ _ _ _ _ _ _ _ gs_contract rcond01_contract Em) as T. pose proof (train_inv _ _ _ _ _ _ _ _ _ _ _ _ gs_contract rcond01_contract Em') as T'.
  pose proof (t_fit _ _ _ _ _ _ _ _ _ T) as O. pose proof (t_fit _ _ _ _ _ _ _ _ _ T') as O'.
  assert (S2 : 0 < p_sigma2 (m_par m)).
  { apply (sigma2_pos 2 4 PLinear so 0 (fun _ => 0) Xo yo m T). intros b. set (c := scale1 4 yo). assert (cn : c <> 0) by apply scale1_nz. assert (My : mean 4 yo = 1 / 4) by (unfold mean, yo; cbn [rsum nth]; rewrite (INR_lit 4 4) by reflexivity; lra).
    cbn [n_regr Nat.add]. destruct (Req_dec (ynorm 4 yo 1%nat) (mv 3 (Fmat PLinear 2 4 Xo) b 1%nat)) as [E1|N]; [|exists 1%nat; split; [lia|exact N]].
    destruct (Req_dec (ynorm 4 yo 2%nat) (mv 3 (Fmat PLinear 2 4 Xo) b 2%nat)) as [E2|N]; [|exists 2%nat; split; [lia|exact N]].
    exists 3%nat. split; [lia|]. intros E3. unfold mv in E1, E2, E3. cbn [rsum] in E1, E2, E3. rewrite !F_o in E1, E2, E3 by lia. unfold n0, n1 in E1, E2, E3. cbn [nth] in E1, E2, E3.
    unfold ynorm in E1, E2, E3. rewrite My in E1, E2, E3. fold c in E1, E2, E3. unfold yo in E1, E2, E3. cbn [nth] in E1, E2, E3. unfold Rdiv in E1, E2, E3. assert (/ c = 0) by lra. apply (Rinv_neq_0_compat c cn). assumption. }
  assert (GR : forall i j, (i < 3)%nat -> (j < 3)%nat -> rsum 3 (fun k => p_G (m_par m) k i * p_G (m_par m) k j) = nth j (nth i S3 []) 0).
  { intros i j Hi Hj. refine (eq_trans (gram_z 2 4 PLinear so 0 (fun _ => 0) Xo yo m T (fun a => nth a (nth i zo []) 0) i j Hi Hj (fun a Ha => zo_ok i a Hi Ha)) _). unfold dot. cbn [rsum]. rewrite !F_o by lia. unfold n0, n1.
    destruct i as [|[|[|i]]]; try lia; destruct j as [|[|[|j]]]; try lia; unfold zo, S3; cbn [nth]; lra. }
  assert (P0 : mperm 2 turn PLinear 0%nat = 0%nat) by (vm_compute; reflexivity). assert (P1 : mperm 2 turn PLinear 1%nat = 2%nat) by (vm_compute; reflexivity). assert (P2 : mperm 2 turn PLinear 2%nat = 1%nat) by (vm_compute; reflexivity).
  assert (GR' : forall i j, (i < 3)%nat -> (j < 3)%nat -> rsum 3 (fun k => p_G (m_par m') k i * p_G (m_par m') k j) = nth (mperm 2 turn PLinear j) (nth (mperm 2 turn PLinear i) S3 []) 0).
  { intros i j Hi Hj. pose proof (w_gram 2 4 PLinear so 0 (fun _ => 0) Xo yo turn turn_reorder m m' T T' i j Hi Hj) as W. cbn [n_regr Nat.add] in W. rewrite W. apply GR; apply (mperm_reorder 2 turn turn_reorder PLinear); assumption. }
  assert (U : forall j, (j < 3)%nat -> u_rhs m qo j = nth j [-1/5; 1/10; -1/6] 0).
  { intros j Hj. rewrite (u_row 2 4 PLinear so 0 (fun _ => 0) Xo yo m T go qo j go_ok Hj). unfold dot. cbn [rsum]. rewrite !F_o by lia. unfold fvec. cbn [regr seq map]. rewrite xq_o0, xq_o1. unfold go, n0, n1. destruct j as [|[|[|j]]]; try lia; cbn [nth]; lra. }
  assert (U' : forall j, (j < 3)%nat -> u_rhs m' (swap_in turn qo) j = nth (mperm 2 turn PLinear j) [-1/5; 1/10; -1/6] 0).
  { intros j Hj. rewrite (w_u 2 4 PLinear so 0 (fun _ => 0) Xo yo turn turn_reorder m m' T T' qo j Hj). apply U. apply (mperm_reorder 2 turn turn_reorder PLinear). exact Hj. }
  assert (RR : dot 4 (rt m qo) (rt m qo) = 2 / 5).
  { rewrite (rt_z 2 4 PLinear so 0 (fun _ => 0) Xo yo m T go qo go_ok). unfold dot. cbn [rsum]. rewrite !r_o by lia. unfold go. cbn [nth]. lra. }
  assert (V : forall mm x, m_nt mm = 4%nat -> m_nx mm = 2%nat -> m_poly mm = PLinear -> upper 3 (p_G (m_par mm)) -> p_sigma2 (m_par mm) = p_sigma2 (m_par m) -> dot 4 (rt mm x) (rt mm x) = 2 / 5 ->
     predict_variance mm x = p_sigma2 (m_par m) * (3 / 5 + rsum 3 (fun j => u_rhs mm x j ^ 2 / p_G (m_par mm) j j ^ 2))).
  { intros mm x A1 A2 A3 Up A4 A5. unfold predict_variance. cbv zeta. rewrite A1, A2, A3, A4, A5. change (n_regr PLinear 2) with 3%nat. pose proof (w_diag_u 2 PLinear mm x Up) as W. change (n_regr PLinear 2) with 3%nat in W. rewrite W.
    set (q := rsum 3 _). assert (Q0 : 0 <= q). { apply rsum_nonneg. intros j Hj. unfold Rdiv. rewrite <- pow_inv, <- Rpow_mult_distr. apply pow2_ge_0. }
    destruct (Rlt_dec (p_sigma2 (m_par m) * (1 - 2 / 5 + q)) 0) as [L|L]; [exfalso; nra|]. f_equal. lra. }
  assert (F1 : m_nt m = 4%nat /\ m_nx m = 2%nat /\ m_poly m = PLinear) by (rewrite (t_m _ _ _ _ _ _ _ _ _ T); repeat split). assert (F1' : m_nt m' = 4%nat /\ m_nx m' = 2%nat /\ m_poly m' = PLinear) by (rewrite (t_m _ _ _ _ _ _ _ _ _ T'); repeat split).
  destruct F1 as (A1 & A2 & A3). destruct F1' as (B1 & B2 & B3).
  pose proof (V m qo A1 A2 A3 (fo_G _ _ _ _ _ _ O) eq_refl RR) as V1.
  pose proof (V m' (swap_in turn qo) B1 B2 B3 (fo_G _ _ _ _ _ _ O') (w_s2 2 4 PLinear so 0 (fun _ => 0) Xo yo turn turn_reorder m m' T T') (eq_trans (w_rtrt 2 4 PLinear so 0 (fun _ => 0) Xo yo turn turn_reorder m m' T T' qo) RR)) as V2.
  destruct (three (p_G (m_par m)) _ _ _ _ _ _ (fo_G _ _ _ _ _ _ O) (fo_D _ _ _ _ _ _ O) (GR 0 0 ltac:(lia) ltac:(lia))%nat (GR 0 1 ltac:(lia) ltac:(lia))%nat (GR 0 2 ltac:(lia) ltac:(lia))%nat (GR 1 1 ltac:(lia) ltac:(lia))%nat (GR 1 2 ltac:(lia) ltac:(lia))%nat (GR 2 2 ltac:(lia) ltac:(lia))%nat) as (D0 & D1 & D2).
  destruct (three (p_G (m_par m')) _ _ _ _ _ _ (fo_G _ _ _ _ _ _ O') (fo_D _ _ _ _ _ _ O') (GR' 0 0 ltac:(lia) ltac:(lia))%nat (GR' 0 1 ltac:(lia) ltac:(lia))%nat (GR' 0 2 ltac:(lia) ltac:(lia))%nat (GR' 1 1 ltac:(lia) ltac:(lia))%nat (GR' 1 2 ltac:(lia) ltac:(lia))%nat (GR' 2 2 ltac:(lia) ltac:(lia))%nat) as (D0' & D1' & D2').
  rewrite P0, P1, P2 in *. unfold S3 in *. cbn [nth] in *.
  cbn [rsum] in V1, V2. rewrite !U in V1 by lia. rewrite !U' in V2 by lia. rewrite P0, P1, P2 in V2. cbn [nth] in V1, V2. rewrite D0, D1, D2 in V1. rewrite D0', D1', D2' in V2. rewrite V1, V2. intros E. apply Rmult_eq_reg_l in E; [|lra]. lra.
Qed.
