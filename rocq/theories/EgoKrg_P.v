(** C113: where the Kriging variance, and with it expected improvement, vanishes. *)
From Coq Require Import Reals Arith Bool List Lia Lra.
From Verif Require Import RSum Mat Tri_M Tri_P Kernels_M Kernels_P3 Krg_M Krg_S Krg_P Krg_P2 Krg_P3.
Import ListNotations.
Open Scope list_scope.
Open Scope R_scope.

Section T.
Variables (nx nt : nat) (po : poly) (c : corr) (theta : vec) (nugget : R) (noise : vec) (X : nat -> vec) (y : vec) (m : model).
Let s := KStd c theta.
Hypothesis T : trained nx nt po s nugget noise X y m.
Hypotheses (Hc : c <> ActExp) (Ht : forall j, (j < nx)%nat -> 0 < theta j) (Nn : forall i, (i < nt)%nat -> 0 <= nugget + noise i) (Hx : (0 < nx)%nat).
Let Rm := corr_matrix s nx nt (Xnorm nt X) nugget noise.
Lemma K_ok : k_ok s nx.
Proof. split; [exact Hc|]. intros j Hj. apply Rlt_le, Ht, Hj. Qed.
Lemma Rm_pd : mpd nt Rm.
Proof. exact (chol_pd _ _ _ (corr_matrix_sym _ _ _ _ _ _) (fo_C _ _ _ _ _ _ (t_fit _ _ _ _ _ _ _ _ _ T))). Qed.
(** exact data at one input are given once *)
Lemma exact_distinct i j : (i < nt)%nat -> (j < nt)%nat -> i <> j -> nugget + noise i = 0 -> nugget + noise j = 0 -> ~ (forall k, (k < nx)%nat -> Xnorm nt X i k = Xnorm nt X j k).
Proof.
  intros Hi Hj N Gi Gj E. set (w := fun k => (if Nat.eqb k i then 1 else 0) - (if Nat.eqb k j then 1 else 0)).
  assert (Q : w i = 0).
  { apply (mpd_zero nt Rm w Rm_pd); [|exact Hi]. intros k Hk. unfold mv, w.
    rewrite (rsum_ext nt _ (fun a => (if Nat.eqb a i then Rm k a else 0) - (if Nat.eqb a j then Rm k a else 0))) by (intros a Ha; destruct (Nat.eqb a i), (Nat.eqb a j); ring).
    rewrite rsum_minus, (rsum_single nt (fun a => Rm k a) i Hi), (rsum_single nt (fun a => Rm k a) j Hj). unfold Rm. rewrite !corr_matrix_spec by assumption.
    assert (Ke : forall z, kf s nx z (Xnorm nt X i) = kf s nx z (Xnorm nt X j)) by (intros z; apply kd_ext; intros k' Hk'; rewrite (E k' Hk'); reflexivity).
    assert (A : (if Nat.eqb k i then 1 + nugget + noise k else kf s nx (Xnorm nt X k) (Xnorm nt X i)) = kf s nx (Xnorm nt X k) (Xnorm nt X i)) by (destruct (Nat.eqb_spec k i) as [->|]; [rewrite kf_diag; lra|reflexivity]).
    assert (B : (if Nat.eqb k j then 1 + nugget + noise k else kf s nx (Xnorm nt X k) (Xnorm nt X j)) = kf s nx (Xnorm nt X k) (Xnorm nt X j)) by (destruct (Nat.eqb_spec k j) as [->|]; [rewrite kf_diag; lra|reflexivity]).
    rewrite A, B, Ke. ring. }
  unfold w in Q. rewrite Nat.eqb_refl in Q. destruct (Nat.eqb_spec i j); [contradiction|lra].
Qed.
Variable x : vec.
Hypothesis Hn : forall i, (i < nt)%nat -> nugget + noise i = 0 -> ~ (forall k, (k < nx)%nat -> xq nt X x k = Xnorm nt X i k).
Let isz (i : nat) : bool := if Req_EM_T (nugget + noise i) 0 then true else false.
Let M := rsum nt (fun j => Rabs (Xnorm nt X j 0%nat)) + Rabs (xq nt X x 0%nat).
Lemma M_X j : (j < nt)%nat -> Xnorm nt X j 0%nat <= M.
Proof.
  intros Hj. unfold M. pose proof (rsum_ge_term nt (fun j => Rabs (Xnorm nt X j 0%nat)) j (fun i _ => Rabs_pos _) Hj) as Q. cbn beta in Q.
  pose proof (Rabs_pos (xq nt X x 0%nat)). pose proof (Rle_abs (Xnorm nt X j 0%nat)). lra.
Qed.
Lemma M_x : xq nt X x 0%nat <= M.
Proof.
  unfold M. pose proof (rsum_nonneg nt (fun j => Rabs (Xnorm nt X j 0%nat)) (fun i _ => Rabs_pos _)). pose proof (Rle_abs (xq nt X x 0%nat)). lra.
Qed.
Let pt (a : nat) : vec := if Nat.ltb a nt then (if isz a then Xnorm nt X a else fun _ => M + 1 + INR a) else xq nt X x.
Lemma pt_distinct i j : (i < S nt)%nat -> (j < S nt)%nat -> i <> j -> ~ (forall k, (k < nx)%nat -> pt i k = pt j k).
Proof.
  assert (W : forall i j, (i < j)%nat -> (j < S nt)%nat -> ~ (forall k, (k < nx)%nat -> pt i k = pt j k)).
  { intros i' j' L Hj E. pose proof (E 0%nat Hx) as E0. unfold pt in E, E0. destruct (Nat.ltb_spec i' nt); [|lia].
    assert (P1 : 0 <= INR i') by apply pos_INR. assert (P2 : 0 <= INR j') by apply pos_INR. assert (P3 : INR i' < INR j') by (apply lt_INR; exact L).
    unfold isz in E, E0. destruct (Nat.ltb_spec j' nt) as [Lj|Lj].
    - destruct (Req_EM_T (nugget + noise i') 0) as [Zi|Zi], (Req_EM_T (nugget + noise j') 0) as [Zj|Zj].
      + apply (exact_distinct i' j'); try assumption. lia.
      + pose proof (M_X i' H). lra.
      + pose proof (M_X j' Lj). lra.
      + lra.
    - destruct (Req_EM_T (nugget + noise i') 0) as [Zi|Zi].
      + apply (Hn i' H Zi). intros k Hk. symmetry. apply E. exact Hk.
      + pose proof M_x. lra. }
  intros Hi Hj N E. destruct (lt_dec i j) as [L|L]; [exact (W i j L Hj E)|]. apply (W j i ltac:(lia) Hi). intros k Hk. symmetry. apply E. exact Hk.
Qed.
Lemma mse_form w (p : nat -> vec) : (forall a, (a < nt)%nat -> w a = 0 \/ p a = Xnorm nt X a) -> p nt = xq nt X x ->
  mse nt Rm (rq nx nt s X x) w = rsum (S nt) (fun i => rsum (S nt) (fun j => (if Nat.ltb i nt then w i else -1) * (if Nat.ltb j nt then w j else -1) * kf s nx (p i) (p j))) + rsum nt (fun i => (nugget + noise i) * w i ^ 2).
Proof.
  intros Hp Hl. unfold mse, Rm. rewrite corr_matrix_form. cbn [rsum]. rewrite Nat.ltb_irrefl, Hl, kf_diag.
  assert (L : forall a, (a < nt)%nat -> Nat.ltb a nt = true) by (intros; apply Nat.ltb_lt; assumption).
  rewrite (rsum_ext nt (fun j => -1 * (if Nat.ltb j nt then w j else -1) * kf s nx (xq nt X x) (p j)) (fun j => - (w j * rq nx nt s X x j))).
  2:{ intros j Hj. rewrite L by exact Hj. destruct (Hp j Hj) as [E|E]; [rewrite E; ring|rewrite E; unfold rq; ring]. }
  rewrite (rsum_ext nt (fun i => rsum nt _ + (if Nat.ltb i nt then w i else -1) * -1 * _) (fun i => rsum nt (fun j => w i * w j * kf s nx (Xnorm nt X i) (Xnorm nt X j)) - w i * rq nx nt s X x i)).
  2:{ intros i Hi. rewrite L by exact Hi.
      rewrite (rsum_ext nt (fun j => w i * (if Nat.ltb j nt then w j else -1) * kf s nx (p i) (p j)) (fun j => w i * w j * kf s nx (Xnorm nt X i) (Xnorm nt X j))).
      - destruct (Hp i Hi) as [E|E]; [rewrite E; ring|rewrite E; unfold rq; rewrite (kf_sym s nx (xq nt X x)); ring].
      - intros j Hj. rewrite L by exact Hj. destruct (Hp i Hi) as [E|E]; [rewrite E; ring|]. destruct (Hp j Hj) as [E'|E']; [rewrite E'; ring|]. rewrite E, E'. reflexivity. }
  rewrite rsum_minus, rsum_opp. fold (dot nt w (rq nx nt s X x)). ring.
Qed.
Lemma mse_pos w : 0 < mse nt Rm (rq nx nt s X x) w.
Proof.
  destruct (mse_nonneg nx nt s nugget noise X K_ok Nn x w) as [P|Z]; [exact P|exfalso]. fold Rm in Z. symmetry in Z.
  set (p0 := fun a => if Nat.ltb a nt then Xnorm nt X a else xq nt X x).
  assert (E0 := mse_form w p0). assert (H0 : forall a, (a < nt)%nat -> w a = 0 \/ p0 a = Xnorm nt X a) by (intros a Ha; right; unfold p0; destruct (Nat.ltb_spec a nt); [reflexivity|lia]).
  assert (H1 : p0 nt = xq nt X x) by (unfold p0; rewrite Nat.ltb_irrefl; reflexivity). specialize (E0 H0 H1).
  assert (PS := kf_psd s nx (S nt) p0 K_ok (fun a => if Nat.ltb a nt then w a else -1)).
  assert (G0 : forall i, (i < nt)%nat -> 0 <= (nugget + noise i) * w i ^ 2) by (intros i Hi; apply Rmult_le_pos; [apply Nn; exact Hi|apply pow2_ge_0]).
  assert (G1 : rsum nt (fun i => (nugget + noise i) * w i ^ 2) = 0) by (pose proof (rsum_nonneg nt _ G0); cbv beta in PS; lra).
  pose proof (rsum_zero_inv nt _ G0 G1) as G2. cbv beta in G2.
  assert (E1 := mse_form w pt). assert (H2 : forall a, (a < nt)%nat -> w a = 0 \/ pt a = Xnorm nt X a).
  { intros a Ha. unfold pt, isz. destruct (Nat.ltb_spec a nt); [|lia]. destruct (Req_EM_T (nugget + noise a) 0) as [Ez|Ez]; [right; reflexivity|left].
    destruct (Rmult_integral _ _ (G2 a Ha)) as [Q|Q]; [contradiction|]. destruct (Req_dec (w a) 0) as [W|W]; [exact W|]. exfalso. exact (pow_nonzero _ 2 W Q). }
  assert (H3 : pt nt = xq nt X x) by (unfold pt; rewrite Nat.ltb_irrefl; reflexivity). specialize (E1 H2 H3). rewrite G1, Z in E1.
  assert (PD := corr_pd_form c nx 0 theta (S nt) pt (fun _ => Ht) (fun _ => pt_distinct) (fun E => False_ind _ (Hc E)) (fun a => if Nat.ltb a nt then w a else -1)).
  assert (PD' : 0 < rsum (S nt) (fun i => rsum (S nt) (fun j => (if Nat.ltb i nt then w i else -1) * (if Nat.ltb j nt then w j else -1) * corr_of c nx 0 theta (pt i) (pt j)))).
  { apply PD. exists nt. split; [lia|]. rewrite Nat.ltb_irrefl. apply Rlt_not_eq. lra. }
  unfold s, kf, kd in E1. unfold corr_of in PD'. lra.
Qed.
Lemma variance_pos : 0 < p_sigma2 (m_par m) -> 0 < predict_variance m x.
Proof.
  intros S2. rewrite (variance_eq nx nt po s nugget noise X y m T K_ok Nn). apply Rmult_lt_0_compat; [exact S2|].
  enough (dot nt (rt m x) (rt m x) < 1) by (pose proof (rsum_nonneg (n_regr po nx) (fun j => (u_rhs m x j / p_G (m_par m) j j) ^ 2) (fun j _ => pow2_ge_0 _)); lra).
  pose proof (t_fit _ _ _ _ _ _ _ _ _ T) as O. pose proof (corr_matrix_sym s nx nt (Xnorm nt X) nugget noise) as S. pose proof (fo_C _ _ _ _ _ _ O) as FC.
  rewrite (rt_fsub nx nt po s nugget noise X y m T). set (q := fsub _ _ nt). set (w := bsub nt (tr (p_C (m_par m))) q nt). pose proof (mse_pos w) as P. unfold mse in P.
  assert (W : forall i, (i < nt)%nat -> mv nt (tr (p_C (m_par m))) w i = q i) by (intros; apply bsub_solves; [apply (chol_upper_tr _ _ _ FC)|apply (chol_diag_tr _ _ _ FC)|assumption]).
  unfold Rm in P. rewrite (chol_form nt _ _ w S FC) in P. rewrite (dot_ext nt _ _ q q) in P by exact W.
  assert (A : dot nt w (rq nx nt s X x) = dot nt q q).
  { rewrite (dot_ext nt w (rq nx nt s X x) w (mv nt (p_C (m_par m)) q)). - rewrite dot_sym, dot_mv_tr. apply dot_ext; [reflexivity|exact W]. - reflexivity. - intros i Hi. symmetry. apply fsub_solves; [apply (chol_lower _ _ _ FC)|apply (chol_diag _ _ _ FC)|exact Hi]. }
  lra.
Qed.
End T.
