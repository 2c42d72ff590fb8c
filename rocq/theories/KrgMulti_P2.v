From Coq Require Import Reals Arith Bool List Lia Lra FunctionalExtensionality.
From Verif Require Import RSum Mat Tri_M Tri_P Kernels_M Krg_M Krg_S Krg_P2 Krg_P4 Krg_P5 Het_S Het_P4 KrgMulti_M KrgMulti_S KrgMulti_P.
Import ListNotations.
Open Scope list_scope.
Open Scope R_scope.


(** ** one output *)
Section T.
Variables (qr : nat -> nat -> mat -> mat * mat) (rcond : nat -> mat -> R) (condF : nat -> nat -> mat -> R).
Variables (nx nt ny : nat) (po : poly) (s : kspec) (nugget : R) (noise : vec) (X : nat -> vec) (Y : mat).
Notation Tm := (train_multi qr rcond condF nx nt ny po s nugget noise X Y).
Notation T1 j := (krg_train qr rcond condF nx nt po s nugget noise X (fun i => Y i j)).

Lemma t_trains j : (j < ny)%nat -> (exists M, Tm = Some M) <-> (exists m, T1 j = Some m).
Proof.
  intros Hj. unfold train_multi, krg_train. cbv zeta. destruct (Nat.leb nt 1); [split; intros [m H]; discriminate|]. destruct (Nat.ltb nt (n_regr po nx)); [split; intros [m H]; discriminate|].
  pose proof (column qr rcond condF nt (n_regr po nx) ny (corr_matrix s nx nt (Xnorm nt X) nugget noise) (fun i j => fvec po nx (Xnorm nt X i) j) (Ynorm nt Y) (fun j => scale1 nt (fun a => Y a j)) j Hj) as C. cbv beta in C. change (fun i => Ynorm nt Y i j) with (ynorm nt (fun i => Y i j)) in C.
  destruct (likelihood_multi _ _ _ _ _ _ _ _ _ _) as [v pr| |]; [destruct C as [w C]|..]; rewrite C; (split; intros [m H]; try discriminate; eexists; reflexivity).
Qed.
Lemma t_alone M j : Tm = Some M -> (j < ny)%nat -> exists m, T1 j = Some m /\
  forall xs e d, (e < length xs)%nat ->
  entry M (multi_values M xs) e j = predict_value m (nth e xs d) /\
  entry M (multi_variances M xs) e j = predict_variance m (nth e xs d) /\
  forall kx, match multi_derivatives M xs kx with Some l => predict_derivative m (nth e xs d) kx = Some (entry M l e j) | None => predict_derivative m (nth e xs d) kx = None end.
Proof.
  intros H Hj. unfold train_multi in H. unfold krg_train. cbv zeta in *. destruct (Nat.leb nt 1); [discriminate|]. destruct (Nat.ltb nt (n_regr po nx)); [discriminate|].
  pose proof (column qr rcond condF nt (n_regr po nx) ny (corr_matrix s nx nt (Xnorm nt X) nugget noise) (fun i j => fvec po nx (Xnorm nt X i) j) (Ynorm nt Y) (fun j => scale1 nt (fun a => Y a j)) j Hj) as C. cbv beta in C. change (fun i => Ynorm nt Y i j) with (ynorm nt (fun i => Y i j)) in C.
  destruct (likelihood_multi _ _ _ _ _ _ _ _ _ _) as [v pr| |]; [|discriminate..]. destruct C as [w C]. rewrite C. injection H as <-. eexists. split; [reflexivity|]. intros xs e d He.
  set (M := {| mm_nx := nx |}). assert (Hj' : (j < mm_ny M)%nat) by exact Hj. split; [|split].
  - unfold multi_values. cbv zeta. rewrite (nth_ravel M _ xs e j d He Hj'). reflexivity.
  - unfold multi_variances. cbv zeta. rewrite (nth_ravel M _ xs e j d He Hj'). unfold predict_variance. cbv zeta. cbn [m_par p_sigma2 m_nt m_nx m_poly p_G].
    rewrite !sq_dot. reflexivity.
  - intros kx. unfold multi_derivatives, predict_derivative. cbn [m_k m_poly M mm_k mm_poly]. destruct (k_corr s); try reflexivity. destruct po; try reflexivity; f_equal; rewrite (nth_ravel M _ xs e j d He Hj'); reflexivity.
Qed.
End T.

(** ** the likelihood *)
Lemma ynorm_neg n v i : ynorm n (fun k => - v k) i = - ynorm n v i.
Proof.
  assert (Em : mean n (fun k => - v k) = - mean n v) by (unfold mean; rewrite rsum_opp; unfold Rdiv; ring).
  assert (Es : std1 n (fun k => - v k) = std1 n v) by (unfold std1; f_equal; f_equal; apply rsum_ext; intros k Hk; rewrite Em; ring).
  unfold ynorm. rewrite Em. unfold scale1. rewrite Es. unfold Rdiv. ring.
Qed.
Lemma ynorm_affine n a c v : (2 <= n)%nat -> a <> 0 -> exists e, e ^ 2 = 1 /\ forall i, (i < n)%nat -> ynorm n (fun k => a * v k + c) i = e * ynorm n v i.
Proof.
  intros Hn Ha. destruct (Rlt_or_le 0 a) as [P|P].
  - exists 1. split; [ring|]. intros i Hi. rewrite Rmult_1_l. exact (norm_affine n a c v Hn P i Hi).
  - exists (-1). split; [ring|]. intros i Hi. assert (Q : 0 < - a) by lra. pose proof (norm_affine n (- a) c (fun k => - v k) Hn Q i Hi) as E.
    transitivity (ynorm n (fun k => - v k) i); [|rewrite ynorm_neg; ring].
    replace (fun k => a * v k + c) with (fun k => - a * - v k + c) by (apply functional_extensionality; intros; ring). exact E.
Qed.
Lemma ynorm_const n c v i : (0 < n)%nat -> (forall k, (k < n)%nat -> v k = c) -> (i < n)%nat -> ynorm n v i = 0.
Proof.
  intros Hn H Hi. unfold ynorm. rewrite (H i Hi). assert (E : mean n v = c). { unfold mean. rewrite (rsum_ext n v (fun _ => c)) by exact H. rewrite rsum_const. field. apply not_0_INR. lia. }
  rewrite E. unfold Rdiv. ring.
Qed.

Section L.
Variables (qr : nat -> nat -> mat -> mat * mat) (rcond : nat -> mat -> R) (condF : nat -> nat -> mat -> R).
Variables (nt p : nat) (Rm F : mat).
Notation Lm ny Yn ys := (likelihood_multi qr rcond condF nt p ny Rm F Yn ys).
Notation L1 y ys := (reduced_likelihood qr rcond condF nt p (INR nt) Rm F y ys).

Lemma mlik_same ny ny' Yn Yn' ys ys' :
  (forall C Ft Q G, rsum ny (fun j => sg nt p C Ft Q G (fun i => Yn i j)) = rsum ny' (fun j => sg nt p C Ft Q G (fun i => Yn' i j))) -> mlik (Lm ny Yn ys) = mlik (Lm ny' Yn' ys').
Proof.
  intros H. pose proof (multi_core qr rcond condF nt p ny ny' Rm F Yn Yn' ys ys') as K. destruct (Lm ny Yn ys) as [v pr| |] eqn:E; destruct (Lm ny' Yn' ys') as [v' pr'| |] eqn:E'; try contradiction; try reflexivity.
  destruct K as (K1 & K2 & K3 & K4). rewrite (value_multi _ _ _ _ _ _ _ _ _ _ _ _ E), (value_multi _ _ _ _ _ _ _ _ _ _ _ _ E'). rewrite K1, K2, K3, K4, (H _ _ _ _). reflexivity.
Qed.
Lemma t_units ny (Y : mat) (a b : vec) ys ys' : (2 <= nt)%nat -> (forall j, (j < ny)%nat -> a j <> 0) -> mlik (Lm ny (Ynorm nt (fun i j => a j * Y i j + b j)) ys') = mlik (Lm ny (Ynorm nt Y) ys).
Proof.
  intros Hn Ha. apply mlik_same. intros C Ft Q G. apply rsum_ext. intros j Hj. destruct (ynorm_affine nt (a j) (b j) (fun i => Y i j) Hn (Ha j Hj)) as (e & He & E).
  rewrite (sg_ext nt p C Ft Q G (fun i => Ynorm nt (fun i j => a j * Y i j + b j) i j) (fun i => e * ynorm nt (fun i => Y i j) i)) by exact E. rewrite sg_mul, He. rewrite Rmult_1_l. reflexivity.
Qed.
Lemma sg_zero C Ft Q G y : (forall i, (i < nt)%nat -> y i = 0) -> sg nt p C Ft Q G y = 0.
Proof. intros H. rewrite (sg_ext nt p C Ft Q G y (fun i => 0 * y i)) by (intros i Hi; rewrite (H i Hi); ring). rewrite sg_mul. ring. Qed.
Lemma t_constant ny (Y : mat) c ys ys' : (0 < nt)%nat -> (forall i, (i < nt)%nat -> Y i ny = c) -> mlik (Lm (S ny) (Ynorm nt Y) ys) = mlik (Lm ny (Ynorm nt Y) ys').
Proof.
  intros Hn H. apply mlik_same. intros C Ft Q G. cbn [rsum]. rewrite (sg_zero C Ft Q G (fun i => Ynorm nt Y i ny)); [ring|]. intros i Hi. exact (ynorm_const nt c (fun i => Y i ny) i Hn H Hi).
Qed.
Lemma t_reorder ny (Y : mat) f ys ys' : reorder ny f -> mlik (Lm ny (Ynorm nt (fun i j => Y i (f j))) ys') = mlik (Lm ny (Ynorm nt Y) ys).
Proof. intros H. apply mlik_same. intros C Ft Q G. exact (rsum_reorder ny f (fun j => sg nt p C Ft Q G (fun i => Ynorm nt Y i j)) H). Qed.

Lemma log10_pow x : 0 < x -> Rpower 10 (log10 x) = x.
Proof. intros H. unfold Rpower, log10. replace (ln x / ln 10 * ln 10) with (ln x); [apply exp_ln; exact H|]. field. apply Rgt_not_eq. rewrite <- ln_1. apply ln_increasing; lra. Qed.
Lemma det_pos (C : mat) : 0 < rprod nt (fun i => Rpower (C i i) (2 / INR nt)). Proof. apply rprod_pos. intros i Hi. unfold Rpower. apply exp_pos. Qed.
Lemma value_pow v sgm det : (0 < nt)%nat -> 0 < sgm -> 0 < det -> v = - INR nt * log10 sgm - INR nt * log10 det -> Rpower 10 (- v / INR nt) = sgm * det.
Proof.
  intros Hn Hs Hd ->. replace (- (- INR nt * log10 sgm - INR nt * log10 det) / INR nt) with (log10 sgm + log10 det) by (field; apply not_0_INR; lia).
  rewrite Rpower_plus, !log10_pow by assumption. reflexivity.
Qed.
Lemma t_sum ny (Yn : mat) ys v pr (w : vec) : (0 < nt)%nat -> (0 < ny)%nat -> Lm ny Yn ys = MFit v pr ->
  (forall j, (j < ny)%nat -> exists pj, L1 (fun i => Yn i j) (ys j) = Fit (w j) pj /\ 0 < p_sigma2 pj) ->
  Rpower 10 (- v / INR nt) = rsum ny (fun j => Rpower 10 (- w j / INR nt)).
Proof.
  intros Hn Hy E H. pose proof (value_multi _ _ _ _ _ _ _ _ _ _ _ _ E) as Ev.
  assert (P : forall j, (j < ny)%nat -> 0 < sg nt p (q_C pr) (q_Ft pr) (q_Q pr) (q_G pr) (fun i => Yn i j) /\
     Rpower 10 (- w j / INR nt) = sg nt p (q_C pr) (q_Ft pr) (q_Q pr) (q_G pr) (fun i => Yn i j) * rprod nt (fun i => Rpower (q_C pr i i) (2 / INR nt))).
  { intros j Hj. destruct (H j Hj) as (pj & Ej & Sj). pose proof (one_core qr rcond condF nt p ny Rm F Yn ys (fun i => Yn i j) (ys j)) as K. rewrite E, Ej in K. destruct K as (K1 & K2 & K3 & K4).
    destruct (value_one _ _ _ _ _ _ _ _ _ _ _ Ej) as [V S2]. rewrite K1, K2, K3, K4 in V, S2.
    assert (Sp : 0 < sg nt p (q_C pr) (q_Ft pr) (q_Q pr) (q_G pr) (fun i => Yn i j)).
    { rewrite S2 in Sj. destruct (Rle_or_lt (sg nt p (q_C pr) (q_Ft pr) (q_Q pr) (q_G pr) (fun i => Yn i j)) 0) as [N|N]; [|exact N]. exfalso. pose proof (pow2_ge_0 (ys j)) as Z. pose proof (Rmult_le_compat_r _ _ _ Z N) as Z2. rewrite Rmult_0_l in Z2. lra. }
    split; [exact Sp|]. apply (value_pow (w j) _ _ Hn Sp (det_pos (q_C pr)) V). }
  rewrite (value_pow v _ _ Hn (rsum_pos ny (fun j => sg nt p (q_C pr) (q_Ft pr) (q_Q pr) (q_G pr) (fun i => Yn i j)) 0%nat (fun j Hj => Rlt_le _ _ (proj1 (P j Hj))) Hy (proj1 (P 0%nat Hy))) (det_pos (q_C pr)) Ev).
  rewrite <- rsum_scal_r. apply rsum_ext. intros j Hj. symmetry. apply P. exact Hj.
Qed.
Lemma t_proportional ny (y : vec) (a b : vec) ys s1 w pr1 : (2 <= nt)%nat -> (0 < ny)%nat -> (forall j, (j < ny)%nat -> a j <> 0) ->
  L1 (ynorm nt y) s1 = Fit w pr1 -> 0 < p_sigma2 pr1 -> mlik (Lm ny (Ynorm nt (fun i j => a j * y i + b j)) ys) = Some (w - INR nt * log10 (INR ny)).
Proof.
  intros Hn Hy Ha E S1. rewrite (t_units ny (fun i _ => y i) a b ys ys Hn Ha). pose proof (one_core qr rcond condF nt p ny Rm F (Ynorm nt (fun i _ => y i)) ys (ynorm nt y) s1) as K. rewrite E in K.
  destruct (Lm ny (Ynorm nt (fun i _ => y i)) ys) as [v pr| |] eqn:Em; try contradiction. destruct K as (K1 & K2 & K3 & K4). destruct (value_one _ _ _ _ _ _ _ _ _ _ _ E) as [V S2]. rewrite K1, K2, K3, K4 in V, S2.
  cbn [mlik]. f_equal. rewrite (value_multi _ _ _ _ _ _ _ _ _ _ _ _ Em). change (fun j => sg nt p (q_C pr) (q_Ft pr) (q_Q pr) (q_G pr) (fun i => Ynorm nt (fun i _ => y i) i j)) with (fun _ : nat => sg nt p (q_C pr) (q_Ft pr) (q_Q pr) (q_G pr) (ynorm nt y)).
  rewrite rsum_const. rewrite V. set (g := sg nt p (q_C pr) (q_Ft pr) (q_Q pr) (q_G pr) (ynorm nt y)) in *.
  assert (Gp : 0 < g). { rewrite S2 in S1. destruct (Rle_or_lt g 0) as [N|N]; [|exact N]. exfalso. pose proof (pow2_ge_0 s1) as Z. pose proof (Rmult_le_compat_r _ _ _ Z N) as Z2. rewrite Rmult_0_l in Z2. lra. }
  assert (Ip : 0 < INR ny) by (apply lt_0_INR; exact Hy).
  assert (El : log10 (INR ny * g) = log10 (INR ny) + log10 g) by (unfold log10; rewrite ln_mult by assumption; field; apply Rgt_not_eq; rewrite <- ln_1; apply ln_increasing; lra).
  rewrite El. ring.
Qed.
End L.
