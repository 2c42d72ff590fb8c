From Coq Require Import Reals Arith Bool List Lia Lra FunctionalExtensionality.
From Coquelicot Require Import Coquelicot.
From Verif Require Import RSum Mat Psd Psd2 Tri_M Tri_P Kernels_M Kernels_P Kernels_P2 Kernels_P3 Krg_M Krg_S Krg_P Krg_P2 Rbf_P Poly_P LikGrad_M LikGrad_S LikGrad_P1 LikGrad_P2 LikGrad_P3.
Import ListNotations.
Open Scope list_scope.
Open Scope R_scope.

(** ** statement-level wrappers *)
Section W.
Variables (qr : nat -> nat -> mat -> mat * mat) (rcond : nat -> mat -> R) (condF : nat -> nat -> mat -> R).
Variables (g : kclass) (nx nt p : nat) (X : nat -> vec) (F : mat) (y : vec) (ystd nugget : R) (noise : vec) (dof : R).
Hypotheses (HQ : qr_contract qr) (HR : rcond_contract rcond) (Hn : (1 <= nt)%nat) (Hp : (p <= nt)%nat) (Hd : 0 < dof) (Hy : ystd <> 0) (NT : not_trend nt p F y).
Notation rlt := (rl qr rcond condF g nx nt p X F y ystd nugget noise dof).
Notation rlg := (rl_gradient qr rcond condF g nx nt p X F y ystd nugget noise dof).
Notation rlh := (rl_hessian qr rcond condF g nx nt p X F y ystd nugget noise dof).
Lemma gradient_thm theta k (v : vec -> R) : theta_ok g nx theta -> (k < n_theta g nx)%nat ->
  locally (theta k) (fun t => exists pr, rlt (upd theta k t) = Fit (v (upd theta k t)) pr) ->
  exists gr, rlg theta k = Some gr /\ is_partial v theta k gr.
Proof.
  intros T Hk L. assert (L' : locally (theta k) (fun t => exists v pr, rlt (upd theta k t) = Fit v pr)) by (generalize L; apply filter_imp; intros t (pr & E); eexists; exists pr; exact E).
  apply (gradient_ok qr rcond condF g nx nt p X F y ystd nugget noise dof HQ HR Hp Hn Hd Hy NT theta k T Hk L' v L).
Qed.
Lemma hessian_thm theta om eta (gr : vec -> R) : dof = INR nt -> theta_ok g nx theta -> (om < n_theta g nx)%nat -> (eta < n_theta g nx)%nat ->
  locally (theta eta) (fun t => rlg (upd theta eta t) om = Some (gr (upd theta eta t))) ->
  exists h, rlh theta om eta = Some h /\ is_partial gr theta eta h.
Proof.
  intros D T Ho Hk L. assert (L' : locally (theta eta) (fun t => exists v pr, rlt (upd theta eta t) = Fit v pr)).
  { generalize L. apply filter_imp. intros t E. unfold rl_gradient in E. destruct (rlt (upd theta eta t)) as [v pr| |]; [|discriminate|discriminate]. exists v, pr. reflexivity. }
  apply (hessian_ok qr rcond condF g nx nt p X F y ystd nugget noise dof HQ HR Hp Hn Hd Hy NT theta eta T Hk L' om Ho D gr L).
Qed.
(** ** the functions handed to the optimiser *)
Lemma pow10_log s : 0 < s -> Rpower 10 (log10 s) = s.
Proof. intros H. unfold Rpower, log10. replace (ln s / ln 10 * ln 10) with (ln s) by (field; pose proof ln10_pos; lra). apply exp_ln. exact H. Qed.
Lemma log_pow10 t : log10 (Rpower 10 t) = t.
Proof. unfold log10, Rpower. rewrite ln_exp. field. pose proof ln10_pos; lra. Qed.
Lemma pow_upd (l : vec) k t : (fun j => Rpower 10 (upd l k t j)) = upd (fun j => Rpower 10 (l j)) k (Rpower 10 t).
Proof. apply functional_extensionality. intros j. unfold upd. destruct (Nat.eqb j k); reflexivity. Qed.
Lemma objective_thm (l : vec) k (v : vec -> R) : (k < n_theta g nx)%nat ->
  locally (l k) (fun t => obj qr rcond condF g nx nt p X F y ystd nugget noise dof (upd l k t) = Some (v (upd l k t))) ->
  exists gr, obj_grad qr rcond condF g nx nt p X F y ystd nugget noise dof l k = Some gr /\ is_partial v l k gr.
Proof.
  intros Hk L. set (theta := fun j => Rpower 10 (l j)). set (V := fun th : vec => - v (upd l k (log10 (th k)))).
  assert (T : theta_ok g nx theta) by (intros _ j _; unfold theta; left; apply exp_pos).
  assert (P0 : 0 < theta k) by apply exp_pos.
  assert (C : continuous log10 (theta k)).
  { apply (ex_derive_continuous (K := R_AbsRing) (V := R_NormedModule) log10). eexists. exact (is_derive_scal_l ln (theta k) _ (/ ln 10) (is_derive_ln _ P0)). }
  assert (Q : locally (theta k) (fun s => exists pr, rlt (upd theta k s) = Fit (V (upd theta k s)) pr)).
  { assert (Lp : locally (theta k) (fun s => 0 < s)) by (apply (open_gt 0); exact P0).
    assert (E : log10 (theta k) = l k) by apply log_pow10. unfold continuous in C. rewrite E in C. pose proof (C _ L) as L2. unfold filtermap in L2.
    generalize (filter_and _ _ Lp L2). apply filter_imp. intros s (Ps & Es). unfold obj in Es. rewrite pow_upd, (pow10_log s Ps) in Es. fold theta in Es.
    destruct (rlt (upd theta k s)) as [w pr| |]; [|discriminate|discriminate]. injection Es as Es. exists pr. f_equal. unfold V. rewrite upd_eq. lra. }
  destruct (gradient_thm theta k V T Hk Q) as (gr & Eg & Dg). unfold obj_grad. fold theta. rewrite Eg. eexists. split; [reflexivity|]. unfold is_partial in *.
  apply (is_derive_ext (fun t => - V (upd theta k (Rpower 10 t)))); [intros t; unfold V; rewrite upd_eq, log_pow10, Ropp_involutive; reflexivity|].
  assert (DP : is_derive (fun t => Rpower 10 t) (l k) (ln 10 * theta k)).
  { unfold Rpower. eapply derive_eq; [apply (is_derive_comp (K := R_AbsRing) (V := R_NormedModule) exp (fun t => t * ln 10) (l k) (exp (l k * ln 10)) (1 * ln 10)); [apply is_derive_exp|]|].
    - pose proof (is_derive_scal_l (fun t : R => t) (l k) 1 (ln 10) (is_derive_id (K := R_AbsRing) (l k))) as M. exact M.
    - unfold theta, Rpower. unfold scal. cbn. unfold mult. cbn. match goal with |- ?a = ?b => change (@eq R a b) end. ring. }
  eapply derive_eq.
  - apply (is_derive_opp (fun t => V (upd theta k (Rpower 10 t)))). apply (is_derive_comp (K := R_AbsRing) (V := R_NormedModule) (fun s => V (upd theta k s)) (fun t => Rpower 10 t) (l k) gr (ln 10 * theta k)); [exact Dg|exact DP].
  - unfold opp, scal. cbn. unfold mult. cbn. unfold theta. match goal with |- ?a = ?b => change (@eq R a b) end. ring.
Qed.
(** ** symmetry of the Hessian *)
Lemma kernel_hess_sym c nc ns th d a b : kernel c nc ns th d (Some a) (Some b) = kernel c nc ns th d (Some b) (Some a).
Proof.
  destruct (Nat.eq_dec a b) as [-> | N]; [reflexivity|]. assert (Nab : Nat.eqb a b = false) by (apply Nat.eqb_neq; exact N). assert (Nba : Nat.eqb b a = false) by (apply Nat.eqb_neq; congruence).
  destruct c; cbn [kernel]; unfold k_exp, k_m52, k_m32, k_act; cbv zeta; rewrite ?Nab, ?Nba; try ring.
  rewrite (Nat.eqb_sym (b / nc) (a / nc)). destruct (Nat.eqb (a / nc) (b / nc)); ring.
Qed.
Lemma hessian_sym theta om eta : rlh theta om eta = rlh theta eta om.
Proof.
  unfold rl_hessian. destruct (rlt theta) as [v pr| |] eqn:E; [|reflexivity|reflexivity]. f_equal.
  assert (DD : forall i j, ddR_of g nx nt X theta om eta i j = ddR_of g nx nt X theta eta om i j).
  { assert (K : kern g nx nt X theta (Some om) (Some eta) = kern g nx nt X theta (Some eta) (Some om)) by (apply functional_extensionality; intros q; apply kernel_hess_sym). intros i j. unfold ddR_of. rewrite K. reflexivity. }
  assert (DDe : ddR_of g nx nt X theta om eta = ddR_of g nx nt X theta eta om) by (apply functional_extensionality; intros i; apply functional_extensionality; intros j; apply DD).
  destruct (rl_facts qr rcond condF g nx nt p X F y ystd nugget noise dof HQ HR Hp theta v pr E) as (O & _).
  unfold hess_of. cbv zeta. rewrite DDe.
  assert (Fg : forall b, dot nt (mv p F b) (p_gamma pr) = 0) by (apply (F_gamma nt p _ F y pr O)).
  rewrite !(dot_sym nt (p_gamma pr) (mv p F _)), !Fg.
  assert (TT : trace nt (mm nt (tr_of g nx nt X pr theta eta) (tr_of g nx nt X pr theta om)) = trace nt (mm nt (tr_of g nx nt X pr theta om) (tr_of g nx nt X pr theta eta))) by (apply trace_mm).
  rewrite TT. rewrite !dot_plus_r.
  f_equal. f_equal. f_equal. f_equal. f_equal. f_equal. f_equal; [f_equal; f_equal; ring|ring].
Qed.
End W.

(** ** the index table *)
Fixpoint hoff (nb om : nat) : nat := match om with O => O | S m => (hoff nb m + (nb - m))%nat end.
Lemma hoff_closed nb om : (om <= nb)%nat -> (2 * hoff nb om + om * om = om * (2 * nb + 1))%nat.
Proof. induction om as [|m IH]; intros H; [reflexivity|]. cbn [hoff]. specialize (IH ltac:(lia)). nia. Qed.
Lemma hoff_mono nb i m : (i <= m)%nat -> (hoff nb i <= hoff nb m)%nat.
Proof. intros H. induction H as [|m H IH]; [lia|]. cbn [hoff]. lia. Qed.
Lemma hij_fold nb m : (m <= nb)%nat -> let '(t, e) := fold_left (hij_step nb) (seq 0 m) ((fun _ => (0, 0)%nat), 0%nat) in
  e = hoff nb m /\ forall om eta, (om < m)%nat -> (om <= eta < nb)%nat -> t (hoff nb om + (eta - om))%nat = (om, eta).
Proof.
  induction m as [|m IH]; intros H; [cbn; split; [reflexivity|intros; lia]|]. rewrite seq_S, fold_left_app. cbn [fold_left Nat.add]. specialize (IH ltac:(lia)).
  destruct (fold_left (hij_step nb) (seq 0 m) _) as [t e]. destruct IH as [-> P]. unfold hij_step. split; [cbn [hoff]; lia|]. intros om eta Ho He.
  destruct (Nat.eq_dec om m) as [-> | N].
  - replace (Nat.leb (hoff nb m) (hoff nb m + (eta - m))) with true by (symmetry; apply Nat.leb_le; lia). replace (Nat.ltb (hoff nb m + (eta - m)) (hoff nb m + nb - m)) with true by (symmetry; apply Nat.ltb_lt; lia). cbn [andb]. f_equal. lia.
  - assert (L : (hoff nb om + (eta - om) < hoff nb m)%nat) by (pose proof (hoff_mono nb (S om) m ltac:(lia)) as M; cbn [hoff] in M; lia).
    replace (Nat.leb (hoff nb m) (hoff nb om + (eta - om))) with false by (symmetry; apply Nat.leb_gt; lia). cbn [andb]. apply P; lia.
Qed.
Lemma hoff_find nb m q : (m <= nb)%nat -> (q < hoff nb m)%nat -> exists om eta, (om < m)%nat /\ (om <= eta < nb)%nat /\ q = (hoff nb om + (eta - om))%nat.
Proof.
  induction m as [|m IH]; intros H Hq; [cbn in Hq; lia|]. destruct (lt_dec q (hoff nb m)) as [L|L].
  - destruct (IH ltac:(lia) L) as (om & eta & A & B & C). exists om, eta. repeat split; lia.
  - exists m, (m + (q - hoff nb m))%nat. cbn [hoff] in Hq. repeat split; lia.
Qed.
(** every pair om <= eta exactly once *)
Lemma hess_ij_ok nb : snd (hess_ij nb) = (nb * (nb + 1) / 2)%nat /\
  (forall q, (q < nb * (nb + 1) / 2)%nat -> (fst (fst (hess_ij nb) q) <= snd (fst (hess_ij nb) q) < nb)%nat) /\
  (forall om eta, (om <= eta < nb)%nat -> exists q, (q < nb * (nb + 1) / 2)%nat /\ fst (hess_ij nb) q = (om, eta) /\ forall q', (q' < nb * (nb + 1) / 2)%nat -> fst (hess_ij nb) q' = (om, eta) -> q' = q).
Proof.
  pose proof (hij_fold nb nb (le_n nb)) as P. fold (hess_ij nb) in P. destruct (hess_ij nb) as [t e]. destruct P as [-> P]. cbn [fst snd].
  assert (E : hoff nb nb = (nb * (nb + 1) / 2)%nat). { pose proof (hoff_closed nb nb (le_n nb)). apply Nat.div_unique with 0%nat; [lia|nia]. }
  rewrite <- E. split; [reflexivity|]. split.
  - intros q Hq. destruct (hoff_find nb nb q (le_n nb) Hq) as (om & eta & A & B & ->). rewrite (P om eta A B). cbn [fst snd]. exact B.
  - intros om eta H. exists (hoff nb om + (eta - om))%nat. split; [pose proof (hoff_mono nb (S om) nb ltac:(lia)) as M; cbn [hoff] in M; lia|]. split; [apply P; lia|].
    intros q' Hq' E'. destruct (hoff_find nb nb q' (le_n nb) Hq') as (om' & eta' & A & B & ->). rewrite (P om' eta' A B) in E'. injection E' as <- <-. reflexivity.
Qed.
(** ** same likelihood as in training *)
Lemma R_of_corr_matrix g nx nt X nugget noise theta : g_corr g <> ActExp ->
  R_of g nx nt X nugget noise theta = corr_matrix (match g with GStd c _ => KStd c theta | GPls c ncomp co => KPls c ncomp co theta end) nx nt X nugget noise.
Proof.
  intros N. unfold R_of, fill, kern, D_row, corr_matrix. destruct (cross_distances nt X) as [[ij D] ll]. cbn [fst snd]. 
  assert (K : (fun k => kernel (g_corr g) (g_cols g nx) (g_ns g) theta (g_dist g nx (D k)) None None) = (fun q => kd (match g with GStd c _ => KStd c theta | GPls c ncomp co => KPls c ncomp co theta end) nx (D q))).
  { apply functional_extensionality. intros k. destruct g as [c ns|c ncomp co]; cbn [g_corr g_cols g_ns g_dist kd] in *; [destruct c; try reflexivity; congruence|reflexivity]. }
  rewrite K. reflexivity.
Qed.
