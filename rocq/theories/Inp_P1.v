(** Likelihood evaluations with reordered trend functions. *)
From Coq Require Import Reals Arith Bool List Lia Lra FunctionalExtensionality.
From Verif Require Import RSum Mat Tri_M Tri_P Kernels_M Krg_M Krg_S Krg_P Krg_P2 Krg_P5 Het_S Het_P4 Order_S Order_P1 Order_P2 Order_P3 Inp_S.
Import ListNotations.
Open Scope list_scope.
Open Scope R_scope.
Section Fits.
Variables (n p : nat) (g : nat -> nat) (Rm Rm' F F' : mat) (y y' : vec) (pr pr' : par).
Hypotheses (RO : reorder p g) (S : msym n Rm) (HA : forall i j, (i < n)%nat -> (j < n)%nat -> Rm' i j = Rm i j).
Hypotheses (HF : forall i j, (i < n)%nat -> (j < p)%nat -> F' i j = F i (g j)) (HY : forall i, (i < n)%nat -> y' i = y i).
Hypotheses (O : fit_ok n p Rm F y pr) (O' : fit_ok n p Rm' F' y' pr').
Lemma i_sym : msym n Rm'.
Proof. intros i j Hi Hj. rewrite !HA by assumption. apply S; assumption. Qed.
Lemma i_mvF b i : (i < n)%nat -> mv p F' (fun j => b (g j)) i = mv p F b i.
Proof.
  intros Hi. unfold mv. rewrite (rsum_ext p _ (fun j => (fun j => F i j * b j) (g j))) by (intros j Hj; rewrite HF by assumption; reflexivity). apply (rsum_reorder p g (fun j => F i j * b j) RO).
Qed.
Let gm : vec := fun i => p_gamma pr' i - p_gamma pr i.
Let d : vec := fun j => p_beta pr' j - p_beta pr (g j).
Lemma i_mvR z i : (i < n)%nat -> mv n Rm' z i = mv n Rm z i.
Proof. intros Hi. unfold mv. apply rsum_ext. intros j Hj. rewrite HA by assumption. reflexivity. Qed.
Lemma i_eq i : (i < n)%nat -> mv n Rm' gm i = - mv p F' d i.
Proof.
  intros Hi. unfold gm, d. rewrite !mv_minus. rewrite (R_gamma n p Rm' F' y' pr' i_sym O' i Hi). rewrite (i_mvR (p_gamma pr) i Hi).
  rewrite (R_gamma n p Rm F y pr S O i Hi). rewrite HY by exact Hi. rewrite (i_mvF (p_beta pr) i Hi). ring.
Qed.
Lemma i_col b : exists c : vec, forall i, (i < n)%nat -> mv p F' b i = mv p F c i.
Proof.
  destruct (reorder_inv p g RO) as (h & RH & GH & HG). exists (fun j => b (h j)). intros i Hi. rewrite <- (i_mvF (fun j => b (h j)) i Hi). unfold mv. apply rsum_ext. intros j Hj. rewrite HG by exact Hj. reflexivity.
Qed.
Lemma i_orth b : dot n (mv p F' b) gm = 0.
Proof.
  unfold gm. rewrite dot_minus_r. rewrite (F_gamma n p Rm' F' y' pr' O' b). destruct (i_col b) as (c & Hc).
  rewrite (dot_ext n (mv p F' b) (p_gamma pr) (mv p F c) (p_gamma pr)) by (intros; try reflexivity; apply Hc; assumption). rewrite (F_gamma n p Rm F y pr O c). ring.
Qed.
Lemma i_zero i : (i < n)%nat -> gm i = 0.
Proof.
  revert i. destruct (nonzero_dec n gm) as [W|W]; [|exact W]. exfalso. pose proof (chol_pd n Rm' _ i_sym (fo_C _ _ _ _ _ _ O') gm W) as P.
  rewrite (dot_ext n gm (mv n Rm' gm) gm (fun i => - mv p F' d i)) in P by (intros; try reflexivity; apply i_eq; assumption). rewrite dot_opp_r, dot_sym, i_orth in P. lra.
Qed.
Lemma i_dzero j : (j < p)%nat -> d j = 0.
Proof.
  revert j. apply (upper_inj p (p_G pr') (fo_G _ _ _ _ _ _ O') (fo_D _ _ _ _ _ _ O')). apply dot_self_zero. rewrite <- (Ft_form n p Rm' F' y' pr' O' d d).
  assert (Z : forall i, (i < n)%nat -> mv p (p_Ft pr') d i = 0).
  { apply (lower_inj n (p_C pr') (chol_lower _ _ _ (fo_C _ _ _ _ _ _ O')) (chol_diag _ _ _ (fo_C _ _ _ _ _ _ O'))). intros i Hi. rewrite (C_F n p Rm' F' y' pr' O' d i Hi).
    pose proof (i_eq i Hi) as E. rewrite (mv_zero n Rm' gm i i_zero) in E. lra. }
  apply dot_zero_r. exact Z.
Qed.
Lemma i_gamma i : (i < n)%nat -> p_gamma pr' i = p_gamma pr i.
Proof. intros Hi. pose proof (i_zero i Hi). unfold gm in *. lra. Qed.
Lemma i_beta j : (j < p)%nat -> p_beta pr' j = p_beta pr (g j).
Proof. intros Hj. pose proof (i_dzero j Hj). unfold d in *. lra. Qed.
Lemma i_rho : dot n (rho_of n p y' pr') (rho_of n p y' pr') = dot n (rho_of n p y pr) (rho_of n p y pr).
Proof.
  rewrite <- (gamma_rho n p Rm' F' y' pr' i_sym O'), <- (gamma_rho n p Rm F y pr S O). apply dot_ext; [exact i_gamma|].
  intros i Hi. rewrite HY by exact Hi. f_equal. rewrite <- (i_mvF (p_beta pr) i Hi). apply mv_ext; [reflexivity|exact i_beta].
Qed.
End Fits.
(** the whole evaluation *)
Section Outcome.
Variables (qr : nat -> nat -> mat -> mat * mat) (rcond : nat -> mat -> R) (condF : nat -> nat -> mat -> R).
Hypotheses (HQ : qr_contract qr) (HR : rcond_contract rcond) (HG : rcond_cols rcond) (HC : cond_cols condF).
Variables (n p : nat) (g : nat -> nat) (dof ystd : R) (Rm F Rm' F' : mat) (y y' : vec).
Hypotheses (Hp : (p <= n)%nat) (RO : reorder p g) (S : msym n Rm) (HA : forall i j, (i < n)%nat -> (j < n)%nat -> Rm' i j = Rm i j).
Hypotheses (HF : forall i j, (i < n)%nat -> (j < p)%nat -> F' i j = F i (g j)) (HY : forall i, (i < n)%nat -> y' i = y i).
Lemma i_outcome : same_outcome_cols p g (reduced_likelihood qr rcond condF n p dof Rm F y ystd) (reduced_likelihood qr rcond condF n p dof Rm' F' y' ystd).
Proof.
  assert (S' : msym n Rm') by exact (i_sym n Rm Rm' S HA).
  assert (EC : cholesky n Rm' = cholesky n Rm) by (apply chol_ext; intros i j Hi Hj; apply HA; lia).
  destruct (reduced_likelihood qr rcond condF n p dof Rm F y ystd) as [v pr| |] eqn:E; destruct (reduced_likelihood qr rcond condF n p dof Rm' F' y' ystd) as [v' pr'| |] eqn:E'.
  1:{ destruct (fit_facts qr rcond condF n p dof Rm F y ystd v pr HQ HR Hp S E) as [O S2]. destruct (fit_facts qr rcond condF n p dof Rm' F' y' ystd v' pr' HQ HR Hp S' E') as [O' S2'].
      pose proof (i_rho n p g Rm Rm' F F' y y' pr pr' RO S HA HF HY O O') as ER.
      split; [|split; [rewrite S2, S2', ER; reflexivity|exact (i_beta n p g Rm Rm' F F' y y' pr pr' RO S HA HF HY O O')]].
      assert (V : forall A Fm z u r, reduced_likelihood qr rcond condF n p dof A Fm z ystd = Fit u r -> cholesky n A = Some (p_C r) /\ u = - dof * log10 (dot n (rho_of n p z r) (rho_of n p z r) / dof) - INR n * log10 (rprod n (fun i => Rpower (p_C r i i) (2 / INR n)))).
      { intros A Fm z u r H. unfold reduced_likelihood in H. destruct (cholesky n A); [|discriminate]. cbv zeta in H. destruct (qr n p _) as [Q G]. destruct (Rlt_dec _ _); [destruct (Rlt_dec _ _); discriminate|]. injection H as <- <-. split; reflexivity. }
      destruct (V _ _ _ _ _ E) as [C1 ->]. destruct (V _ _ _ _ _ E') as [C2 ->]. rewrite ER. rewrite EC, C1 in C2. injection C2 as <-. reflexivity. }
  all: cbn [same_outcome_cols]; try exact I; exfalso; unfold reduced_likelihood in E, E'; cbv zeta in E, E'.
  all: rewrite EC in E'; destruct (cholesky n Rm) as [C|] eqn:EC0; try discriminate.
  all: match type of E with context [qr n p ?a] => set (Ft := a) in * end; match type of E' with context [qr n p ?a] => set (Ft' := a) in * end;
    pose proof (HQ n p Ft Hp) as Q0; pose proof (HQ n p Ft' Hp) as Q0'; destruct (qr n p Ft) as [Q G]; destruct (qr n p Ft') as [Q' G']; destruct Q0 as (Q1 & Q2 & Q3); destruct Q0' as (Q1' & Q2' & Q3');
    assert (EG : rcond p G' = rcond p G) by (apply (HG p G G' g RO); [exact Q3|exact Q3'|]; intros i j Hi Hj; rewrite (qr_gram n p Ft Q G Q1 Q2 (g i) (g j) (proj1 RO i Hi) (proj1 RO j Hj)), (qr_gram n p Ft' Q' G' Q1' Q2' i j Hi Hj);
      apply dot_ext; intros a Ha; unfold Ft, Ft', solve_triangular; apply fsub_ext; (reflexivity || (intros b Hb; apply HF; assumption)));
    rewrite EG in E'; rewrite (HC n p F F' g RO HF) in E'; destruct (Rlt_dec (rcond p G) (1 / 10 ^ 10)); [destruct (Rlt_dec (10 ^ 15) (condF n p F))|]; discriminate.
Qed.
End Outcome.
