(** Likelihood evaluations on reordered data, continued. *)
From Coq Require Import Reals Arith Bool List Lia Lra.
From Verif Require Import RSum Mat Tri_M Tri_P Kernels_M Krg_M Krg_S Krg_P Krg_P2 Het_S Het_P4 Order_S Order_P1 Order_P2.
Import ListNotations.
Open Scope list_scope.
Open Scope R_scope.
Section Fits.
Variables (n p : nat) (f : nat -> nat) (Rm F Rm' F' : mat) (y y' : vec) (pr pr' : par).
Hypotheses (RO : reorder n f) (S : msym n Rm) (HA : forall i j, (i < n)%nat -> (j < n)%nat -> Rm' i j = Rm (f i) (f j)).
Hypotheses (HF : forall i j, (i < n)%nat -> (j < p)%nat -> F' i j = F (f i) j) (HY : forall i, (i < n)%nat -> y' i = y (f i)).
Hypotheses (O : fit_ok n p Rm F y pr) (O' : fit_ok n p Rm' F' y' pr').
Let S' : msym n Rm'.
Proof. exact (two_sym n f Rm Rm' RO S HA). Qed.
Lemma Ft_fsub k q (A Fm : mat) (z : vec) (r : par) j i : fit_ok k q A Fm z r -> (i < k)%nat -> p_Ft r i j = fsub (p_C r) (fun a => Fm a j) k i.
Proof.
  intros Ok Hi. apply Rminus_diag_uniq. apply (lower_inj k (p_C r) (chol_lower _ _ _ (fo_C _ _ _ _ _ _ Ok)) (chol_diag _ _ _ (fo_C _ _ _ _ _ _ Ok)) (fun i => p_Ft r i j - fsub (p_C r) (fun a => Fm a j) k i)); [|exact Hi].
  intros a Ha. rewrite mv_minus. rewrite (fo_Ft _ _ _ _ _ _ Ok a j Ha). rewrite (fsub_solves k (p_C r) (fun a => Fm a j) (chol_lower _ _ _ (fo_C _ _ _ _ _ _ Ok)) (chol_diag _ _ _ (fo_C _ _ _ _ _ _ Ok)) a Ha). ring.
Qed.
Lemma f_gram i j : (i < p)%nat -> (j < p)%nat -> rsum p (fun k => p_G pr k i * p_G pr k j) = rsum p (fun k => p_G pr' k i * p_G pr' k j).
Proof.
  intros Hi Hj. rewrite (qr_gram n p (p_Ft pr) (p_Q pr) (p_G pr) (fo_Q _ _ _ _ _ _ O) (fo_QG _ _ _ _ _ _ O) i j Hi Hj).
  rewrite (qr_gram n p (p_Ft pr') (p_Q pr') (p_G pr') (fo_Q _ _ _ _ _ _ O') (fo_QG _ _ _ _ _ _ O') i j Hi Hj).
  rewrite (dot_ext n _ _ _ _ (fun a Ha => Ft_fsub n p Rm F y pr i a O Ha) (fun a Ha => Ft_fsub n p Rm F y pr j a O Ha)).
  rewrite (dot_ext n _ _ _ _ (fun a Ha => Ft_fsub n p Rm' F' y' pr' i a O' Ha) (fun a Ha => Ft_fsub n p Rm' F' y' pr' j a O' Ha)).
  symmetry. apply (two_dot n f Rm Rm' _ _ RO S HA (fo_C _ _ _ _ _ _ O) (fo_C _ _ _ _ _ _ O')); intros a Ha; apply HF; assumption.
Qed.
Lemma f_diag j : (j < p)%nat -> p_G pr' j j ^ 2 = p_G pr j j ^ 2.
Proof.
  intros Hj. apply Rle_antisym.
  - apply (diag_gram_le p _ _ (fo_G _ _ _ _ _ _ O) (fo_D _ _ _ _ _ _ O) (fo_G _ _ _ _ _ _ O') f_gram j Hj).
  - apply (diag_gram_le p _ _ (fo_G _ _ _ _ _ _ O') (fo_D _ _ _ _ _ _ O') (fo_G _ _ _ _ _ _ O) (fun i j Hi Hj => eq_sym (f_gram i j Hi Hj)) j Hj).
Qed.
Lemma mvF b i : (i < n)%nat -> mv p F' b i = mv p F b (f i).
Proof. intros Hi. unfold mv. apply rsum_ext. intros j Hj. rewrite HF by assumption. reflexivity. Qed.
Let g : vec := fun i => p_gamma pr' i - p_gamma pr (f i).
Let d : vec := fun j => p_beta pr' j - p_beta pr j.
Lemma g_eq i : (i < n)%nat -> mv n Rm' g i = - mv p F' d i.
Proof.
  intros Hi. unfold g, d. rewrite !mv_minus. rewrite (R_gamma n p Rm' F' y' pr' S' O' i Hi). rewrite (two_mv n f Rm Rm' RO HA (p_gamma pr) i Hi).
  rewrite (R_gamma n p Rm F y pr S O (f i) (proj1 RO i Hi)). rewrite HY, (mvF (p_beta pr)) by exact Hi. ring.
Qed.
Lemma g_orth b : dot n (mv p F' b) g = 0.
Proof.
  unfold g. rewrite dot_minus_r. rewrite (F_gamma n p Rm' F' y' pr' O' b).
  assert (E : dot n (mv p F' b) (fun i => p_gamma pr (f i)) = dot n (mv p F b) (p_gamma pr)).
  { unfold dot. rewrite (rsum_ext n _ (fun i => (fun i => mv p F b i * p_gamma pr i) (f i))) by (intros i Hi; rewrite mvF by exact Hi; reflexivity). apply (rsum_reorder n f (fun i => mv p F b i * p_gamma pr i) RO). }
  rewrite E, (F_gamma n p Rm F y pr O b). ring.
Qed.
Lemma g_zero i : (i < n)%nat -> g i = 0.
Proof.
  revert i. destruct (nonzero_dec n g) as [W|W]; [|exact W]. exfalso. pose proof (chol_pd n Rm' _ S' (fo_C _ _ _ _ _ _ O') g W) as P.
  rewrite (dot_ext n g (mv n Rm' g) g (fun i => - mv p F' d i)) in P by (intros; try reflexivity; apply g_eq; assumption). rewrite dot_opp_r, dot_sym, g_orth in P. lra.
Qed.
Lemma d_zero j : (j < p)%nat -> d j = 0.
Proof.
  revert j. apply (upper_inj p (p_G pr') (fo_G _ _ _ _ _ _ O') (fo_D _ _ _ _ _ _ O')). apply dot_self_zero. rewrite <- (Ft_form n p Rm' F' y' pr' O' d d).
  assert (Z : forall i, (i < n)%nat -> mv p (p_Ft pr') d i = 0).
  { apply (lower_inj n (p_C pr') (chol_lower _ _ _ (fo_C _ _ _ _ _ _ O')) (chol_diag _ _ _ (fo_C _ _ _ _ _ _ O'))). intros i Hi. rewrite (C_F n p Rm' F' y' pr' O' d i Hi).
    pose proof (g_eq i Hi) as E. rewrite (mv_zero n Rm' g i g_zero) in E. lra. }
  apply dot_zero_r. exact Z.
Qed.
Lemma f_gamma i : (i < n)%nat -> p_gamma pr' i = p_gamma pr (f i).
Proof. intros Hi. pose proof (g_zero i Hi). unfold g in *. lra. Qed.
Lemma f_beta j : (j < p)%nat -> p_beta pr' j = p_beta pr j.
Proof. intros Hj. pose proof (d_zero j Hj). unfold d in *. lra. Qed.
Lemma f_rho : dot n (rho_of n p y' pr') (rho_of n p y' pr') = dot n (rho_of n p y pr) (rho_of n p y pr).
Proof.
  rewrite <- (gamma_rho n p Rm' F' y' pr' S' O'), <- (gamma_rho n p Rm F y pr S O). unfold dot.
  rewrite (rsum_ext n _ (fun i => (fun i => p_gamma pr i * (y i - mv p F (p_beta pr) i)) (f i))); [apply (rsum_reorder n f (fun i => p_gamma pr i * (y i - mv p F (p_beta pr) i)) RO)|].
  intros i Hi. rewrite f_gamma, HY by exact Hi. f_equal. f_equal. rewrite mvF by exact Hi. apply mv_ext; [reflexivity|]. exact f_beta.
Qed.
End Fits.
(** the whole evaluation *)
Section Outcome.
Variables (qr : nat -> nat -> mat -> mat * mat) (rcond : nat -> mat -> R) (condF : nat -> nat -> mat -> R).
Hypotheses (HQ : qr_contract qr) (HR : rcond_contract rcond) (HG : rcond_gram rcond) (HC : cond_rows condF).
Variables (n p : nat) (f : nat -> nat) (dof ystd : R) (Rm F Rm' F' : mat) (y y' : vec).
Hypotheses (Hp : (p <= n)%nat) (RO : reorder n f) (S : msym n Rm) (HA : forall i j, (i < n)%nat -> (j < n)%nat -> Rm' i j = Rm (f i) (f j)).
Hypotheses (HF : forall i j, (i < n)%nat -> (j < p)%nat -> F' i j = F (f i) j) (HY : forall i, (i < n)%nat -> y' i = y (f i)).
Lemma outcome : same_outcome p (reduced_likelihood qr rcond condF n p dof Rm F y ystd) (reduced_likelihood qr rcond condF n p dof Rm' F' y' ystd).
Proof.
  assert (S' : msym n Rm') by exact (two_sym n f Rm Rm' RO S HA).
  assert (PDs : mpd n Rm <-> mpd n Rm').
  { split; [apply (pd_reorder n f Rm Rm' RO HA)|]. destruct (reorder_inv n f RO) as (g & RG & FG & GF). apply (pd_reorder n g Rm' Rm RG).
    intros i j Hi Hj. rewrite HA by (apply RG; assumption). rewrite !FG by assumption. reflexivity. }
  destruct (reduced_likelihood qr rcond condF n p dof Rm F y ystd) as [v pr| |] eqn:E; destruct (reduced_likelihood qr rcond condF n p dof Rm' F' y' ystd) as [v' pr'| |] eqn:E'.
  1:{ destruct (fit_facts qr rcond condF n p dof Rm F y ystd v pr HQ HR Hp S E) as [O S2]. destruct (fit_facts qr rcond condF n p dof Rm' F' y' ystd v' pr' HQ HR Hp S' E') as [O' S2'].
      pose proof (f_rho n p f Rm F Rm' F' y y' pr pr' RO S HA HF HY O O') as ER.
      split; [|split; [rewrite S2, S2', ER; reflexivity|exact (f_beta n p f Rm F Rm' F' y y' pr pr' RO S HA HF HY O O')]].
      assert (V : forall A Fm z u r, reduced_likelihood qr rcond condF n p dof A Fm z ystd = Fit u r -> u = - dof * log10 (dot n (rho_of n p z r) (rho_of n p z r) / dof) - INR n * log10 (rprod n (fun i => Rpower (p_C r i i) (2 / INR n)))).
      { intros A Fm z u r H. unfold reduced_likelihood in H. destruct (cholesky n A); [|discriminate]. cbv zeta in H. destruct (qr n p _) as [Q G]. destruct (Rlt_dec _ _); [destruct (Rlt_dec _ _); discriminate|]. injection H as <- <-. reflexivity. }
      rewrite (V _ _ _ _ _ E), (V _ _ _ _ _ E'). rewrite ER. rewrite (two_det n f Rm Rm' (p_C pr) (p_C pr') RO S HA (fo_C _ _ _ _ _ _ O) (fo_C _ _ _ _ _ _ O')). reflexivity. }
  all: cbn [same_outcome]; try exact I; exfalso; unfold reduced_likelihood in E, E'; cbv zeta in E, E'.
  all: destruct (cholesky n Rm) as [C|] eqn:EC; destruct (cholesky n Rm') as [C'|] eqn:EC'; try discriminate.
  all: try (match type of EC with _ = None => assert (X : mpd n Rm) by (apply PDs; apply (chol_iff n Rm' S'); eexists; exact EC'); destruct (chol_complete n Rm S X) as (L & EL); rewrite EL in EC; discriminate EC end).
  all: try (match type of EC' with _ = None => assert (X : mpd n Rm') by (apply PDs; apply (chol_iff n Rm S); eexists; exact EC); destruct (chol_complete n Rm' S' X) as (L & EL); rewrite EL in EC'; discriminate EC' end).
  all: match type of E with context [qr n p ?a] => set (Ft := a) in * end; match type of E' with context [qr n p ?a] => set (Ft' := a) in * end;
    pose proof (HQ n p Ft Hp) as Q0; pose proof (HQ n p Ft' Hp) as Q0'; destruct (qr n p Ft) as [Q G]; destruct (qr n p Ft') as [Q' G']; destruct Q0 as (Q1 & Q2 & Q3); destruct Q0' as (Q1' & Q2' & Q3');
    assert (EG : rcond p G = rcond p G') by (apply HG; [exact Q3|exact Q3'|]; intros i j Hi Hj; rewrite (qr_gram n p Ft Q G Q1 Q2 i j Hi Hj), (qr_gram n p Ft' Q' G' Q1' Q2' i j Hi Hj); symmetry;
      apply (two_dot n f Rm Rm' C C' RO S HA (chol_sound _ _ _ EC) (chol_sound _ _ _ EC')); intros a Ha; apply HF; assumption);
    rewrite <- EG in E'; rewrite (HC n p F F' f RO HF) in E'; destruct (Rlt_dec (rcond p G) (1 / 10 ^ 10)); [destruct (Rlt_dec (10 ^ 15) (condF n p F))|]; discriminate.
Qed.
End Outcome.
