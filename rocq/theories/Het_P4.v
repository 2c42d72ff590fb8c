(** C101: statements in the vocabulary of Het_S, reordering of the observations, several outputs. *)
From Coq Require Import Reals Arith Bool List Lia Lra FunctionalExtensionality FinFun Sorted.
From Coquelicot Require Import Coquelicot.
From Verif Require Import RSum Mat Psd Psd2 Tri_M Tri_P Kernels_M Kernels_P Kernels_P2 Kernels_P3 Krg_M Krg_S Krg_P Krg_P2 Krg_P3 Krg_P4 Krg_P5 Krg_P8 Krg_Qr Mgp_P9 Het_M Het_S Het_P1 Het_P2 Het_P3.
Import ListNotations.
Open Scope list_scope.
Open Scope R_scope.

Lemma group_sum nx n X i f : (i < n)%nat -> masked_sum n (inverse nx (Xnorm n X) n) (inverse nx (Xnorm n X) n i) f = rep_sum nx n X f i.
Proof.
  intros Hi. apply rsum_ext. intros j Hj. destruct (same_dec nx (X j) (X i)) as [E|N].
  - replace (Nat.eqb _ _) with true; [reflexivity|]. symmetry. apply Nat.eqb_eq. apply inverse_iff; [exact Hj|exact Hi|]. apply Xnorm_same. exact E.
  - replace (Nat.eqb _ _) with false; [reflexivity|]. symmetry. apply Nat.eqb_neq. intros E. apply N. apply (Xnorm_same nx n X). apply (inverse_iff nx (Xnorm n X) n j i Hj Hi). exact E.
Qed.
Lemma opt_obs nx n X y s0 i : (i < n)%nat -> opt_noise n (inverse nx (Xnorm n X) n) (ynorm n y) (fun _ => s0) (inverse nx (Xnorm n X) n i) = obs_noise nx n X y s0 i.
Proof.
  intros Hi. unfold opt_noise, obs_noise, rep_ss, rep_mean, rep_count, count. cbv zeta. rewrite !group_sum by exact Hi.
  destruct (Req_EM_T _ 0); reflexivity.
Qed.
Lemma q_blup_noise nx n po s nugget a b X x w : (forall i, (i < n)%nat -> a i = b i) -> q_blup nx n po s nugget a X x w -> q_blup nx n po s nugget b X x w.
Proof.
  intros E [U M]. assert (Q : forall w, mse n (d_corr nx n s nugget a X) (q_corr nx n s X x) w = mse n (d_corr nx n s nugget b X) (q_corr nx n s X x) w).
  { intros w0. apply mse_ext; [|reflexivity]. intros i j Hi Hj. unfold d_corr. rewrite E by exact Hi. reflexivity. }
  split; [exact U|]. intros w' U'. rewrite <- !Q. apply M. exact U'.
Qed.
Lemma q_mse_noise nx n s nugget a b X x w : (forall i, (i < n)%nat -> a i = b i) -> q_mse nx n s nugget a X x w = q_mse nx n s nugget b X x w.
Proof. intros E. apply mse_ext; [|reflexivity]. intros i j Hi Hj. unfold d_corr. rewrite E by exact Hi. reflexivity. Qed.
Section H.
Variables (qr : nat -> nat -> mat -> mat * mat) (rcond : nat -> mat -> R) (condF : nat -> nat -> mat -> R).
Hypotheses (HQ : qr_contract qr) (HR : rcond_contract rcond).
Variables (nx n : nat) (po : poly) (s : kspec) (nugget : R) (s0 : R) (X : nat -> vec) (y : vec) (m : model).
Hypothesis Hm : het_train qr rcond condF nx 1 n po s nugget [s0] X (fun i _ => y i) 0 = Some m.
Hypothesis P0 : 0 <= s0.
Lemma h_inv : het_ok nx n po s [s0] X y (fun _ => s0) m.
Proof. destruct (het_inv qr rcond condF HQ HR nx n po s nugget [s0] X y m Hm) as (n0 & T). pose proof (h_b _ _ _ _ _ _ _ _ _ T) as E. cbn in E. injection E as <-. exact T. Qed.
Lemma t_het_blup x : exists w, q_blup nx n po s 0 (obs_noise nx n X y s0) X x w /\ predict_value m x = dot n w y.
Proof.
  pose proof h_inv as T. eexists. split; [|apply (value_full _ _ _ _ _ _ _ _ _ T)]. eapply q_blup_noise; [|apply (blup_full _ _ _ _ _ _ _ _ _ T); intros; exact P0].
  intros i Hi. apply opt_obs. exact Hi.
Qed.
Lemma t_het_variance x w : k_ok s nx -> po = PConstant -> q_blup nx n po s 0 (obs_noise nx n X y s0) X x w -> predict_variance m x = p_sigma2 (m_par m) * q_mse nx n s 0 (obs_noise nx n X y s0) X x w.
Proof.
  intros K Ep B. pose proof h_inv as T. assert (E : forall i, (i < n)%nat -> obs_noise nx n X y s0 i = opt_noise n (inverse nx (Xnorm n X) n) (ynorm n y) (fun _ => s0) (inverse nx (Xnorm n X) n i)) by (intros; symmetry; apply opt_obs; assumption).
  rewrite (q_mse_noise _ _ _ _ _ _ _ _ _ E). apply (q_blup_noise _ _ _ _ _ _ _ _ _ _ E) in B. exact (variance_het _ _ _ _ _ _ _ _ _ T (fun _ _ => P0) K x w Ep B).
Qed.
Lemma t_het_observed i : (i < n)%nat -> obs_noise nx n X y s0 i = 0 -> predict_value m (X i) = rep_mean nx n X y i.
Proof.
  intros Hi Z. pose proof h_inv as T. rewrite (interp_het _ _ _ _ _ _ _ _ _ T i Hi). rewrite opt_obs, Z by exact Hi. unfold Rdiv at 2. rewrite Rmult_0_l, Rmult_0_r, Rmult_0_l, Rminus_0_r.
  unfold rep_mean, rep_count, count. rewrite !group_sum by exact Hi.
  assert (C : 0 < rep_sum nx n X (fun _ => 1) i). { rewrite <- group_sum by exact Hi. apply (cp nx n X). apply inverse_lt. exact Hi. }
  apply (Rmult_eq_reg_r (rep_sum nx n X (fun _ => 1) i)); [|lra]. field_simplify; [|lra|lra].
  transitivity (rep_sum nx n X (fun j => mean n y * 1 + scale1 n y * ynorm n y j) i).
  - unfold rep_sum. rewrite <- !rsum_scal_l. rewrite (Rplus_comm (rsum n _)) || idtac. rewrite <- rsum_plus. apply rsum_ext. intros j Hj. destruct (same_dec nx (X j) (X i)); ring.
  - unfold rep_sum. apply rsum_ext. intros j Hj. destruct (same_dec nx (X j) (X i)); [|reflexivity]. unfold ynorm. field. apply scale1_nz.
Qed.
(** the inputs kept by training: the distinct training inputs, each once, in lexicographic order *)
Lemma t_het_inputs : exists r : nat -> nat, (forall u, (u < m_nt m)%nat -> (r u < n)%nat) /\ (forall u v, (u < v)%nat -> (v < m_nt m)%nat -> lex_lt nx (X (r u)) (X (r v))) /\
  (forall i, (i < n)%nat -> exists u, (u < m_nt m)%nat /\ same nx (X i) (X (r u))) /\
  (forall u c, (u < m_nt m)%nat -> (c < nx)%nat -> m_Xn m u c = q_std n X (X (r u)) c).
Proof.
  pose proof h_inv as T. rewrite (h_m _ _ _ _ _ _ _ _ _ T). cbn [m_nt m_Xn]. exists (rep nx (Xnorm n X) n). split; [|split; [|split]].
  - intros u Hu. apply rep_lt. exact Hu.
  - intros u v Hu Hv. destruct (rep_sorted nx (Xnorm n X) n u v Hu Hv) as (k & Hk & A & L). set (a := rep nx (Xnorm n X) n u) in *. set (b := rep nx (Xnorm n X) n v) in *. clearbody a b. exists k. split; [exact Hk|]. 
    split.
    + intros c Hc. specialize (A c Hc). unfold Xnorm in A. set (sc := scale1 n (fun a => X a c)) in *. assert (N : sc <> 0) by apply scale1_nz. apply (Rmult_eq_compat_r sc) in A. unfold Rdiv in A. rewrite !Rmult_assoc, Rinv_l, !Rmult_1_r in A by exact N. lra.
    + unfold Xnorm in L. set (sc := scale1 n (fun a => X a k)) in *. assert (N : 0 < sc) by apply scale1_pos. apply (Rmult_lt_compat_r sc) in L; [|exact N]. unfold Rdiv in L. rewrite !Rmult_assoc, Rinv_l, !Rmult_1_r in L by lra. lra.
  - intros i Hi. exists (inverse nx (Xnorm n X) n i). split; [apply inverse_lt; exact Hi|]. apply (Xnorm_same nx n X). apply inverse_same. exact Hi.
  - reflexivity.
Qed.
End H.

(** ** exceptions and success *)
Lemma t_het_noise0_length qr rcond condF nx ny n po s nugget noise0 X y k m : het_train qr rcond condF nx ny n po s nugget noise0 X y k = Some m ->
  length noise0 = 1%nat \/ length noise0 = m_nt m.
Proof.
  unfold het_train. cbv zeta. unfold bcast. destruct (Nat.eqb_spec (length noise0) 1) as [E|N]; [intros _; left; exact E|].
  destruct (Nat.eqb_spec (length noise0) (length (uniq nx (Xnorm n X) n))) as [E|N2]; [|discriminate].
  destruct (Nat.leb _ _); [discriminate|]. destruct (Nat.ltb _ _); [discriminate|]. destruct (reduced_likelihood _ _ _ _ _ _ _ _ _ _); try discriminate. intros [= <-]. right. exact E.
Qed.
Lemma t_het_factorises c theta nx n X y s0 : c <> ActExp -> (forall j, (j < nx)%nat -> 0 < theta j) -> 0 <= s0 ->
  mpd (length (uniq nx (Xnorm n X) n)) (corr_matrix (KStd c theta) nx (length (uniq nx (Xnorm n X) n)) (fun u => Xnorm n X (nth u (uniq nx (Xnorm n X) n) 0%nat)) 0
    (noise_rep n 1 (inverse nx (Xnorm n X) n) (fun a j => ynorm n (fun i => (fun i _ => y i) i j) a) (fun _ => s0))).
Proof.
  intros Hc Ht P. apply corr_matrix_pd_distinct; [exact Hc|exact Ht| |].
  - intros u v Hu Hv N E. apply N. apply (rep_inj nx (Xnorm n X) n u v Hu Hv). exact E.
  - intros u Hu. rewrite (noise_rep1 nx n X y _ u Hu). rewrite Rplus_0_l. apply Rmult_le_pos; [|apply Rlt_le, Rinv_0_lt_compat, (cp nx n X u Hu)].
    apply (on_nonneg nx n X y (fun _ => s0)); [intros; exact P|exact Hu].
Qed.
Lemma t_het_trains c theta nx n X y nugget s0 : c <> ActExp -> (forall j, (j < nx)%nat -> 0 < theta j) -> 0 <= s0 -> (exists i j, (i < n)%nat /\ (j < n)%nat /\ ~ same nx (X i) (X j)) ->
  exists m, het_train gs_qr rcond01 cond0 nx 1 n PConstant (KStd c theta) nugget [s0] X (fun i _ => y i) 0 = Some m.
Proof.
  intros Hc Ht P (i & j & Hi & Hj & N). unfold het_train. cbv zeta. cbn [bcast length Nat.eqb nth]. unfold bcast. cbn [length Nat.eqb nth].
  set (nt := length (uniq nx (Xnorm n X) n)). assert (H2 : (2 <= nt)%nat).
  { pose proof (inverse_lt nx (Xnorm n X) n i Hi) as A. pose proof (inverse_lt nx (Xnorm n X) n j Hj) as B. fold nt in A, B.
    assert (D : inverse nx (Xnorm n X) n i <> inverse nx (Xnorm n X) n j) by (intros E; apply N; apply (Xnorm_same nx n X); apply (inverse_iff nx (Xnorm n X) n i j Hi Hj); exact E). lia. }
  destruct (Nat.leb_spec nt 1); [lia|]. destruct (Nat.ltb_spec nt (n_regr PConstant nx)) as [L|L]; [cbn in L; lia|].
  edestruct fit_gs as (vv & pr & E); [exact L|apply corr_matrix_sym|apply (t_het_factorises c theta nx n X y s0 Hc Ht P)| |rewrite E; eexists; reflexivity].
  intros b Hb k Hk. cbn in Hk. assert (k = 0%nat) as -> by lia. pose proof (Hb 0%nat ltac:(lia)) as E. unfold mv in E. cbn [n_regr rsum] in E. rewrite fvec_0 in E. lra.
Qed.
(** ** several outputs *)
Lemma t_het_shape ny m pts : (2 <= ny)%nat -> (exists v, het_predict ny m pts = Some v) <-> length pts = 1%nat.
Proof.
  intros H. unfold het_predict. cbv zeta. destruct (Nat.eqb_spec ny 1); [lia|]. destruct (Nat.eqb_spec (length pts) 1) as [E|N].
  - split; [intros _; exact E|intros _]. rewrite map_length, seq_length, E, Nat.mul_1_l, Nat.eqb_refl. eexists. reflexivity.
  - split; [|intros; contradiction]. intros (v & Hv). destruct (Nat.eqb_spec (length pts) ny) as [E2|]; [|discriminate]. rewrite map_length, seq_length, E2 in Hv.
    destruct (Nat.eqb_spec ny (ny * ny)); [nia|discriminate].
Qed.
Lemma t_het_single ny m x : (2 <= ny)%nat -> het_predict ny m [x] = Some [map (fun k => predict_value (m k) x) (seq 0 ny)].
Proof.
  intros H. unfold het_predict. cbv zeta. destruct (Nat.eqb_spec ny 1); [lia|]. cbn [length Nat.eqb nth]. rewrite map_length, seq_length, Nat.mul_1_l, Nat.eqb_refl. cbn [seq map]. do 2 f_equal.
  apply map_ext_in. intros k Hk. apply in_seq in Hk. rewrite Nat.mul_0_l, Nat.add_0_l.
  rewrite (nth_indep _ 0 (predict_value (m 0%nat) x)) by (rewrite map_length, seq_length; lia). rewrite (map_nth (fun k => predict_value (m k) x)). rewrite seq_nth by lia. reflexivity.
Qed.
Lemma t_het_one_output m pts : het_predict 1 m pts = Some (map (fun x => [predict_value (m 0%nat) x]) pts).
Proof.
  unfold het_predict. cbv zeta. cbn [Nat.eqb]. rewrite map_length, Nat.mul_1_r, Nat.eqb_refl. f_equal. cbn [seq map].
  apply (nth_ext _ _ [] []); [rewrite !map_length, seq_length; reflexivity|]. intros i Hi. rewrite map_length, seq_length in Hi.
  rewrite (nth_indep _ [] ((fun i => [nth (i * 1 + 0) (map (predict_value (m 0%nat)) pts) 0]) 0%nat)) by (rewrite map_length, seq_length; exact Hi). rewrite (map_nth (fun i => [nth (i * 1 + 0) (map (predict_value (m 0%nat)) pts) 0])), seq_nth by exact Hi.
  rewrite (nth_indep _ [] ((fun x => [predict_value (m 0%nat) x]) (fun _ => 0))) by (rewrite map_length; exact Hi). rewrite (map_nth (fun x => [predict_value (m 0%nat) x])).
  f_equal. replace (0 + i)%nat with i by lia. rewrite Nat.mul_1_r, Nat.add_0_r. rewrite (nth_indep _ 0 (predict_value (m 0%nat) (fun _ => 0))) by (rewrite map_length; exact Hi). rewrite (map_nth (predict_value (m 0%nat))). reflexivity.
Qed.
(** all outputs get the same standardised prediction *)
Lemma t_het_outputs_tied qr rcond condF nx ny n po s nugget noise0 X y k k' m m' : het_train qr rcond condF nx ny n po s nugget noise0 X y k = Some m ->
  het_train qr rcond condF nx ny n po s nugget noise0 X y k' = Some m' -> forall x,
  (predict_value m x - mean n (fun i => y i k)) / scale1 n (fun i => y i k) = (predict_value m' x - mean n (fun i => y i k')) / scale1 n (fun i => y i k').
Proof.
  unfold het_train. cbv zeta. destruct (bcast _ _) as [n0|]; [|discriminate]. destruct (Nat.leb _ _); [discriminate|]. destruct (Nat.ltb _ _); [discriminate|].
  set (nt := length (uniq nx (Xnorm n X) n)). set (Rm := corr_matrix _ _ _ _ _ _). set (F := fun i j => fvec po nx _ j). set (yu := y_mean_rep _ _ _ _).
  rewrite (rl_ext qr rcond condF nt (n_regr po nx) (INR nt) Rm Rm F F yu yu (scale1 n (fun i => y i k)) (scale1 n (fun i => y i k'))) by (try reflexivity; apply scale1_nz).
  destruct (reduced_likelihood _ _ _ _ _ _ _ _ _ _) as [v pr| |]; try discriminate. cbn [map_fit]. intros [= <-] [= <-] x. unfold predict_value, rvec, xn. cbn [m_nx m_nt m_poly m_k m_Xn m_off m_scale m_ymean m_ystd m_par set_s2 p_beta p_gamma].
  set (q := dot _ _ _ + dot _ _ _). clearbody q. field. split; apply scale1_nz.
Qed.
(** ** reordering the observations *)
Lemma rsum_reorder n f g : reorder n f -> rsum n (fun i => g (f i)) = rsum n g.
Proof.
  intros [B I].
  assert (Sj : forall j, (j < n)%nat -> exists i, (i < n)%nat /\ f i = j).
  { assert (BF : bFun n f) by (intros i Hi; apply B; exact Hi). assert (BI : bInjective n f) by (intros i j Hi Hj; apply I; assumption).
    pose proof (proj1 (bInjective_bSurjective BF) BI) as BS. intros j Hj. destruct (BS j Hj) as (i & Hi & E). exists i. split; assumption. }
  rewrite (rsum_ext n (fun i => g (f i)) (fun i => rsum n (fun j => if Nat.eqb j (f i) then g j else 0))) by (intros i Hi; symmetry; apply (rsum_single n g (f i)); apply B; exact Hi).
  rewrite rsum_swap. apply rsum_ext. intros j Hj. destruct (Sj j Hj) as (i0 & Hi0 & E0).
  rewrite (rsum_ext n _ (fun i => if Nat.eqb i i0 then g j else 0)); [apply (rsum_single n (fun _ => g j) i0 Hi0)|]. intros i Hi. destruct (Nat.eqb_spec j (f i)) as [E|N], (Nat.eqb_spec i i0) as [E'|N']; try reflexivity; exfalso.
  - apply N'. apply I; [exact Hi|exact Hi0|congruence].
  - apply N. rewrite E'. congruence.
Qed.
Lemma sorted_unique nx (A B : nat -> vec) : forall l l', StronglySorted (fun i j => lex_lt nx (A i) (A j)) l -> StronglySorted (fun i j => lex_lt nx (B i) (B j)) l' ->
  (forall i, In i l -> exists j, In j l' /\ same nx (A i) (B j)) -> (forall j, In j l' -> exists i, In i l /\ same nx (A i) (B j)) -> Forall2 (fun i j => same nx (A i) (B j)) l l'.
Proof.
  induction l as [|a l IH]; intros [|b l'] S S' H H'.
  - constructor.
  - destruct (H' b (or_introl eq_refl)) as (? & [] & _).
  - destruct (H a (or_introl eq_refl)) as (? & [] & _).
  - inversion S as [|? ? S1 S2]; subst. inversion S' as [|? ? S1' S2']; subst. rewrite List.Forall_forall in S2, S2'.
    assert (E : same nx (A a) (B b)).
    { destruct (H a (or_introl eq_refl)) as (j & [<-|Hj] & E); [exact E|]. destruct (H' b (or_introl eq_refl)) as (i & [<-|Hi] & E'); [exact E'|]. exfalso.
      apply (lex_irrefl nx (A a) (A a) (fun c _ => eq_refl)). apply (lex_trans nx _ (A i)); [apply S2; exact Hi|]. apply (lex_same_l nx (B b)); [apply same_sym; exact E'|].
      specialize (S2' j Hj). destruct S2' as (k & Hk & Q & L). exists k. split; [exact Hk|]. split; [intros c Hc; rewrite (E c) by lia; apply Q; exact Hc|]. rewrite (E k Hk). exact L. }
    constructor; [exact E|]. apply IH; [exact S1|exact S1'| |].
    + intros i Hi. destruct (H i (or_intror Hi)) as (j & [<-|Hj] & Q); [|exists j; split; assumption]. exfalso. apply (lex_irrefl nx (A a) (A i)); [|apply S2; exact Hi]. apply (same_trans nx _ (B b)); [exact E|apply same_sym; exact Q].
    + intros j Hj. destruct (H' j (or_intror Hj)) as (i & [<-|Hi] & Q); [|exists i; split; assumption]. exfalso. apply (lex_irrefl nx (B b) (B j)); [|apply S2'; exact Hj]. apply (same_trans nx _ (A a)); [apply same_sym; exact E|exact Q].
Qed.
