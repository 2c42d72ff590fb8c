(** C105: multi-fidelity kriging with estimated noise, and optim_var.  [train] is train(): the data and the eval_noise
    option the surrogate keeps, and the data and levels of the model (None: an exception).  Levels are numbered from 0;
    predict_intermediate k is the prediction of level k-1, and of the model for k the number of levels. *)
From Coq Require Import Reals Arith Bool List Lia Lra.
From Verif Require Import RSum Mat Kernels_M Krg_M Krg_S Krg_Qr Mfk_M Mfk_S Mfk_P4 Mfk_P6 Het_S MfkVar_M MfkVar_S MfkVar_P1 MfkVar_P2 MfkVar_P4 MfkVar_P5 Mfk_T.
Import ListNotations.
Open Scope list_scope.
Open Scope R_scope.

(** C105. Without noise estimation the model is that of C50 on the stored data with the noise0 given, optim_var or not. *)
Theorem C105_given_noise : forall nx po rho qr rcond condF nugget het search ov st, s_eval st = false ->
  fst (train nx po rho qr rcond condF nugget het ov search st) = st /\
  forall all lvls, snd (train nx po rho qr rcond condF nugget het ov search st) = Some (all, lvls) ->
  mfk_train nx po rho qr rcond condF nugget all = Some lvls /\ length all = length (s_obs st) /\
  forall k o, nth_error (s_obs st) k = Some o -> exists noise,
    nth_error all k = Some (level_data o (o_y o) (fst (search false (s_obs st) k)) noise) /\ forall i, (i < o_nt o)%nat -> noise i = given_noise o i.
Proof. exact t_given. Qed.
Print Assumptions C105_given_noise.
(** With it, every level has one noise variance, found with its kernel parameters, and the nugget is not used ... *)
Theorem C105_estimated_noise : forall nx po rho qr rcond condF nugget search st, s_eval st = true ->
  fst (train nx po rho qr rcond condF nugget false false search st) = st /\
  forall all lvls, snd (train nx po rho qr rcond condF nugget false false search st) = Some (all, lvls) ->
  mfk_train nx po rho qr rcond condF 0 all = Some lvls /\ length all = length (s_obs st) /\
  forall k o, nth_error (s_obs st) k = Some o ->
    nth_error all k = Some (level_data o (o_y o) (fst (search true (s_obs st) k)) (fun _ => snd (search true (s_obs st) k))).
Proof. exact t_estimated. Qed.
Print Assumptions C105_estimated_noise.
(** ... or, with use_het_noise, level k predicts what the best linear unbiased predictor of all its observations
    predicts when each has the sample variance of the outputs at its input as noise variance. *)
Theorem C105_replicated_inputs : forall nx po rho qr rcond condF nugget search, qr_contract qr -> rcond_contract rcond ->
  forall st all lvls, s_eval st = true -> snd (train nx po rho qr rcond condF nugget true false search st) = Some (all, lvls) ->
  length all = length (s_obs st) /\
  forall k o s0, nth_error (s_obs st) k = Some o -> o_noise0 o = [s0] -> 0 <= s0 ->
  let d := level_data o (o_y o) (fst (search true (s_obs st) k)) (sample_noise nx all o s0) in
  forall x, exists w, lv_blup nx po rho 0 all lvls k d (lv_trend nx po rho all k (lpred nx po rho all lvls k) x) (lv_r nx all d x) w /\
  predict_intermediate nx po rho all lvls (S k) x = Some (dot (o_nt o) w (o_y o)).
Proof. exact t_replicated. Qed.
Print Assumptions C105_replicated_inputs.
(** optim_var: the model is that of C50, with nugget and noise0, on the outputs the model with estimated noise
    predicts at the training inputs; these replace the stored outputs, and eval_noise is switched off. *)
Theorem C105_two_stages : forall nx po rho qr rcond condF nugget het search st all lvls, s_eval st = true ->
  snd (train nx po rho qr rcond condF nugget het true search st) = Some (all, lvls) -> exists all1 lvls1,
  snd (train nx po rho qr rcond condF nugget het false search st) = Some (all1, lvls1) /\
  mfk_train nx po rho qr rcond condF nugget all = Some lvls /\ length all = length (s_obs st) /\
  (forall k o, nth_error (s_obs st) k = Some o -> exists s noise,
    nth_error all k = Some (level_data o (fun i => lpred nx po rho all1 lvls1 (S k) (o_X o i)) s noise) /\ forall i, (i < o_nt o)%nat -> noise i = given_noise o i) /\
  let st' := fst (train nx po rho qr rcond condF nugget het true search st) in
  s_eval st' = false /\ length (s_obs st') = length (s_obs st) /\
  (forall k o, nth_error (s_obs st) k = Some o -> nth_error (s_obs st') k = Some (with_y o (fun i => lpred nx po rho all1 lvls1 (S k) (o_X o i)))).
Proof. exact t_stages. Qed.
Print Assumptions C105_two_stages.
(** Where a level has neither nugget nor noise0 it then predicts at its training inputs what the model with
    estimated noise predicts there. *)
Theorem C105_keeps_predictions : forall nx po rho qr rcond condF nugget het search, qr_contract qr -> rcond_contract rcond ->
  forall st all lvls all1 lvls1, s_eval st = true -> snd (train nx po rho qr rcond condF nugget het true search st) = Some (all, lvls) ->
  snd (train nx po rho qr rcond condF nugget het false search st) = Some (all1, lvls1) ->
  forall k o i, nth_error (s_obs st) k = Some o -> (i < o_nt o)%nat -> nugget + given_noise o i = 0 ->
  predict_intermediate nx po rho all lvls (S k) (o_X o i) = predict_intermediate nx po rho all1 lvls1 (S k) (o_X o i).
Proof. exact t_reproduces. Qed.
Print Assumptions C105_keeps_predictions.
(** The variance is then zero at the inputs of the first level, and for two levels at the inputs they share ... *)
Theorem C105_zero_variance : forall nx po rho qr rcond condF nugget het search, qr_contract qr -> rcond_contract rcond ->
  forall st all lvls inv pls o0 o1 i0 i1, s_eval st = true -> snd (train nx po rho qr rcond condF nugget het true search st) = Some (all, lvls) ->
  nth_error (s_obs st) 0 = Some o0 -> (i0 < o_nt o0)%nat -> nugget + given_noise o0 i0 = 0 ->
  nth 0 (mfk_variances nx po rho inv pls all lvls (o_X o0 i0)) 0 = 0 /\
  (nth_error (s_obs st) 1 = Some o1 -> (i1 < o_nt o1)%nat -> nugget + given_noise o1 i1 = 0 -> o_X o0 i0 = o_X o1 i1 ->
   nth 1 (mfk_variances nx po rho inv pls all lvls (o_X o1 i1)) 0 = 0).
Proof.
  intros nx po rho qr rcond condF nugget het search HQ HR st all lvls inv pls o0 o1 i0 i1 Ee H H0 Hi Z.
  destruct (t_stages nx po rho qr rcond condF nugget het search st all lvls Ee H) as (a1 & l1 & _ & T & _ & D & _). destruct (D 0%nat o0 H0) as (s & noise & Hd & Hn). split.
  - apply (C50_zero_at_first_level_points nx po rho qr rcond condF nugget all lvls HQ HR T inv pls _ i0 Hd Hi). cbn [d_noise level_data]. rewrite Hn by exact Hi. exact Z.
  - intros H1 Hi1 Z1 E. destruct (D 1%nat o1 H1) as (s1 & noise1 & Hd1 & Hn1).
    apply (C50_zero_at_shared_points nx po rho qr rcond condF nugget all lvls HQ HR T inv pls _ _ i0 i1 Hd Hd1 Hi Hi1); cbn [d_noise level_data d_X]; rewrite ?Hn, ?Hn1 by assumption; assumption.
Qed.
Print Assumptions C105_zero_variance.
(** ... but not, as the option's description says, at the samples of the highest fidelity: with two levels it is
    positive at every input, samples included, that is not an input of the first level ... *)
Theorem C105_not_zero_at_own_inputs : forall nx po rho qr rcond condF nugget het search, qr_contract qr -> rcond_contract rcond ->
  forall st all lvls inv pls d0 d1 s0 s1 c theta x, s_eval st = true -> snd (train nx po rho qr rcond condF nugget het true search st) = Some (all, lvls) ->
  inv_contract inv -> nth_error all 0 = Some d0 -> nth_error all 1 = Some d1 ->
  d_k d0 = KStd c theta -> c <> ActExp -> (forall j, (j < nx)%nat -> 0 < theta j) -> k_ok (d_k d1) nx ->
  (forall d i, In d all -> (i < d_nt d)%nat -> 0 <= nugget + d_noise d i) ->
  (forall i j, (i < d_nt d0)%nat -> (j < d_nt d0)%nat -> i <> j -> ~ same nx (d_X d0 i) (d_X d0 j)) ->
  (forall i, (i < d_nt d0)%nat -> ~ same nx (d_X d0 i) x) ->
  lv_sigma2 nx po rho nugget all lvls 0 d0 s0 -> s0 <> 0 -> lv_sigma2 nx po rho nugget all lvls 1 d1 s1 -> s1 <> 0 ->
  0 < nth 1 (mfk_variances nx po rho inv pls all lvls x) 0.
Proof.
  intros nx po rho qr rcond condF nugget het search HQ HR st all lvls inv pls d0 d1 s0 s1 c theta x Ee H HI H0 H1 Ek Nc Tp K1 Nn Di Dx S0 N0 S1 N1.
  destruct (t_stages nx po rho qr rcond condF nugget het search st all lvls Ee H) as (a1 & l1 & _ & T & _).
  exact (hf_positive nx po rho qr rcond condF nugget all lvls HQ HR T inv pls d0 d1 s0 s1 c theta x HI H0 H1 Ek Nc Tp K1 Nn Di Dx S0 N0 S1 N1).
Qed.
Print Assumptions C105_not_zero_at_own_inputs.
(** ... and with three levels it may be positive at an input all of them share. *)
Theorem C105_zero_variance_refuted : exists all lvls, snd (train 1 PConstant PConstant gs_qr rcond01 cond0 0 false true e_search e_st) = Some (all, lvls) /\
  length (s_obs e_st) = 3%nat /\ (forall o, In o (s_obs e_st) -> o_nt o = 3%nat /\ o_X o = w_X /\ o_noise0 o = [0]) /\
  forall pls, 0 < nth 2 (mfk_variances 1 PConstant PConstant chol_inv pls all lvls (w_X 0)) 0.
Proof.
  destruct e_stage2 as (all & lvls & T & P). exists all, lvls. split; [exact T|]. split; [reflexivity|]. split; [|exact P]. intros o [<- |[<- |[<- |[]]]]; repeat split.
Qed.
Print Assumptions C105_zero_variance_refuted.
(** If a level has two observations at one input without nugget and noise0, optim_var fails ... *)
Theorem C105_repeated_input_fails : forall nx po rho qr rcond condF nugget het search, qr_contract qr -> rcond_contract rcond ->
  forall st, s_eval st = true -> forall k o, nth_error (s_obs st) k = Some o -> repeated nx nugget o ->
  snd (train nx po rho qr rcond condF nugget het true search st) = None.
Proof. exact t_repeated_fails. Qed.
Print Assumptions C105_repeated_input_fails.
(** ... and whether it fails there or not, the observed outputs have been replaced and eval_noise is off. *)
Theorem C105_outputs_overwritten : forall nx po rho qr rcond condF nugget het search st all1 lvls1, s_eval st = true ->
  snd (train nx po rho qr rcond condF nugget het false search st) = Some (all1, lvls1) ->
  let st' := fst (train nx po rho qr rcond condF nugget het true search st) in
  s_eval st' = false /\ length (s_obs st') = length (s_obs st) /\
  forall k o, nth_error (s_obs st) k = Some o -> nth_error (s_obs st') k = Some (with_y o (fun i => lpred nx po rho all1 lvls1 (S k) (o_X o i))).
Proof. exact t_failed_store. Qed.
Print Assumptions C105_outputs_overwritten.
(** A second train() does what the first did and keeps what it kept. *)
Theorem C105_retrain : forall nx po rho qr rcond condF nugget het search ov st,
  train nx po rho qr rcond condF nugget het ov search (fst (train nx po rho qr rcond condF nugget het ov search st))
  = train nx po rho qr rcond condF nugget het ov search st.
Proof. exact train_idem. Qed.
Print Assumptions C105_retrain.
(** Without use_het_noise a level whose noise0 is not a single number makes train() fail; nothing is changed. *)
Theorem C105_noise_length : forall nx po rho qr rcond condF nugget search ov st o, In o (s_obs st) -> length (o_noise0 o) <> 1%nat ->
  train nx po rho qr rcond condF nugget false ov search st = (st, None).
Proof.
  intros nx po rho qr rcond condF nugget search ov st o Ho Hl. unfold train, fit.
  destruct (forallb (check_noise0 nx false) (s_obs st)) eqn:E; [|reflexivity]. rewrite forallb_forall in E. specialize (E o Ho). unfold check_noise0 in E. apply Nat.eqb_eq in E. contradiction.
Qed.
Print Assumptions C105_noise_length.
(** With use_het_noise it is refused when it is neither 1 nor the number of points - but only if the level has as many distinct coordinates
    (counted over all its inputs) as points, which for one input variable means that no input is repeated. *)
Theorem C105_het_noise_length : forall nx po rho qr rcond condF nugget search ov st o coords, In o (s_obs st) ->
  NoDup coords -> (forall v, In v coords <-> exists i j, (i < o_nt o)%nat /\ (j < nx)%nat /\ o_X o i j = v) -> length coords = o_nt o ->
  length (o_noise0 o) <> 1%nat -> length (o_noise0 o) <> o_nt o ->
  train nx po rho qr rcond condF nugget true ov search st = (st, None).
Proof.
  intros nx po rho qr rcond condF nugget search ov st o coords Ho ND HC HL N1 N2. unfold train, fit.
  assert (forallb (check_noise0 nx true) (s_obs st) = false) as E.
  { destruct (forallb (check_noise0 nx true) (s_obs st)) eqn:E; [|reflexivity]. rewrite forallb_forall in E. specialize (E o Ho). unfold check_noise0 in E.
    assert (length (nodup Req_EM_T (entries nx o)) = o_nt o) as L.
    { rewrite <- HL. apply Nat.le_antisymm; apply NoDup_incl_length; try exact ND; try apply NoDup_nodup; intros v Hv.
      - apply nodup_In in Hv. apply HC. unfold entries in Hv. apply in_flat_map in Hv. destruct Hv as (i & Hi & Hv). apply in_map_iff in Hv. destruct Hv as (j & Ev & Hj). apply in_seq in Hi, Hj. exists i, j. repeat split; [lia|lia|exact Ev].
      - apply nodup_In. apply HC in Hv. destruct Hv as (i & j & Hi & Hj & Ev). unfold entries. apply in_flat_map. exists i. split; [apply in_seq; lia|]. apply in_map_iff. exists j. split; [exact Ev|apply in_seq; lia]. }
    rewrite L, Nat.eqb_refl in E. apply Bool.orb_true_iff in E. destruct E as [E|E]; apply Nat.eqb_eq in E; contradiction. }
  rewrite E. destruct (s_eval st); [|reflexivity]. reflexivity.
Qed.
Print Assumptions C105_het_noise_length.
Example C105_het_noise_length_nonvacuous : let o := {| o_nt := 2; o_X := fun i _ => INR i; o_y := fun _ => 0; o_noise0 := [1; 1; 1]%R |} in
  length (o_noise0 o) <> 1%nat /\ length (o_noise0 o) <> o_nt o /\ NoDup [0; 1]%R /\ forall v, In v [0; 1]%R <-> exists i j, (i < o_nt o)%nat /\ (j < 1)%nat /\ o_X o i j = v.
Proof.
  cbn. split; [discriminate|]. split; [discriminate|]. split; [constructor; [intros [E|[]]; lra|constructor; [intros []|constructor]]|]. intros v. split.
  - intros [<- |[<- |[]]]; [exists 0%nat, 0%nat|exists 1%nat, 0%nat]; repeat split; lia.
  - intros (i & j & Hi & _ & <-). destruct i as [|[|i]]; [left; reflexivity|right; left; reflexivity|lia].
Qed.
Example C105_nonvacuous : qr_contract gs_qr /\ rcond_contract rcond01 /\ inv_contract chol_inv /\ s_eval e_st = true /\
  (exists all lvls, snd (train 1 PConstant PConstant gs_qr rcond01 cond0 0 false true e_search e_st) = Some (all, lvls)) /\
  (forall o i, In o (s_obs e_st) -> (i < o_nt o)%nat -> 0 + given_noise o i = 0) /\
  repeated 1 0 {| o_nt := 2; o_X := (fun _ _ => 1); o_y := INR; o_noise0 := [0] |}.
Proof.
  split; [exact gs_contract|]. split; [exact rcond01_contract|]. split; [exact chol_inv_contract|]. split; [reflexivity|].
  split; [destruct e_stage2 as (all & lvls & T & _); exists all, lvls; exact T|]. split; [intros o i [<- |[<- |[<- |[]]]] _; unfold given_noise; cbn; ring|].
  exists 0%nat, 1%nat. cbn [o_nt o_X]. split; [lia|]. split; [lia|]. split; [lia|]. split; [intros c _; reflexivity|]. unfold given_noise. cbn. split; ring.
Qed.
