(** The cost of the code is the objective and its back-propagated gradient is the gradient. *)
From Coq Require Import Reals Arith Lia Lra Bool List.
From Coquelicot Require Import Coquelicot.
From Verif Require Import RSum Rbf_P Poly_P Problems_P Problems_P2 Genn_M Genn_S Genn_P1 Genn_P2.
Import ListNotations.
Open Scope list_scope.
Open Scope R_scope.
Lemma regularization_eq ls lambd : 0 <= lambd -> regularization ls lambd = lambd * penalty ls / 2.
Proof.
  intros H. unfold regularization. rewrite Rmax_right by exact H.
  enough (K : forall s, fold_left (fun s l => s + / 2 * lambd * rsum (n_out l) (fun i => rsum (n_in l) (fun q => weight l i q ^ 2))) ls s = s + lambd * penalty ls / 2) by (rewrite K; ring).
  induction ls as [|l r IH]; intros s; cbn [fold_left penalty fold_right]; [field|]. rewrite IH. unfold penalty. field.
Qed.
Lemma cost_loss ls ny nx m X Y DY lambd gamma : 0 <= lambd -> 0 <= gamma <= 1 -> m <> 1%nat ->
  cost ls ny nx m X Y (Some DY) lambd gamma = Some ((loss ny nx m Y DY gamma (fwd ls X) (fwd' ls X eye) + lambd * penalty ls / 2) / INR m).
Proof.
  intros Hl Hg Hm. unfold cost, lse. destruct (Nat.eqb_spec m 1); [contradiction|]. f_equal. rewrite regularization_eq by exact Hl. unfold loss, enhancement, L_grads_forward. fold (fwd ls X). fold (fwd' ls X eye).
  rewrite Rmax_right by apply Hg. rewrite Rmin_left by apply Hg.
  rewrite (rsum_ext ny (fun k => / 2 * _) (fun k => / 2 * rsum m (fun e => (fwd ls X k e - Y k e) ^ 2))) by (intros; f_equal; apply rsum_ext; intros; ring). rewrite rsum_scal_l, rsum_swap.
  rewrite (rsum_ext ny (fun k => rsum nx (fun j => _)) (fun k => / 2 * gamma * rsum m (fun e => rsum nx (fun j => (fwd' ls X eye j k e - DY j k e) ^ 2)))).
  2:{ intros k _. rewrite <- rsum_scal_l. rewrite (rsum_ext nx _ (fun j => rsum m (fun e => / 2 * gamma * (fwd' ls X eye j k e - DY j k e) ^ 2))) by (intros; rewrite <- rsum_scal_l; apply rsum_ext; intros; ring).
      rewrite rsum_swap. apply rsum_ext. intros. apply rsum_scal_l. }
  rewrite rsum_scal_l. rewrite (rsum_swap ny m). unfold Rdiv. ring.
Qed.
Lemma loss_objective ls ny nx m X Y DY lambd gamma : fits nx ls ny ->
  objective ls ny nx m X Y DY lambd gamma = (loss ny nx m Y DY gamma (fwd ls X) (fwd' ls X eye) + lambd * penalty ls / 2) / INR m.
Proof.
  intros F. unfold objective, loss. f_equal.
  rewrite (rsum_ext m (fun e => rsum ny (fun k => (net ls (col X e) k - Y k e) ^ 2)) (fun e => rsum ny (fun k => (fwd ls X k e - Y k e) ^ 2))) by (intros; apply rsum_ext; intros; unfold fwd; rewrite forward_net; reflexivity).
  rewrite (rsum_ext m (fun e => rsum ny (fun k => rsum nx (fun j => (Derive _ _ - DY j k e) ^ 2))) (fun e => rsum ny (fun k => rsum nx (fun j => (fwd' ls X eye j k e - DY j k e) ^ 2)))); [ring|].
  intros e He. apply rsum_ext. intros k Hk. apply rsum_ext. intros j Hj. do 2 f_equal. apply is_derive_unique. apply (jacobian ls nx ny X j k e F Hj Hk).
Qed.
(** splitting at a layer *)
Lemma fwd_app pre r A : fwd (pre ++ r) A = fwd r (fwd pre A).
Proof. revert A. induction pre as [|l pre IH]; intros A; [reflexivity|]. cbn [app]. unfold fwd in *. rewrite !forward_cons. cbn [fst]. apply IH. Qed.
Lemma fwd'_app pre r : forall A A', fwd' (pre ++ r) A A' = fwd' r (fwd pre A) (fwd' pre A A').
Proof. induction pre as [|l pre IH]; intros A A'; [reflexivity|]. cbn [app]. unfold fwd, fwd' in *. rewrite !grads_cons, forward_cons. cbn [fst]. apply IH. Qed.
Lemma bwd_app nx m Y DY lambd gamma pre r : forall A A', exists gs, fst (fst (bwd nx m Y DY lambd gamma (pre ++ r) A A')) = gs ++ fst (fst (bwd nx m Y DY lambd gamma r (fwd pre A) (fwd' pre A A'))) /\ length gs = length pre.
Proof.
  induction pre as [|l pre IH]; intros A A'; [exists []; split; reflexivity|]. cbn [app]. rewrite bwd_cons. cbn [fst].
  destruct (IH (step_A l A) (step_A' l A A')) as (gs & E & L). eexists (_ :: gs). split; [|cbn [length]; rewrite L; reflexivity]. cbn [app]. f_equal. rewrite E. unfold fwd, fwd'. rewrite forward_cons, grads_cons. reflexivity.
Qed.
Lemma fits_app pre l r nx ny : fits nx (pre ++ l :: r) ny -> fits nx pre (n_in l) /\ fits (n_out l) r ny.
Proof.
  revert nx. induction pre as [|k pre IH]; intros nx F; cbn [app fits] in *.
  - destruct F as [F1 F2]. split; [symmetry; exact F1|exact F2].
  - destruct F as [F1 F2]. destruct (IH _ F2) as [G1 G2]. split; [split; [exact F1|exact G1]|exact G2].
Qed.
Lemma fits_change pre l l2 r : n_in l2 = n_in l -> n_out l2 = n_out l -> forall nx ny, fits nx (pre ++ l :: r) ny -> fits nx (pre ++ l2 :: r) ny.
Proof.
  intros E1 E2. induction pre as [|k pre IH]; intros nx ny F; cbn [app fits] in *.
  - rewrite E1, E2. exact F.
  - destruct F as [F1 F2]. split; [exact F1|apply IH; exact F2].
Qed.
Lemma penalty_app pre l r : penalty (pre ++ l :: r) = rsum (n_out l) (fun i => rsum (n_in l) (fun q => weight l i q ^ 2)) + penalty (pre ++ r).
Proof. unfold penalty. induction pre as [|k pre IH]; cbn [app fold_right]; [reflexivity|]. rewrite IH. ring. Qed.
Lemma wsq_derive l p q : (p < n_out l)%nat -> (q < n_in l)%nat ->
  is_derive (fun t => rsum (n_out l) (fun i => rsum (n_in l) (fun b => weight (upd_weight l p q t) i b ^ 2))) (weight l p q) (2 * weight l p q).
Proof.
  intros Hp Hq. replace (2 * weight l p q) with (rsum (n_out l) (fun i => if Nat.eqb i p then rsum (n_in l) (fun b => if Nat.eqb b q then 2 * weight l p q else 0) else 0)).
  2:{ rewrite (rsum_single (n_out l) (fun _ => rsum (n_in l) (fun b => if Nat.eqb b q then 2 * weight l p q else 0)) p Hp). apply (rsum_single (n_in l) (fun _ => 2 * weight l p q) q Hq). }
  apply (is_derive_rsum (n_out l) (fun i t => rsum (n_in l) (fun b => weight (upd_weight l p q t) i b ^ 2))). intros i Hi. cbn [weight upd_weight]. destruct (Nat.eqb i p); cbn [andb].
  - apply (is_derive_rsum (n_in l) (fun b t => (if Nat.eqb b q then t else weight l i b) ^ 2)). intros b Hb. destruct (Nat.eqb b q); [|apply derive_cst]. auto_derive; [exact I|ring].
  - apply derive_cst.
Qed.
Section Main.
Variables (pre post : list layer) (l : layer) (ny nx m : nat) (X Y : arr) (DY : arr3) (lambd gamma : R).
Hypothesis HF : fits nx (pre ++ l :: post) ny.
Hypothesis HG : gamma * gamma = gamma \/ post = [].
Hypothesis Hm : (1 < m)%nat.
Let A := fwd pre X.
Let A' := fwd' pre X eye.
Let back := bwd nx m Y DY lambd gamma post (step_A l A) (step_A' l A A').
Let g := fst (fst (layer_backward l (A, linear l A) (linear' l A', A') nx m lambd gamma (snd (fst back)) (snd back))).
Lemma grad_nth : exists gs, grad (pre ++ l :: post) nx m X Y (Some DY) lambd gamma = Some gs /\ nth_error gs (length pre) = Some g.
Proof.
  clear HF HG. destruct (bwd_app nx m Y DY lambd gamma pre (l :: post) X eye) as (gs & E & L). exists (gs ++ fst (fst (bwd nx m Y DY lambd gamma (l :: post) (fwd pre X) (fwd' pre X eye)))). split.
  - rewrite <- E. clear E. unfold grad, L_grads_forward, bwd, fwd, fwd'. destruct (L_model_forward (pre ++ l :: post) X) as [AL cs]. destruct (grads_loop (pre ++ l :: post) X eye) as [JL js]. cbn [fst snd].
    destruct (Nat.eqb_spec m 1); [lia|]. destruct (backward_loop _ _ _ _ _ _ _ _ _) as [[a b] c]. reflexivity.
  - rewrite nth_error_app2 by lia. rewrite L, Nat.sub_diag. rewrite bwd_cons. cbn [fst nth_error]. reflexivity.
Qed.
Let K (k : layer) : R := loss ny nx m Y DY gamma (fwd (pre ++ k :: post) X) (fwd' (pre ++ k :: post) X eye).
Lemma K_eq k : K k = loss ny nx m Y DY gamma (fwd post (step_A k A)) (fwd' post (step_A k A) (step_A' k A A')).
Proof. clear HF HG Hm. unfold K. rewrite fwd_app, fwd'_app. unfold A, A', fwd, fwd'. rewrite forward_cons, grads_cons. reflexivity. Qed.
Lemma INRm : INR m <> 0. Proof. clear HF HG. apply not_0_INR. lia. Qed.
Lemma upd_weight_same p q : upd_weight l p q (weight l p q) = l.
Proof.
  clear HF HG Hm. destruct l as [no ni w bb ac]. unfold upd_weight. cbn. f_equal. apply FunctionalExtensionality.functional_extensionality. intros a. apply FunctionalExtensionality.functional_extensionality. intros b.
  destruct (Nat.eqb_spec a p) as [-> |]; [|reflexivity]. destruct (Nat.eqb_spec b q) as [-> |]; reflexivity.
Qed.
Lemma upd_bias_same p : upd_bias l p (bias l p) = l.
Proof. clear HF HG Hm. destruct l as [no ni w bb ac]. unfold upd_bias. cbn. f_equal. apply FunctionalExtensionality.functional_extensionality. intros a. apply upd_same. Qed.
Lemma weight_derive p q : (p < n_out l)%nat -> (q < n_in l)%nat ->
  is_derive (fun t => objective (pre ++ upd_weight l p q t :: post) ny nx m X Y DY lambd gamma) (weight l p q) (dW g p q).
Proof.
  intros Hp Hq. destruct (fits_app _ _ _ _ _ HF) as [F1 F2].
  apply (is_derive_ext (fun t => / INR m * (K (upd_weight l p q t) + lambd / 2 * penalty (pre ++ upd_weight l p q t :: post)))).
  { intros t. rewrite loss_objective by (apply (fits_change pre l); [reflexivity|reflexivity|exact HF]). match goal with |- ?a = ?b => change (@eq R a b) end. unfold K, Rdiv. ring. }
  replace (dW g p q) with (/ INR m * (INR m * dW g p q)) by (field; apply INRm). apply is_derive_scal.
  unfold g. rewrite <- weight_pair by (try assumption; apply INRm).
  apply (is_derive_plus (K := R_AbsRing) (V := R_NormedModule)).
  - apply (is_derive_ext (fun t => loss ny nx m Y DY gamma (fwd post (step_A (upd_weight l p q t) A)) (fwd' post (step_A (upd_weight l p q t) A) (step_A' (upd_weight l p q t) A A')))); [intros; symmetry; apply K_eq|].
    assert (HW : forall i b, is_derive (fun t => weight (upd_weight l p q t) i b) (weight l p q) (unit_w p q i b)). { intros i b. cbn [weight upd_weight]. unfold unit_w. destruct (_ && _); [apply (is_derive_id (K := R_AbsRing))|apply derive_cst]. }
    pose proof (adjoint ny nx m Y DY lambd gamma post (n_out l) (fun t => step_A (upd_weight l p q t) A) (fun t => step_A' (upd_weight l p q t) A A') (weight l p q)
      (tan_A l A (tan_z (unit_w p q) no_b l A no_a)) (tan_A' l A A' (tan_z (unit_w p q) no_b l A no_a) (tan_z' (unit_w p q) l A' no_a')) F2 HG) as AD. cbv beta in AD. rewrite upd_weight_same in AD. apply AD.
    + intros i e Hi. pose proof (tangent_A (upd_weight l p q) (fun _ => A) (weight l p q) (unit_w p q) no_b no_a (fun _ => eq_refl) (fun _ => eq_refl) HW (fun _ => derive_cst _ _) i e) as T. rewrite upd_weight_same in T. apply T. intros. apply derive_cst.
    + intros j i e Hi. pose proof (tangent_A' (upd_weight l p q) (fun _ => A) (fun _ => A') (weight l p q) (unit_w p q) no_b no_a no_a' (fun _ => eq_refl) (fun _ => eq_refl) HW (fun _ => derive_cst _ _) j i e) as T. rewrite upd_weight_same in T. apply T; intros; apply derive_cst.
  - replace (lambd * weight l p q) with (lambd / 2 * (2 * weight l p q)) by field. apply is_derive_scal.
    apply (is_derive_ext (fun t => rsum (n_out l) (fun i => rsum (n_in l) (fun b => weight (upd_weight l p q t) i b ^ 2)) + penalty (pre ++ post))); [intros t; rewrite penalty_app; reflexivity|].
    replace (2 * weight l p q) with (2 * weight l p q + 0) by ring. apply (is_derive_plus (K := R_AbsRing) (V := R_NormedModule)); [apply wsq_derive; assumption|apply derive_cst].
Qed.
Lemma bias_derive p : (p < n_out l)%nat -> is_derive (fun t => objective (pre ++ upd_bias l p t :: post) ny nx m X Y DY lambd gamma) (bias l p) (db g p).
Proof.
  intros Hp. destruct (fits_app _ _ _ _ _ HF) as [F1 F2].
  apply (is_derive_ext (fun t => / INR m * (K (upd_bias l p t) + lambd / 2 * penalty (pre ++ upd_bias l p t :: post)))).
  { intros t. rewrite loss_objective by (apply (fits_change pre l); [reflexivity|reflexivity|exact HF]). match goal with |- ?a = ?b => change (@eq R a b) end. unfold K, Rdiv. ring. }
  replace (db g p) with (/ INR m * (INR m * db g p + 0)) by (field; apply INRm). apply is_derive_scal.
  unfold g. rewrite <- bias_pair by (try assumption; apply INRm).
  apply (is_derive_plus (K := R_AbsRing) (V := R_NormedModule)).
  - apply (is_derive_ext (fun t => loss ny nx m Y DY gamma (fwd post (step_A (upd_bias l p t) A)) (fwd' post (step_A (upd_bias l p t) A) (step_A' (upd_bias l p t) A A')))); [intros; symmetry; apply K_eq|].
    assert (HB : forall i, is_derive (fun t => bias (upd_bias l p t) i) (bias l p) (unit_b p i)). { intros i. cbn [bias upd_bias]. unfold unit_b. apply derive_x. }
    pose proof (adjoint ny nx m Y DY lambd gamma post (n_out l) (fun t => step_A (upd_bias l p t) A) (fun t => step_A' (upd_bias l p t) A A') (bias l p)
      (tan_A l A (tan_z no_w (unit_b p) l A no_a)) (tan_A' l A A' (tan_z no_w (unit_b p) l A no_a) (tan_z' no_w l A' no_a')) F2 HG) as AD. cbv beta in AD. rewrite upd_bias_same in AD. apply AD.
    + intros i e Hi. pose proof (tangent_A (upd_bias l p) (fun _ => A) (bias l p) no_w (unit_b p) no_a (fun _ => eq_refl) (fun _ => eq_refl) (fun _ _ => derive_cst _ _) HB i e) as T. rewrite upd_bias_same in T. apply T. intros. apply derive_cst.
    + intros j i e Hi. pose proof (tangent_A' (upd_bias l p) (fun _ => A) (fun _ => A') (bias l p) no_w (unit_b p) no_a no_a' (fun _ => eq_refl) (fun _ => eq_refl) (fun _ _ => derive_cst _ _) HB j i e) as T. rewrite upd_bias_same in T. apply T; intros; apply derive_cst.
  - replace 0 with (lambd / 2 * 0) by ring. apply is_derive_scal.
    apply (is_derive_ext (fun t => penalty (pre ++ l :: post))); [intros t; rewrite !penalty_app; reflexivity|apply derive_cst].
Qed.
End Main.
Lemma gradient_correct ls ny nx m X Y DY lambd gamma : fits nx ls ny -> (1 < m)%nat -> exists gs, grad ls nx m X Y (Some DY) lambd gamma = Some gs /\ length gs = length ls /\
  forall pre l post g, ls = pre ++ l :: post -> nth_error gs (length pre) = Some g -> (gamma = 0 \/ gamma = 1 \/ post = []) ->
    (forall p q, (p < n_out l)%nat -> (q < n_in l)%nat -> is_derive (fun t => objective (pre ++ upd_weight l p q t :: post) ny nx m X Y DY lambd gamma) (weight l p q) (dW g p q)) /\
    (forall p, (p < n_out l)%nat -> is_derive (fun t => objective (pre ++ upd_bias l p t :: post) ny nx m X Y DY lambd gamma) (bias l p) (db g p)).
Proof.
  intros F Hm. destruct (bwd_app nx m Y DY lambd gamma ls [] X eye) as (gs & E & L). exists gs. assert (Eg : grad ls nx m X Y (Some DY) lambd gamma = Some gs).
  { rewrite app_nil_r in E. unfold bwd at 2 in E. cbn in E. rewrite app_nil_r in E. rewrite <- E. unfold grad, L_grads_forward, bwd, fwd, fwd'. destruct (L_model_forward ls X) as [AL cs]. destruct (grads_loop ls X eye) as [JL js]. cbn [fst snd].
    destruct (Nat.eqb_spec m 1); [lia|]. destruct (backward_loop _ _ _ _ _ _ _ _ _) as [[a b] c]. reflexivity. }
  split; [exact Eg|]. split; [exact L|]. intros pre l post g -> N G.
  assert (HG : gamma * gamma = gamma \/ post = []) by (destruct G as [-> |[-> |G]]; [left; ring|left; ring|right; exact G]).
  destruct (grad_nth pre post l nx m X Y DY lambd gamma Hm) as (gs' & Eg' & N'). rewrite Eg in Eg'. injection Eg' as <-. rewrite N in N'. injection N' as ->. split.
  - intros p q Hp Hq. exact (weight_derive pre post l ny nx m X Y DY lambd gamma F HG Hm p q Hp Hq).
  - intros p Hp. exact (bias_derive pre post l ny nx m X Y DY lambd gamma F HG Hm p Hp).
Qed.
Lemma cost_objective ls ny nx m X Y DY lambd gamma : fits nx ls ny -> 0 <= lambd -> 0 <= gamma <= 1 -> m <> 1%nat -> cost ls ny nx m X Y (Some DY) lambd gamma = Some (objective ls ny nx m X Y DY lambd gamma).
Proof. intros. rewrite cost_loss by assumption. rewrite loss_objective by assumption. reflexivity. Qed.
Lemma cost_values ls ny nx m X Y DY lambd gamma : fits nx ls ny -> 0 <= lambd -> cost ls ny nx m X Y None lambd gamma = Some (objective ls ny nx m X Y DY lambd 0).
Proof.
  intros F Hl. rewrite loss_objective by exact F. unfold cost, lse. f_equal. rewrite regularization_eq by exact Hl. unfold loss. fold (fwd ls X).
  rewrite (rsum_ext ny (fun k => / 2 * _) (fun k => / 2 * rsum m (fun e => (fwd ls X k e - Y k e) ^ 2))) by (intros; f_equal; apply rsum_ext; intros; ring). rewrite rsum_scal_l, rsum_swap.
  unfold Rdiv. ring.
Qed.
(** ** where the gradient is wrong *)
Definition one (t : R) : layer := {| n_out := 1; n_in := 1; weight := fun _ _ => t; bias := fun _ => 0; act := Linear |}.
Lemma chain_objective t lambd gamma : objective [one t; one 1] 1 1 2 (fun _ _ => 0) (fun _ _ => 0) (fun _ _ _ => 0) lambd gamma = gamma / 2 * t ^ 2 + lambd / 4 * (t ^ 2 + 1).
Proof.
  rewrite loss_objective by (cbn; repeat split; reflexivity). unfold loss, fwd, fwd', L_model_forward, grads_loop, linear, linear', one, eye, penalty. cbn [n_in n_out weight bias act a_eval a_first rsum fst snd fold_right Nat.eqb INR]. field.
Qed.
Lemma chain_grad gamma : exists g1 g2, grad [one 1; one 1] 1 2 (fun _ _ => 0) (fun _ _ => 0) (Some (fun _ _ _ => 0)) 0 gamma = Some [g1; g2] /\ dW g1 0%nat 0%nat = gamma ^ 2.
Proof.
  unfold grad, L_grads_forward. cbn [L_model_forward grads_loop Nat.eqb]. unfold backward_loop, layer_backward. destruct (Req_EM_T gamma 0) as [-> |N]; (eexists; eexists; split; [reflexivity|]); cbn [dW].
  - unfold linear, linear', one, eye. cbn [n_in n_out weight bias act a_eval a_first a_second rsum Nat.eqb INR]. field.
  - unfold linear, linear', one, eye. cbn [n_in n_out weight bias act a_eval a_first a_second rsum Nat.eqb INR]. field.
Qed.
Lemma wrong_gamma gamma : 0 < gamma < 1 -> exists g1 g2 d, grad [one 1; one 1] 1 2 (fun _ _ => 0) (fun _ _ => 0) (Some (fun _ _ _ => 0)) 0 gamma = Some [g1; g2] /\
  is_derive (fun t => objective [upd_weight (one 1) 0 0 t; one 1] 1 1 2 (fun _ _ => 0) (fun _ _ => 0) (fun _ _ _ => 0) 0 gamma) 1 d /\ dW g1 0%nat 0%nat <> d.
Proof.
  intros H. destruct (chain_grad gamma) as (g1 & g2 & E & D). exists g1, g2, gamma. split; [exact E|]. split; [|rewrite D; nra].
  apply (is_derive_ext (fun t => gamma / 2 * t ^ 2)); [|auto_derive; [exact I|field]]. intros t.
  replace (objective [upd_weight (one 1) 0 0 t; one 1] 1 1 2 (fun _ _ => 0) (fun _ _ => 0) (fun _ _ _ => 0) 0 gamma) with (objective [one t; one 1] 1 1 2 (fun _ _ => 0) (fun _ _ => 0) (fun _ _ _ => 0) 0 gamma).
  - rewrite chain_objective. match goal with |- ?a = ?b => change (@eq R a b) end. field.
  - rewrite !loss_objective by (cbn; repeat split; reflexivity). unfold loss, fwd, fwd', L_model_forward, grads_loop, linear, linear', one, upd_weight, eye, penalty. cbn [n_in n_out weight bias act a_eval a_first rsum fst snd fold_right Nat.eqb INR andb]. reflexivity.
Qed.
(** a negative regularisation weight is ignored by the cost, not by the gradient *)
Lemma negative_cost ls ny nx m X Y DY lambd gamma : lambd <= 0 -> cost ls ny nx m X Y DY lambd gamma = cost ls ny nx m X Y DY 0 gamma.
Proof.
  intros H. unfold cost, lse, regularization. rewrite (Rmax_left 0 lambd) by exact H. rewrite (Rmax_left 0 0) by lra. reflexivity.
Qed.
Lemma negative_grad lambd : lambd < 0 -> exists g, grad [one 1] 1 2 (fun _ _ => 0) (fun _ _ => 0) (Some (fun _ _ _ => 1)) lambd 0 = Some [g] /\ dW g 0%nat 0%nat = lambd / 2 /\ forall t, cost [one t] 1 1 2 (fun _ _ => 0) (fun _ _ => 0) (Some (fun _ _ _ => 1)) lambd 0 = Some 0.
Proof.
  intros H. unfold grad, L_grads_forward. cbn [L_model_forward grads_loop Nat.eqb]. unfold backward_loop, layer_backward. destruct (Req_EM_T 0 0) as [_|N]; [|contradiction N; reflexivity]. eexists. split; [reflexivity|]. split.
  - cbn [dW]. unfold linear, linear', one, eye. cbn [n_in n_out weight bias act a_eval a_first a_second rsum Nat.eqb INR]. field.
  - intros t. rewrite negative_cost by lra. rewrite cost_loss by (try lra; lia). f_equal. unfold loss, fwd, fwd', L_model_forward, grads_loop, linear, linear', one, eye. cbn [n_in n_out weight bias act a_eval a_first rsum fst snd Nat.eqb INR]. field.
Qed.
