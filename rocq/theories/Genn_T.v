(** C61, C62, C63, C65: the neural network of GENN. *)
From Coq Require Import Reals Arith Lia Lra Bool List.
From Coquelicot Require Import Coquelicot.
From Verif Require Import RSum Genn_M Genn_S Genn_P1 Genn_P2 Genn_P3 Genn_P4.
Import ListNotations.
Open Scope list_scope.
Open Scope R_scope.
(** C63: values, first and second derivatives of the activations *)
Theorem C63_activations : forall g z, a_eval g z = phi g z /\ is_derive (phi g) z (a_first g z) /\ Derive (phi g) z = a_first g z /\ is_derive (Derive (phi g)) z (a_second g z).
Proof. intros g z. split; [apply eval_phi|apply second_exact]. Qed.
Print Assumptions C63_activations.
Example C63_nonvacuous : a_eval Linear 2 = 2 /\ a_first Sigmoid 0 = / 4.
Proof.
  split; [reflexivity|unfold a_first, a_eval; rewrite Ropp_0, exp_0; field].
Qed.
(** C61: forward propagation computes the network, and L_grads_forward its Jacobian, at any depth and width *)
Theorem C61_forward : forall ls X k e, fst (L_model_forward ls X) k e = net ls (col X e) k.
Proof. exact forward_net. Qed.
Print Assumptions C61_forward.
Theorem C61_jacobian : forall ls nx ny X j k e, fits nx ls ny -> (j < nx)%nat -> (k < ny)%nat -> is_partial (fun x => net ls x k) (col X e) j (fst (L_grads_forward ls X) j k e).
Proof. exact jacobian. Qed.
Print Assumptions C61_jacobian.
(** with the scale factors of training the predicted values are the scaled network *)
Theorem C61_predicted_values : forall ls s nx ny rows m X, (rows <> nx -> evaluate ls s nx ny rows m X = None) /\
  (rows = nx -> exists Y, evaluate ls s nx ny rows m X = Some Y /\ shape Y = [ny; m] /\ forall k e, (k < ny)%nat -> (e < m)%nat -> data Y [k; e] = scaled ls s (col X e) k).
Proof. intros. split; [intros H; unfold evaluate; destruct (Nat.eqb_spec rows nx); [contradiction|reflexivity]|apply evaluate_ok]. Qed.
Print Assumptions C61_predicted_values.
(** ... and the predicted derivatives are the partial derivatives of the predicted values: one output and several points, or one input and one point *)
Theorem C61_predicted_derivatives : forall ls s nx ny m x, fits nx ls ny -> (0 < nx)%nat -> (forall j, (j < nx)%nat -> sigma_x s j <> 0) -> (ny = 1%nat /\ (m <> 1%nat \/ nx = 1%nat) \/ nx = 1%nat /\ m = 1%nat) ->
  forall kx, (kx < nx)%nat -> exists D, predict_derivatives ls s nx ny m x kx = Some D /\
  forall e k, (e < m)%nat -> (k < ny)%nat -> is_partial (fun p => scaled ls s p k) (x e) kx (D e k).
Proof.
  intros ls s nx ny m x F Hx HS C kx Hk. set (X := fun i e : nat => x e i). assert (G : exists G, gradient ls s nx ny nx m X = Some G /\ shape G = [ny; nx; m] /\
    forall k j e, (k < ny)%nat -> (j < nx)%nat -> (e < m)%nat -> data G [k; j; e] = fst (L_grads_forward ls (normed s X)) j k e * sigma_y s k / sigma_x s j).
  { destruct C as [[C1 [C2|C2]]|[C1 C2]]; [apply gradient_many_one; assumption| |apply gradient_single_one; assumption]. destruct (Nat.eq_dec m 1) as [E|E]; [apply gradient_single_one; assumption|apply gradient_many_one; assumption]. }
  destruct G as (G & E & _ & D). unfold predict_derivatives. fold X. rewrite E. cbn [obind]. destruct (Nat.ltb_spec kx nx); [|lia]. eexists. split; [reflexivity|]. intros e k He Hky. cbv beta. rewrite D by assumption. apply (scaled_partial ls s nx ny X k kx e F Hky Hk). apply HS. exact Hk.
Qed.
Print Assumptions C61_predicted_derivatives.
(** C65: exactly when derivative prediction works *)
Theorem C65_fails_exactly : forall ls s nx ny m x kx, (0 < nx)%nat -> (0 < ny)%nat -> (0 < m)%nat -> (kx < nx)%nat ->
  (predict_derivatives ls s nx ny m x kx = None <-> nx <> ny /\ ((m = 1 /\ 2 <= nx) \/ (m <> 1 /\ 2 <= ny))%nat).
Proof.
  intros ls s nx ny m x kx Hx Hy Hm Hk. unfold predict_derivatives. destruct (Nat.ltb_spec kx nx) as [_|L]; [|lia]. set (X := fun i e : nat => x e i). split.
  - intros E. destruct (gradient ls s nx ny nx m X) as [G|] eqn:EG; [discriminate|]. destruct (Nat.eq_dec nx ny) as [N|N].
    + exfalso. destruct (Nat.eq_dec ny 1) as [N1|N1].
      * assert (K : exists G, gradient ls s nx ny nx m X = Some G). { destruct (Nat.eq_dec m 1) as [M|M]; [destruct (gradient_single_one ls s nx ny m X M ltac:(lia)) as (G & EE & _)|destruct (gradient_many_one ls s nx ny m X M N1 Hx) as (G & EE & _)]; exists G; exact EE. } destruct K as [G K]. rewrite EG in K. discriminate.
      * assert (K : exists G, gradient ls s nx ny nx m X = Some G). { destruct (Nat.eq_dec m 1) as [M|M]; [destruct (gradient_single_square ls s nx ny m X M N ltac:(lia)) as (G & EE & _)|destruct (gradient_many_square ls s nx ny m X M N ltac:(lia)) as (G & EE & _)]; exists G; exact EE. } destruct K as [G K]. rewrite EG in K. discriminate.
    + split; [exact N|]. destruct (Nat.eq_dec m 1) as [M|M].
      * left. split; [exact M|]. destruct (Nat.eq_dec nx 1) as [N1|N1]; [|lia]. destruct (gradient_single_one ls s nx ny m X M N1) as (G & EE & _). rewrite EG in EE. discriminate.
      * right. split; [exact M|]. destruct (Nat.eq_dec ny 1) as [N1|N1]; [|lia]. destruct (gradient_many_one ls s nx ny m X M N1 Hx) as (G & EE & _). rewrite EG in EE. discriminate.
  - intros [N [[M C]|[M C]]].
    + rewrite (gradient_single_fails ls s nx ny m X M C N Hy). reflexivity.
    + rewrite (gradient_many_fails ls s nx ny m X M Hm C N Hx). reflexivity.
Qed.
Print Assumptions C65_fails_exactly.
(** in particular a single query point with several inputs always fails for one output *)
Theorem C65_one_point_refuted : forall ls s nx x kx, (2 <= nx)%nat -> (kx < nx)%nat -> predict_derivatives ls s nx 1 1 x kx = None.
Proof. intros ls s nx x kx H Hk. apply (C65_fails_exactly ls s nx 1 1 x kx); lia. Qed.
Print Assumptions C65_one_point_refuted.
(** with as many outputs as inputs the result is returned with the wrong scale factors *)
Theorem C65_square_scaling_refuted : forall ls s n m x kx, (2 <= n)%nat -> (kx < n)%nat -> exists D, predict_derivatives ls s n n m x kx = Some D /\
  forall e k, (e < m)%nat -> (k < n)%nat ->
  D e k = fst (L_grads_forward ls (normed s (fun i e => x e i))) kx k e * (if Nat.eqb m 1 then sigma_y s k / sigma_x s k else sigma_y s kx / sigma_x s kx).
Proof.
  intros ls s n m x kx Hn Hk. unfold predict_derivatives. destruct (Nat.ltb_spec kx n) as [_|L]; [|lia]. set (X := fun i e : nat => x e i). destruct (Nat.eqb_spec m 1) as [M|M].
  - destruct (gradient_single_square ls s n n m X M eq_refl Hn) as (G & E & D). rewrite E. cbn [obind]. eexists. split; [reflexivity|]. intros e k He Hky. assert (e = 0%nat) as -> by lia. cbv beta. rewrite D by assumption. unfold Rdiv. ring.
  - destruct (gradient_many_square ls s n n m X M eq_refl Hn) as (G & E & D). rewrite E. cbn [obind]. eexists. split; [reflexivity|]. intros e k He Hky. cbv beta. rewrite D by assumption. unfold Rdiv. ring.
Qed.
Print Assumptions C65_square_scaling_refuted.
(** C62: the cost minimised is the objective ... *)
Theorem C62_cost : forall ls ny nx m X Y DY lambd gamma, fits nx ls ny -> 0 <= lambd -> 0 <= gamma <= 1 -> m <> 1%nat ->
  cost ls ny nx m X Y (Some DY) lambd gamma = Some (objective ls ny nx m X Y DY lambd gamma).
Proof. exact cost_objective. Qed.
Print Assumptions C62_cost.
(** without derivative data (any batch) it is the regularised least-squares objective in the values alone *)
Theorem C62_cost_values : forall ls ny nx m X Y DY lambd gamma, fits nx ls ny -> 0 <= lambd -> cost ls ny nx m X Y None lambd gamma = Some (objective ls ny nx m X Y DY lambd 0).
Proof. exact cost_values. Qed.
Print Assumptions C62_cost_values.
(** ... and the back-propagated gradient is its gradient, for every layer when gamma is 0 or 1, for the last layer with every gamma *)
Theorem C62_gradient : forall ls ny nx m X Y DY lambd gamma, fits nx ls ny -> (1 < m)%nat -> exists gs, grad ls nx m X Y (Some DY) lambd gamma = Some gs /\ length gs = length ls /\
  forall pre l post g, ls = pre ++ l :: post -> nth_error gs (length pre) = Some g -> (gamma = 0 \/ gamma = 1 \/ post = []) ->
    (forall p q, (p < n_out l)%nat -> (q < n_in l)%nat -> is_derive (fun t => objective (pre ++ upd_weight l p q t :: post) ny nx m X Y DY lambd gamma) (weight l p q) (dW g p q)) /\
    (forall p, (p < n_out l)%nat -> is_derive (fun t => objective (pre ++ upd_bias l p t :: post) ny nx m X Y DY lambd gamma) (bias l p) (db g p)).
Proof. exact gradient_correct. Qed.
Print Assumptions C62_gradient.
(** strictly between 0 and 1 the gradient of an earlier layer is wrong *)
Theorem C62_intermediate_gamma_refuted : forall gamma, 0 < gamma < 1 -> exists g1 g2 d, grad [one 1; one 1] 1 2 (fun _ _ => 0) (fun _ _ => 0) (Some (fun _ _ _ => 0)) 0 gamma = Some [g1; g2] /\
  is_derive (fun t => objective [upd_weight (one 1) 0 0 t; one 1] 1 1 2 (fun _ _ => 0) (fun _ _ => 0) (fun _ _ _ => 0) 0 gamma) 1 d /\ dW g1 0%nat 0%nat <> d.
Proof. exact wrong_gamma. Qed.
Print Assumptions C62_intermediate_gamma_refuted.
(** a negative lambd is ignored by the cost but not by the gradient; without derivative data there is no gradient at all *)
Theorem C62_negative_lambda_refuted : forall lambd, lambd < 0 -> exists g, grad [one 1] 1 2 (fun _ _ => 0) (fun _ _ => 0) (Some (fun _ _ _ => 1)) lambd 0 = Some [g] /\ dW g 0%nat 0%nat = lambd / 2 /\
  forall t, cost [one t] 1 1 2 (fun _ _ => 0) (fun _ _ => 0) (Some (fun _ _ _ => 1)) lambd 0 = Some 0.
Proof. exact negative_grad. Qed.
Print Assumptions C62_negative_lambda_refuted.
Theorem C62_no_derivatives_refuted : forall ls nx m X Y lambd gamma, grad ls nx m X Y None lambd gamma = None.
Proof. intros. unfold grad. destruct (L_model_forward ls X). destruct (L_grads_forward ls X). reflexivity. Qed.
Print Assumptions C62_no_derivatives_refuted.
(** a concrete network of two layers *)
Definition lay1 : layer := {| n_out := 2; n_in := 3; weight := fun i q => INR (i + q); bias := fun i => INR i; act := Tanh |}.
Definition lay2 : layer := {| n_out := 1; n_in := 2; weight := fun i q => 1 - INR q; bias := fun i => 2; act := Linear |}.
Example C62_nonvacuous : fits 3 [lay1; lay2] 1 /\ exists gs g, grad [lay1; lay2] 3 5 (fun i e => INR (i * e)) (fun _ e => INR e) (Some (fun _ _ _ => 1)) (1 / 10) 1 = Some gs /\ nth_error gs 0 = Some g /\
  is_derive (fun t => objective [upd_weight lay1 1 2 t; lay2] 1 3 5 (fun i e => INR (i * e)) (fun _ e => INR e) (fun _ _ _ => 1) (1 / 10) 1) (weight lay1 1%nat 2%nat) (dW g 1%nat 2%nat).
Proof.
  assert (F : fits 3 [lay1; lay2] 1) by (cbn; repeat split). split; [exact F|]. destruct (gradient_correct [lay1; lay2] 1 3 5 (fun i e => INR (i * e)) (fun _ e => INR e) (fun _ _ _ => 1) (1 / 10) 1 F ltac:(lia)) as (gs & E & L & D).
  destruct gs as [|g gs]; [discriminate|]. exists (g :: gs), g. split; [exact E|]. split; [reflexivity|]. apply (proj1 (D [] lay1 [lay2] g eq_refl eq_refl (or_intror (or_introl eq_refl)))); cbn; lia.
Qed.
Print Assumptions C62_nonvacuous.
Example C61_nonvacuous : exists D, predict_derivatives [lay1; lay2] {| mu_x := fun _ => 1; sigma_x := fun _ => 2; mu_y := fun _ => 3; sigma_y := fun _ => 4 |} 3 1 2 (fun e i => INR (e + i)) 2 = Some D /\
  is_partial (fun p => scaled [lay1; lay2] {| mu_x := fun _ => 1; sigma_x := fun _ => 2; mu_y := fun _ => 3; sigma_y := fun _ => 4 |} p 0) (fun i => INR (1 + i)) 2 (D 1%nat 0%nat).
Proof.
  destruct (C61_predicted_derivatives [lay1; lay2] {| mu_x := fun _ => 1; sigma_x := fun _ => 2; mu_y := fun _ => 3; sigma_y := fun _ => 4 |} 3 1 2 (fun e i => INR (e + i))) with (kx := 2%nat) as (D & E & P); [cbn; repeat split|lia|intros; cbn; lra|left; split; [reflexivity|left; discriminate]|lia|].
  exists D. split; [exact E|]. apply (P 1%nat 0%nat); lia.
Qed.
Print Assumptions C61_nonvacuous.
Example C65_nonvacuous : (exists D, predict_derivatives [lay1; lay2] initial_scaling 3 1 2 (fun _ _ => 0) 0 = Some D) /\ predict_derivatives [lay1; lay2] initial_scaling 3 1 1 (fun _ _ => 0) 0 = None.
Proof.
  split; [|apply C65_one_point_refuted; lia]. destruct (predict_derivatives [lay1; lay2] initial_scaling 3 1 2 (fun _ _ => 0) 0) as [D|] eqn:E; [exists D; reflexivity|]. apply C65_fails_exactly in E; lia.
Qed.
Print Assumptions C65_nonvacuous.
