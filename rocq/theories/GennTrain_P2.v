(** Proofs about the training of GENN: the optimiser is given the objective and its gradient. *)
From Coq Require Import Reals ZArith Arith Lia Lra Bool List FunctionalExtensionality.
From Coquelicot Require Import Coquelicot.
From Verif Require Import RSum Genn_M Genn_S Genn_P3 GennOpt_M GennOpt_S GennOpt_P GennOpt_P2 GennTrain_M GennTrain_S.
Import ListNotations.
Open Scope list_scope.
Open Scope R_scope.
Lemma layers_fit : forall rest l n p, fits n (layers_from l (n :: rest) p) (last (n :: rest) 0%nat).
Proof.
  induction rest as [|no more IH]; intros l n p; [reflexivity|]. cbn [layers_from fits n_in n_out]. split; [reflexivity|]. exact (IH (S l) no p).
Qed.
Lemma dims_fit : forall nx ny deep wide p, fits nx (layers (dims_of nx ny deep wide) p) ny.
Proof.
  intros nx ny deep wide p. unfold layers, dims_of. cbn [app]. pose proof (layers_fit (repeat wide deep ++ [ny]) 1 nx p) as H. rewrite app_comm_cons in H. rewrite last_last in H. exact H.
Qed.
Lemma layers_ext : forall dims l p p', (forall l' i q, (l <= l')%nat -> p (W l' i q) = p' (W l' i q)) -> (forall l' i, (l <= l')%nat -> p (B l' i) = p' (B l' i)) -> layers_from l dims p = layers_from l dims p'.
Proof.
  induction dims as [|ni dims IH]; intros l p p' HW HB; [reflexivity|]. destruct dims as [|no more]; [reflexivity|]. change (layers_from l (ni :: no :: more) p) with ({| n_out := no; n_in := ni; weight := fun i q => p (W l i q); bias := fun i => p (B l i); act := match more with [] => Linear | _ => Tanh end |} :: layers_from (S l) (no :: more) p).
  change (layers_from l (ni :: no :: more) p') with ({| n_out := no; n_in := ni; weight := fun i q => p' (W l i q); bias := fun i => p' (B l i); act := match more with [] => Linear | _ => Tanh end |} :: layers_from (S l) (no :: more) p').
  f_equal; [f_equal|].
  - apply functional_extensionality. intros i. apply functional_extensionality. intros q. apply HW. lia.
  - apply functional_extensionality. intros i. apply HB. lia.
  - apply IH; intros; [apply HW|apply HB]; lia.
Qed.
Lemma updk_W_other : forall p l i q t l' i' q', l' <> l -> updk p (W l i q) t (W l' i' q') = p (W l' i' q').
Proof. intros. unfold updk. destruct (key_eq_dec _ _) as [E|_]; [congruence|reflexivity]. Qed.
Lemma updk_W_B : forall p l i q t l' i', updk p (W l i q) t (B l' i') = p (B l' i').
Proof. intros. unfold updk. destruct (key_eq_dec _ _) as [E|_]; [congruence|reflexivity]. Qed.
Lemma updk_B_other : forall p l i t l' i', l' <> l -> updk p (B l i) t (B l' i') = p (B l' i').
Proof. intros. unfold updk. destruct (key_eq_dec _ _) as [E|_]; [congruence|reflexivity]. Qed.
Lemma updk_B_W : forall p l i t l' i' q', updk p (B l i) t (W l' i' q') = p (W l' i' q').
Proof. intros. unfold updk. destruct (key_eq_dec _ _) as [E|_]; [congruence|reflexivity]. Qed.
Lemma layers_split : forall dims l0 l p ni no, (l0 <= l)%nat -> nth_error dims (l - l0) = Some ni -> nth_error dims (S (l - l0)) = Some no ->
  exists pre lay post, layers_from l0 dims p = pre ++ lay :: post /\ length pre = (l - l0)%nat /\ n_in lay = ni /\ n_out lay = no /\ (forall i q, weight lay i q = p (W l i q)) /\ (forall i, bias lay i = p (B l i)) /\
  (forall i q t, layers_from l0 dims (updk p (W l i q) t) = pre ++ upd_weight lay i q t :: post) /\ (forall i t, layers_from l0 dims (updk p (B l i) t) = pre ++ upd_bias lay i t :: post).
Proof.
  induction dims as [|d dims IH]; intros l0 l p ni no L H1 H2; [destruct (l - l0)%nat; discriminate|]. destruct dims as [|no' more]; [destruct (l - l0)%nat as [|[|n]]; discriminate|].
  assert (U : forall p, layers_from l0 (d :: no' :: more) p = {| n_out := no'; n_in := d; weight := fun i q => p (W l0 i q); bias := fun i => p (B l0 i); act := match more with [] => Linear | _ => Tanh end |} :: layers_from (S l0) (no' :: more) p) by reflexivity.
  destruct (Nat.eq_dec l l0) as [->|N].
  - rewrite Nat.sub_diag in H1, H2. cbn [nth_error] in H1, H2. injection H1 as <-. injection H2 as <-. exists [], {| n_out := no'; n_in := d; weight := fun i q => p (W l0 i q); bias := fun i => p (B l0 i); act := match more with [] => Linear | _ => Tanh end |}, (layers_from (S l0) (no' :: more) p).
    split; [apply U|]. split; [cbn [length]; lia|]. do 4 (split; [reflexivity|]). split.
    + intros i q t. rewrite U. cbn [app]. f_equal; [unfold upd_weight; cbn [n_out n_in weight bias act]; f_equal|].
      * apply functional_extensionality. intros a. apply functional_extensionality. intros b. unfold updk. destruct (key_eq_dec (W l0 a b) (W l0 i q)) as [E|E]; destruct (Nat.eqb_spec a i); destruct (Nat.eqb_spec b q); cbn [andb]; try reflexivity; congruence.
      * apply layers_ext; intros; [apply updk_W_other; lia|apply updk_W_B].
    + intros i t. rewrite U. cbn [app]. f_equal; [unfold upd_bias; cbn [n_out n_in weight bias act]; f_equal|].
      * apply functional_extensionality. intros a. unfold updk, upd. destruct (key_eq_dec (B l0 a) (B l0 i)) as [E|E]; destruct (Nat.eqb_spec a i); try reflexivity; congruence.
      * apply layers_ext; intros; [apply updk_B_W|apply updk_B_other; lia].
  - replace (l - l0)%nat with (S (l - S l0)) in H1, H2 by lia. cbn [nth_error] in H1. change (nth_error (d :: no' :: more) (S (S (l - S l0)))) with (nth_error (no' :: more) (S (l - S l0))) in H2.
    destruct (IH (S l0) l p ni no ltac:(lia) H1 H2) as (pre & lay & post & E & Lp & A1 & A2 & A3 & A4 & A5 & A6).
    exists ({| n_out := no'; n_in := d; weight := fun i q => p (W l0 i q); bias := fun i => p (B l0 i); act := match more with [] => Linear | _ => Tanh end |} :: pre), lay, post.
    split; [rewrite U, E; reflexivity|]. split; [cbn [length]; lia|]. do 4 (split; [assumption|]). split.
    + intros i q t. rewrite U, A5. cbn [app]. f_equal. f_equal. apply functional_extensionality; intros a; apply functional_extensionality; intros b; apply updk_W_other; lia.
    + intros i t. rewrite U, A6. cbn [app]. f_equal. f_equal. apply functional_extensionality; intros a; apply updk_B_other; lia.
Qed.
(** every entry of the gradient given to the optimiser is the partial derivative of the objective *)
Lemma batch_gradient : forall nx ny deep wide b J lambd gamma p, b_J b = Some J -> (1 < b_size b)%nat -> (gamma = 0 \/ gamma = 1) ->
  exists gp, batch_grad (dims_of nx ny deep wide) nx b lambd gamma p = Some gp /\
  forall k, in_network (dims_of nx ny deep wide) k -> is_derive (fun t => goal (dims_of nx ny deep wide) nx ny b J lambd gamma (updk p k t)) (p k) (gp k).
Proof.
  intros nx ny deep wide b J lambd gamma p HJ Hm Hg. set (dims := dims_of nx ny deep wide). unfold batch_grad. rewrite HJ.
  destruct (gradient_correct (layers dims p) ny nx (b_size b) (b_X b) (b_Y b) J lambd gamma (dims_fit nx ny deep wide p) Hm) as (gs & E & L & D). rewrite E. cbn [option_map]. eexists. split; [reflexivity|]. unfold goal, layers in *.
  intros [l i q|l i]; cbn [in_network].
  - intros [Hl (ni & no & N1 & N2 & Hi & Hq)]. destruct (layers_split dims 1 l p ni no Hl N1 ltac:(replace (S (l - 1)) with l by lia; exact N2)) as (pre & lay & post & EL & Lp & A1 & A2 & A3 & A4 & A5 & A6).
    destruct (nth_error gs (l - 1)) as [g|] eqn:EG; [|apply nth_error_None in EG; rewrite L, EL, app_length in EG; cbn [length] in EG; lia]. cbn [grads_params]. rewrite EG. rewrite <- A3. apply (is_derive_ext (fun t => objective (pre ++ upd_weight lay i q t :: post) ny nx (b_size b) (b_X b) (b_Y b) J lambd gamma)).
    + intros t. rewrite A5. reflexivity.
    + rewrite <- Lp in EG. apply (D pre lay post g EL EG ltac:(tauto)); [rewrite A2; exact Hi|rewrite A1; exact Hq].
  - intros [Hl (no & N2 & Hi)]. assert (N1 : exists ni, nth_error dims (l - 1) = Some ni). { destruct (nth_error dims (l - 1)) as [ni|] eqn:EN; [exists ni; reflexivity|]. apply nth_error_None in EN. assert (l < length dims)%nat by (apply nth_error_Some; congruence). lia. } destruct N1 as [ni N1].
    destruct (layers_split dims 1 l p ni no Hl N1 ltac:(replace (S (l - 1)) with l by lia; exact N2)) as (pre & lay & post & EL & Lp & A1 & A2 & A3 & A4 & A5 & A6).
    destruct (nth_error gs (l - 1)) as [g|] eqn:EG; [|apply nth_error_None in EG; rewrite L, EL, app_length in EG; cbn [length] in EG; lia]. cbn [grads_params]. rewrite EG. rewrite <- A4. apply (is_derive_ext (fun t => objective (pre ++ upd_bias lay i t :: post) ny nx (b_size b) (b_X b) (b_Y b) J lambd gamma)).
    + intros t. rewrite A6. reflexivity.
    + rewrite <- Lp in EG. apply (D pre lay post g EL EG ltac:(tauto)). rewrite A2. exact Hi.
Qed.
Lemma batch_cost_goal : forall nx ny deep wide b J lambd gamma p, b_J b = Some J -> b_size b <> 1%nat -> 0 <= lambd -> 0 <= gamma <= 1 -> batch_cost (dims_of nx ny deep wide) nx ny b lambd gamma p = Some (goal (dims_of nx ny deep wide) nx ny b J lambd gamma p).
Proof. intros nx ny deep wide b J lambd gamma p HJ Hm Hl Hg. unfold batch_cost, goal. rewrite HJ. apply cost_objective; try assumption. apply dims_fit. Qed.
(** totality and failure of the cost and gradient of a batch *)
Lemma batch_total : forall dims nx ny b lambd gamma, b_J b <> None -> b_size b <> 1%nat -> exists f g, (forall p, batch_cost dims nx ny b lambd gamma p = Some (f p)) /\ (forall p, batch_grad dims nx b lambd gamma p = Some (g p)).
Proof.
  intros dims nx ny b lambd gamma HJ Hm. destruct (b_J b) as [J|] eqn:EJ; [|congruence].
  exists (fun p => match batch_cost dims nx ny b lambd gamma p with Some c => c | None => 0 end), (fun p => match batch_grad dims nx b lambd gamma p with Some c => c | None => fun _ => 0 end). split; intros p.
  - unfold batch_cost, cost, lse. rewrite EJ. destruct (Nat.eqb_spec (b_size b) 1); [contradiction|]. reflexivity.
  - unfold batch_grad, grad. rewrite EJ. destruct (L_model_forward (layers dims p) (b_X b)) as [AL cs]. destruct (L_grads_forward (layers dims p) (b_X b)) as [JL js]. destruct (Nat.eqb_spec (b_size b) 1); [contradiction|]. destruct (backward_loop _ _ _ _ _ _ _ _ _) as [[gs ?] ?]. reflexivity.
Qed.
Lemma batch_single : forall fuel dims nx ny b lambd gamma kd gr lr n p st, b_J b <> None -> b_size b = 1%nat -> optimize fuel kd (batch_cost dims nx ny b lambd gamma) gr lr n p st = Raise.
Proof. intros fuel dims nx ny b lambd gamma kd gr lr n p st HJ Hm. unfold optimize, batch_cost, cost, lse. destruct (b_J b); [|congruence]. rewrite Hm. reflexivity. Qed.
Lemma optimize_enough : forall (K : Type) (f : (K -> R) -> R) g kd c gr lr k fuel n x0 b1 b2, (forall x, c x = Some (f x)) -> (forall x, gr x = Some (g x)) -> rate lr (1 / 2) k < / 10 ^ 6 -> (k < fuel)%nat -> exists r, optimize fuel kd c gr lr n x0 (new_optimizer b1 b2) = Ret r.
Proof.
  intros K f g kd c gr lr k fuel n x0 b1 b2 T TG Hk L. unfold optimize. rewrite T. cbn [rlift rbind].
  assert (H0 : holds kd [] (new_optimizer (K := K) b1 b2)) by (destruct kd; [exact I|split; intros; reflexivity]).
  destruct (loop_ends f g fuel kd c gr lr k T TG Hk L n 0 x0 (new_optimizer b1 b2) [] (f x0) (f x0) [f x0] 0%nat 0%nat H0) as [[[y sy] hl] E]. rewrite E. cbn [rbind]. eexists. reflexivity.
Qed.
(** with enough fuel the batches of an epoch are all trained, unless one has a single example *)
Lemma batches_enough : forall o dims nx ny k fuel, rate (o_alpha o) (1 / 2) k < / 10 ^ 6 -> (k < fuel)%nat -> forall bs p, (forall b, In b bs -> b_J b <> None) ->
  (List.Exists (fun b => b_size b = 1%nat) bs -> train_batches fuel o dims nx ny bs p = Raise) /\ (List.Forall (fun b => b_size b <> 1%nat) bs -> exists r, train_batches fuel o dims nx ny bs p = Ret r).
Proof.
  intros o dims nx ny k fuel Hk Hf. induction bs as [|b bs IH]; intros p HJ; cbn [train_batches].
  - split; [intros X; inversion X|intros _; eexists; reflexivity].
  - destruct (Nat.eq_dec (b_size b) 1) as [S|S].
    + split; [intros _; rewrite batch_single by (first [exact S|apply HJ; left; reflexivity]); reflexivity|intros X; inversion X; contradiction].
    + destruct (batch_total dims nx ny b (o_lambd o) (o_gamma o) (HJ b (or_introl eq_refl)) S) as (f & g & T & TG). destruct (optimize_enough _ f g Adam _ _ (o_alpha o) k fuel (o_iterations o) p (o_beta1 o) (o_beta2 o) T TG Hk Hf) as [[[p' st] h] E]. rewrite E. cbn [rbind].
      destruct (IH p' (fun b' H => HJ b' (or_intror H))) as [I1 I2]. split.
      * intros X. inversion X as [? ? X'|? ? X']; subst; [contradiction|]. rewrite (I1 X'). reflexivity.
      * intros X. inversion X as [|? ? _ X']; subst. destruct (I2 X') as [[p'' hs] E']. rewrite E'. cbn [rbind]. eexists. reflexivity.
Qed.
Lemma epochs_enough : forall rng seeded permutation entropy o dims nx ny m X Y J size k fuel, rate (o_alpha o) (1 / 2) k < / 10 ^ 6 -> (k < fuel)%nat ->
  (forall n, exists bs, fst (random_mini_batches rng seeded permutation entropy (o_seed o) n m X Y J size) = Ret bs /\ (forall b, In b bs -> b_J b <> None) /\ List.Forall (fun b => b_size b <> 1%nat) bs) ->
  forall todo e p g, exists r, train_epochs rng seeded permutation entropy fuel o dims nx ny m X Y J size todo e p g = Ret r.
Proof.
  intros rng seeded permutation entropy o dims nx ny m X Y J size k fuel Hk Hf HB. induction todo as [|todo IH]; intros e p g; cbn [train_epochs]; [eexists; reflexivity|].
  destruct (HB e) as (bs & E1 & E2 & E3). destruct (random_mini_batches rng seeded permutation entropy (o_seed o) e m X Y J size) as [rb g']. cbn [fst] in E1. subst rb. cbn [rbind].
  destruct (proj2 (batches_enough o dims nx ny k fuel Hk Hf bs p E2) E3) as [[p' hs] E]. rewrite E. cbn [rbind]. destruct (IH (S e) p' g') as [[[p'' hss] g''] E']. rewrite E'. cbn [rbind]. eexists. reflexivity.
Qed.
Lemma epochs_raise : forall rng seeded permutation entropy o dims nx ny m X Y J size k fuel, rate (o_alpha o) (1 / 2) k < / 10 ^ 6 -> (k < fuel)%nat ->
  forall todo e p g, (fst (random_mini_batches rng seeded permutation entropy (o_seed o) e m X Y J size) = Raise \/
   exists bs, fst (random_mini_batches rng seeded permutation entropy (o_seed o) e m X Y J size) = Ret bs /\ (forall b, In b bs -> b_J b <> None) /\ List.Exists (fun b => b_size b = 1%nat) bs) ->
  train_epochs rng seeded permutation entropy fuel o dims nx ny m X Y J size (S todo) e p g = Raise.
Proof.
  intros rng seeded permutation entropy o dims nx ny m X Y J size k fuel Hk Hf todo e p g H. cbn [train_epochs].
  destruct (random_mini_batches rng seeded permutation entropy (o_seed o) e m X Y J size) as [rb g']. cbn [fst] in H. destruct H as [->|(bs & -> & E2 & E3)]; [reflexivity|]. cbn [rbind]. rewrite (proj1 (batches_enough o dims nx ny k fuel Hk Hf bs p E2) E3). reflexivity.
Qed.
(** what the training of an epoch does *)
Definition trained_on (o : goptions) (dims : list nat) (nx ny : nat) (b : batch) (p p' : params) (h : list R) : Prop :=
  exists f g n xs ds, (forall q, batch_cost dims nx ny b (o_lambd o) (o_gamma o) q = Some (f q)) /\ (forall q, batch_grad dims nx b (o_lambd o) (o_gamma o) q = Some (g q)) /\
  run f g Adam (o_alpha o) p n (p' :: xs) ds /\ h = map f (rev (p' :: xs)).
Lemma batches_chain : forall fuel o dims nx ny bs p p' hs, (forall b, In b bs -> b_J b <> None /\ b_size b <> 1%nat) -> train_batches fuel o dims nx ny bs p = Ret (p', hs) -> chain (trained_on o dims nx ny) bs p p' hs.
Proof.
  intros fuel o dims nx ny. induction bs as [|b bs IH]; intros p p' hs HB E; cbn [train_batches] in E; [injection E as <- <-; constructor|].
  destruct (optimize fuel Adam _ _ (o_alpha o) (o_iterations o) p (new_optimizer (o_beta1 o) (o_beta2 o))) as [[[p1 st] h]| |] eqn:EO; cbn [rbind] in E; try discriminate.
  destruct (train_batches fuel o dims nx ny bs p1) as [[p2 hs2]| |] eqn:ET; cbn [rbind] in E; try discriminate. injection E as <- <-. apply chain_cons with (p' := p1); [|apply IH; [intros b' H; apply HB; right; exact H|exact ET]].
  destruct (HB b (or_introl eq_refl)) as [H1 H2]. destruct (batch_total dims nx ny b (o_lambd o) (o_gamma o) H1 H2) as (f & g & T & TG). destruct (optimize_sound f g fuel Adam _ _ (o_alpha o) (o_iterations o) p _ _ p1 st h T TG EO) as (n & xs & ds & R & Eh & _). exists f, g, n, xs, ds. repeat split; assumption.
Qed.
