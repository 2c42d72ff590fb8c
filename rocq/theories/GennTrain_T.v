(** C60, C66, C90 - C94: the training of GENN. *)
From Coq Require Import Reals ZArith Arith Lia Lra Bool List Permutation.
From Coquelicot Require Import Coquelicot.
From Verif Require Import RSum Genn_M Genn_S Genn_P4 GennOpt_M GennOpt_S GennOpt_P GennTrain_M GennTrain_S GennTrain_P1 GennTrain_P2 GennTrain_P3.
Import ListNotations.
Open Scope list_scope.
Open Scope R_scope.
(** C60: every example is in exactly one batch, with its value, output and derivatives; sizes of the batches *)
Theorem C60_partition : forall perm m X Y J size, Permutation perm (seq 0 m) -> (1 <= m)%nat -> (1 <= size)%Z ->
  exists bs ls, mini_batches perm m X Y J size = Ret bs /\ Forall2 (examples X Y J) ls bs /\ Permutation (concat ls) (seq 0 m) /\ map (@length nat) ls = sizes m (Nat.min (Z.to_nat size) m).
Proof.
  intros perm m X Y J size HP Hm Hs. assert (L : length perm = m) by (rewrite (Permutation_length HP), seq_length; reflexivity). destruct (partition perm m X Y J size L Hm Hs) as (bs & ls & A & B & C & D). exists bs, ls. rewrite C. repeat split; assumption.
Qed.
Print Assumptions C60_partition.
(** a size of 0 fails; a negative size gives no batch at all when it divides the number of examples and fails otherwise *)
Theorem C60_nonpositive_sizes : forall perm m X Y J size, (1 <= m)%nat -> (size <= 0)%Z -> mini_batches perm m X Y J size = if (size =? 0)%Z then Raise else if (Z.of_nat m mod size =? 0)%Z then Ret [] else Raise.
Proof. exact nonpositive. Qed.
Print Assumptions C60_nonpositive_sizes.
(** with a seed all epochs use the same batches in the same order *)
Theorem C60_seeded_epochs_repeat : forall rng seeded permutation entropy z n n' m X Y J size, random_mini_batches rng seeded permutation entropy (Some z) n m X Y J size = random_mini_batches rng seeded permutation entropy (Some z) n' m X Y J size.
Proof. reflexivity. Qed.
Print Assumptions C60_seeded_epochs_repeat.
Example C60_nonvacuous : exists bs, mini_batches [2; 0; 4; 1; 3]%nat 5 (fun _ e => INR e) (fun _ e => INR e) None 2 = Ret bs /\ map b_size bs = [2; 2; 1]%nat.
Proof. eexists. split; [reflexivity|reflexivity]. Qed.
Lemma batch_info : forall perm m X Y J size, length perm = m -> (1 <= m)%nat -> (1 <= size)%Z -> exists bs, mini_batches perm m X Y (Some J) size = Ret bs /\ (forall b, In b bs -> b_J b <> None) /\ map b_size bs = sizes m (Nat.min (Z.to_nat size) m).
Proof.
  intros perm m X Y J size L Hm Hs. destruct (partition perm m X Y (Some J) size L Hm Hs) as (bs & ls & A & B & C & D). exists bs. split; [exact A|]. rewrite <- D. clear -B. induction B as [|l b ls bs H B [IH1 IH2]]; [split; [intros b []|reflexivity]|]. split.
  - intros b' [<-|Hb]; [|apply IH1; exact Hb]. destruct H as (_ & _ & H). destruct (b_J b); [discriminate|destruct H].
  - cbn [map]. f_equal; [apply H|exact IH2].
Qed.
Lemma sizes_single : forall m b, (1 <= b)%nat -> (b <= m)%nat -> (In 1%nat (sizes m b) <-> b = 1%nat \/ (m mod b = 1)%nat).
Proof.
  intros m b Hb Hm. unfold sizes. rewrite in_app_iff. assert (Q : (1 <= m / b)%nat) by (apply Nat.div_le_lower_bound; lia). split.
  - intros [H|H]; [left; symmetry; apply (repeat_spec _ _ _ H)|]. destruct (Nat.eqb_spec (m mod b) 0); [destruct H|]. destruct H as [H|[]]. right. exact H.
  - intros [->|H]; [left; destruct (m / 1)%nat; [lia|left; reflexivity]|]. right. rewrite H. left. reflexivity.
Qed.
(** C90: whether training succeeds *)
Theorem C90_training_data_needed : forall rng seeded permutation initial entropy fuel o tp g, smt_to_genn tp = Raise -> genn_train rng seeded permutation initial entropy fuel o tp g = Raise.
Proof. intros rng seeded permutation initial entropy fuel o tp g H. unfold genn_train. rewrite H. reflexivity. Qed.
Print Assumptions C90_training_data_needed.
(** the data are accepted exactly when all partial derivatives are there, with matching shapes, and the points of the derivatives contain a zero exactly when those of the values do *)
Theorem C90_data_accepted : forall tp x y, tp 0%nat = Some (x, y) -> ((exists r, smt_to_genn tp = Ret r) <->
  forall k, (k < t_cols x)%nat -> exists x' d, tp (S k) = Some (x', d) /\ t_rows x' = t_rows x /\ t_cols x' = t_cols x /\ t_rows d = t_rows x /\ t_cols d = t_cols y /\
    ((exists i j, (i < t_rows x')%nat /\ (j < t_cols x')%nat /\ t_val x' i j = 0) <-> (exists i j, (i < t_rows x)%nat /\ (j < t_cols x)%nat /\ t_val x i j = 0))).
Proof.
  intros tp x y E. assert (NZ : forall t, nonzero t = false <-> exists i j, (i < t_rows t)%nat /\ (j < t_cols t)%nat /\ t_val t i j = 0).
  { intros t. unfold nonzero. split.
    - intros H. assert (K : exists i, In i (seq 0 (t_rows t)) /\ forallb (fun j => if Req_EM_T (t_val t i j) 0 then false else true) (seq 0 (t_cols t)) = false).
      { revert H. generalize (seq 0 (t_rows t)). induction l as [|i l IH]; intros H; [discriminate|]. cbn [forallb] in H. apply andb_false_iff in H. destruct H as [H|H]; [exists i; split; [left; reflexivity|exact H]|]. destruct (IH H) as (i' & A & B). exists i'. split; [right; exact A|exact B]. }
      destruct K as (i & Hi & K). apply in_seq in Hi. assert (K2 : exists j, In j (seq 0 (t_cols t)) /\ t_val t i j = 0).
      { revert K. generalize (seq 0 (t_cols t)). induction l as [|j l IH]; intros H2; [discriminate|]. cbn [forallb] in H2. apply andb_false_iff in H2. destruct H2 as [H2|H2]; [exists j; split; [left; reflexivity|destruct (Req_EM_T (t_val t i j) 0); [assumption|discriminate]]|]. destruct (IH H2) as (j' & A & B). exists j'. split; [right; exact A|exact B]. }
      destruct K2 as (j & Hj & K2). apply in_seq in Hj. exists i, j. repeat split; [lia|lia|exact K2].
    - intros (i & j & Hi & Hj & Z). destruct (forallb _ _) eqn:F; [|reflexivity]. rewrite forallb_forall in F. specialize (F i ltac:(apply in_seq; lia)). cbv beta in F. rewrite forallb_forall in F. specialize (F j ltac:(apply in_seq; lia)). cbv beta in F. destruct (Req_EM_T (t_val t i j) 0); [discriminate|contradiction]. }
  assert (DK : forall x' d, derivative_ok (t_rows x) (t_cols x) (t_cols y) x x' d = true <-> (t_rows x' = t_rows x /\ t_cols x' = t_cols x /\ t_rows d = t_rows x /\ t_cols d = t_cols y /\
    ((exists i j, (i < t_rows x')%nat /\ (j < t_cols x')%nat /\ t_val x' i j = 0) <-> (exists i j, (i < t_rows x)%nat /\ (j < t_cols x)%nat /\ t_val x i j = 0)))).
  { intros x' d. unfold derivative_ok. rewrite !andb_true_iff, !Nat.eqb_eq, eqb_true_iff, <- !NZ. destruct (nonzero x'); destruct (nonzero x); intuition congruence. }
  unfold smt_to_genn. rewrite E. split.
  - intros [r H] k Hk. destruct (forallb _ _) eqn:F; [|discriminate]. rewrite forallb_forall in F. specialize (F k ltac:(apply in_seq; lia)). cbv beta in F. destruct (tp (S k)) as [[x' d]|]; [|discriminate]. exists x', d. split; [reflexivity|]. apply DK. exact F.
  - intros H. match goal with |- exists r, (if ?b then _ else _) = _ => replace b with true; [eexists; reflexivity|] end. symmetry. apply forallb_forall. intros k Hk. apply in_seq in Hk. destruct (H k ltac:(lia)) as (x' & d & -> & D). apply DK. exact D.
Qed.
Print Assumptions C90_data_accepted.
(** with positive batch size (0 stands for all the examples) training returns, unless some batch has a single example, when it fails *)
Theorem C90_trains_exactly : forall rng seeded permutation initial entropy o tp m nx ny X Y J size, (forall g n, Permutation (fst (permutation g n)) (seq 0 n)) ->
  smt_to_genn tp = Ret (m, nx, ny, X, Y, J) -> (1 <= m)%nat -> (1 <= o_epochs o)%nat -> (size = if (o_batch o =? 0)%Z then Z.of_nat m else o_batch o) -> (1 <= size)%Z ->
  exists fuel0, forall fuel g, (fuel0 <= fuel)%nat -> (single m size -> genn_train rng seeded permutation initial entropy fuel o tp g = Raise) /\ (~ single m size -> exists r, genn_train rng seeded permutation initial entropy fuel o tp g = Ret r).
Proof.
  intros rng seeded permutation initial entropy o tp m nx ny X Y J size HP ET Hm He Hz Hs. destruct (rate_small (o_alpha o) (1 / 2) ltac:(lra)) as [k Hk]. exists (S k). intros fuel g Hf. unfold genn_train. rewrite ET. cbn [rbind]. destruct (initial g (dims_of nx ny (o_deep o) (o_wide o))) as [p g1]. unfold model_train, normalize_data. cbv zeta. cbn [option_map]. rewrite <- Hz.
  set (s := scale_of m X Y). set (Xn := normed s X). set (Yn := normed_y s Y). set (Jn := normed_j s J).
  assert (HB : forall n, exists bs, fst (random_mini_batches rng seeded permutation entropy (o_seed o) n m Xn Yn (Some Jn) size) = Ret bs /\ (forall b, In b bs -> b_J b <> None) /\ map b_size bs = sizes m (Nat.min (Z.to_nat size) m)).
  { intros n. unfold random_mini_batches. set (g0 := match o_seed o with Some z => seeded z | None => entropy n end). pose proof (Permutation_length (HP g0 m)) as L. rewrite seq_length in L. destruct (permutation g0 m) as [perm g2]. cbn [fst] in L |- *. apply batch_info; assumption. }
  assert (SS : In 1%nat (sizes m (Nat.min (Z.to_nat size) m)) <-> single m size) by (apply sizes_single; lia). split.
  - intros HS. destruct (o_epochs o) as [|ep]; [lia|]. rewrite (epochs_raise rng seeded permutation entropy o _ nx ny m Xn Yn (Some Jn) size k fuel Hk ltac:(lia)); [reflexivity|]. right. destruct (HB 0%nat) as (bs & A & B & C). exists bs. split; [exact A|]. split; [exact B|]. apply SS in HS. rewrite <- C in HS. apply in_map_iff in HS. destruct HS as (b & E & I). apply List.Exists_exists. exists b. split; assumption.
  - intros HS. destruct (epochs_enough rng seeded permutation entropy o (dims_of nx ny (o_deep o) (o_wide o)) nx ny m Xn Yn (Some Jn) size k fuel Hk ltac:(lia)) with (todo := o_epochs o) (e := 0%nat) (p := p) (g := g1) as [[[p' h] g'] E].
    + intros n. destruct (HB n) as (bs & A & B & C). exists bs. split; [exact A|]. split; [exact B|]. apply List.Forall_forall. intros b I E. apply HS, SS. rewrite <- C. apply in_map_iff. exists b. split; assumption.
    + rewrite E. cbn [rbind]. eexists. reflexivity.
Qed.
Print Assumptions C90_trains_exactly.
(** so one training point is never enough, and 65 points fail with the default batch size of 64 *)
Theorem C90_one_point_refuted : forall size, (1 <= size)%Z -> single 1 size /\ single 65 64.
Proof. intros size H. split; [left; lia|right; reflexivity]. Qed.
Print Assumptions C90_one_point_refuted.
Example C90_nonvacuous : ~ single 10 4 /\ single 10 3 /\ exists r, smt_to_genn (from_fresh {| t_rows := 3; t_cols := 2; t_val := fun i j => INR (i + j) |} {| t_rows := 3; t_cols := 1; t_val := fun i _ => INR i |} {| t_rows := 3; t_cols := 2; t_val := fun i j => 1 |}) = Ret r.
Proof.
  split; [|split; [right; reflexivity|]].
  - intros [H|H]; vm_compute in H; discriminate.
  - apply (C90_data_accepted _ _ _ eq_refl). cbn [t_cols t_rows t_val]. intros k Hk. unfold from_fresh. cbn [t_cols]. destruct (Nat.ltb_spec k 2); [|lia]. do 2 eexists. split; [reflexivity|]. cbn. repeat split; try reflexivity; tauto.
Qed.
Print Assumptions C90_nonvacuous.
(** C91: training an epoch is, batch after batch, a run of Adam on the cost of the batch, which is the objective in normalised data, with its true gradient when gamma is 0 or 1 *)
Theorem C91_epoch_is_adam_on_objective : forall fuel o nx ny bs p p' hs, (forall b, In b bs -> b_J b <> None /\ b_size b <> 1%nat) -> 0 <= o_lambd o -> 0 <= o_gamma o <= 1 ->
  let dims := dims_of nx ny (o_deep o) (o_wide o) in
  train_batches fuel o dims nx ny bs p = Ret (p', hs) ->
  chain (fun b p p' h => exists J g n xs ds, b_J b = Some J /\ (forall q, batch_grad dims nx b (o_lambd o) (o_gamma o) q = Some (g q)) /\
    run (goal dims nx ny b J (o_lambd o) (o_gamma o)) g Adam (o_alpha o) p n (p' :: xs) ds /\ h = map (goal dims nx ny b J (o_lambd o) (o_gamma o)) (rev (p' :: xs))) bs p p' hs.
Proof.
  intros fuel o nx ny bs p p' hs HB Hl Hg dims E. pose proof (batches_chain fuel o dims nx ny bs p p' hs HB E) as C. clear E. revert HB. induction C as [q|b bs q q' q'' h hs H C IH]; intros HB; [constructor|]. apply chain_cons with (p' := q'); [|apply IH; intros; apply HB; right; assumption].
  destruct H as (f & g & n & xs & ds & T & TG & R & Eh). destruct (HB b (or_introl eq_refl)) as [H1 H2]. destruct (b_J b) as [J|] eqn:EJ; [|congruence].
  assert (EF : f = goal dims nx ny b J (o_lambd o) (o_gamma o)). { apply FunctionalExtensionality.functional_extensionality. intros r. pose proof (T r) as Tr. unfold dims in Tr. rewrite (batch_cost_goal nx ny (o_deep o) (o_wide o) b J (o_lambd o) (o_gamma o) r EJ H2 Hl Hg) in Tr. injection Tr as <-. reflexivity. }
  subst f. exists J, g, n, xs, ds. repeat split; assumption.
Qed.
Print Assumptions C91_epoch_is_adam_on_objective.
Theorem C91_direction_is_gradient : forall nx ny deep wide b J lambd gamma p, b_J b = Some J -> (1 < b_size b)%nat -> (gamma = 0 \/ gamma = 1) ->
  exists gp, batch_grad (dims_of nx ny deep wide) nx b lambd gamma p = Some gp /\
  forall k, in_network (dims_of nx ny deep wide) k -> is_derive (fun t => goal (dims_of nx ny deep wide) nx ny b J lambd gamma (updk p k t)) (p k) (gp k).
Proof. exact batch_gradient. Qed.
Print Assumptions C91_direction_is_gradient.
Example C91_nonvacuous : in_network (dims_of 3 1 2 5) (W 2 4 3) /\ in_network (dims_of 3 1 2 5) (B 3 0) /\ ~ in_network (dims_of 3 1 2 5) (W 1 0 3).
Proof.
  split; [|split].
  - cbn. split; [lia|]. exists 5%nat, 5%nat. repeat split; lia.
  - cbn. split; [lia|]. exists 1%nat. repeat split; lia.
  - cbn. intros (_ & ni & no & [= <-] & _ & _ & H). lia.
Qed.
(** C92: what the seed determines.  Given the same initial weights the result is the same ... *)
Theorem C92_same_initial_weights : forall rng seeded permutation initial entropy fuel o tp g g', (1 <= o_epochs o)%nat -> (forall dims, fst (initial g dims) = fst (initial g' dims)) ->
  genn_train rng seeded permutation initial entropy fuel o tp g = genn_train rng seeded permutation initial entropy fuel o tp g'.
Proof. exact train_same_start. Qed.
Print Assumptions C92_same_initial_weights.
(** ... but the initial weights are drawn before the seed is applied, so they depend on the state of the global generator *)
Theorem C92_initial_weights_not_seeded_refuted : forall rng seeded permutation initial entropy fuel o tp g n h g', o_iterations o = 0%nat -> genn_train rng seeded permutation initial entropy fuel o tp g = Ret (n, h, g') -> net_params n = fst (initial g (net_dims n)).
Proof. exact no_iterations. Qed.
Print Assumptions C92_initial_weights_not_seeded_refuted.
(** after a training with a seed the generator is in a state that depends only on the seed and the number of examples; so a second training is reproducible *)
Theorem C92_second_training_reproducible : forall rng seeded permutation initial entropy fuel o tp z g g' n n' h h' r r', o_seed o = Some z -> (1 <= o_epochs o)%nat ->
  genn_train rng seeded permutation initial entropy fuel o tp g = Ret (n, h, r) -> genn_train rng seeded permutation initial entropy fuel o tp g' = Ret (n', h', r') ->
  r = r' /\ genn_train rng seeded permutation initial entropy fuel o tp r = genn_train rng seeded permutation initial entropy fuel o tp r'.
Proof.
  intros rng seeded permutation initial entropy fuel o tp z g g' n n' h h' r r' Hz He E E'. destruct (train_state rng seeded permutation initial entropy fuel o tp z g n h r Hz He E) as (m & nx & ny & X & Y & J & A & B). destruct (train_state rng seeded permutation initial entropy fuel o tp z g' n' h' r' Hz He E') as (m' & nx' & ny' & X' & Y' & J' & A' & B').
  rewrite A in A'. injection A' as <- _ _ _ _ _. assert (r = r') as <- by congruence. split; reflexivity.
Qed.
Print Assumptions C92_second_training_reproducible.
(** a generator whose state is a number, and two states that give different networks although the seed is the same *)
Definition toy_o : goptions := {| o_alpha := 1; o_beta1 := 0; o_beta2 := 0; o_lambd := 0; o_gamma := 1; o_deep := 0; o_wide := 0; o_batch := 0; o_iterations := 0; o_epochs := 1; o_seed := Some 7%Z |}.
Definition toy_tp : points := from_fresh {| t_rows := 2; t_cols := 1; t_val := fun i j => INR i |} {| t_rows := 2; t_cols := 1; t_val := fun i _ => INR i |} {| t_rows := 2; t_cols := 1; t_val := fun i j => 1 |}.
Example C92_nonvacuous : exists n n' h h' r r', genn_train nat (fun _ => 0%nat) (fun g m => (seq 0 m, g)) (fun g _ => (fun _ => INR g, g)) (fun _ => 0%nat) 100 toy_o toy_tp 1%nat = Ret (n, h, r) /\
  genn_train nat (fun _ => 0%nat) (fun g m => (seq 0 m, g)) (fun g _ => (fun _ => INR g, g)) (fun _ => 0%nat) 100 toy_o toy_tp 2%nat = Ret (n', h', r') /\ net_params n <> net_params n'.
Proof.
  assert (S : exists r, smt_to_genn toy_tp = Ret r). { apply (C90_data_accepted _ _ _ eq_refl). cbn [t_cols t_rows t_val]. intros k Hk. assert (k = 0%nat) as -> by lia. do 2 eexists. split; [reflexivity|]. cbn. repeat split; try reflexivity; tauto. }
  assert (K : forall g, exists r, genn_train nat (fun _ => 0%nat) (fun g m => (seq 0 m, g)) (fun g _ => (fun _ => INR g, g)) (fun _ => 0%nat) 100 toy_o toy_tp g = Ret r).
  { intros g. unfold genn_train. destruct S as [[[[[[m nx] ny] X] Y] J] S]. rewrite S. cbn [rbind]. assert (Em : m = 2%nat). { unfold smt_to_genn, toy_tp, from_fresh in S. cbn [t_cols t_rows] in S. destruct (forallb _ _); [|discriminate]. injection S as <- _ _ _ _ _. reflexivity. } subst m. unfold model_train, normalize_data. cbn. eexists. reflexivity. }
  destruct (K 1%nat) as [[[n h] r] E1]. destruct (K 2%nat) as [[[n' h'] r'] E2]. exists n, n', h, h', r, r'. split; [exact E1|]. split; [exact E2|]. assert (H0 : o_iterations toy_o = 0%nat) by reflexivity. rewrite (no_iterations _ _ _ _ _ _ _ _ _ _ _ _ H0 E1), (no_iterations _ _ _ _ _ _ _ _ _ _ _ _ H0 E2). cbn [fst]. intros E. apply (f_equal (fun p => p (B 0 0))) in E. cbn in E. lra.
Qed.
Print Assumptions C92_nonvacuous.
(** C93: loading parameters into a new model does not bring the scale factors *)
Theorem C93_loaded_values : forall dims p nx ny m x, exists D, network_values (load_parameters dims p) nx ny m x = Some D /\ forall e k, (e < m)%nat -> (k < ny)%nat -> D e k = net (layers dims p) (fun i => x e i - 1) k + 1.
Proof.
  intros dims p nx ny m x. unfold network_values, load_parameters, predict_values. cbn [net_dims net_params net_scaling]. destruct (evaluate_ok (layers dims p) initial_scaling nx ny nx m (fun i e => x e i) eq_refl) as (Y & E & S & D). rewrite E. cbn [option_map]. eexists. split; [reflexivity|]. intros e k He Hk. cbv beta. rewrite D by assumption. unfold scaled, initial_scaling. cbn [mu_x sigma_x mu_y sigma_y].
  replace (fun i : nat => (col (fun i0 e0 : nat => x e0 i0) e i - 1) / 1) with (fun i : nat => x e i - 1); [ring|]. apply FunctionalExtensionality.functional_extensionality. intros i. unfold col. field.
Qed.
Print Assumptions C93_loaded_values.
(** a trained network predicts with its own scale factors *)
Theorem C93_trained_values : forall n nx ny m x, exists D, network_values n nx ny m x = Some D /\ forall e k, (e < m)%nat -> (k < ny)%nat -> D e k = scaled (layers (net_dims n) (net_params n)) (net_scaling n) (x e) k.
Proof.
  intros n nx ny m x. unfold network_values, predict_values. destruct (evaluate_ok (layers (net_dims n) (net_params n)) (net_scaling n) nx ny nx m (fun i e => x e i) eq_refl) as (Y & E & S & D). rewrite E. cbn [option_map]. eexists. split; [reflexivity|]. intros e k He Hk. cbv beta. rewrite D by assumption. reflexivity.
Qed.
Print Assumptions C93_trained_values.
Theorem C93_not_restored_refuted : exists n D D', network_values n 1 1 1 (fun _ _ => 0) = Some D /\ network_values (load_parameters (net_dims n) (net_params n)) 1 1 1 (fun _ _ => 0) = Some D' /\ D 0%nat 0%nat <> D' 0%nat 0%nat.
Proof.
  set (n := {| net_dims := [1; 1]%nat; net_params := fun _ => 0; net_scaling := {| mu_x := fun _ => 0; sigma_x := fun _ => 1; mu_y := fun _ => 5; sigma_y := fun _ => 1 |} |}). exists n.
  destruct (C93_trained_values n 1 1 1 (fun _ _ => 0)) as (D & E & V). destruct (C93_loaded_values (net_dims n) (net_params n) 1 1 1 (fun _ _ => 0)) as (D' & E' & V'). exists D, D'. split; [exact E|]. split; [exact E'|]. rewrite V, V' by lia. unfold scaled. cbn. lra.
Qed.
Print Assumptions C93_not_restored_refuted.
(** C94: normalised data have mean 0 and standard deviation 1, and scaling back gives the training data; constant data are exactly those with standard deviation 0 *)
Theorem C94_mean_and_deviation : forall m X Y i, (1 <= m)%nat -> let s := scale_of m X Y in
  (sigma_x s i <> 0 -> mean m (normed s X i) = 0 /\ std m (normed s X i) = 1) /\ (sigma_y s i <> 0 -> mean m (normed_y s Y i) = 0 /\ std m (normed_y s Y i) = 1).
Proof. intros m X Y i Hm s. split; intros H; [exact (mean_normed m (X i) Hm H)|exact (mean_normed m (Y i) Hm H)]. Qed.
Print Assumptions C94_mean_and_deviation.
Theorem C94_constant_data : forall m X Y i, (1 <= m)%nat -> (sigma_x (scale_of m X Y) i = 0 <-> forall e, (e < m)%nat -> X i e = mean m (X i)).
Proof. intros m X Y i Hm. exact (std_zero m (X i) Hm). Qed.
Print Assumptions C94_constant_data.
Theorem C94_training_data_recovered : forall nx m X Y J, (0 < nx)%nat -> m <> 1%nat -> let s := scale_of m X Y in (forall i, (i < nx)%nat -> sigma_x s i <> 0) -> sigma_y s 0%nat <> 0 ->
  exists X' Y' J', training_data nx 1 m s (normed s X) (normed_y s Y) (normed_j s J) = Some (X', Y', J') /\ shape X' = [nx; m] /\ shape Y' = [1%nat; m] /\ shape J' = [1%nat; nx; m] /\
  forall e, (e < m)%nat -> (forall i, (i < nx)%nat -> data X' [i; e] = X i e) /\ data Y' [0%nat; e] = Y 0%nat e /\ (forall i, (i < nx)%nat -> data J' [0%nat; i; e] = J i 0%nat e).
Proof. intros nx m X Y J Hx Hm s HX HY. exact (training_data_ok nx m X Y J s Hx Hm HX HY). Qed.
Print Assumptions C94_training_data_recovered.
(** if the training derivatives are those of a function, the normalised derivatives are those of the normalised function at the normalised point *)
Theorem C94_derivatives_consistent : forall (F : vec -> R) s n X J j k e, (forall i, (i < n)%nat -> sigma_x s i <> 0) -> (j < n)%nat -> (forall a b : vec, (forall i, (i < n)%nat -> a i = b i) -> F a = F b) ->
  is_partial F (col X e) j (J j k e) -> is_partial (fun u => (F (fun i => mu_x s i + sigma_x s i * u i) - mu_y s k) / sigma_y s k) (col (normed s X) e) j (normed_j s J j k e).
Proof. intros F s n X J j k e HS Hj HE HD. exact (normed_derivative F s n (col X e) j (J j k e) k HS Hj HE HD). Qed.
Print Assumptions C94_derivatives_consistent.
Example C94_nonvacuous : sigma_x (scale_of 2 (fun _ e => INR e) (fun _ e => INR e)) 0 <> 0.
Proof. intros H. apply (proj1 (C94_constant_data 2 _ _ 0 ltac:(lia))) with (e := 0%nat) in H; [|lia]. unfold mean in H. cbn in H. lra. Qed.
(** C66: after a successful goodness-of-fit check the stored training data are the validation data, and training again is training on these *)
Theorem C66_training_data_replaced : forall rng seeded permutation initial entropy plots s x y d s', goodness_of_fit plots s x y (Some d) = (s', true) ->
  stored s' 0%nat = Some (x, y) /\ (forall i, (i < t_cols x)%nat -> exists di, stored s' (S i) = Some (x, di) /\ t_rows di = t_rows d /\ t_cols di = 1%nat /\ forall e, t_val di e 0%nat = t_val d e i) /\
  forall fuel o g, genn_train rng seeded permutation initial entropy fuel o (stored s') g = genn_train rng seeded permutation initial entropy fuel o (from_fresh x y d) g.
Proof. intros rng seeded permutation initial entropy plots s x y d s' E. destruct (gof_ok plots s x y d s' E) as (_ & _ & _ & A & B & C). split; [exact A|]. split; [intros i Hi; exists (column d i); split; [exact (B i Hi)|]; split; [reflexivity|]; split; reflexivity|]. intros fuel o g. unfold genn_train. rewrite C. reflexivity. Qed.
Print Assumptions C66_training_data_replaced.
(** the network itself is not touched, successful or not: predictions are unchanged when the validation points have the right number of columns, and refused afterwards otherwise *)
Theorem C66_predictions : forall plots s x y d s' ok, t_rows x = t_rows y -> goodness_of_fit plots s x y d = (s', ok) -> stored s' 0%nat = Some (x, y) /\
  (t_cols x = a_nx s -> forall q, object_values s' q = object_values s q) /\ (t_cols x <> a_nx s -> forall q, t_cols q = a_nx s -> object_values s' q = None).
Proof.
  intros plots s x y d s' ok R E. destruct (gof_any plots s x y d s' ok R E) as (A & B & C). split; [exact A|]. unfold object_values. rewrite B, C. split; [intros ->; reflexivity|]. intros N q ->. destruct (Nat.eqb_spec (a_nx s) (t_cols x)); [congruence|reflexivity].
Qed.
Print Assumptions C66_predictions.
Definition val_x : table := {| t_rows := 2; t_cols := 1; t_val := fun i j => INR i |}.
Definition old_x : table := {| t_rows := 5; t_cols := 1; t_val := fun i j => INR i |}.
Definition obj : object := {| heap := fun _ => from_fresh old_x old_x old_x; tp_ref := 3; a_nt := 5; a_nx := 1; a_ny := 1; a_model := load_parameters [1; 1]%nat (fun _ => 0) |}.
Example C66_nonvacuous : exists s', goodness_of_fit (fun _ _ => true) obj val_x val_x (Some val_x) = (s', true) /\ stored obj 0%nat = Some (old_x, old_x) /\ t_rows old_x <> t_rows val_x.
Proof.
  destruct (load_smt_data obj val_x val_x (Some val_x)) as [s1 b] eqn:EL. assert (b = true) as -> by (unfold load_smt_data in EL; cbn in EL; congruence). destruct (load_ok _ _ _ _ _ EL) as (_ & _ & _ & _ & _ & _ & V & D).
  assert (S : exists r, smt_to_genn (stored s1) = Ret r).
  { apply (C90_data_accepted _ _ _ V). intros k Hk. rewrite D. destruct (Nat.ltb_spec k (t_cols val_x)); [|lia]. do 2 eexists. split; [reflexivity|]. cbn. repeat split; try reflexivity; tauto. }
  destruct S as [r S]. unfold goodness_of_fit. rewrite EL. cbn [negb]. rewrite S. eexists. split; [reflexivity|]. split; [reflexivity|]. cbn. lia.
Qed.
Print Assumptions C66_nonvacuous.
