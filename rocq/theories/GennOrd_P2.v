(** Proofs for C118: whole trainings. *)
From Coq Require Import Reals ZArith Arith Bool List Permutation Lia Lra FunctionalExtensionality.
From Verif Require Import RSum Genn_M GennOpt_M GennTrain_M GennOrd_S GennOrd_P.
From Verif Require Het_S Het_P4 Order_P1 Order_P2.
Import ListNotations.
Open Scope list_scope.
Open Scope R_scope.
(** epochs of full batches without a generator *)
Fixpoint pure_epochs (fuel : nat) (o : goptions) (dims : list nat) (nx ny m : nat) (X Y : arr) (J : option arr3) (todo : nat) (p : params) : res (params * list (list (list R))) :=
  match todo with
  | O => Ret (p, [])
  | S todo => if Nat.eqb m 0 then Raise else
      rbind (train_batches fuel o dims nx ny [std_batch m X Y J] p) (fun '(p, hs) => rbind (pure_epochs fuel o dims nx ny m X Y J todo p) (fun '(p, hss) => Ret (p, hs :: hss)))
  end.
Lemma batches_ext fuel o o' dims nx ny b b' p : (o_alpha o' = o_alpha o /\ o_iterations o' = o_iterations o /\ o_beta1 o' = o_beta1 o /\ o_beta2 o' = o_beta2 o) ->
  batch_cost dims nx ny b' (o_lambd o') (o_gamma o') = batch_cost dims nx ny b (o_lambd o) (o_gamma o) -> batch_grad dims nx b' (o_lambd o') (o_gamma o') = batch_grad dims nx b (o_lambd o) (o_gamma o) ->
  train_batches fuel o' dims nx ny [b'] p = train_batches fuel o dims nx ny [b] p.
Proof. intros (E1 & E2 & E3 & E4) H1 H2. cbn [train_batches]. rewrite H1, H2, E1, E2, E3, E4. reflexivity. Qed.
Section Gen.
Variables (rng : Type) (seeded : Z -> rng) (permutation : rng -> nat -> list nat * rng) (initial : rng -> list nat -> params * rng) (entropy : nat -> rng).
Hypothesis PP : forall g n, Permutation (fst (permutation g n)) (seq 0 n).
Lemma epochs_pure fuel o dims nx ny m X Y J size : (Z.of_nat m <= size)%Z -> forall todo e p g,
  outcome (train_epochs rng seeded permutation entropy fuel o dims nx ny m X Y J size todo e p g) = pure_epochs fuel o dims nx ny m X Y J todo p.
Proof.
  intros Hs. induction todo as [|todo IH]; intros e p g; [reflexivity|]. cbn [train_epochs pure_epochs]. unfold random_mini_batches.
  set (g0 := match o_seed o with Some z => seeded z | None => entropy e end). pose proof (PP g0 m) as P. destruct (permutation g0 m) as [perm g1]. cbn [fst] in P.
  destruct (Nat.eqb_spec m 0) as [->|N].
  - rewrite no_batch by lia. reflexivity.
  - rewrite one_batch by lia. cbn [rbind]. pose proof (perm_reorder perm m P) as RO.
    rewrite (batches_ext fuel o o dims nx ny (std_batch m X Y J)) by (first [repeat split; reflexivity | exact (batch_cost_perm dims nx ny m perm X Y J _ _ RO) | exact (batch_grad_perm dims nx m perm X Y J _ _ RO)]).
    destruct (train_batches fuel o dims nx ny [std_batch m X Y J] p) as [[p1 hs]| |]; cbn [rbind outcome]; try reflexivity.
    rewrite <- (IH (S e) p1 g1). destruct (train_epochs rng seeded permutation entropy fuel o dims nx ny m X Y J size todo (S e) p1 g1) as [[[p2 hss] g2]| |]; reflexivity.
Qed.
Definition pure_train (fuel : nat) (o : goptions) (dims : list nat) (nx ny m : nat) (X Y : arr) (J : option arr3) (p : params) : res (network * list (list (list R))) :=
  let s := scale_of m X Y in
  rbind (pure_epochs fuel o dims nx ny m (normed s X) (normed_y s Y) (option_map (normed_j s) J) (o_epochs o) p) (fun '(p, h) => Ret ({| net_dims := dims; net_params := p; net_scaling := s |}, h)).
Lemma train_pure fuel o nx ny m X Y J dims p g : full_batch m (o_batch o) -> outcome (model_train rng seeded permutation entropy fuel o nx ny m X Y J dims p g) = pure_train fuel o dims nx ny m X Y J p.
Proof.
  intros F. unfold model_train, pure_train, normalize_data. set (s := scale_of m X Y).
  assert (Hs : (Z.of_nat m <= (if Z.eqb (o_batch o) 0 then Z.of_nat m else o_batch o))%Z). { destruct (Z.eqb_spec (o_batch o) 0); [lia|]. destruct F; [contradiction|assumption]. }
  rewrite <- (epochs_pure fuel o dims nx ny m _ _ _ _ Hs (o_epochs o) 0 p g).
  destruct (train_epochs rng seeded permutation entropy fuel o dims nx ny m (normed s X) (normed_y s Y) (option_map (normed_j s) J) _ (o_epochs o) 0 p g) as [[[p2 h] g2]| |]; reflexivity.
Qed.
Lemma genn_pure fuel o tp g m nx ny X Y J : smt_to_genn tp = Ret (m, nx, ny, X, Y, J) -> full_batch m (o_batch o) ->
  outcome (genn_train rng seeded permutation initial entropy fuel o tp g) = pure_train fuel o (dims_of nx ny (o_deep o) (o_wide o)) nx ny m X Y (Some J) (fst (initial g (dims_of nx ny (o_deep o) (o_wide o)))).
Proof. intros E F. unfold genn_train. rewrite E. cbn [rbind]. destruct (initial g _) as [p g1]. cbn [fst]. apply train_pure. exact F. Qed.
End Gen.
Lemma pure_epochs_ext fuel o o' dims nx ny m X Y J X' Y' J' : (o_alpha o' = o_alpha o /\ o_iterations o' = o_iterations o /\ o_beta1 o' = o_beta1 o /\ o_beta2 o' = o_beta2 o) ->
  batch_cost dims nx ny (std_batch m X' Y' J') (o_lambd o') (o_gamma o') = batch_cost dims nx ny (std_batch m X Y J) (o_lambd o) (o_gamma o) ->
  batch_grad dims nx (std_batch m X' Y' J') (o_lambd o') (o_gamma o') = batch_grad dims nx (std_batch m X Y J) (o_lambd o) (o_gamma o) ->
  forall todo p, pure_epochs fuel o' dims nx ny m X' Y' J' todo p = pure_epochs fuel o dims nx ny m X Y J todo p.
Proof.
  intros HO H1 H2. induction todo as [|todo IH]; intros p; [reflexivity|]. cbn [pure_epochs]. destruct (Nat.eqb m 0); [reflexivity|].
  rewrite (batches_ext fuel o o' dims nx ny (std_batch m X Y J) (std_batch m X' Y' J') p HO H1 H2).
  destruct (train_batches fuel o dims nx ny [std_batch m X Y J] p) as [[p1 hs]| |]; cbn [rbind]; try reflexivity. rewrite IH. reflexivity.
Qed.
Lemma pure_train_gather fuel o sd dims nx ny m f X Y J p : reorder m f ->
  pure_train fuel (with_seed o sd) dims nx ny m (ga f X) (ga f Y) (option_map (ga3 f) J) p = pure_train fuel o dims nx ny m X Y J p.
Proof.
  intros RO. unfold pure_train. rewrite (scale_gather m f RO). set (s := scale_of m X Y).
  change (normed s (ga f X)) with (ga f (normed s X)). change (normed_y s (ga f Y)) with (ga f (normed_y s Y)).
  replace (option_map (normed_j s) (option_map (ga3 f) J)) with (option_map (ga3 f) (option_map (normed_j s) J)) by (destruct J; reflexivity).
  change (o_epochs (with_seed o sd)) with (o_epochs o).
  rewrite (pure_epochs_ext fuel o (with_seed o sd) dims nx ny m (normed s X) (normed_y s Y) (option_map (normed_j s) J)); [reflexivity|repeat split; reflexivity| |].
  - exact (batch_cost_gather dims nx ny m f _ _ _ _ _ RO).
  - exact (batch_grad_gather dims nx m f _ _ _ _ _ RO).
Qed.
(** * the training tables *)
Lemma forallb_reorder m f (h : nat -> bool) : reorder m f -> forallb (fun i => h (f i)) (seq 0 m) = forallb h (seq 0 m).
Proof.
  intros RO. apply eq_true_iff_eq. rewrite !forallb_forall. split; intros H i Hi; apply in_seq in Hi.
  - destruct (Order_P2.reorder_surj m f RO i) as (j & Hj & <-); [lia|]. apply H. apply in_seq. lia.
  - apply H. apply in_seq. split; [lia|]. apply (proj1 RO). lia.
Qed.
Lemma nonzero_rows m f t : reorder m f -> t_rows t = m -> nonzero (rows f t) = nonzero t.
Proof. intros RO <-. exact (forallb_reorder (t_rows t) f (fun i => forallb (fun j => if Req_EM_T (t_val t i j) 0 then false else true) (seq 0 (t_cols t))) RO). Qed.
Lemma derivative_ok_rows m nx ny f x0 x d : reorder m f -> t_rows x0 = m -> derivative_ok m nx ny (rows f x0) (rows f x) (rows f d) = derivative_ok m nx ny x0 x d.
Proof.
  intros RO E. unfold derivative_ok. rewrite (nonzero_rows m f x0 RO E). cbn [rows t_rows t_cols]. destruct (Nat.eqb_spec (t_rows x) m) as [Ex|Ex]; [|reflexivity]. rewrite (nonzero_rows m f x RO Ex). reflexivity.
Qed.
Lemma to_genn_rows f tp x y : tp 0%nat = Some (x, y) -> reorder (t_rows x) f ->
  smt_to_genn (rearranged f tp) = match smt_to_genn tp with Ret (m, nx, ny, X, Y, J) => Ret (m, nx, ny, ga f X, ga f Y, ga3 f J) | Raise => Raise | Loop => Loop end.
Proof.
  intros E RO. unfold smt_to_genn. unfold rearranged at 1. rewrite E. cbn [option_map]. cbn [rows t_rows t_cols].
  assert (F : forall l, forallb (fun k => match rearranged f tp (S k) with Some (x', d) => derivative_ok (t_rows x) (t_cols x) (t_cols y) (rows f x) x' d | None => false end) l =
    forallb (fun k => match tp (S k) with Some (x', d) => derivative_ok (t_rows x) (t_cols x) (t_cols y) x x' d | None => false end) l).
  { induction l as [|k l IH]; [reflexivity|]. cbn [forallb]. rewrite IH. f_equal. unfold rearranged. destruct (tp (S k)) as [[x' d]|]; [|reflexivity]. cbn [option_map]. apply (derivative_ok_rows _ _ _ f x x' d RO eq_refl). }
  change {| t_rows := t_rows x; t_cols := t_cols x; t_val := fun i j => t_val x (f i) j |} with (rows f x). rewrite F. destruct (forallb _ _); [|reflexivity].
  do 2 f_equal. extensionality j. extensionality k. extensionality e. unfold ga3. destruct (Nat.ltb j (t_cols x)); [|reflexivity]. unfold rearranged. destruct (tp (S j)) as [[x' d]|]; reflexivity.
Qed.
Section Main.
Variables (rng rng' : Type) (seeded : Z -> rng) (seeded' : Z -> rng') (permutation : rng -> nat -> list nat * rng) (permutation' : rng' -> nat -> list nat * rng')
  (initial : rng -> list nat -> params * rng) (initial' : rng' -> list nat -> params * rng') (entropy : nat -> rng) (entropy' : nat -> rng').
Hypothesis PP : forall g n, Permutation (fst (permutation g n)) (seq 0 n).
Hypothesis PP' : forall g n, Permutation (fst (permutation' g n)) (seq 0 n).
Lemma main fuel o tp x y f sd g g' : tp 0%nat = Some (x, y) -> reorder (t_rows x) f -> full_batch (t_rows x) (o_batch o) -> (forall dims, fst (initial' g' dims) = fst (initial g dims)) ->
  outcome (genn_train rng' seeded' permutation' initial' entropy' fuel (with_seed o sd) (rearranged f tp) g') = outcome (genn_train rng seeded permutation initial entropy fuel o tp g).
Proof.
  intros E RO F HI. pose proof (to_genn_rows f tp x y E RO) as R. destruct (smt_to_genn tp) as [[[[[[m nx] ny] X] Y] J]| |] eqn:ET.
  - assert (Em : m = t_rows x). { unfold smt_to_genn in ET. rewrite E in ET. destruct (forallb _ _); [|discriminate]. congruence. } subst m.
    rewrite (genn_pure rng seeded permutation initial entropy PP fuel o tp g _ _ _ _ _ _ ET F).
    rewrite (genn_pure rng' seeded' permutation' initial' entropy' PP' fuel (with_seed o sd) (rearranged f tp) g' _ _ _ _ _ _ R F).
    change (o_deep (with_seed o sd)) with (o_deep o). change (o_wide (with_seed o sd)) with (o_wide o). rewrite HI.
    exact (pure_train_gather fuel o sd _ nx ny (t_rows x) f X Y (Some J) _ RO).
  - unfold genn_train. rewrite R, ET. reflexivity.
  - unfold genn_train. rewrite R, ET. reflexivity.
Qed.
End Main.
Lemma rearranged_id tp : rearranged (fun i => i) tp = tp.
Proof. extensionality k. unfold rearranged. destruct (tp k) as [[[a b c] [a' b' c']]|]; reflexivity. Qed.
