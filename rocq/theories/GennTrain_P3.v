(** Proofs about GENN: seeds, normalisation, the goodness-of-fit check. *)
From Coq Require Import Reals ZArith Arith Lia Lra Bool List FunctionalExtensionality.
From Coquelicot Require Import Coquelicot.
From Verif Require Import RSum Genn_M Genn_S Genn_P4 GennOpt_M GennOpt_S GennTrain_M GennTrain_S GennTrain_P2.
Import ListNotations.
Open Scope list_scope.
Open Scope R_scope.
Section Seed.
Variables (rng : Type) (seeded : Z -> rng) (permutation : rng -> nat -> list nat * rng) (initial : rng -> list nat -> params * rng) (entropy : nat -> rng).
Lemma epochs_state0 : forall fuel o dims nx ny m X Y J size z, o_seed o = Some z -> forall todo e p g p' h g', train_epochs rng seeded permutation entropy fuel o dims nx ny m X Y J size todo e p g = Ret (p', h, g') -> g' = match todo with O => g | S _ => snd (permutation (seeded z) m) end.
Proof.
  intros fuel o dims nx ny m X Y J size z Hz. induction todo as [|todo IH]; intros e p g p' h g' E; cbn [train_epochs] in E; [injection E as _ _ <-; reflexivity|]. unfold random_mini_batches in E. rewrite Hz in E. destruct (permutation (seeded z) m) as [perm g1] eqn:EP. destruct (mini_batches perm m X Y J size) as [bs| |]; cbn [rbind] in E; try discriminate.
  destruct (train_batches fuel o dims nx ny bs p) as [[p1 hs]| |]; cbn [rbind] in E; try discriminate. match type of E with rbind ?t _ = _ => destruct t as [[[p2 hss] g2]| |] eqn:ET end; cbn [rbind] in E; try discriminate. injection E as _ _ <-. apply IH in ET. rewrite ET. destruct todo; reflexivity.
Qed.
Lemma epochs_state : forall fuel o dims nx ny m X Y J size z, o_seed o = Some z -> forall todo e p g p' h g', train_epochs rng seeded permutation entropy fuel o dims nx ny m X Y J size (S todo) e p g = Ret (p', h, g') -> g' = snd (permutation (seeded z) m).
Proof. intros fuel o dims nx ny m X Y J size z Hz todo e p g p' h g' E. exact (epochs_state0 _ _ _ _ _ _ _ _ _ _ _ Hz _ _ _ _ _ _ _ E). Qed.
Lemma epochs_irrelevant : forall fuel o dims nx ny m X Y J size todo e p g g', train_epochs rng seeded permutation entropy fuel o dims nx ny m X Y J size (S todo) e p g = train_epochs rng seeded permutation entropy fuel o dims nx ny m X Y J size (S todo) e p g'.
Proof. reflexivity. Qed.
Lemma train_state : forall fuel o tp z g n h g', o_seed o = Some z -> (1 <= o_epochs o)%nat -> genn_train rng seeded permutation initial entropy fuel o tp g = Ret (n, h, g') ->
  exists m nx ny X Y J, smt_to_genn tp = Ret (m, nx, ny, X, Y, J) /\ g' = snd (permutation (seeded z) m).
Proof.
  intros fuel o tp z g n h g' Hz He E. unfold genn_train in E. destruct (smt_to_genn tp) as [[[[[[m nx] ny] X] Y] J]| |] eqn:ES; cbn [rbind] in E; try discriminate. exists m, nx, ny, X, Y, J. split; [reflexivity|].
  destruct (initial g (dims_of nx ny (o_deep o) (o_wide o))) as [p g1]. unfold model_train, normalize_data in E. destruct (o_epochs o) as [|ep]; [lia|].
  match type of E with rbind ?t _ = _ => destruct t as [[[p2 hss] g2]| |] eqn:ET end; cbn [rbind] in E; try discriminate. injection E as _ _ <-. apply (epochs_state fuel o _ nx ny m _ _ _ _ z Hz ep 0 p g1 p2 hss g2 ET).
Qed.
Lemma train_same_start : forall fuel o tp g g', (1 <= o_epochs o)%nat -> (forall dims, fst (initial g dims) = fst (initial g' dims)) -> genn_train rng seeded permutation initial entropy fuel o tp g = genn_train rng seeded permutation initial entropy fuel o tp g'.
Proof.
  intros fuel o tp g g' He HI. unfold genn_train. destruct (smt_to_genn tp) as [[[[[[m nx] ny] X] Y] J]| |]; cbn [rbind]; try reflexivity. specialize (HI (dims_of nx ny (o_deep o) (o_wide o))).
  destruct (initial g (dims_of nx ny (o_deep o) (o_wide o))) as [p g1]. destruct (initial g' (dims_of nx ny (o_deep o) (o_wide o))) as [p' g1']. cbn [fst] in HI. subst p'. unfold model_train, normalize_data. destruct (o_epochs o) as [|ep]; [lia|]. reflexivity.
Qed.
Lemma no_iterations_batches : forall fuel o dims nx ny, o_iterations o = 0%nat -> forall bs p p' hs, train_batches fuel o dims nx ny bs p = Ret (p', hs) -> p' = p.
Proof.
  intros fuel o dims nx ny H0. induction bs as [|b bs IH]; intros p p' hs E; cbn [train_batches] in E; [injection E as <- _; reflexivity|]. rewrite H0 in E. unfold optimize in E. cbn [optimize_loop] in E.
  destruct (batch_cost dims nx ny b (o_lambd o) (o_gamma o) p); cbn [rlift rbind] in E; try discriminate. match type of E with rbind ?t _ = _ => destruct t as [[p2 hss]| |] eqn:ET end; cbn [rbind] in E; try discriminate. injection E as <- _. apply (IH _ _ _ ET).
Qed.
Lemma no_iterations : forall fuel o tp g n h g', o_iterations o = 0%nat -> genn_train rng seeded permutation initial entropy fuel o tp g = Ret (n, h, g') -> net_params n = fst (initial g (net_dims n)).
Proof.
  intros fuel o tp g n h g' H0 E. unfold genn_train in E. destruct (smt_to_genn tp) as [[[[[[m nx] ny] X] Y] J]| |]; cbn [rbind] in E; try discriminate. set (dims := dims_of nx ny (o_deep o) (o_wide o)) in *.
  destruct (initial g dims) as [p g1] eqn:EI. unfold model_train, normalize_data in E.
  assert (K : forall todo e q g0 q' hh gg, train_epochs rng seeded permutation entropy fuel o dims nx ny m (normed (scale_of m X Y) X) (normed_y (scale_of m X Y) Y) (option_map (normed_j (scale_of m X Y)) (Some J)) (if Z.eqb (o_batch o) 0 then Z.of_nat m else o_batch o) todo e q g0 = Ret (q', hh, gg) -> q' = q).
  { induction todo as [|todo IH]; intros e q g0 q' hh gg X0; cbn [train_epochs] in X0; [injection X0 as <- _ _; reflexivity|]. destruct (random_mini_batches _ _ _ _ _ _ _ _ _ _ _) as [rb g2]. destruct rb as [bs| |]; cbn [rbind] in X0; try discriminate.
    destruct (train_batches fuel o dims nx ny bs q) as [[q1 hs]| |] eqn:EB; cbn [rbind] in X0; try discriminate. match type of X0 with rbind ?t _ = _ => destruct t as [[[p2 hss] g3]| |] eqn:ET end; cbn [rbind] in X0; try discriminate. injection X0 as <- _ _. rewrite (IH _ _ _ _ _ _ ET). apply (no_iterations_batches _ _ _ _ _ H0 _ _ _ _ EB). }
  match type of E with rbind ?t _ = _ => destruct t as [[[p2 hss] g2]| |] eqn:ET end; cbn [rbind] in E; try discriminate. injection E as <- _ _. cbn [net_params net_dims]. rewrite EI. cbn [fst]. apply (K _ _ _ _ _ _ _ ET).
Qed.
End Seed.
(** * normalisation *)
Lemma std_zero : forall m a, (1 <= m)%nat -> (std m a = 0 <-> forall e, (e < m)%nat -> a e = mean m a).
Proof.
  intros m a Hm. assert (HI : 0 < INR m) by (apply lt_0_INR; lia). unfold std. assert (P : forall k, 0 <= (a k - mean m a) ^ 2) by (intros; apply pow2_ge_0). split.
  - intros H e He. assert (S0 : rsum m (fun e => (a e - mean m a) ^ 2) / INR m = 0). { apply sqrt_eq_0 in H; [exact H|]. apply Rmult_le_pos; [apply rsum_nonneg; intros; apply P|left; apply Rinv_0_lt_compat; exact HI]. }
    assert (S1 : rsum m (fun e => (a e - mean m a) ^ 2) = 0). { apply Rmult_eq_reg_r with (/ INR m); [rewrite Rmult_0_l; exact S0|apply Rinv_neq_0_compat; lra]. }
    assert (Z : (a e - mean m a) ^ 2 = 0). { apply Rle_antisym; [|apply P]. rewrite <- S1. apply (rsum_ge_term m (fun e => (a e - mean m a) ^ 2) e); [intros; apply P|exact He]. } nra.
  - intros H. rewrite (rsum_ext m _ (fun _ => 0)) by (intros e He; rewrite H by exact He; ring). rewrite rsum_0. unfold Rdiv. rewrite Rmult_0_l. apply sqrt_0.
Qed.
Lemma mean_normed : forall m a, (1 <= m)%nat -> std m a <> 0 -> mean m (fun e => (a e - mean m a) / std m a) = 0 /\ std m (fun e => (a e - mean m a) / std m a) = 1.
Proof.
  intros m a Hm Hs. assert (HI : INR m <> 0) by (apply not_0_INR; lia). set (mu := mean m a). set (sg := std m a) in *.
  assert (M : mean m (fun e => (a e - mu) / sg) = 0).
  { unfold mean. unfold Rdiv at 2. rewrite rsum_scal_r, rsum_minus, rsum_const. unfold mu, mean. field. split; assumption. }
  split; [exact M|]. unfold std. rewrite M. rewrite (rsum_ext m _ (fun e => (a e - mu) ^ 2 * (/ sg * / sg))) by (intros; field; assumption). rewrite rsum_scal_r.
  assert (P : 0 <= rsum m (fun e => (a e - mu) ^ 2) / INR m). { apply Rmult_le_pos; [apply rsum_nonneg; intros; apply pow2_ge_0|left; apply Rinv_0_lt_compat; apply lt_0_INR; lia]. }
  assert (Q : sg * sg = rsum m (fun e => (a e - mu) ^ 2) / INR m) by (apply sqrt_sqrt; exact P).
  replace (rsum m (fun e => (a e - mu) ^ 2) * (/ sg * / sg) / INR m) with 1; [apply sqrt_1|]. replace (rsum m (fun e => (a e - mu) ^ 2)) with (sg * sg * INR m) by (rewrite Q; field; exact HI). field. split; assumption.
Qed.
(** broadcasting a column over a table, and over a stack of one table *)
Lemma bc2 : forall f a n m v, m <> 1%nat -> shape a = [n; m] -> exists r, broadcast f a (of1 n v) = Some r /\ shape r = [n; m] /\ forall i e, (i < n)%nat -> (e < m)%nat -> data r [i; e] = f (data a [i; e]) (v i).
Proof.
  intros f a n m v Hm Hs. unfold broadcast, of1. rewrite Hs. cbn [shape rev app bshape data]. destruct (Nat.eqb_spec m 1) as [E|_]; [contradiction|]. cbn [Nat.eqb]. rewrite Nat.eqb_refl. cbn [option_map rev app]. eexists. split; [reflexivity|]. split; [reflexivity|].
  intros i e Hi He. cbn [data rev app bindex Nat.eqb]. destruct (Nat.eqb_spec m 1) as [E|_]; [contradiction|]. destruct (Nat.eqb_spec n 1) as [E|_]; cbn [rev app nth]; [assert (i = 0%nat) as -> by lia|]; reflexivity.
Qed.
Lemma bc3 : forall f a n m v k, m <> 1%nat -> (0 < n)%nat -> (k = 1%nat \/ k = n) -> shape a = [1%nat; n; m] -> exists r, broadcast f a (of1 k v) = Some r /\ shape r = [1%nat; n; m] /\ forall i e, (i < n)%nat -> (e < m)%nat -> data r [0%nat; i; e] = f (data a [0%nat; i; e]) (v (if Nat.eqb k 1 then 0%nat else i)).
Proof.
  intros f a n m v k Hm Hn Hk Hs. unfold broadcast, of1. rewrite Hs. cbn [shape rev app bshape data]. destruct (Nat.eqb_spec m 1) as [E|_]; [contradiction|]. cbn [Nat.eqb].
  assert (B : (if Nat.eqb n k then option_map (cons n) (bshape [1%nat] []) else if Nat.eqb n 1 then option_map (cons k) (bshape [1%nat] []) else if Nat.eqb k 1 then option_map (cons n) (bshape [1%nat] []) else None) = Some [n; 1%nat]).
  { destruct (Nat.eqb_spec n k) as [E|E]; [reflexivity|]. destruct Hk as [->|Hk]; [|congruence]. destruct (Nat.eqb_spec n 1); [congruence|]. reflexivity. }
  cbn [bshape option_map] in B |- *. rewrite B. cbn [option_map rev app]. eexists. split; [reflexivity|]. split; [reflexivity|].
  intros i e Hi He. cbn [data rev app bindex Nat.eqb]. destruct (Nat.eqb_spec m 1) as [E|_]; [contradiction|]. destruct (Nat.eqb_spec n 1) as [E|_]; destruct (Nat.eqb_spec k 1); cbn [rev app nth]; try (assert (i = 0%nat) as -> by lia); reflexivity.
Qed.
(** the data kept by the model, scaled back *)
Lemma training_data_ok : forall nx m X Y J s, (0 < nx)%nat -> m <> 1%nat -> (forall i, (i < nx)%nat -> sigma_x s i <> 0) -> sigma_y s 0%nat <> 0 ->
  exists X' Y' J', training_data nx 1 m s (normed s X) (normed_y s Y) (normed_j s J) = Some (X', Y', J') /\ shape X' = [nx; m] /\ shape Y' = [1%nat; m] /\ shape J' = [1%nat; nx; m] /\
  forall e, (e < m)%nat -> (forall i, (i < nx)%nat -> data X' [i; e] = X i e) /\ data Y' [0%nat; e] = Y 0%nat e /\ (forall i, (i < nx)%nat -> data J' [0%nat; i; e] = J i 0%nat e).
Proof.
  intros nx m X Y J s Hx Hm HS HY. unfold training_data.
  destruct (bc2 Rmult (of2 nx m (normed s X)) nx m (sigma_x s) Hm eq_refl) as (a & -> & Sa & Da). cbn [obind]. destruct (bc2 Rplus a nx m (mu_x s) Hm Sa) as (X' & -> & SX & DX). cbn [obind].
  destruct (bc2 Rmult (of2 1 m (normed_y s Y)) 1 m (sigma_y s) Hm eq_refl) as (b & -> & Sb & Db). cbn [obind]. destruct (bc2 Rplus b 1 m (mu_y s) Hm Sb) as (Y' & -> & SY & DY). cbn [obind].
  match goal with |- context [broadcast Rmult ?A (of1 1 _)] => destruct (bc3 Rmult A nx m (sigma_y s) 1 Hm Hx (or_introl eq_refl) eq_refl) as (c & -> & Sc & Dc) end. cbn [obind]. destruct (bc3 Rdiv c nx m (sigma_x s) nx Hm Hx (or_intror eq_refl) Sc) as (J' & -> & SJ & DJ). cbn [obind].
  exists X', Y', J'. split; [reflexivity|]. do 3 (split; [assumption|]). intros e He. split; [|split].
  - intros i Hi. rewrite DX, Da by assumption. cbn [of2 data nth]. unfold normed. field. apply HS. exact Hi.
  - rewrite DY, Db by (first [assumption|lia]). cbn [of2 data nth]. unfold normed_y. field. exact HY.
  - intros i Hi. rewrite DJ, Dc by assumption. cbn [data nth Nat.eqb]. unfold normed_j. assert (Z : sigma_x s (if Nat.eqb nx 1 then 0%nat else i) = sigma_x s i) by (destruct (Nat.eqb_spec nx 1); [assert (i = 0%nat) as -> by lia|]; reflexivity). rewrite Z. field. split; [exact HY|apply HS; exact Hi].
Qed.
(** normalised derivatives are the derivatives of the normalised function *)
Lemma normed_derivative : forall (F : vec -> R) s n x j d k, (forall i, (i < n)%nat -> sigma_x s i <> 0) -> (j < n)%nat -> (forall a b : vec, (forall i, (i < n)%nat -> a i = b i) -> F a = F b) -> is_partial F x j d ->
  is_partial (fun u => (F (fun i => mu_x s i + sigma_x s i * u i) - mu_y s k) / sigma_y s k) (fun i => (x i - mu_x s i) / sigma_x s i) j (d * sigma_x s j / sigma_y s k).
Proof.
  intros F s n x j d k HS Hj HE HD. unfold is_partial in *. set (u0 := (x j - mu_x s j) / sigma_x s j).
  assert (A : is_derive (fun t : R => F (upd x j (mu_x s j + sigma_x s j * t))) u0 (d * sigma_x s j)).
  { apply (comp_gen (fun t => F (upd x j t)) (fun t => mu_x s j + sigma_x s j * t)); [|auto_derive; [exact I|ring]]. replace (mu_x s j + sigma_x s j * u0) with (x j) by (unfold u0; field; apply HS; exact Hj). exact HD. }
  apply (is_derive_ext (fun t => (F (upd x j (mu_x s j + sigma_x s j * t)) - mu_y s k) * / sigma_y s k)).
  - intros t. unfold Rdiv. match goal with |- ?a = ?b => change (@eq R a b) end. f_equal. f_equal. apply HE. intros i Hi. unfold upd. destruct (Nat.eqb_spec i j) as [->|N]; [reflexivity|]. field. apply HS. exact Hi.
  - replace (d * sigma_x s j / sigma_y s k) with ((d * sigma_x s j - 0) * / sigma_y s k) by (unfold Rdiv; ring). apply (is_derive_scal_l (fun t => F (upd x j (mu_x s j + sigma_x s j * t)) - mu_y s k) u0 (d * sigma_x s j - 0) (/ sigma_y s k)).
    apply (is_derive_minus (K := R_AbsRing) (V := R_NormedModule)); [exact A|apply (is_derive_const (K := R_AbsRing) (V := R_NormedModule))].
Qed.
(** * goodness of fit *)
Definition from_fresh (x y d : table) : points := fun k => match k with O => Some (x, y) | S i => if Nat.ltb i (t_cols x) then Some (x, column d i) else None end.
Lemma fold_entries : forall d x n i0 s, let s' := fold_left (fun s i => set_entry s (S i) (x, column d i)) (seq i0 n) s in
  tp_ref s' = tp_ref s /\ a_nt s' = a_nt s /\ a_nx s' = a_nx s /\ a_ny s' = a_ny s /\ a_model s' = a_model s /\ stored s' 0%nat = stored s 0%nat /\
  forall i, stored s' (S i) = if Nat.leb i0 i && Nat.ltb i (i0 + n) then Some (x, column d i) else stored s (S i).
Proof.
  intros d x. induction n as [|n IH]; intros i0 s; cbn [seq fold_left].
  - repeat split. intros i. destruct (Nat.leb_spec i0 i); destruct (Nat.ltb_spec i (i0 + 0)); cbn [andb]; try reflexivity; lia.
  - destruct (IH (S i0) (set_entry s (S i0) (x, column d i0))) as (A1 & A2 & A3 & A4 & A5 & A6 & A7). cbv zeta in *. rewrite A1, A2, A3, A4, A5, A6. repeat split.
    + unfold stored, set_entry. cbn [heap tp_ref]. rewrite Nat.eqb_refl. reflexivity.
    + intros i. rewrite A7. unfold stored at 1. unfold set_entry at 1 2. cbn [heap tp_ref]. rewrite Nat.eqb_refl. destruct (Nat.leb_spec (S i0) i); destruct (Nat.ltb_spec i (S i0 + n)); destruct (Nat.leb_spec i0 i); destruct (Nat.ltb_spec i (i0 + S n)); cbn [andb]; try lia; try reflexivity; cbn [Nat.eqb]; destruct (Nat.eqb_spec i i0) as [->|N]; try lia; reflexivity.
Qed.
Lemma load_ok : forall s x y d s' , load_smt_data s x y (Some d) = (s', true) -> tp_ref s' = tp_ref s /\ a_model s' = a_model s /\ a_nx s' = t_cols x /\ a_nt s' = t_rows x /\ a_ny s' = t_cols y /\ t_rows x = t_rows y /\ stored s' 0%nat = Some (x, y) /\ forall i, stored s' (S i) = if Nat.ltb i (t_cols x) then Some (x, column d i) else stored s (S i).
Proof.
  intros s x y d s' E. unfold load_smt_data in E. destruct (Nat.eqb_spec (t_rows x) (t_rows y)) as [R|R]; cbn [negb] in E; [|discriminate]. destruct (_ && _); [|discriminate]. injection E as <-.
  destruct (fold_entries d x (t_cols x) 0 (set_training_values s x y)) as (A1 & A2 & A3 & A4 & A5 & A6 & A7). cbv zeta in *. rewrite A1, A2, A3, A4, A5, A6. repeat split; try reflexivity; try exact R.
  - unfold stored, set_training_values, set_entry. cbn [heap tp_ref]. rewrite Nat.eqb_refl. reflexivity.
  - intros i. rewrite A7. cbn [Nat.leb Nat.add andb]. destruct (Nat.ltb_spec i (t_cols x)); [reflexivity|]. unfold stored, set_training_values, set_entry. cbn [heap tp_ref]. rewrite Nat.eqb_refl. reflexivity.
Qed.
Lemma smt_to_genn_ext : forall tp tp' x y, tp 0%nat = Some (x, y) -> tp' 0%nat = Some (x, y) -> (forall i, (i < t_cols x)%nat -> tp (S i) = tp' (S i)) -> smt_to_genn tp = smt_to_genn tp'.
Proof.
  intros tp tp' x y E E' H. unfold smt_to_genn. rewrite E, E'.
  assert (F : forall l, (forall k, In k l -> (k < t_cols x)%nat) -> forallb (fun k => match tp (S k) with Some (x', d) => derivative_ok (t_rows x) (t_cols x) (t_cols y) x x' d | None => false end) l = forallb (fun k => match tp' (S k) with Some (x', d) => derivative_ok (t_rows x) (t_cols x) (t_cols y) x x' d | None => false end) l).
  { induction l as [|k l IH]; intros Hl; [reflexivity|]. cbn [forallb]. rewrite (H k) by (apply Hl; left; reflexivity). rewrite IH by (intros; apply Hl; right; assumption). reflexivity. }
  rewrite (F (seq 0 (t_cols x))) by (intros k Hk; apply in_seq in Hk; lia). destruct (forallb _ _); [|reflexivity]. do 2 f_equal. apply functional_extensionality. intros j. apply functional_extensionality. intros k. apply functional_extensionality. intros e. destruct (Nat.ltb_spec j (t_cols x)) as [L|L]; [rewrite (H j L)|]; reflexivity.
Qed.
Lemma gof_ok : forall plots s x y d s', goodness_of_fit plots s x y (Some d) = (s', true) -> tp_ref s' = tp_ref s /\ a_model s' = a_model s /\ a_nx s' = t_cols x /\ stored s' 0%nat = Some (x, y) /\ (forall i, (i < t_cols x)%nat -> stored s' (S i) = Some (x, column d i)) /\ smt_to_genn (stored s') = smt_to_genn (from_fresh x y d).
Proof.
  intros plots s x y d s' E. unfold goodness_of_fit in E. destruct (load_smt_data s x y (Some d)) as [s1 ok] eqn:EL. destruct ok; cbn [negb] in E; [|discriminate]. destruct (load_ok _ _ _ _ _ EL) as (A1 & A2 & A3 & A4 & A5 & A6 & A7 & A8).
  destruct (smt_to_genn (stored s1)); try discriminate. destruct (plots (a_model s1) (stored s1)); [|discriminate]. injection E as <-. cbn [tp_ref a_model a_nx]. unfold stored. cbn [heap tp_ref]. rewrite <- A1. fold (stored s1). split; [reflexivity|]. split; [exact A2|]. split; [exact A3|]. split; [exact A7|].
  assert (B : forall i, (i < t_cols x)%nat -> stored s1 (S i) = Some (x, column d i)). { intros i Hi. rewrite A8. destruct (Nat.ltb_spec i (t_cols x)); [reflexivity|lia]. }
  split; [exact B|]. apply (smt_to_genn_ext _ _ x y); [exact A7|reflexivity|]. intros i Hi. rewrite B by exact Hi. cbn [from_fresh]. destruct (Nat.ltb_spec i (t_cols x)); [reflexivity|lia].
Qed.
(** even when it fails, the values and the sizes have been replaced *)
Lemma gof_any : forall plots s x y d s' ok, t_rows x = t_rows y -> goodness_of_fit plots s x y d = (s', ok) -> stored s' 0%nat = Some (x, y) /\ a_nx s' = t_cols x /\ a_model s' = a_model s.
Proof.
  intros plots s x y d s' ok R E. unfold goodness_of_fit in E.
  assert (L : forall s1 b, load_smt_data s x y d = (s1, b) -> stored s1 0%nat = Some (x, y) /\ a_nx s1 = t_cols x /\ a_model s1 = a_model s /\ tp_ref s1 = tp_ref s).
  { intros s1 b E1. unfold load_smt_data in E1. rewrite R, Nat.eqb_refl in E1. cbn [negb] in E1. assert (V : stored (set_training_values s x y) 0%nat = Some (x, y)) by (unfold stored, set_training_values, set_entry; cbn [heap tp_ref]; rewrite Nat.eqb_refl; reflexivity).
    destruct d as [d|]; [|injection E1 as <- <-; repeat split; exact V]. destruct (_ && _); injection E1 as <- <-; [|repeat split; exact V].
    destruct (fold_entries d x (t_cols x) 0 (set_training_values s x y)) as (A1 & A2 & A3 & A4 & A5 & A6 & A7). cbv zeta in *. rewrite A1, A3, A5, A6. repeat split. exact V. }
  destruct (load_smt_data s x y d) as [s1 b]. destruct (L s1 b eq_refl) as (V & N & M & T). destruct b; cbn [negb] in E; [|injection E as <- <-; repeat split; assumption].
  destruct (smt_to_genn (stored s1)) as [r| |]; [destruct (plots (a_model s1) (stored s1))| |]; injection E as <- <-; try (repeat split; assumption). cbn [a_nx a_model]. unfold stored in *. cbn [heap tp_ref]. rewrite <- T. repeat split; assumption.
Qed.
