(** C112: change of units, GENN. *)
From Coq Require Import Reals ZArith Arith Lia Lra Bool List FunctionalExtensionality.
From Verif Require Import RSum Genn_M Genn_S Genn_P4 GennOpt_M GennTrain_M GennUnits_S.
Import ListNotations.
Open Scope list_scope.
Open Scope R_scope.

Section U.
Variables (A B a b : vec).
Hypothesis HA : forall i, 0 < A i.
Hypothesis Ha : forall i, 0 < a i.
Lemma mean_u m (v : vec) c d : (0 < m)%nat -> GennTrain_M.mean m (fun e => c * v e + d) = c * GennTrain_M.mean m v + d.
Proof. intros N. unfold GennTrain_M.mean. rewrite rsum_plus, rsum_scal_l, rsum_const. assert (0 < INR m) by (apply lt_0_INR; exact N). field. lra. Qed.
Lemma std_u m (v : vec) c d : (0 < m)%nat -> 0 < c -> GennTrain_M.std m (fun e => c * v e + d) = c * GennTrain_M.std m v.
Proof.
  intros N P. unfold GennTrain_M.std. rewrite mean_u by exact N.
  rewrite (rsum_ext m _ (fun e => (c * c) * (v e - GennTrain_M.mean m v) ^ 2)) by (intros; ring). rewrite rsum_scal_l.
  assert (0 < INR m) by (apply lt_0_INR; exact N). replace (c * c * rsum m (fun i => (v i - GennTrain_M.mean m v) ^ 2) / INR m) with ((c * c) * (rsum m (fun i => (v i - GennTrain_M.mean m v) ^ 2) / INR m)) by (unfold Rdiv; ring).
  rewrite sqrt_mult_alt by nra. rewrite sqrt_square by lra. reflexivity.
Qed.
Lemma scale_u m X Y : (0 < m)%nat -> scale_of m (fun i e => A i * X i e + B i) (fun k e => a k * Y k e + b k) = conv_scaling A B a b (scale_of m X Y).
Proof.
  intros N. unfold scale_of, conv_scaling. cbn [mu_x sigma_x mu_y sigma_y]. f_equal; apply functional_extensionality; intros i; (apply mean_u; exact N) || (apply std_u; [exact N|auto]).
Qed.
Lemma norm_u c d x mu sg : 0 < c -> (sg = 0 -> c = 1 /\ d = 0) -> (c * x + d - (c * mu + d)) / (c * sg) = (x - mu) / sg.
Proof.
  intros P HZ. destruct (Req_dec sg 0) as [E|N].
  - destruct (HZ E) as [-> ->]. f_equal; ring.
  - replace (c * x + d - (c * mu + d)) with (c * (x - mu)) by ring. field. split; lra.
Qed.
Section S.
Variable s : scaling.
Hypothesis Zx : forall i, sigma_x s i = 0 -> A i = 1 /\ B i = 0.
Hypothesis Zy : forall k, sigma_y s k = 0 -> a k = 1 /\ b k = 0.
Lemma normed_u X : normed (conv_scaling A B a b s) (fun i e => A i * X i e + B i) = normed s X.
Proof. apply functional_extensionality. intros i. apply functional_extensionality. intros e. unfold normed, conv_scaling. cbn [mu_x sigma_x]. apply norm_u; auto. Qed.
Lemma normed_y_u Y : normed_y (conv_scaling A B a b s) (fun k e => a k * Y k e + b k) = normed_y s Y.
Proof. apply functional_extensionality. intros i. apply functional_extensionality. intros e. unfold normed_y, conv_scaling. cbn [mu_y sigma_y]. apply norm_u; auto. Qed.
Lemma normed_j_u J : normed_j (conv_scaling A B a b s) (fun j k e => a k * J j k e / A j) = normed_j s J.
Proof.
  apply functional_extensionality. intros j. apply functional_extensionality. intros k. apply functional_extensionality. intros e. unfold normed_j, conv_scaling. cbn [sigma_x sigma_y].
  pose proof (HA j). pose proof (Ha k). destruct (Req_dec (sigma_y s k) 0) as [E|N].
  - destruct (Zy k E) as [-> _]. rewrite !Rmult_1_l. f_equal. field. lra.
  - field. repeat split; lra.
Qed.
End S.
Lemma smt_u (tp : points) : (forall j x d, tp (S j) = Some (x, d) -> exists y, tp 0%nat = Some (x, y)) ->
  smt_to_genn (conv_points A B a b tp) = match smt_to_genn tp with
    | Ret (m, nx, ny, X, Y, J) => Ret (m, nx, ny, (fun i e => A i * X i e + B i), (fun k e => a k * Y k e + b k), (fun j k e => a k * J j k e / A j))
    | Raise => Raise | Loop => Loop end.
Proof.
  intros H. unfold smt_to_genn, conv_points. destruct (tp 0%nat) as [[x y]|] eqn:E0; [|reflexivity]. cbn [t_rows t_cols t_val].
  match goal with |- (if forallb ?f ?l then _ else _) = match (if forallb ?g ?l then _ else _) with _ => _ end => assert (Q : forallb f l = forallb g l) end.
  { generalize (seq 0 (t_cols x)). intros l. induction l as [|k l IH]; [reflexivity|]. cbn [forallb]. f_equal; [|exact IH].
    destruct (tp (S k)) as [[x' d]|] eqn:Ek; [|reflexivity]. destruct (H k x' d Ek) as [y' Ey]. assert (EE : Some (x, y) = Some (x', y')) by congruence. injection EE as <- <-.
    unfold derivative_ok. cbn [t_rows t_cols]. f_equal. rewrite !Bool.eqb_reflx. reflexivity. }
  rewrite Q. match goal with |- (if ?c then _ else _) = _ => destruct c end; [|reflexivity]. f_equal. f_equal. apply functional_extensionality. intros j. apply functional_extensionality. intros k. apply functional_extensionality. intros e.
  destruct (Nat.ltb j (t_cols x)); [|unfold Rdiv; ring]. destruct (tp (S j)) as [[x' d]|]; [reflexivity|unfold Rdiv; ring].
Qed.
Section T.
Variable rng : Type.
Variable seeded : Z -> rng.
Variable permutation : rng -> nat -> list nat * rng.
Variable initial : rng -> list nat -> params * rng.
Variable entropy : nat -> rng.
Lemma genn_units fuel o (tp : points) g x y : (forall j x d, tp (S j) = Some (x, d) -> exists y, tp 0%nat = Some (x, y)) -> tp 0%nat = Some (x, y) -> (0 < t_rows x)%nat ->
  (forall i, GennTrain_M.std (t_rows x) (fun e => t_val x e i) = 0 -> A i = 1 /\ B i = 0) -> (forall k, GennTrain_M.std (t_rows x) (fun e => t_val y e k) = 0 -> a k = 1 /\ b k = 0) ->
  genn_train rng seeded permutation initial entropy fuel o (conv_points A B a b tp) g = match genn_train rng seeded permutation initial entropy fuel o tp g with
    | Ret (n, h, g') => Ret (conv_network A B a b n, h, g') | Raise => Raise | Loop => Loop end.
Proof.
  intros H E0 N Zx Zy. unfold genn_train. rewrite smt_u by exact H. unfold smt_to_genn. rewrite E0.
  destruct (forallb _ _); [|reflexivity]. cbn [rbind]. destruct (initial g _) as [p g1]. unfold model_train, normalize_data.
  set (m := t_rows x) in *. set (X := fun i e => t_val x e i). set (Y := fun k e => t_val y e k).
  change (fun i e => A i * t_val x e i + B i) with (fun i e => A i * X i e + B i). change (fun k e => a k * t_val y e k + b k) with (fun k e => a k * Y k e + b k).
  rewrite (scale_u m X Y N). cbn [option_map].
  rewrite (normed_u (scale_of m X Y) Zx X), (normed_y_u (scale_of m X Y) Zy Y), (normed_j_u (scale_of m X Y) Zy (fun j k e : nat => if Nat.ltb j (t_cols x) then match tp (S j) with Some (_, d) => t_val d e k | None => 0 end else 0)).
  match goal with |- rbind ?t _ = _ => destruct t as [[[p' h] g']| |] end; reflexivity.
Qed.
End T.
Lemma values_units n nx ny m (x D D' : arr) : (forall i, sigma_x (net_scaling n) i = 0 -> A i = 1 /\ B i = 0) ->
  network_values n nx ny m x = Some D -> network_values (conv_network A B a b n) nx ny m (fun e i => A i * x e i + B i) = Some D' ->
  forall e k, (e < m)%nat -> (k < ny)%nat -> D' e k = a k * D e k + b k.
Proof.
  intros Zx E E' e k He Hk. unfold network_values, predict_values in *.
  destruct (evaluate_ok (layers (net_dims n) (net_params n)) (net_scaling n) nx ny nx m (fun i e => x e i) eq_refl) as (Y1 & F1 & S1 & D1). rewrite F1 in E. cbn [option_map] in E. injection E as <-.
  destruct (evaluate_ok (layers (net_dims (conv_network A B a b n)) (net_params (conv_network A B a b n))) (net_scaling (conv_network A B a b n)) nx ny nx m (fun i e => A i * x e i + B i) eq_refl) as (Y2 & F2 & S2 & D2). rewrite F2 in E'. cbn [option_map] in E'. injection E' as <-.
  rewrite D1, D2 by assumption. unfold scaled, conv_network, conv_scaling. cbn [net_dims net_params net_scaling mu_x sigma_x mu_y sigma_y].
  match goal with |- net _ ?v k * _ + _ = a k * (net _ ?w k * _ + _) + _ => replace v with w end; [ring|].
  apply functional_extensionality. intros i. symmetry. apply norm_u; auto.
Qed.
Lemma derivs_units n nx m (x D D' : arr) kx : m <> 1%nat -> (kx < nx)%nat -> (forall i, sigma_x (net_scaling n) i = 0 -> A i = 1 /\ B i = 0) ->
  network_derivatives n nx 1 m x kx = Some D -> network_derivatives (conv_network A B a b n) nx 1 m (fun e i => A i * x e i + B i) kx = Some D' ->
  forall e, (e < m)%nat -> D' e 0%nat = a 0%nat * D e 0%nat / A kx.
Proof.
  intros M Hk Zx E E' e He. unfold network_derivatives, predict_derivatives in *.
  destruct (gradient_many_one (layers (net_dims n) (net_params n)) (net_scaling n) nx 1 m (fun i e => x e i) M eq_refl ltac:(lia)) as (G1 & F1 & S1 & D1). rewrite F1 in E. cbn [obind] in E.
  destruct (gradient_many_one (layers (net_dims (conv_network A B a b n)) (net_params (conv_network A B a b n))) (net_scaling (conv_network A B a b n)) nx 1 m (fun i e => A i * x e i + B i) M eq_refl ltac:(lia)) as (G2 & F2 & S2 & D2). rewrite F2 in E'. cbn [obind] in E'.
  destruct (Nat.ltb_spec kx nx) as [_|L]; [|lia]. injection E as <-. injection E' as <-. rewrite D1, D2 by lia.
  cbn [conv_network net_dims net_params net_scaling]. rewrite (normed_u (net_scaling n) Zx (fun i e => x e i)).
  set (j := fst _ kx 0%nat e). unfold conv_scaling. cbn [sigma_x sigma_y]. destruct (Req_dec (sigma_x (net_scaling n) kx) 0) as [Z|N].
  - destruct (Zx kx Z) as [-> _]. unfold Rdiv. rewrite Rmult_1_l, Rinv_1. ring.
  - pose proof (HA kx). field. split; lra.
Qed.
End U.
