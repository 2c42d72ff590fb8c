(** Back-propagation. *)
From Coq Require Import Reals Arith Lia Lra Bool List.
From Coquelicot Require Import Coquelicot.
From Verif Require Import RSum Rbf_P Poly_P Problems_P Problems_P2 Genn_M Genn_S Genn_P1.
Import ListNotations.
Open Scope list_scope.
Open Scope R_scope.
(** ** the layer step in one formula *)
Section Layer.
Variables (l : layer) (A Z : arr) (Z' A' : arr3) (nx m : nat) (lambd gamma : R) (dA : arr) (dA' : arr3).
Let g1 (i e : nat) : R := a_first (act l) (Z i e).
Let g2 (i e : nat) : R := a_second (act l) (Z i e).
Let out := layer_backward l (A, Z) (Z', A') nx m lambd gamma dA dA'.
Lemma zero_sum (f : nat -> R) (h : nat -> R) : gamma = 0 -> (forall j, h j = gamma * f j) -> rsum nx h = 0.
Proof. intros E H. apply rsum_zero. intros j _. rewrite H, E. ring. Qed.
Lemma lb_W p q : dW (fst (fst out)) p q = (rsum m (fun e => g1 p e * dA p e * A q e) + lambd * weight l p q +
  gamma * rsum nx (fun j => rsum m (fun e => dA' j p e * g2 p e * Z' j p e * A q e) + rsum m (fun e => dA' j p e * g1 p e * A' j q e))) / INR m.
Proof.
  unfold out, layer_backward, g1, g2. destruct (Req_EM_T gamma 0) as [E|E]; cbn [fst dW].
  - rewrite E. unfold Rdiv. ring.
  - rewrite rsum_scal_l. unfold Rdiv. ring.
Qed.
Lemma lb_b p : db (fst (fst out)) p = (rsum m (fun e => g1 p e * dA p e) + gamma * rsum nx (fun j => rsum m (fun e => dA' j p e * g2 p e * Z' j p e))) / INR m.
Proof.
  unfold out, layer_backward, g1, g2. destruct (Req_EM_T gamma 0) as [E|E]; cbn [fst db].
  - rewrite E. unfold Rdiv. ring.
  - rewrite rsum_scal_l. unfold Rdiv. ring.
Qed.
Lemma lb_P q e : snd (fst out) q e = rsum (n_out l) (fun i => weight l i q * (g1 i e * dA i e)) + gamma * rsum nx (fun j => rsum (n_out l) (fun i => weight l i q * (dA' j i e * g2 i e * Z' j i e))).
Proof.
  unfold out, layer_backward, g1, g2. destruct (Req_EM_T gamma 0) as [E|E]; cbn [fst snd].
  - rewrite E. ring.
  - rewrite rsum_scal_l. ring.
Qed.
Lemma lb_P' j q e : snd out j q e = gamma * rsum (n_out l) (fun i => weight l i q * (dA' j i e * g1 i e)).
Proof.
  unfold out, layer_backward, g1. destruct (Req_EM_T gamma 0) as [E|E]; cbn [snd]; [rewrite E; ring|reflexivity].
Qed.
End Layer.
(** ** tangent of one layer, for a curve of layers and of states *)
Definition tan_z (dw : arr) (dbv : vec) (l : layer) (A a : arr) : arr := fun i e => rsum (n_in l) (fun q => dw i q * A q e + weight l i q * a q e) + dbv i.
Definition tan_z' (dw : arr) (l : layer) (A' a' : arr3) : arr3 := fun j i e => rsum (n_in l) (fun q => dw i q * A' j q e + weight l i q * a' j q e).
Definition step_A (l : layer) (A : arr) : arr := fun i e => a_eval (act l) (linear l A i e).
Definition step_A' (l : layer) (A : arr) (A' : arr3) : arr3 := fun j i e => a_first (act l) (linear l A i e) * linear' l A' j i e.
Definition tan_A (l : layer) (A : arr) (dz : arr) : arr := fun i e => a_first (act l) (linear l A i e) * dz i e.
Definition tan_A' (l : layer) (A : arr) (A' : arr3) (dz : arr) (dz' : arr3) : arr3 := fun j i e => a_second (act l) (linear l A i e) * dz i e * linear' l A' j i e + a_first (act l) (linear l A i e) * dz' j i e.
Section Tangent.
Variables (L : R -> layer) (A : R -> arr) (A' : R -> arr3) (t0 : R) (dw : arr) (dbv : vec) (a : arr) (a' : arr3).
Hypothesis Hn : forall t, n_in (L t) = n_in (L t0).
Hypothesis Hg : forall t, act (L t) = act (L t0).
Hypothesis Hw : forall i q, is_derive (fun t => weight (L t) i q) t0 (dw i q).
Hypothesis Hb : forall i, is_derive (fun t => bias (L t) i) t0 (dbv i).
Lemma tangent_z i e : (forall q, (q < n_in (L t0))%nat -> is_derive (fun t => A t q e) t0 (a q e)) -> is_derive (fun t => linear (L t) (A t) i e) t0 (tan_z dw dbv (L t0) (A t0) a i e).
Proof.
  intros H. unfold linear, tan_z. apply (is_derive_ext (fun t => rsum (n_in (L t0)) (fun q => weight (L t) i q * A t q e) + bias (L t) i)); [intros t; rewrite (Hn t); reflexivity|].
  apply (is_derive_plus (K := R_AbsRing) (V := R_NormedModule)); [|apply Hb]. apply (is_derive_rsum (n_in (L t0)) (fun q t => weight (L t) i q * A t q e)). intros q Hq.
  apply (derive_mul (fun t => weight (L t) i q) (fun t => A t q e)); [apply Hw|apply H; exact Hq].
Qed.
Lemma tangent_z' j i e : (forall q, (q < n_in (L t0))%nat -> is_derive (fun t => A' t j q e) t0 (a' j q e)) -> is_derive (fun t => linear' (L t) (A' t) j i e) t0 (tan_z' dw (L t0) (A' t0) a' j i e).
Proof.
  intros H. unfold linear', tan_z'. apply (is_derive_ext (fun t => rsum (n_in (L t0)) (fun q => weight (L t) i q * A' t j q e))); [intros t; rewrite (Hn t); reflexivity|].
  apply (is_derive_rsum (n_in (L t0)) (fun q t => weight (L t) i q * A' t j q e)). intros q Hq. apply (derive_mul (fun t => weight (L t) i q) (fun t => A' t j q e)); [apply Hw|apply H; exact Hq].
Qed.
Lemma tangent_A i e : (forall q, (q < n_in (L t0))%nat -> is_derive (fun t => A t q e) t0 (a q e)) -> is_derive (fun t => step_A (L t) (A t) i e) t0 (tan_A (L t0) (A t0) (tan_z dw dbv (L t0) (A t0) a) i e).
Proof.
  intros H. unfold step_A, tan_A. apply (is_derive_ext (fun t => a_eval (act (L t0)) (linear (L t) (A t) i e))); [intros t; rewrite (Hg t); reflexivity|].
  apply (trig_derive (a_eval (act (L t0))) (a_first (act (L t0))) (fun t => linear (L t) (A t) i e)); [apply eval_derive|apply tangent_z; exact H].
Qed.
Lemma tangent_A' j i e : (forall q, (q < n_in (L t0))%nat -> is_derive (fun t => A t q e) t0 (a q e)) -> (forall q, (q < n_in (L t0))%nat -> is_derive (fun t => A' t j q e) t0 (a' j q e)) ->
  is_derive (fun t => step_A' (L t) (A t) (A' t) j i e) t0 (tan_A' (L t0) (A t0) (A' t0) (tan_z dw dbv (L t0) (A t0) a) (tan_z' dw (L t0) (A' t0) a') j i e).
Proof.
  intros H H'. unfold step_A', tan_A'. apply (is_derive_ext (fun t => a_first (act (L t0)) (linear (L t) (A t) i e) * linear' (L t) (A' t) j i e)); [intros t; rewrite (Hg t); reflexivity|].
  apply (derive_mul (fun t => a_first (act (L t0)) (linear (L t) (A t) i e)) (fun t => linear' (L t) (A' t) j i e)); [|apply tangent_z'; exact H'].
  apply (trig_derive (a_first (act (L t0))) (a_second (act (L t0))) (fun t => linear (L t) (A t) i e)); [apply first_derive|apply tangent_z; exact H].
Qed.
End Tangent.
(** ** pairing of adjoints and tangents *)
Section Adjoint.
Variables (ny nx m : nat) (Y : arr) (DY : arr3) (lambd gamma : R).
Definition pair (n : nat) (v : arr) (v' : arr3) (a : arr) (a' : arr3) : R :=
  rsum m (fun e => rsum n (fun i => v i e * a i e) + gamma * rsum nx (fun j => rsum n (fun i => v' j i e * a' j i e))).
Definition loss (P : arr) (DP : arr3) : R :=
  rsum m (fun e => rsum ny (fun k => (P k e - Y k e) ^ 2)) / 2 + gamma * rsum m (fun e => rsum ny (fun k => rsum nx (fun j => (DP j k e - DY j k e) ^ 2))) / 2.
Lemma sq_derive (f : R -> R) t0 d c : is_derive f t0 d -> is_derive (fun t => (f t - c) ^ 2) t0 (2 * ((f t0 - c) * d)).
Proof.
  intros H. assert (H2 : is_derive (fun t => f t - c) t0 d). { replace d with (d - 0) by ring. apply (is_derive_minus (K := R_AbsRing) (V := R_NormedModule)); [exact H|apply derive_cst]. }
  pose proof (derive_mul _ _ t0 _ _ H2 H2) as M. cbv beta in M. apply (is_derive_ext (fun t => (f t - c) * (f t - c))); [intros; match goal with |- ?a = ?b => change (@eq R a b) end; ring|].
  match type of M with is_derive _ _ ?q => replace (2 * ((f t0 - c) * d)) with q by ring end. exact M.
Qed.
Lemma loss_derive (A : R -> arr) (A' : R -> arr3) t0 a a' : (forall i e, (i < ny)%nat -> is_derive (fun t => A t i e) t0 (a i e)) -> (forall j i e, (i < ny)%nat -> is_derive (fun t => A' t j i e) t0 (a' j i e)) ->
  is_derive (fun t => loss (A t) (A' t)) t0 (pair ny (fun k e => A t0 k e - Y k e) (fun j k e => A' t0 j k e - DY j k e) a a').
Proof.
  intros H H'. unfold loss, pair.
  replace (rsum m (fun e => rsum ny (fun i => (A t0 i e - Y i e) * a i e) + gamma * rsum nx (fun j => rsum ny (fun i => (A' t0 j i e - DY j i e) * a' j i e))))
    with (/ 2 * rsum m (fun e => rsum ny (fun k => 2 * ((A t0 k e - Y k e) * a k e))) + gamma / 2 * rsum m (fun e => rsum ny (fun k => rsum nx (fun j => 2 * ((A' t0 j k e - DY j k e) * a' j k e))))).
  - apply (is_derive_plus (K := R_AbsRing) (V := R_NormedModule)).
    + apply (is_derive_ext (fun t => / 2 * rsum m (fun e => rsum ny (fun k => (A t k e - Y k e) ^ 2)))); [intros; match goal with |- ?a = ?b => change (@eq R a b) end; unfold Rdiv; ring|].
      apply is_derive_scal. apply (is_derive_rsum m (fun e t => rsum ny (fun k => (A t k e - Y k e) ^ 2))). intros e He. apply (is_derive_rsum ny (fun k t => (A t k e - Y k e) ^ 2)). intros k Hk. apply sq_derive. apply H. exact Hk.
    + apply (is_derive_ext (fun t => gamma / 2 * rsum m (fun e => rsum ny (fun k => rsum nx (fun j => (A' t j k e - DY j k e) ^ 2))))); [intros; match goal with |- ?a = ?b => change (@eq R a b) end; unfold Rdiv; ring|].
      apply is_derive_scal. apply (is_derive_rsum m (fun e t => rsum ny (fun k => rsum nx (fun j => (A' t j k e - DY j k e) ^ 2)))). intros e He. apply (is_derive_rsum ny (fun k t => rsum nx (fun j => (A' t j k e - DY j k e) ^ 2))). intros k Hk.
      apply (is_derive_rsum nx (fun j t => (A' t j k e - DY j k e) ^ 2)). intros j Hj. apply sq_derive. apply H'. exact Hk.
  - rewrite <- !rsum_scal_l, <- rsum_plus. apply rsum_ext. intros e He. rewrite !rsum_scal_l. f_equal; [field|].
    rewrite (rsum_ext ny (fun k => rsum nx (fun j => 2 * ((A' t0 j k e - DY j k e) * a' j k e))) (fun k => 2 * rsum nx (fun j => (A' t0 j k e - DY j k e) * a' j k e))) by (intros; apply rsum_scal_l). rewrite rsum_scal_l, rsum_swap. field.
Qed.
(** the transposed product *)
Lemma transpose no ni (w : arr) (c : vec) (a : vec) : rsum no (fun i => c i * rsum ni (fun q => w i q * a q)) = rsum ni (fun q => rsum no (fun i => w i q * c i) * a q).
Proof.
  rewrite (rsum_ext no _ (fun i => rsum ni (fun q => w i q * c i * a q))) by (intros; rewrite <- rsum_scal_l; apply rsum_ext; intros; ring).
  rewrite rsum_swap. apply rsum_ext. intros q _. rewrite (Rmult_comm (rsum no _)), <- rsum_scal_l. apply rsum_ext. intros. ring.
Qed.
Definition no_w : arr := fun _ _ => 0.
Definition no_b : vec := fun _ => 0.
Lemma adjoint_step l A A' v v' a a' : gamma * gamma = gamma ->
  pair (n_out l) v v' (tan_A l A (tan_z no_w no_b l A a)) (tan_A' l A A' (tan_z no_w no_b l A a) (tan_z' no_w l A' a')) =
  pair (n_in l) (snd (fst (layer_backward l (A, linear l A) (linear' l A', A') nx m lambd gamma v v'))) (snd (layer_backward l (A, linear l A) (linear' l A', A') nx m lambd gamma v v')) a a'.
Proof.
  intros G. unfold pair. apply rsum_ext. intros e He.
  set (g1 := fun i => a_first (act l) (linear l A i e)). set (g2 := fun i => a_second (act l) (linear l A i e)).
  assert (Ez : forall i, tan_z no_w no_b l A a i e = rsum (n_in l) (fun q => weight l i q * a q e)). { intros i. unfold tan_z, no_w, no_b. rewrite Rplus_0_r. apply rsum_ext. intros. ring. }
  assert (Ez' : forall j i, tan_z' no_w l A' a' j i e = rsum (n_in l) (fun q => weight l i q * a' j q e)). { intros j i. unfold tan_z', no_w. apply rsum_ext. intros. ring. }
  rewrite (rsum_ext (n_out l) (fun i => v i e * tan_A l A (tan_z no_w no_b l A a) i e) (fun i => (g1 i * v i e) * rsum (n_in l) (fun q => weight l i q * a q e))) by (intros i Hi; unfold tan_A; rewrite Ez; unfold g1; ring).
  rewrite transpose.
  assert (E2 : forall j, rsum (n_out l) (fun i => v' j i e * tan_A' l A A' (tan_z no_w no_b l A a) (tan_z' no_w l A' a') j i e) =
    rsum (n_in l) (fun q => rsum (n_out l) (fun i => weight l i q * (v' j i e * g2 i * linear' l A' j i e)) * a q e) + rsum (n_in l) (fun q => rsum (n_out l) (fun i => weight l i q * (v' j i e * g1 i)) * a' j q e)).
  { intros j. rewrite <- transpose. rewrite <- (transpose (n_out l) (n_in l) (weight l) (fun i => v' j i e * g1 i) (fun q => a' j q e)). rewrite <- rsum_plus. apply rsum_ext. intros i Hi. unfold tan_A'. rewrite Ez, Ez'. unfold g1, g2. ring. }
  rewrite (rsum_ext nx _ _ (fun j _ => E2 j)). rewrite rsum_plus.
  set (B1 := fun q => rsum (n_out l) (fun i => weight l i q * (g1 i * v i e))). set (B2 := fun j q => rsum (n_out l) (fun i => weight l i q * (v' j i e * g2 i * linear' l A' j i e))).
  set (B3 := fun j q => rsum (n_out l) (fun i => weight l i q * (v' j i e * g1 i))).
  rewrite (rsum_ext (n_in l) (fun i => snd (fst (layer_backward l (A, linear l A) (linear' l A', A') nx m lambd gamma v v')) i e * a i e) (fun q => B1 q * a q e + gamma * rsum nx (fun j => B2 j q * a q e))).
  2:{ intros q Hq. rewrite lb_P. fold (B1 q). rewrite Rmult_plus_distr_r. f_equal. rewrite Rmult_assoc. f_equal. rewrite Rmult_comm, <- rsum_scal_l. apply rsum_ext. intros. unfold B2, g2. ring. }
  rewrite rsum_plus. rewrite (rsum_scal_l (n_in l) gamma). rewrite (rsum_swap (n_in l) nx (fun q j => B2 j q * a q e)).
  rewrite (rsum_ext nx (fun j => rsum (n_in l) (fun i => snd (layer_backward l (A, linear l A) (linear' l A', A') nx m lambd gamma v v') j i e * a' j i e)) (fun j => gamma * rsum (n_in l) (fun q => B3 j q * a' j q e))).
  2:{ intros j Hj. rewrite <- rsum_scal_l. apply rsum_ext. intros q Hq. rewrite lb_P'. unfold B3, g1. ring. }
  rewrite rsum_scal_l. rewrite <- (Rmult_assoc gamma gamma), G. fold B1. cbv beta. unfold B1, B2, B3. ring.
Qed.
Definition fwd (ls : list layer) (A : arr) := fst (L_model_forward ls A).
Definition fwd' (ls : list layer) (A : arr) (A' : arr3) := fst (grads_loop ls A A').
Definition bwd (ls : list layer) (A : arr) (A' : arr3) : list grads * arr * arr3 :=
  backward_loop ls (snd (L_model_forward ls A)) (snd (grads_loop ls A A')) nx m lambd gamma (fun k e => fwd ls A k e - Y k e) (fun j k e => fwd' ls A A' j k e - DY j k e).
Lemma bwd_cons l r A A' : let b := bwd r (step_A l A) (step_A' l A A') in let s := layer_backward l (A, linear l A) (linear' l A', A') nx m lambd gamma (snd (fst b)) (snd b) in
  bwd (l :: r) A A' = (fst (fst s) :: fst (fst b), snd (fst s), snd s).
Proof.
  unfold bwd, fwd, fwd'. rewrite forward_cons, grads_cons. cbn [fst snd backward_loop]. unfold step_A, step_A'.
  destruct (backward_loop r _ _ nx m lambd gamma _ _) as [[gs dA] dA']. cbn [fst snd]. destruct (layer_backward _ _ _ _ _ _ _ _ _) as [[g dP] dP']. reflexivity.
Qed.
Lemma adjoint ls : forall n (A : R -> arr) (A' : R -> arr3) t0 a a', fits n ls ny -> (gamma * gamma = gamma \/ ls = []) ->
  (forall i e, (i < n)%nat -> is_derive (fun t => A t i e) t0 (a i e)) -> (forall j i e, (i < n)%nat -> is_derive (fun t => A' t j i e) t0 (a' j i e)) ->
  is_derive (fun t => loss (fwd ls (A t)) (fwd' ls (A t) (A' t))) t0 (pair n (snd (fst (bwd ls (A t0) (A' t0)))) (snd (bwd ls (A t0) (A' t0))) a a').
Proof.
  induction ls as [|l r IH]; intros n A A' t0 a a' F G H H'; cbn [fits] in F.
  - subst n. apply (loss_derive A A' t0 a a' H H').
  - destruct F as [F1 F2]. assert (G' : gamma * gamma = gamma) by (destruct G as [G|G]; [exact G|discriminate]).
    rewrite bwd_cons. cbn [fst snd]. rewrite <- F1. rewrite <- adjoint_step by exact G'.
    apply (is_derive_ext (fun t => loss (fwd r (step_A l (A t))) (fwd' r (step_A l (A t)) (step_A' l (A t) (A' t))))).
    { intros t. unfold fwd, fwd'. rewrite forward_cons, grads_cons. reflexivity. }
    apply (IH (n_out l) (fun t => step_A l (A t)) (fun t => step_A' l (A t) (A' t))); [exact F2|left; exact G'| |].
    + intros i e Hi. apply (tangent_A (fun _ => l) A t0 no_w no_b a); [reflexivity|reflexivity|intros; apply derive_cst|intros; apply derive_cst|]. intros q Hq. apply H. cbv beta in Hq. lia.
    + intros j i e Hi. apply (tangent_A' (fun _ => l) A A' t0 no_w no_b a a'); [reflexivity|reflexivity|intros; apply derive_cst|intros; apply derive_cst| |]; intros q Hq; [apply H|apply H']; cbv beta in Hq; lia.
Qed.
(** the layer that is varied *)
Definition unit_w (p q : nat) : arr := fun a b => if Nat.eqb a p && Nat.eqb b q then 1 else 0.
Definition unit_b (p : nat) : vec := fun a => if Nat.eqb a p then 1 else 0.
Definition no_a : arr := fun _ _ => 0.
Definition no_a' : arr3 := fun _ _ _ => 0.
Lemma pick_row n p (f : nat -> R) : (p < n)%nat -> rsum n (fun i => (if Nat.eqb i p then 1 else 0) * f i) = f p.
Proof.
  intros H. rewrite (rsum_ext n _ (fun i => if Nat.eqb i p then f p else 0)). 2:{ intros i _. destruct (Nat.eqb_spec i p) as [-> |]; ring. } apply (rsum_single n (fun _ => f p) p H).
Qed.
Lemma unit_z l A p q i e : (q < n_in l)%nat -> tan_z (unit_w p q) no_b l A no_a i e = (if Nat.eqb i p then 1 else 0) * A q e.
Proof.
  intros Hq. unfold tan_z, unit_w, no_b, no_a. rewrite Rplus_0_r. rewrite (rsum_ext (n_in l) _ (fun b => (if Nat.eqb b q then 1 else 0) * ((if Nat.eqb i p then 1 else 0) * A b e))).
  - rewrite pick_row by exact Hq. reflexivity.
  - intros b _. destruct (Nat.eqb i p), (Nat.eqb b q); cbn [andb]; ring.
Qed.
Lemma unit_z' l A' p q j i e : (q < n_in l)%nat -> tan_z' (unit_w p q) l A' no_a' j i e = (if Nat.eqb i p then 1 else 0) * A' j q e.
Proof.
  intros Hq. unfold tan_z', unit_w, no_a'. rewrite (rsum_ext (n_in l) _ (fun b => (if Nat.eqb b q then 1 else 0) * ((if Nat.eqb i p then 1 else 0) * A' j b e))).
  - rewrite pick_row by exact Hq. reflexivity.
  - intros b _. destruct (Nat.eqb i p), (Nat.eqb b q); cbn [andb]; ring.
Qed.
Lemma bias_z l A p i e : tan_z no_w (unit_b p) l A no_a i e = (if Nat.eqb i p then 1 else 0).
Proof. unfold tan_z, no_w, unit_b, no_a. rewrite rsum_zero; [ring|]. intros. ring. Qed.
Lemma bias_z' l A' j i e : tan_z' no_w l A' no_a' j i e = 0.
Proof. unfold tan_z', no_w, no_a'. apply rsum_zero. intros. ring. Qed.
Lemma weight_pair l A A' v v' p q : (p < n_out l)%nat -> (q < n_in l)%nat -> INR m <> 0 ->
  pair (n_out l) v v' (tan_A l A (tan_z (unit_w p q) no_b l A no_a)) (tan_A' l A A' (tan_z (unit_w p q) no_b l A no_a) (tan_z' (unit_w p q) l A' no_a')) + lambd * weight l p q =
  INR m * dW (fst (fst (layer_backward l (A, linear l A) (linear' l A', A') nx m lambd gamma v v'))) p q.
Proof.
  intros Hp Hq Hm. rewrite lb_W. set (Z := linear l A). set (Zp := linear' l A').
  rewrite (rsum_ext nx (fun j => rsum m _ + rsum m _) (fun j => rsum m (fun e => v' j p e * a_second (act l) (Z p e) * Zp j p e * A q e + v' j p e * a_first (act l) (Z p e) * A' j q e))) by (intros; rewrite <- rsum_plus; reflexivity).
  rewrite (rsum_swap nx m). rewrite <- (rsum_scal_l m gamma). match goal with |- _ = INR m * ((?a + ?b + ?c) / _) => replace (INR m * ((a + b + c) / INR m)) with ((a + c) + b) by (field; exact Hm) end.
  f_equal. rewrite <- rsum_plus. unfold pair. apply rsum_ext. intros e He. f_equal; [|f_equal; apply rsum_ext; intros j Hj].
  - rewrite (rsum_ext (n_out l) _ (fun i => (if Nat.eqb i p then 1 else 0) * (a_first (act l) (Z i e) * v i e * A q e))); [apply (pick_row (n_out l) p (fun i => a_first (act l) (Z i e) * v i e * A q e) Hp)|]. intros i Hi. unfold tan_A. rewrite unit_z by exact Hq. unfold Z. ring.
  - rewrite (rsum_ext (n_out l) _ (fun i => (if Nat.eqb i p then 1 else 0) * (v' j i e * a_second (act l) (Z i e) * Zp j i e * A q e + v' j i e * a_first (act l) (Z i e) * A' j q e))).
    + apply (pick_row (n_out l) p (fun i => v' j i e * a_second (act l) (Z i e) * Zp j i e * A q e + v' j i e * a_first (act l) (Z i e) * A' j q e) Hp).
    + intros i Hi. unfold tan_A'. rewrite unit_z, unit_z' by exact Hq. unfold Z, Zp. ring.
Qed.
Lemma bias_pair l A A' v v' p : (p < n_out l)%nat -> INR m <> 0 ->
  pair (n_out l) v v' (tan_A l A (tan_z no_w (unit_b p) l A no_a)) (tan_A' l A A' (tan_z no_w (unit_b p) l A no_a) (tan_z' no_w l A' no_a')) =
  INR m * db (fst (fst (layer_backward l (A, linear l A) (linear' l A', A') nx m lambd gamma v v'))) p.
Proof.
  intros Hp Hm. rewrite lb_b. set (Z := linear l A). set (Zp := linear' l A').
  rewrite (rsum_swap nx m). rewrite <- (rsum_scal_l m gamma). match goal with |- _ = INR m * ((?a + ?c) / _) => replace (INR m * ((a + c) / INR m)) with (a + c) by (field; exact Hm) end.
  rewrite <- rsum_plus. unfold pair. apply rsum_ext. intros e He. f_equal; [|f_equal; apply rsum_ext; intros j Hj].
  - rewrite (rsum_ext (n_out l) _ (fun i => (if Nat.eqb i p then 1 else 0) * (a_first (act l) (Z i e) * v i e))); [apply (pick_row (n_out l) p (fun i => a_first (act l) (Z i e) * v i e) Hp)|]. intros i Hi. unfold tan_A. rewrite bias_z. unfold Z. ring.
  - rewrite (rsum_ext (n_out l) _ (fun i => (if Nat.eqb i p then 1 else 0) * (v' j i e * a_second (act l) (Z i e) * Zp j i e))).
    + apply (pick_row (n_out l) p (fun i => v' j i e * a_second (act l) (Z i e) * Zp j i e) Hp).
    + intros i Hi. unfold tan_A'. rewrite bias_z, bias_z'. unfold Z, Zp. ring.
Qed.
End Adjoint.
