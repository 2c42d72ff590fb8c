From Coq Require Import Reals String Bool Arith List Lra Lia FunctionalExtensionality.
From Coquelicot Require Import Coquelicot.
From Verif Require Import RSum Vfm_M Vfm_S.
Import ListNotations.
Open Scope list_scope.
Open Scope R_scope.
Definition no_deriv (d : dict) : dict := del "deriv" d.

Lemma del_absent k d : get k d = None -> del k d = d.
Proof. induction d as [|[k' v] d IH]; cbn; [reflexivity|]. destruct (String.eqb k k'); [discriminate|]. intros H. rewrite (IH H). reflexivity. Qed.
Lemma del_set k v d : get k d = None -> del k (set k v d) = d.
Proof. induction d as [|[k' w] d IH]; cbn; [rewrite String.eqb_refl; reflexivity|]. destruct (String.eqb k k') eqn:E; [discriminate|]. intros H. cbn. rewrite E, (IH H). reflexivity. Qed.
Lemma get_set k v d : get k (set k v d) = Some v.
Proof. induction d as [|[k' w] d IH]; cbn; [rewrite String.eqb_refl; reflexivity|]. destruct (String.eqb k k') eqn:E; cbn; rewrite E; [reflexivity|exact IH]. Qed.
Lemma del_length k d v : get k d = Some v -> S (length (del k d)) = length d.
Proof. induction d as [|[k' w] d IH]; cbn; [discriminate|]. destruct (String.eqb k k'); intros H; [reflexivity|]. cbn. rewrite (IH H). reflexivity. Qed.
Definition uniq (d : dict) : Prop := NoDup (map fst d).
Lemma get_none_in k d : get k d = None <-> ~ In k (map fst d).
Proof.
  induction d as [|[k' v] d IH]; cbn; [tauto|]. destruct (String.eqb_spec k k') as [-> |N]; [split; [discriminate|tauto]|]. rewrite IH. split; [intros H [E|I]; [congruence|tauto]|tauto].
Qed.
Lemma get_del k d : uniq d -> get k (del k d) = None.
Proof.
  induction d as [|[k' v] d IH]; cbn; [reflexivity|]. intros U. inversion U as [|? ? N U']; subst. destruct (String.eqb_spec k k') as [-> |Ne]; [apply get_none_in; exact N|]. cbn. destruct (String.eqb_spec k k'); [congruence|exact (IH U')].
Qed.
Lemma in_del k k' d : In k' (map fst (del k d)) -> In k' (map fst d).
Proof. induction d as [|[k1 w] d IH]; cbn; [tauto|]. destruct (String.eqb k k1); cbn; tauto. Qed.
Lemma uniq_del k d : uniq d -> uniq (del k d).
Proof.
  unfold uniq. induction d as [|[k1 w] d IH]; cbn; [auto|]. intros U. inversion U as [|? ? N D]; subst. destruct (String.eqb k k1); [exact D|]. cbn. constructor; [|exact (IH D)]. intros J. apply N. exact (in_del _ _ _ J).
Qed.
Lemma init_get h a b : get "deriv" (init_deriv h a b) = if Nat.eqb b a then Some (match get "deriv" (h a) with Some v => v | None => VBool false end) else get "deriv" (h b).
Proof.
  unfold init_deriv, store. destruct (get "deriv" (h a)) as [v|] eqn:E; destruct (Nat.eqb_spec b a) as [-> |N]; try reflexivity; [exact E|]. exact (get_set "deriv" (VBool false) (h a)).
Qed.
Lemma init_del h a b : no_deriv (init_deriv h a b) = no_deriv (h b).
Proof.
  unfold init_deriv, store, no_deriv. destruct (get "deriv" (h a)) as [v|] eqn:E; [reflexivity|]. destruct (Nat.eqb_spec b a) as [-> |N]; [|reflexivity]. rewrite del_set, del_absent by exact E. reflexivity.
Qed.
Lemma init_other h a b : b <> a -> init_deriv h a b = h b.
Proof. intros N. unfold init_deriv, store. destruct (get _ _); [reflexivity|]. destruct (Nat.eqb_spec b a); [congruence|reflexivity]. Qed.
Lemma pop_spec h a v h' : pop_deriv h a = Some (v, h') -> get "deriv" (h a) = Some v /\ h' a = no_deriv (h a) /\ forall b, b <> a -> h' b = h b.
Proof.
  unfold pop_deriv, store. destruct (get "deriv" (h a)) as [w|]; [|discriminate]. intros [= <- <-]. split; [reflexivity|]. split; [rewrite Nat.eqb_refl; reflexivity|]. intros b N. destruct (Nat.eqb_spec b a); [congruence|reflexivity].
Qed.
Definition wants (d : dict) : bool := match get "deriv" d with Some v => truthy v | None => false end.

(** every successful training, in full *)
Lemma apply_ok types o h m h' : apply types o h = (Ok m, h') -> uniq (h (o_opt_lf o)) ->
  exists dlf dhf flf fbr, o_data_lf o = Some dlf /\ o_data_hf o = Some dhf /\ resolve types (o_lf o) = Some flf /\ resolve types (o_bridge o) = Some fbr /\
    o_opt_lf o <> o_opt_bridge o /\ h_type m = o_type o /\
    (exists dd, flf (no_deriv (h (o_opt_lf o))) dlf dd = Some (h_lf m) /\ dd = (if wants (h (o_opt_lf o)) then o_dy_lf o else None) /\ (wants (h (o_opt_lf o)) = true -> dd <> None)) /\
    (exists dd, fbr (no_deriv (h (o_opt_bridge o))) (map (bridge_value (o_type o) (h_lf m)) dhf) dd = Some (h_bridge m) /\
       dd = (if wants (h (o_opt_bridge o)) then option_map (fun d => map (bridge_deriv (o_type o) (h_lf m)) (combine dhf d)) (o_dy_hf o) else None) /\ (wants (h (o_opt_bridge o)) = true -> dd <> None)) /\
    (forall b, h' b = if Nat.eqb b (o_opt_lf o) then no_deriv (h b) else if Nat.eqb b (o_opt_bridge o) then no_deriv (h b) else h b).
Proof.
  intros H U. unfold apply in H. destruct (o_data_lf o) as [dlf|] eqn:Dl; [|discriminate]. destruct (o_data_hf o) as [dhf|] eqn:Dh; [|discriminate].
  destruct (resolve types (o_lf o)) as [flf|] eqn:Rl; [|discriminate]. destruct (resolve types (o_bridge o)) as [fbr|] eqn:Rb; [|discriminate]. cbv zeta in H.
  set (h1 := init_deriv (init_deriv h (o_opt_lf o)) (o_opt_bridge o)) in *.
  destruct (pop_deriv h1 (o_opt_lf o)) as [[lv h2]|] eqn:P1; [|discriminate]. destruct (pop_spec _ _ _ _ P1) as (G1 & E1 & O1).
  set (dd1 := if truthy lv then match o_dy_lf o with None => None | Some d => Some (Some d) end else Some None) in *.
  destruct dd1 as [x1|] eqn:D1; [|discriminate]. destruct (flf (h2 (o_opt_lf o)) dlf x1) as [lf|] eqn:T1; [|discriminate].
  destruct (pop_deriv h2 (o_opt_bridge o)) as [[bv h3]|] eqn:P2; [|discriminate]. destruct (pop_spec _ _ _ _ P2) as (G2 & E2 & O2).
  set (dd2 := if truthy bv then match o_dy_hf o with None => None | Some d => Some (Some (map (bridge_deriv (o_type o) lf) (combine dhf d))) end else Some None) in *.
  destruct dd2 as [x2|] eqn:D2; [|discriminate]. destruct (fbr (h3 (o_opt_bridge o)) (map (bridge_value (o_type o) lf) dhf) x2) as [br|] eqn:T2; [|discriminate].
  injection H as <- <-. cbn [h_lf h_bridge h_type].
  assert (K1 : h2 (o_opt_lf o) = no_deriv (h (o_opt_lf o))) by (rewrite E1; unfold h1; rewrite !init_del; reflexivity).
  assert (Ne : o_opt_lf o <> o_opt_bridge o).
  { intros E. rewrite <- E, K1 in G2. unfold no_deriv in G2. rewrite (get_del "deriv" (h (o_opt_lf o)) U) in G2. discriminate. }
  assert (W1 : truthy lv = wants (h (o_opt_lf o))).
  { unfold h1 in G1. rewrite init_get in G1. destruct (Nat.eqb_spec (o_opt_lf o) (o_opt_bridge o)); [congruence|]. rewrite init_get, Nat.eqb_refl in G1. injection G1 as <-. unfold wants. destruct (get "deriv" (h (o_opt_lf o))); reflexivity. }
  assert (B2 : h2 (o_opt_bridge o) = h1 (o_opt_bridge o)) by (apply O1; congruence).
  assert (W2 : truthy bv = wants (h (o_opt_bridge o))).
  { rewrite B2 in G2. unfold h1 in G2. rewrite init_get, Nat.eqb_refl in G2. rewrite init_other in G2 by congruence. injection G2 as <-. unfold wants. destruct (get "deriv" (h (o_opt_bridge o))); reflexivity. }
  assert (K2 : h3 (o_opt_bridge o) = no_deriv (h (o_opt_bridge o))) by (rewrite E2, B2; unfold h1; rewrite !init_del; reflexivity).
  exists dlf, dhf, flf, fbr. repeat (split; [first [reflexivity|assumption]|]). split.
  { exists x1. split; [rewrite <- K1; exact T1|]. subst dd1. rewrite W1 in D1. destruct (wants (h (o_opt_lf o))); [|injection D1 as <-; split; [reflexivity|discriminate]]. destruct (o_dy_lf o); [|discriminate]. injection D1 as <-. split; [reflexivity|discriminate]. }
  split.
  { exists x2. split; [rewrite <- K2; exact T2|]. subst dd2. rewrite W2 in D2. destruct (wants (h (o_opt_bridge o))); [|injection D2 as <-; split; [reflexivity|discriminate]]. destruct (o_dy_hf o); [|discriminate]. injection D2 as <-. split; [reflexivity|discriminate]. }
  intros b. destruct (Nat.eqb_spec b (o_opt_lf o)) as [-> |N1]; [rewrite O2 by exact Ne; exact K1|]. destruct (Nat.eqb_spec b (o_opt_bridge o)) as [-> |N2]; [exact K2|].
  rewrite O2, O1 by assumption. unfold h1. rewrite !init_other by assumption. reflexivity.
Qed.
Lemma apply_shared types o h m h' : o_opt_lf o = o_opt_bridge o -> uniq (h (o_opt_lf o)) -> apply types o h <> (Ok m, h').
Proof. intros E U H. destruct (apply_ok types o h m h' H U) as (? & ? & ? & ? & _ & _ & _ & _ & N & _). contradiction. Qed.
(** the shared dictionary: with trainable models the failure is the KeyError *)
Lemma apply_shared_error types o h dlf dhf flf fbr : o_opt_lf o = o_opt_bridge o -> uniq (h (o_opt_lf o)) -> o_data_lf o = Some dlf -> o_data_hf o = Some dhf ->
  resolve types (o_lf o) = Some flf -> resolve types (o_bridge o) = Some fbr -> wants (h (o_opt_lf o)) = false -> (forall d data dd, flf d data dd <> None) -> fst (apply types o h) = Raise KeyError.
Proof.
  intros E U Dl Dh Rl Rb W F. unfold apply. rewrite Dl, Dh, Rl, Rb. cbv zeta. rewrite <- E. set (h1 := init_deriv (init_deriv h (o_opt_lf o)) (o_opt_lf o)).
  destruct (pop_deriv h1 (o_opt_lf o)) as [[lv h2]|] eqn:P1.
  - destruct (pop_spec _ _ _ _ P1) as (G1 & E1 & _). assert (T : truthy lv = false).
    { unfold h1 in G1. rewrite !init_get, !Nat.eqb_refl in G1. injection G1 as <-. unfold wants in W. destruct (get "deriv" (h (o_opt_lf o))); [exact W|reflexivity]. }
    rewrite T. destruct (flf (h2 (o_opt_lf o)) dlf None) as [lf|] eqn:TF; [|exfalso; exact (F _ _ _ TF)].
    destruct (pop_deriv h2 (o_opt_lf o)) as [[bv h3]|] eqn:P2; [|reflexivity]. exfalso. destruct (pop_spec _ _ _ _ P2) as (G2 & _). rewrite E1 in G2. unfold h1 in G2. rewrite !init_del in G2. unfold no_deriv in G2. rewrite (get_del _ _ U) in G2. discriminate.
  - reflexivity.
Qed.
(** values *)
Lemma interp_value t lf br x y dhf : In (x, y) dhf -> (forall x y, In (x, y) (map (bridge_value t lf) dhf) -> predict br x = y) -> (t = Multiplicative -> predict lf x <> 0) ->
  hf_value {| h_lf := lf; h_bridge := br; h_type := t |} x = y.
Proof.
  intros I B Z. unfold hf_value. cbn. assert (E : predict br x = snd (bridge_value t lf (x, y))) by (apply B; apply (in_map (bridge_value t lf)) in I; exact I).
  rewrite E. cbn. destruct t; [ring|]. specialize (Z eq_refl). field. exact Z.
Qed.
Lemma combine_map_in {A B C D} (f : A -> B) (g : A * C -> D) : forall l d a c, In (a, c) (combine l d) -> In (f a, g (a, c)) (combine (map f l) (map g (combine l d))).
Proof. induction l as [|a l IH]; intros [|c d] a' c' I; cbn in *; try contradiction. destruct I as [[= <- <-]|I]; [left; reflexivity|right; exact (IH d a' c' I)]. Qed.
Lemma combine_in_fst {A B} : forall (l : list A) (d : list B) a c, In (a, c) (combine l d) -> In a l.
Proof. intros l d a c I. exact (in_combine_l l d a c I). Qed.
Lemma match_deriv t lf br dhf dy nx x y g i : In ((x, y), g) (combine dhf dy) -> (i < nx)%nat ->
  (forall x y, In (x, y) (map (bridge_value t lf) dhf) -> predict br x = y) ->
  (forall x y g, In ((x, y), g) (combine (map (bridge_value t lf) dhf) (map (bridge_deriv t lf) (combine dhf dy))) -> forall i, (i < nx)%nat -> dpredict br i x = g i) ->
  (t = Multiplicative -> predict lf x <> 0) -> hf_deriv {| h_lf := lf; h_bridge := br; h_type := t |} i x = g i.
Proof.
  intros I Hi B D Z. unfold hf_deriv. cbn [h_lf h_bridge h_type].
  assert (E : predict br x = snd (bridge_value t lf (x, y))). { apply B. pose proof (in_map (bridge_value t lf) _ _ (in_combine_l _ _ _ _ I)) as J. exact J. }
  assert (E2 : dpredict br i x = bridge_deriv t lf ((x, y), g) i).
  { apply (D x (snd (bridge_value t lf (x, y)))); [|exact Hi]. exact (combine_map_in (bridge_value t lf) (bridge_deriv t lf) dhf dy (x, y) g I). }
  rewrite E, E2. cbn. destruct t; [ring|]. specialize (Z eq_refl). field. exact Z.
Qed.
(** derivative rule *)
Lemma deriv_rule (m : hf) k x : differentiable_at (h_lf m) k x -> differentiable_at (h_bridge m) k x -> is_partial (hf_value m) x k (hf_deriv m k x).
Proof.
  unfold differentiable_at, is_partial, hf_value, hf_deriv. intros L B. set (u := fun t => predict (h_lf m) (upd x k t)) in *. set (v := fun t => predict (h_bridge m) (upd x k t)) in *. 
  destruct (h_type m).
  - apply (is_derive_plus v u (x k) (dpredict (h_bridge m) k x) (dpredict (h_lf m) k x) B L).
  - assert (EX : upd x k (x k) = x) by (apply functional_extensionality; apply upd_same).
    pose proof (is_derive_mult v u (x k) _ _ B L Rmult_comm) as Q. cbv beta delta [u v plus mult] in Q. cbn in Q. rewrite EX in Q. exact Q.
Qed.
