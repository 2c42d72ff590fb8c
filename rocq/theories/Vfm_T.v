(** C48, C49: variable-fidelity modelling. *)
From Coq Require Import Reals String Bool Arith List Lra Lia.
From Coquelicot Require Import Coquelicot.
From Verif Require Import RSum Vfm_M Vfm_S Vfm_P.
Import ListNotations.
Open Scope list_scope.
Open Scope R_scope.

(** the prediction of an untrained application trains it, and is the sum or product of bridge and low-fidelity model *)
Theorem C48_value_formula : forall types v h x y v' h', v_hf v = None -> predict_values types v h x = (Ok y, v', h') ->
  exists m, apply types (v_opts v) h = (Ok m, h') /\ v_hf v' = Some m /\ v_opts v' = v_opts v /\
    y = match h_type m with Additive => predict (h_bridge m) x + predict (h_lf m) x | Multiplicative => predict (h_bridge m) x * predict (h_lf m) x end.
Proof.
  intros types v h x y v' h' N H. unfold predict_values, ensure in H. rewrite N in H. destruct (apply types (v_opts v) h) as [[m|e] h1] eqn:E; [|discriminate]. injection H as <- <- <-.
  exists m. repeat split.
Qed.
Print Assumptions C48_value_formula.
Theorem C48_trained_once : forall types v m h x, v_hf v = Some m -> predict_values types v h x = (Ok (hf_value m x), v, h) /\
  forall kx, predict_derivatives types v h x kx = ((if sup (h_bridge m) && sup (h_lf m) then Ok (hf_deriv m kx x) else Raise KeyError), v, h).
Proof. intros types v m h x H. unfold predict_values, predict_derivatives, ensure. rewrite H. split; reflexivity. Qed.
Print Assumptions C48_trained_once.
Theorem C48_reproduces_high_fidelity : forall types v h x y v' h' fbr dhf xi yi,
  v_hf v = None -> uniq (h (o_opt_lf (v_opts v))) -> resolve types (o_bridge (v_opts v)) = Some fbr -> interpolating fbr -> o_data_hf (v_opts v) = Some dhf ->
  predict_values types v h x = (Ok y, v', h') -> In (xi, yi) dhf ->
  (forall m, v_hf v' = Some m -> o_type (v_opts v) = Multiplicative -> predict (h_lf m) xi <> 0) ->
  predict_values types v' h' xi = (Ok yi, v', h').
Proof.
  intros types v h x y v' h' fbr dhf xi yi N U R I D H J Z. destruct (C48_value_formula types v h x y v' h' N H) as (m & A & E & _ & _).
  destruct (C48_trained_once types v' m h' xi E) as [-> _]. f_equal. f_equal. f_equal.
  destruct (apply_ok types (v_opts v) h m h' A U) as (dlf & dhf' & flf & fbr' & _ & D' & _ & R' & _ & T & _ & (dd & F & _) & _). rewrite D in D'. injection D' as <-. rewrite R in R'. injection R' as <-.
  specialize (Z m E). destruct m as [lf br t]. cbn in *. subst t. apply (interp_value (o_type (v_opts v)) lf br xi yi dhf J); [|exact Z]. exact (I _ _ _ _ F).
Qed.
Print Assumptions C48_reproduces_high_fidelity.
Theorem C48_reproduces_high_fidelity_derivatives : forall types v h x y v' h' fbr dhf dy nx xi yi g i m,
  v_hf v = None -> uniq (h (o_opt_lf (v_opts v))) -> resolve types (o_bridge (v_opts v)) = Some fbr -> interpolating fbr -> gradient_matching nx fbr ->
  o_data_hf (v_opts v) = Some dhf -> o_dy_hf (v_opts v) = Some dy -> wants (h (o_opt_bridge (v_opts v))) = true ->
  predict_values types v h x = (Ok y, v', h') -> v_hf v' = Some m -> In ((xi, yi), g) (combine dhf dy) -> (i < nx)%nat ->
  sup (h_bridge m) = true -> sup (h_lf m) = true -> (o_type (v_opts v) = Multiplicative -> predict (h_lf m) xi <> 0) ->
  predict_derivatives types v' h' xi i = (Ok (g i), v', h').
Proof.
  intros types v h x y v' h' fbr dhf dy nx xi yi g i m N U R I G D Dy W H E J Hi S1 S2 Z. destruct (C48_value_formula types v h x y v' h' N H) as (m' & A & E' & _ & _). rewrite E in E'. injection E' as <-.
  destruct (C48_trained_once types v' m h' xi E) as [_ Q]. rewrite Q, S1, S2. cbn [andb]. f_equal. f_equal. f_equal.
  destruct (apply_ok types (v_opts v) h m h' A U) as (dlf & dhf' & flf & fbr' & _ & D' & _ & R' & _ & T & _ & (dd & F & Edd & _) & _). rewrite D in D'. injection D' as <-. rewrite R in R'. injection R' as <-.
  rewrite W, Dy in Edd. cbn [option_map] in Edd. destruct m as [lf br t]. cbn in *. subst t dd. apply (match_deriv (o_type (v_opts v)) lf br dhf dy nx xi yi g i J Hi); [exact (I _ _ _ _ F)| |exact Z]. exact (G _ _ _ _ F).
Qed.
Print Assumptions C48_reproduces_high_fidelity_derivatives.
Theorem C48_derivative_rule : forall (m : hf) k x, differentiable_at (h_lf m) k x -> differentiable_at (h_bridge m) k x -> is_partial (hf_value m) x k (hf_deriv m k x).
Proof. exact deriv_rule. Qed.
Print Assumptions C48_derivative_rule.

(** ** C49 *)
Theorem C49_effect_on_dictionaries : forall types o h m h', apply types o h = (Ok m, h') -> uniq (h (o_opt_lf o)) ->
  forall a, h' a = if Nat.eqb a (o_opt_lf o) || Nat.eqb a (o_opt_bridge o) then del "deriv" (h a) else h a.
Proof.
  intros types o h m h' A U a. destruct (apply_ok types o h m h' A U) as (? & ? & ? & ? & _ & _ & _ & _ & _ & _ & _ & _ & H). rewrite H. unfold no_deriv. destruct (Nat.eqb a (o_opt_lf o)), (Nat.eqb a (o_opt_bridge o)); reflexivity.
Qed.
Print Assumptions C49_effect_on_dictionaries.
Theorem C49_unchanged_iff : forall types o h m h', apply types o h = (Ok m, h') -> uniq (h (o_opt_lf o)) ->
  ((forall a, h' a = h a) <-> (get "deriv" (h (o_opt_lf o)) = None /\ get "deriv" (h (o_opt_bridge o)) = None)).
Proof.
  intros types o h m h' A U. pose proof (C49_effect_on_dictionaries types o h m h' A U) as E. split.
  - intros S. split; [specialize (S (o_opt_lf o)); rewrite E, Nat.eqb_refl in S|specialize (S (o_opt_bridge o)); rewrite E, Nat.eqb_refl, orb_true_r in S]; cbn [orb] in S;
      match goal with |- ?g = None => destruct g as [w|] eqn:G end; try reflexivity; exfalso; apply del_length in G; rewrite S in G; lia.
  - intros [G1 G2] a. rewrite E. destruct (Nat.eqb_spec a (o_opt_lf o)) as [-> |]; [apply del_absent; exact G1|]. destruct (Nat.eqb_spec a (o_opt_bridge o)) as [-> |]; [apply del_absent; exact G2|reflexivity].
Qed.
Print Assumptions C49_unchanged_iff.
(** a second application built with the same dictionaries trains both models without derivatives, whatever was requested *)
Theorem C49_second_use_refuted : forall types o h m h' m2 h2, apply types o h = (Ok m, h') -> uniq (h (o_opt_lf o)) -> uniq (h (o_opt_bridge o)) -> apply types o h' = (Ok m2, h2) ->
  exists dlf dhf flf fbr, o_data_lf o = Some dlf /\ o_data_hf o = Some dhf /\ resolve types (o_lf o) = Some flf /\ resolve types (o_bridge o) = Some fbr /\
    flf (del "deriv" (h (o_opt_lf o))) dlf None = Some (h_lf m2) /\ fbr (del "deriv" (h (o_opt_bridge o))) (map (bridge_value (o_type o) (h_lf m2)) dhf) None = Some (h_bridge m2).
Proof.
  intros types o h m h' m2 h2 A U1 U2 B. pose proof (C49_effect_on_dictionaries types o h m h' A U1) as E.
  assert (E1 : h' (o_opt_lf o) = del "deriv" (h (o_opt_lf o))) by (rewrite E, Nat.eqb_refl; reflexivity).
  assert (E2 : h' (o_opt_bridge o) = del "deriv" (h (o_opt_bridge o))) by (rewrite E, Nat.eqb_refl, orb_true_r; reflexivity).
  assert (G1 : get "deriv" (h' (o_opt_lf o)) = None) by (rewrite E1; apply get_del; exact U1).
  assert (G2 : get "deriv" (h' (o_opt_bridge o)) = None) by (rewrite E2; apply get_del; exact U2).
  assert (U' : uniq (h' (o_opt_lf o))) by (rewrite E1; apply uniq_del; exact U1).
  destruct (apply_ok types o h' m2 h2 B U') as (dlf & dhf & flf & fbr & D1 & D2 & R1 & R2 & _ & _ & (d1 & F1 & X1 & _) & (d2 & F2 & X2 & _) & _).
  exists dlf, dhf, flf, fbr. unfold wants in X1, X2. rewrite G1 in X1. rewrite G2 in X2. subst d1 d2. unfold no_deriv in F1, F2. rewrite (del_absent _ _ G1), E1 in F1. rewrite (del_absent _ _ G2), E2 in F2. repeat split; assumption.
Qed.
Print Assumptions C49_second_use_refuted.
(** one dictionary object given as both options_LF and options_bridge can never be trained: KeyError *)
Theorem C49_shared_dictionary_refuted : forall types o h dlf dhf flf fbr, o_opt_lf o = o_opt_bridge o -> uniq (h (o_opt_lf o)) -> o_data_lf o = Some dlf -> o_data_hf o = Some dhf ->
  resolve types (o_lf o) = Some flf -> resolve types (o_bridge o) = Some fbr -> wants (h (o_opt_lf o)) = false -> (forall d data dd, flf d data dd <> None) -> fst (apply types o h) = Raise KeyError.
Proof. exact apply_shared_error. Qed.
Print Assumptions C49_shared_dictionary_refuted.

(** ** a concrete application: one point per fidelity, constant surrogates *)
Definition const_model : factory := fun _ data dd => match data with [(x, y)] => Some {| predict := fun _ => y; dpredict := fun i _ => match dd with Some (g :: _) => g i | _ => 0 end; sup := true |} | _ => None end.
Definition ex_opts : opts := {| o_lf := Name "LS"; o_bridge := Callable const_model; o_type := Multiplicative; o_opt_lf := 0; o_opt_bridge := 1;
  o_data_lf := Some [(fun _ => 0, 2)]; o_data_hf := Some [(fun _ => 1, 6)]; o_dy_lf := None; o_dy_hf := Some [fun _ => 4] |}.
Definition ex_types : string -> option factory := fun s => if String.eqb s "LS" then Some const_model else None.
Definition ex_heap : heap := fun a => if Nat.eqb a 0 then [("alpha", VOther 3)]%string else [("deriv", VBool true)]%string.
Example C48_nonvacuous : interpolating const_model /\ gradient_matching 2 const_model /\ uniq (ex_heap 0%nat) /\ wants (ex_heap 1%nat) = true /\
  exists v' h', predict_values ex_types {| v_opts := ex_opts; v_hf := None |} ex_heap (fun _ => 5) = (Ok (6 / 2 * 2), v', h') /\ h' 1%nat = [].
Proof.
  split; [intros d [|[x y] [|]] dd m E x' y' I; try discriminate; injection E as <-; destruct I as [[= <- <-]|[]]; reflexivity|].
  split; [intros d [|[x y] [|]] [|g [|]] m E x' y' g' I i Hi; try discriminate; try contradiction; injection E as <-; cbn in I; destruct I as [[= <- <- <-]|[]]; reflexivity|].
  split; [repeat constructor; intros []|]. split; [reflexivity|]. do 2 eexists. split; reflexivity.
Qed.
