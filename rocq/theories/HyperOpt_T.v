(** Theorems C39, C40, C80, C81: kriging's hyperparameter search and the options it touches. *)
From Coq Require Import Reals Arith List Lra Lia.
From Verif Require Import RSum Mat Krg_M Krg_S Krg_Qr HyperOpt_M HyperOpt_M2 HyperOpt_S HyperOpt_P HyperOpt_P2.
Import ListNotations.
Open Scope list_scope.
Open Scope R_scope.

(** C39: whatever the optimiser does, at most 10 + 2 nb runs are made (nb = 5 for a fresh model) *)
Theorem C39_bounded : forall (Th Par : Type) (L : Th -> ev Par) nb att, search Th Par L (10 + 2 * nb) nb att <> OutOfFuel.
Proof. exact @search_bounded. Qed.
Print Assumptions C39_bounded.
Theorem C39_attempts : forall (Th Par : Type) (L : Th -> ev Par) fuel nb att m nb' v b, search Th Par L fuel nb att = Done m nb' v b ->
  (m <= 10 + 2 * nb)%nat /\ (nb' <= nb)%nat.
Proof. exact @search_count. Qed.
Print Assumptions C39_attempts.
(** the value, parameters and hyperparameters returned belong together *)
Theorem C39_result_consistent : forall (Th Par : Type) (L : Th -> ev Par) fuel nb att m nb' v p t,
  search Th Par L fuel nb att = Done m nb' v (Some (p, t)) -> L t = Fin v p.
Proof. exact @search_consistent. Qed.
Print Assumptions C39_result_consistent.
(** with an optimiser that returns the best point it evaluated: no evaluation of any completed run is better *)
Theorem C39_best : forall (Th Par : Type) (L : Th -> ev Par), (forall t, L t <> PosInf) -> (forall t v p, L t = Fin v p -> - 10 ^ 20 < v) ->
  forall fuel nb att m nb' v b, (forall i, good_attempt L (att i)) -> search Th Par L fuel nb att = Done m nb' v b ->
  (exists p t, b = Some (p, t) /\ L t = Fin v p) /\
  forall i e w q, (i < m)%nat -> ((i + 1 < m)%nat \/ ~ raised (att i)) -> In e (points (att i)) -> L e = Fin w q -> w <= v.
Proof. exact @search_best. Qed.
Print Assumptions C39_best.
Example C39_nonvacuous : (forall t, Lw t <> PosInf) /\ (forall t v p, Lw t = Fin v p -> - 10 ^ 20 < v) /\ (forall i, good_attempt Lw (good2 i)) /\
  search nat nat Lw 20 5 good2 = Done 2 4 (INR 7) (Some (7, 7)%nat).
Proof.
  split; [intros t; unfold Lw; destruct (Nat.eqb t 9); discriminate|]. split.
  - intros t v p. unfold Lw. destruct (Nat.eqb t 9); [discriminate|]. intros [= <- _]. pose proof (pos_INR t). assert (0 < 10 ^ 20) by (apply pow_lt; lra). lra.
  - split; [exact good2_ok|exact good2_done].
Qed.
(** otherwise a better evaluated point can be lost, and training can end without any parameters *)
Theorem C39_best_refuted : exists (L : nat -> ev nat) att att', 
  (exists v p t w q, search nat nat L 20 5 att = Done 1 5 v (Some (p, t)) /\ In w (points (att 0%nat)) /\ L w = Fin q w /\ v < q) /\
  search nat nat L 20 5 att' = Done 2 5 (- 10 ^ 20) None.
Proof.
  exists Lw, (fun _ => lose), empty_att. split; [|exact empty_done]. exists (INR 2), 2%nat, 2%nat, 5%nat, (INR 5).
  split; [exact lose_done|]. split; [cbn; auto|]. split; [reflexivity|]. cbn. lra.
Qed.
Print Assumptions C39_best_refuted.

(** C80: if no evaluation is finite the search raises; in particular kriging cannot be trained on constant outputs *)
Theorem C80_all_infinite_fails : forall (Th Par : Type) (L : Th -> ev Par), (forall t v p, L t <> Fin v p) -> forall nb att,
  exists n, search Th Par L (10 + 2 * nb) nb att = FailV n \/ search Th Par L (10 + 2 * nb) nb att = FailE n.
Proof. exact @search_fails. Qed.
Print Assumptions C80_all_infinite_fails.
Theorem C80_constant_outputs : forall (Th : Type) qr rcond condF nx nt po (sp : Th -> kspec) nugget noise X y c nb att,
  qr_contract qr -> rcond_contract rcond -> (2 <= nt)%nat -> (n_regr po nx <= nt)%nat -> (forall i, (i < nt)%nat -> y i = c) ->
  exists n, search Th par (krg_eval qr rcond condF nx nt po sp nugget noise X y) (10 + 2 * nb) nb att = FailV n \/
            search Th par (krg_eval qr rcond condF nx nt po sp nugget noise X y) (10 + 2 * nb) nb att = FailE n.
Proof. exact @constant_outputs. Qed.
Print Assumptions C80_constant_outputs.
Example C80_nonvacuous : qr_contract gs_qr /\ rcond_contract rcond01 /\ (n_regr PLinear 1 <= 3)%nat.
Proof. split; [exact gs_contract|]. split; [exact rcond01_contract|]. cbn. lia. Qed.

(** C81: the starting hyperparameters lie within the bounds, in-bounds ones are kept *)
Theorem C81_start_in_bounds : forall lo hi rnd theta0, lo <= hi -> (forall i, 0 <= rnd i < 1) ->
  length (start_theta lo hi rnd theta0) = length theta0 /\
  forall i, (i < length theta0)%nat -> lo <= nth i (start_theta lo hi rnd theta0) 0 <= hi /\
    (lo <= nth i theta0 0 <= hi -> nth i (start_theta lo hi rnd theta0) 0 = nth i theta0 0).
Proof. exact start_in_bounds. Qed.
Print Assumptions C81_start_in_bounds.
(** with eval_noise the vector grows by the noise entries at every attempt: only the first has the right length *)
Theorem C81_noise_start : forall noise theta0 n, noise <> [] ->
  (length (start_at noise theta0 n) = length theta0 + length noise)%nat <-> n = 0%nat.
Proof.
  intros noise th n N. rewrite start_at_length. destruct noise as [|a l]; [congruence|]. split; [|intros ->; lia].
  intros H. destruct n; [reflexivity|]. cbn [length] in H. nia.
Qed.
Print Assumptions C81_noise_start.
Example C81_nonvacuous : nth 0 (start_theta 1 3 (fun _ => / 2) [7; 2]) 0 = 2 /\ nth 1 (start_theta 1 3 (fun _ => / 2) [7; 2]) 0 = 2.
Proof. unfold start_theta. cbn. repeat destruct (Rlt_dec _ _); try lra; split; lra. Qed.

(** C40: training again on data of the same shape sees the options a fresh model would see (Kriging, KPLS) *)
Theorem C40_same_shape : forall nm nx nt th o o', nm <> NKplsk -> after_training nm nx nt th o = Some o' -> after_training nm nx nt th o' = Some o'.
Proof.
  intros nm nx nt th o o' N. unfold after_training. destruct (check_param nm nx nt o) as [o1|] eqn:E; [|discriminate].
  destruct nm; try congruence; intros [= <-]; rewrite (check_same _ _ _ _ _ E); reflexivity.
Qed.
Print Assumptions C40_same_shape.
(** with the default-style theta0 = [a], a Kriging model trained in nx1 >= 2 dimensions can be trained again
    exactly in nx1 dimensions, although a fresh one accepts any dimension *)
Theorem C40_other_dimension : forall nx1 nx2 nt1 nt2 a o o', k_theta0 o = PyList [a] -> k_het o = false -> (2 <= nx1)%nat ->
  after_training NKriging nx1 nt1 [] o = Some o' ->
  (exists o2, after_training NKriging nx2 nt2 [] o = Some o2) /\ ((exists o2, after_training NKriging nx2 nt2 [] o' = Some o2) <-> nx2 = nx1).
Proof. exact other_dimension. Qed.
Print Assumptions C40_other_dimension.
(** a length-1 array (not list) theta0 is refused from dimension 2 on *)
Theorem C40_array_theta0 : forall nx nt a o, k_theta0 o = NpArray [a] -> (2 <= nx)%nat -> check_param NKriging nx nt o = None.
Proof. exact array_theta0. Qed.
Print Assumptions C40_array_theta0.
(** RBF's d0 keeps the length of the first training *)
Theorem C40_rbf_d0 : forall nx1 nx2 a, rbf_setup nx2 (rbf_setup nx1 (DNum a)) = rbf_setup nx2 (DNum a) <-> nx1 = nx2.
Proof. exact rbf_retrain. Qed.
Print Assumptions C40_rbf_d0.
(** KPLSK: training replaces n_comp by nx, so training again is not training a fresh model *)
Theorem C40_kplsk_refuted : exists nx nt th o o' o2, after_training NKplsk nx nt th o = Some o' /\ after_training NKplsk nx nt th o' = Some o2 /\
  k_ncomp o = 1%nat /\ k_ncomp o' = 2%nat /\ check_param NKplsk nx nt o <> check_param NKplsk nx nt o'.
Proof.
  exists 2%nat, 5%nat, [1; 1], {| k_theta0 := PyList [1]; k_noise0 := PyList [0]; k_ncomp := 1; k_het := false; k_eval := false |}.
  do 2 eexists. split; [reflexivity|]. split; [reflexivity|]. split; [reflexivity|]. split; [reflexivity|]. cbn. intros [=].
Qed.
Print Assumptions C40_kplsk_refuted.
Example C40_nonvacuous : exists o o', k_theta0 o = PyList [1] /\ k_het o = false /\ after_training NKriging 3 5 [] o = Some o'.
Proof. exists {| k_theta0 := PyList [1]; k_noise0 := PyList [0]; k_ncomp := 1; k_het := false; k_eval := false |}. eexists. repeat split. Qed.
