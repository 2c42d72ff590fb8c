(** C45, C46, C47, C82, C83: mixture of experts. *)
From Coq Require Import Reals String Bool Arith List Permutation Lra Lia.
From Verif Require Import RSum Mat Moe_M Moe_S Moe_P Moe_P2 Moe_P3.
Import ListNotations.
Open Scope list_scope.
Open Scope nat_scope.

(** ** C45 *)
Theorem C45_split_partition : forall (A : Type) (values : list A) (q : nat) (test rest : list A), (1 <= q)%nat -> extract_part values q = (test, rest) ->
  Permutation (test ++ rest) values /\ length test = (length values + q - 1) / q /\
  (forall v, In v test <-> exists j, nth_error values j = Some v /\ j mod q = 0%nat) /\ (forall v, In v rest <-> exists j, nth_error values j = Some v /\ j mod q <> 0%nat).
Proof. intros A values q test rest Q E. destruct (extract_spec values q test rest Q E) as (P & T & R). split; [exact P|]. split; [exact (extract_count values q test rest Q E)|]. split; assumption. Qed.
Print Assumptions C45_split_partition.

Theorem C45_clusters_partition : forall (A : Type) (n : nat) (values : list A) (cls : list nat),
  (exists cl, cluster_values n values cls = Some cl) <-> (length values = length cls /\ Forall (fun c => (c < n)%nat) cls).
Proof.
  intros A n values cls. split.
  - intros [cl E]. destruct (clusters_spec n values cls cl E) as (L & _ & F & _). split; assumption.
  - intros [L F]. exact (clusters_total n values cls L F).
Qed.
Print Assumptions C45_clusters_partition.
Theorem C45_cluster_members : forall (A : Type) (n : nat) (values : list A) (cls : list nat) (cl : list (list A)), cluster_values n values cls = Some cl ->
  length cl = n /\ Permutation (concat cl) values /\ forall k v, In v (nth k cl []) <-> exists i, nth_error cls i = Some k /\ nth_error values i = Some v.
Proof.
  intros A n values cls cl E. destruct (clusters_spec n values cls cl E) as (L & N & _ & M & P). split; [exact N|]. split; [exact P|]. intros k v. rewrite M. apply members_spec. exact L.
Qed.
Print Assumptions C45_cluster_members.
Example C45_nonvacuous : extract_part [1; 2; 3; 4; 5]%nat 2 = ([1; 3; 5], [2; 4])%nat /\ cluster_values 2 [7; 8; 9]%nat [1; 0; 1]%nat = Some [[8]; [7; 9]]%nat.
Proof. split; reflexivity. Qed.

(** ** C46 *)
Open Scope R_scope.
Theorem C46_probabilities : forall (k : nat) (w rv : nat -> R), live k w rv -> (forall j, (j < k)%nat -> 0 <= proba k w rv j <= 1) /\ rsum k (proba k w rv) = 1.
Proof. intros k w rv L. split; [intros j Hj; split; [exact (proba_nonneg k w rv j L Hj)|exact (proba_le1 k w rv j L Hj)]|exact (proba_sum k w rv L)]. Qed.
Print Assumptions C46_probabilities.
Theorem C46_smooth_value : forall (k : nat) (w rv e : nat -> R), live k w rv -> (2 <= k)%nat -> smooth_value k w rv e = rsum k (fun j => w j * rv j * e j) / rsum k (fun j => w j * rv j).
Proof. intros k w rv e L K. apply smooth_formula; [exact L|lia]. Qed.
Print Assumptions C46_smooth_value.
Theorem C46_single_cluster : forall (w rv e : nat -> R), smooth_value 1 w rv e = e 0%nat /\ smooth_variance 1 w rv e = e 0%nat /\ hard_value 1 w rv e = e 0%nat.
Proof. intros w rv e. unfold smooth_value, smooth_variance, hard_value, proba. cbn. repeat split; ring. Qed.
Print Assumptions C46_single_cluster.
Theorem C46_between_experts : forall (k : nat) (w rv e : nat -> R) (lo hi : R), live k w rv -> (forall j, (j < k)%nat -> lo <= e j <= hi) -> lo <= smooth_value k w rv e <= hi.
Proof. exact smooth_bounds. Qed.
Print Assumptions C46_between_experts.
Theorem C46_common_value : forall (k : nat) (w rv e : nat -> R) (v : R), live k w rv -> (forall j, (j < k)%nat -> e j = v) -> smooth_value k w rv e = v /\ hard_value k w rv e = v.
Proof.
  intros k w rv e v L H. split.
  - assert (B : v <= smooth_value k w rv e <= v) by (apply smooth_bounds; [exact L|intros j Hj; rewrite (H j Hj); lra]). lra.
  - destruct (hard_spec k w rv e L) as (i & Hi & -> & _). exact (H i Hi).
Qed.
Print Assumptions C46_common_value.
Theorem C46_variance_bounds : forall (k : nat) (w rv v : nat -> R) (hi : R), live k w rv -> (forall j, (j < k)%nat -> 0 <= v j <= hi) -> 0 <= smooth_variance k w rv v <= hi.
Proof. exact smooth_var_bounds. Qed.
Print Assumptions C46_variance_bounds.
Theorem C46_hard_is_most_probable : forall (k : nat) (w rv e : nat -> R), live k w rv ->
  exists i, (i < k)%nat /\ hard_value k w rv e = e i /\ (forall j, (j < k)%nat -> w j * rv j <= w i * rv i) /\ forall j, (j < i)%nat -> w j * rv j < w i * rv i.
Proof. exact hard_spec. Qed.
Print Assumptions C46_hard_is_most_probable.
(** when every density underflows to zero (two or more clusters) the smooth prediction is zero whatever the experts say *)
Theorem C46_zero_density_refuted : forall (k : nat) (w rv e : nat -> R), (2 <= k)%nat -> (forall j, (j < k)%nat -> w j * rv j = 0) ->
  smooth_value k w rv e = 0 /\ smooth_variance k w rv e = 0 /\ hard_value k w rv e = e 0%nat.
Proof. exact underflow. Qed.
Print Assumptions C46_zero_density_refuted.
Example C46_nonvacuous : live 2 (fun _ => 1 / 2) (fun j => INR j) /\ smooth_value 2 (fun _ => 1 / 2) (fun j => INR (j + 1)) (fun j => INR j) = 2 / 3.
Proof.
  split; [split; [intros j _; pose proof (pos_INR j); lra|exists 1%nat; split; [lia|cbn; lra]]|]. rewrite C46_smooth_value; [cbn; lra| |lia].
  split; [intros j _; pose proof (pos_INR (j + 1)); lra|exists 0%nat; split; [lia|cbn; lra]].
Qed.

(** ** C47 *)
Theorem C47_first_minimal_score : forall (A : Type) (norm2 : nat -> (nat -> nat -> R) -> R) (n : nat) (expected : nat -> R) (experts : list (A * (nat -> R))) (a : A),
  find_best_model norm2 n expected experts = Some a ->
  exists l1 p l2, experts = l1 ++ (a, p) :: l2 /\
    (forall b q, In (b, q) l1 -> norm2 n (fun i j => expected j - p i) < norm2 n (fun i j => expected j - q i)) /\
    forall b q, In (b, q) experts -> norm2 n (fun i j => expected j - p i) <= norm2 n (fun i j => expected j - q i).
Proof. intros A norm2. exact (find_best_spec norm2). Qed.
Print Assumptions C47_first_minimal_score.
Theorem C47_single_point_minimal_error : forall (A : Type) (norm2 : nat -> (nat -> nat -> R) -> R) (expected : nat -> R) (experts : list (A * (nat -> R))) (a : A),
  (forall n M, is_spectral_norm n M (norm2 n M)) -> find_best_model norm2 1 expected experts = Some a ->
  exists p, In (a, p) experts /\ forall b q, In (b, q) experts -> Rabs (expected 0%nat - p 0%nat) <= Rabs (expected 0%nat - q 0%nat).
Proof.
  intros A norm2 expected experts a H E. destruct (find_best_spec norm2 1 expected experts a E) as (l1 & p & l2 & -> & _ & M). exists p. split; [apply in_elt|]. intros b q I. specialize (M b q I).
  rewrite !score_single in M by apply H. exact M.
Qed.
Print Assumptions C47_single_point_minimal_error.
Theorem C47_perfect_expert_has_minimal_score : forall (norm2 : nat -> (nat -> nat -> R) -> R) (n : nat) (expected actual : nat -> R), (forall n M, is_spectral_norm n M (norm2 n M)) -> (0 < n)%nat ->
  norm2 n (fun i j => expected j - expected i) <= norm2 n (fun i j => expected j - actual i).
Proof. intros norm2 n e a H N. exact (perfect_minimal n e a _ _ N (H _ _) (H _ _)). Qed.
Print Assumptions C47_perfect_expert_has_minimal_score.
(** but every predictor with the right mean and no more spread than the data - in particular the constant mean - has the same score *)
Theorem C47_score_blind_refuted : forall (norm2 : nat -> (nat -> nat -> R) -> R) (n : nat) (expected actual : nat -> R), (forall n M, is_spectral_norm n M (norm2 n M)) -> (0 < n)%nat ->
  mean n actual = mean n expected -> spread n actual <= spread n expected -> norm2 n (fun i j => expected j - actual i) = norm2 n (fun i j => expected j - expected i).
Proof. intros norm2 n e a H N M S. exact (right_mean_ties n e a _ _ N M S (H _ _) (H _ _)). Qed.
Print Assumptions C47_score_blind_refuted.
Theorem C47_minimal_error_refuted : forall norm2 : nat -> (nat -> nat -> R) -> R, (forall n M, is_spectral_norm n M (norm2 n M)) ->
  (* a later perfect expert is not kept *)
  (find_best_model norm2 2 w_e [(0%nat, w_zero); (1%nat, w_e)] = Some 0%nat /\ sq_error 2 w_e w_zero = 2 /\ sq_error 2 w_e w_e = 0) /\
  (* an expert with four times the squared error is kept *)
  (find_best_model norm2 2 w_e [(0%nat, w_far); (1%nat, w_flip)] = Some 1%nat /\ sq_error 2 w_e w_far = 2 /\ sq_error 2 w_e w_flip = 8).
Proof.
  intros norm2 H. destruct (keeps_wrong norm2) as [E F]; [intros n M s S; exact (spectral_unique n M _ _ (H n M) S)|eexists; apply H|].
  split; (split; [assumption|]); unfold sq_error, w_e, w_zero, w_far, w_flip; cbn [rsum Nat.eqb]; split; ring.
Qed.
Print Assumptions C47_minimal_error_refuted.
Example C47_nonvacuous : exists norm2 : nat -> (nat -> nat -> R) -> R, forall n M, is_spectral_norm n M (norm2 n M).
Proof. exists specnorm. exact specnorm_spec. Qed.

(** ** C82 *)
Theorem C82_heaviside_factor : forall (n_clusters : nat) (err : nat -> R),
  ((n_clusters <= 1)%nat -> best_heaviside n_clusters err = 1) /\
  ((2 <= n_clusters)%nat -> (forall i, (i <= 20)%nat -> err i < 1 / 10 ^ 6) -> best_heaviside n_clusters err = 1) /\
  ((2 <= n_clusters)%nat -> forall i, (i <= 20)%nat -> 1 / 10 ^ 6 <= err i ->
    exists j, (j <= 20)%nat /\ best_heaviside n_clusters err = (INR j + 1) / 10 /\ (forall k, (k <= 20)%nat -> err j <= err k) /\ forall k, (k < j)%nat -> err j < err k).
Proof. exact heaviside_spec. Qed.
Print Assumptions C82_heaviside_factor.
Example C82_nonvacuous : exists j, (j <= 20)%nat /\ best_heaviside 3 (fun i => Rabs (INR i - 4)) = (INR j + 1) / 10.
Proof.
  destruct (proj2 (proj2 (C82_heaviside_factor 3 (fun i => Rabs (INR i - 4)))) ltac:(lia) 0%nat ltac:(lia)) as (j & J & E & _).
  - cbn [INR]. rewrite Rabs_left; lra.
  - exists j. auto.
Qed.

(** ** C83 *)
Theorem C83_enabled_experts : forall names types deriv var allow deny name, In name (enabled names types deriv var allow deny) <->
  exists p, In p types /\ p_name p = name /\ In name names /\ (deriv = true -> p_deriv p = true) /\ (var = true -> p_var p = true) /\ (allow <> [] -> In name allow) /\ (deny <> [] -> ~ In name deny).
Proof. exact enabled_spec. Qed.
Print Assumptions C83_enabled_experts.
(** an empty selection is not rejected when options are read; choosing an expert then fails *)
Theorem C83_empty_selection : forall (A : Type) (norm2 : nat -> (nat -> nat -> R) -> R) n expected (experts : list (A * (nat -> R))), find_best_model norm2 n expected experts = None <-> experts = [].
Proof. intros A norm2. exact (find_best_total norm2). Qed.
Print Assumptions C83_empty_selection.
Example C83_nonvacuous : enabled ["KRG"; "RBF"]%string [{| p_name := "KRG"; p_deriv := true; p_var := true |}; {| p_name := "RBF"; p_deriv := true; p_var := false |}; {| p_name := "GENN"; p_deriv := true; p_var := true |}] true false [] ["KRG"]%string = ["RBF"]%string.
Proof. reflexivity. Qed.
