(** C58, C59: benchmark problems report values and derivatives that match; reduced problems are sections. *)
From Coq Require Import Reals ZArith Arith Lia Lra Bool List.
From Coquelicot Require Import Coquelicot.
From Verif Require Import RSum Problems_M Problems_S Problems_P Problems_P2 Problems_P3 Problems_P4.
Import ListNotations.
Open Scope list_scope.
Open Scope R_scope.

(** values are the textbook functions *)
Theorem C58_values : forall x : vec,
  (forall n, value (sphere n) x = rsum n (fun i => x i ^ 2)) /\
  (forall n, value (rosenbrock n) x = rsum (n - 1) (fun i => 100 * (x (i + 1)%nat - x i ^ 2) ^ 2 + (1 - x i) ^ 2)) /\
  value branin x = branin_f (x 0%nat) (x 1%nat) /\
  (forall p n, (0 < p)%nat -> 0 <= value (lp_norm p n) x /\ value (lp_norm p n) x ^ p = rsum n (fun i => Rabs (x i) ^ p)) /\
  (forall m, exists p, robot_arm (2 * m) = Some p /\ value p x = sqrt (arm_x m x ^ 2 + arm_y m x ^ 2)) /\
  (forall P E m, E <> 0 -> (forall i, (i < m)%nat -> x (3 * i)%nat <> 0 /\ x (3 * i + 1)%nat <> 0) -> exists p, cantilever_beam P E (3 * m) = Some p /\ value p x = beam_f P E m x).
Proof.
  intros x. split; [reflexivity|]. split; [reflexivity|]. split; [apply branin_value|]. split; [intros; apply lp_value; assumption|]. split.
  - intros m. destruct (robot_some m) as [p Hp]. exists p. split; [exact Hp|apply robot_value; exact Hp].
  - intros P E m HE H. destruct (beam_some P E m) as [p Hp]. exists p. split; [exact Hp|]. apply beam_value; assumption.
Qed.
Print Assumptions C58_values.
(** smooth problems: at every point and for every variable the reported derivative is the derivative *)
Theorem C58_smooth : forall (x : vec) k,
  (forall n, (k < n)%nat -> derivative_correct (sphere n) x k) /\ (forall n, (k < n)%nat -> derivative_correct (rosenbrock n) x k) /\
  ((k < 2)%nat -> derivative_correct branin x k) /\ (forall f a n, (k < n)%nat -> derivative_correct (tensor_product f a n) x k) /\ (forall n a, (k < n)%nat -> derivative_correct (ndim_step_function n a) x k).
Proof.
  intros x k. repeat split; intros; [apply sphere_ok|apply rosenbrock_ok|apply branin_ok|apply tensor_ok|apply tensor_ok]; assumption.
Qed.
Print Assumptions C58_smooth.
(** the others: away from the points where the function has a kink or a division by zero *)
Theorem C58_lp_norm : forall n (x : vec) k, (k < n)%nat ->
  (x k <> 0 -> derivative_correct (lp_norm 1 n) x k) /\ ((exists i, (i < n)%nat /\ x i <> 0) -> derivative_correct (lp_norm 2 n) x k).
Proof. intros n x k H. split; [exact (lp1_ok n x k H)|exact (lp2_ok n x k H)]. Qed.
Print Assumptions C58_lp_norm.
Theorem C58_robot_arm : forall m p (x : vec) k, robot_arm (2 * m) = Some p -> (k < 2 * m)%nat -> 0 < arm_x m x ^ 2 + arm_y m x ^ 2 -> derivative_correct p x k.
Proof. exact robot_ok. Qed.
Print Assumptions C58_robot_arm.
Theorem C58_cantilever : forall P E m p (x : vec) k, cantilever_beam P E (3 * m) = Some p -> (k < 3 * m)%nat ->
  (forall i, (i < m)%nat -> x (3 * i)%nat <> 0 /\ x (3 * i + 1)%nat <> 0) -> derivative_correct p x k.
Proof. exact beam_ok. Qed.
Print Assumptions C58_cantilever.
(** the limits: a user who samples the box of limits gets these intervals *)
Theorem C58_limits : forall i : nat,
  (forall n, lower (sphere n) i = -10 /\ upper (sphere n) i = 10) /\ (forall n, lower (rosenbrock n) i = -2 /\ upper (rosenbrock n) i = 2) /\
  (lower branin 0 = -5 /\ upper branin 0 = 10 /\ lower branin 1 = 0 /\ upper branin 1 = 15) /\
  (forall p n, lower (lp_norm p n) i = -1 /\ upper (lp_norm p n) i = 1) /\ (forall f a n, lower (tensor_product f a n) i = -1 /\ upper (tensor_product f a n) i = 1) /\
  (forall n p, robot_arm n = Some p -> ndim p = n /\ lower p (2 * i) = 0 /\ upper p (2 * i) = 1 /\ lower p (2 * i + 1) = 0 /\ upper p (2 * i + 1) = 2 * PI) /\
  (forall P E n p, cantilever_beam P E n = Some p -> ndim p = n /\ lower p (3 * i) = 1 / 100 /\ upper p (3 * i) = 5 / 100 /\ lower p (3 * i + 1) = 30 / 100 /\ upper p (3 * i + 1) = 65 / 100 /\
     lower p (3 * i + 2) = 1 / 2 /\ upper p (3 * i + 2) = 1).
Proof.
  assert (M : forall k i r, (k <> 0)%nat -> (r < k)%nat -> ((k * i + r) mod k = r)%nat).
  { intros k i r K R0. rewrite Nat.mul_comm, Nat.add_comm, Nat.mod_add by exact K. apply Nat.mod_small. exact R0. }
  intros i. split; [split; reflexivity|]. split; [split; reflexivity|]. split; [repeat split; reflexivity|]. split; [split; reflexivity|]. split; [split; reflexivity|]. split.
  - intros n p H. unfold robot_arm in H. destruct (negb _); [discriminate|]. injection H as <-. unfold arm_problem. cbn [ndim lower upper].
    split; [reflexivity|]. split; [reflexivity|]. assert (M0 : ((2 * i) mod 2 = 0)%nat) by (rewrite Nat.mul_comm; apply Nat.mod_mul; lia). rewrite M0, M by lia. split; [reflexivity|]. split; reflexivity.
  - intros P E n p H. unfold cantilever_beam in H. destruct (negb _); [discriminate|]. injection H as <-. unfold beam_problem. cbn [ndim lower upper].
    assert (M0 : ((3 * i) mod 3 = 0)%nat) by (rewrite Nat.mul_comm; apply Nat.mod_mul; lia). rewrite M0. rewrite !M by lia. repeat split; reflexivity.
Qed.
Print Assumptions C58_limits.
(** so on the whole domain of the cantilever problem value and derivatives are those of the deflection *)
Theorem C58_cantilever_domain : forall P E m p (x : vec), E <> 0 -> cantilever_beam P E (3 * m) = Some p -> (forall i, (i < 3 * m)%nat -> lower p i <= x i <= upper p i) ->
  value p x = beam_f P E m x /\ forall k, (k < 3 * m)%nat -> derivative_correct p x k.
Proof.
  intros P E m p x HE Hp Hx.
  assert (NZ : forall i, (i < m)%nat -> x (3 * i)%nat <> 0 /\ x (3 * i + 1)%nat <> 0).
  { intros i Hi. destruct (C58_limits i) as (_ & _ & _ & _ & _ & _ & L). destruct (L P E _ p Hp) as (_ & L0 & _ & L1 & _).
    pose proof (Hx (3 * i)%nat ltac:(lia)) as B0. pose proof (Hx (3 * i + 1)%nat ltac:(lia)) as B1. rewrite L0 in B0. rewrite L1 in B1. split; lra. }
  split; [|intros k Hk; exact (beam_ok P E m p x k Hp Hk NZ)]. apply beam_value; assumption.
Qed.
Print Assumptions C58_cantilever_domain.
(** the l_p norm of order three or more never returns a derivative *)
Theorem C58_high_order_refuted : forall p n (x : vec) k, (3 <= p)%nat -> evaluate (lp_norm p n) x (Some k) = None /\ evaluate (lp_norm p n) x None <> None.
Proof.
  intros p n x k H. split; [apply lp_high; exact H|]. cbn [evaluate lp_norm]. destruct (Nat.eqb_spec p 0); [lia|discriminate].
Qed.
Print Assumptions C58_high_order_refuted.
(** the entry point checks the number of columns and the sign and type of kx; a kx past the last variable is caught by
    some problems and answered silently by others *)
Theorem C58_call : forall p cols (x : vec),
  (cols <> ndim p -> forall kx, call p cols x kx = ValueError) /\
  (cols = ndim p -> call p cols x KOther = TypeError /\ (forall z, (z < 0)%Z -> call p cols x (KInt z) = TypeError) /\
     (forall k d, evaluate p x (Some (Z.of_nat k)) = Some d -> call p cols x (KInt (Z.of_nat k)) = Val d) /\ (forall v, evaluate p x None = Some v -> call p cols x KNone = Val v)).
Proof.
  intros p cols x. unfold call. split.
  - intros H kx. destruct (Nat.eqb_spec cols (ndim p)); [contradiction|reflexivity].
  - intros ->. rewrite Nat.eqb_refl. cbn [negb]. split; [reflexivity|]. split; [|split].
    + intros z Hz. destruct (Z.ltb_spec z 0); [reflexivity|lia].
    + intros k d E. destruct (Z.ltb_spec (Z.of_nat k) 0); [lia|]. rewrite E. reflexivity.
    + intros v E. rewrite E. reflexivity.
Qed.
Print Assumptions C58_call.
Theorem C58_out_of_range : forall n (x : vec) k, (k >= Z.of_nat n)%Z ->
  evaluate (sphere n) x (Some k) = None /\ ((0 < k)%Z -> evaluate (rosenbrock n) x (Some k) = None) /\ ((2 <= k)%Z -> evaluate branin x (Some k) = None) /\
  (forall f a, evaluate (tensor_product f a n) x (Some k) = evaluate (tensor_product f a n) x None) /\
  (forall p, robot_arm n = Some p -> exists v, evaluate p x (Some k) = Some v).
Proof.
  intros n x k H. split; [|split; [|split; [|split]]].
  - cbn. rewrite at_out by lia. reflexivity.
  - intros Hk. cbn [evaluate rosenbrock]. destruct (Z.ltb_spec k (Z.of_nat n - 1)); [lia|]. destruct (Z.ltb_spec 0 k); [|lia]. rewrite at_out by lia. reflexivity.
  - intros Hk. cbn [evaluate branin]. destruct (Z.eqb_spec k 0); [lia|]. destruct (Z.eqb_spec k 1); [lia|reflexivity].
  - intros. apply tensor_out. exact H.
  - intros p Hp. rewrite (robot_is _ _ Hp). unfold arm_problem. cbn [evaluate]. cbv zeta. destruct (if (k mod 2 =? 0)%Z then _ else _) as [a b]. eexists. reflexivity.
Qed.
Print Assumptions C58_out_of_range.

(** C59: exactly these dimension arguments are accepted *)
Theorem C59_accepted : forall p d w, (exists q, reduced_problem p d w = Some q) <-> acceptable (ndim p) d.
Proof. exact exists_iff. Qed.
Print Assumptions C59_accepted.
(** for distinct non-negative dimensions: number of variables, limits, value and derivatives are those of the section *)
Theorem C59_section : forall p q d dims w, reduced_problem p d w = Some q -> dims_list d = map Z.of_nat dims -> NoDup dims ->
  ndim q = length dims /\ (forall i, (i < length dims)%nat -> lower q i = lower p (nth i dims 0%nat) /\ upper q i = upper p (nth i dims 0%nat)) /\
  (forall x, exists xp, section_of p dims w x xp) /\
  (forall x xp, section_of p dims w x xp -> value q x = value p xp /\ forall k, (k < length dims)%nat -> derivative_correct p xp (nth k dims 0%nat) -> derivative_correct q x k) /\
  forall x z, (z >= Z.of_nat (length dims))%Z -> evaluate q x (Some z) = None.
Proof.
  intros p q d dims w Hq Hd ND. split; [exact (reduced_ndim p q d dims w Hq Hd)|]. split; [exact (reduced_limits p q d dims w Hq Hd)|]. split; [|split].
  - intros x. destruct (reduced_eval p q d dims w Hq Hd ND x) as (xp & S & _). exists xp. exact S.
  - intros x xp S. split; [exact (reduced_value p q d dims w Hq Hd ND x xp S)|]. intros k Hk. exact (reduced_derivative p q d dims w Hq Hd ND x xp k Hk S).
  - intros x z Hz. destruct (reduced_eval p q d dims w Hq Hd ND x) as (xp & _ & _ & _ & E). exact (E z Hz).
Qed.
Print Assumptions C59_section.
(** the n-dimensional problems built on it *)
Theorem C59_ndim_rosenbrock : forall n w, (0 < n)%nat -> exists q, ndim_rosenbrock n w = Some q /\ is_slice (rosenbrock (n + 1)) q 1 1 n w /\ forall x k, (k < n)%nat -> derivative_correct q x k.
Proof. exact ndim_rosenbrock_ok. Qed.
Print Assumptions C59_ndim_rosenbrock.
Theorem C59_ndim_robot_arm : forall n w, (0 < n)%nat -> exists p q, robot_arm (2 * (n + 1)) = Some p /\ ndim_robot_arm n w = Some q /\ is_slice p q 3 2 n w /\
  forall x k, (k < n)%nat -> 0 < value q x -> derivative_correct q x k.
Proof. exact ndim_robot_ok. Qed.
Print Assumptions C59_ndim_robot_arm.
Theorem C59_ndim_cantilever : forall n w, (0 < n)%nat -> exists p q, cantilever_beam 50000 200000000000 (3 * n) = Some p /\ ndim_cantilever_beam n w = Some q /\ is_slice p q 1 3 n w /\
  forall x k, (k < n)%nat -> 0 <= w <= 1 -> (forall i, (i < n)%nat -> x i <> 0) -> derivative_correct q x k.
Proof. exact ndim_beam_ok. Qed.
Print Assumptions C59_ndim_cantilever.
(** repeated or negative dimensions are accepted, but the derivative reported is wrong *)
Theorem C59_repeated_refuted : exists q, reduced_problem (sphere 2) (DList [0; 0]%Z) (1 / 5) = Some q /\ evaluate q (fun _ => 1) (Some 0%Z) = Some 2 /\ is_partial (value q) (fun _ => 1) 0 0.
Proof. exact sphere2_dup. Qed.
Print Assumptions C59_repeated_refuted.
Theorem C59_negative_refuted : exists q, reduced_problem (rosenbrock 2) (DList [-1]%Z) (1 / 5) = Some q /\ evaluate q (fun _ => 0) (Some 0%Z) <> Some (- 288) /\ is_partial (value q) (fun _ => 0) 0 (- 288).
Proof. exact rosen2_neg. Qed.
Print Assumptions C59_negative_refuted.
(** concrete cases *)
Example C58_nonvacuous : exists p, robot_arm 4 = Some p /\ let x := fun i : nat => if Nat.eqb (i mod 2) 0 then 1 else 0 in 0 < arm_x 2 x ^ 2 + arm_y 2 x ^ 2 /\ derivative_correct p x 3.
Proof.
  destruct (robot_some 2) as [p Hp]. exists p. split; [exact Hp|]. cbv zeta. set (x := fun i : nat => if Nat.eqb (i mod 2) 0 then 1 else 0).
  assert (P : 0 < arm_x 2 x ^ 2 + arm_y 2 x ^ 2). { unfold arm_x, arm_y, arm_heading, x. cbn. repeat rewrite ?Rplus_0_l, ?Rplus_0_r. rewrite cos_0, sin_0. lra. }
  split; [exact P|]. apply (robot_ok 2); [exact Hp|lia|exact P].
Qed.
Print Assumptions C58_nonvacuous.
Example C59_nonvacuous : exists q, reduced_problem (rosenbrock 3) (DList [2; 0]%Z) (1 / 5) = Some q /\ derivative_correct q (fun _ => 1) 0.
Proof.
  destruct (proj2 (exists_iff (rosenbrock 3) (DList [2; 0]%Z) (1 / 5))) as [q Hq]; [split; [discriminate|]; cbn; intros z [<-|[<-|[]]]; lia|]. exists q. split; [exact Hq|].
  assert (ND : NoDup [2; 0]%nat) by (repeat constructor; cbn; intuition discriminate).
  destruct (reduced_eval _ q (DList [2; 0]%Z) [2; 0]%nat (1 / 5) Hq eq_refl ND (fun _ => 1)) as (xp & S & _). apply (reduced_derivative _ q _ [2; 0]%nat (1 / 5) Hq eq_refl ND _ xp); [cbn; lia|exact S|]. apply rosenbrock_ok. cbn. lia.
Qed.
Print Assumptions C59_nonvacuous.
