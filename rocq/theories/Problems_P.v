From Coq Require Import Reals ZArith Arith Bool List Lia Lra.
From Coquelicot Require Import Coquelicot.
From Verif Require Import RSum Rbf_P Poly_P Problems_M Problems_S.
Import ListNotations.
Open Scope R_scope.
Lemma wrap_nat n k : (k < n)%nat -> wrap n (Z.of_nat k) = Some k.
Proof. intros H. unfold wrap. destruct (Z.leb_spec 0 (Z.of_nat k)); [|lia]. destruct (Z.ltb_spec (Z.of_nat k) (Z.of_nat n)); [|lia]. cbn [andb]. rewrite Nat2Z.id. reflexivity. Qed.
Lemma at_nat n x k : (k < n)%nat -> at_ n x (Z.of_nat k) = Some (x k).
Proof. intros H. unfold at_. rewrite wrap_nat by exact H. reflexivity. Qed.
Lemma at_eq n x k z : z = Z.of_nat k -> (k < n)%nat -> at_ n x z = Some (x k).
Proof. intros -> H. apply at_nat. exact H. Qed.
Lemma at_out n x z : (z >= Z.of_nat n)%Z -> at_ n x z = None.
Proof. intros H. unfold at_, wrap. destruct (Z.leb_spec 0 z), (Z.ltb_spec z (Z.of_nat n)), (Z.leb_spec (- Z.of_nat n) z), (Z.ltb_spec z 0); cbn; try reflexivity; lia. Qed.
(** ** sphere *)
Lemma sphere_ok n x k : (k < n)%nat -> derivative_correct (sphere n) x k.
Proof.
  intros Hk. exists (2 * x k). split; [cbn; rewrite at_nat by exact Hk; reflexivity|]. unfold is_partial, value. cbn [evaluate sphere].
  replace (2 * x k) with (rsum n (fun i => if Nat.eqb i k then 2 * x k else 0)) by (apply (rsum_single n (fun _ => 2 * x k) k Hk)).
  apply is_derive_rsum. intros i Hi. unfold upd. destruct (Nat.eqb_spec i k) as [-> |]; [|apply derive_cst]. auto_derive; [exact I|ring].
Qed.
(** ** rosenbrock *)
Definition rterm (x : vec) (i : nat) : R := 100 * (x (i + 1)%nat - x i ^ 2) ^ 2 + (1 - x i) ^ 2.
Lemma rterm_lo x i : is_derive (fun t => rterm (upd x i t) i) (x i) (-400 * (x (i + 1)%nat - x i ^ 2) * x i - 2 * (1 - x i)).
Proof.
  apply (is_derive_ext (fun t => 100 * (x (i + 1)%nat - t ^ 2) ^ 2 + (1 - t) ^ 2)).
  - intros t. unfold rterm. rewrite upd_eq, upd_neq by lia. reflexivity.
  - auto_derive; [exact I|]. ring.
Qed.
Lemma rterm_hi x i : is_derive (fun t => rterm (upd x (i + 1) t) i) (x (i + 1)%nat) (200 * (x (i + 1)%nat - x i ^ 2)).
Proof.
  apply (is_derive_ext (fun t => 100 * (t - x i ^ 2) ^ 2 + (1 - x i) ^ 2)).
  - intros t. unfold rterm. rewrite upd_eq, upd_neq by lia. reflexivity.
  - auto_derive; [exact I|]. ring.
Qed.
Lemma rterm_no x k i : k <> i -> k <> (i + 1)%nat -> is_derive (fun t => rterm (upd x k t) i) (x k) 0.
Proof. intros H1 H2. apply (is_derive_ext (fun _ => rterm x i)); [intros t; unfold rterm; rewrite !upd_neq by lia; reflexivity|apply derive_cst]. Qed.
Lemma rosenbrock_ok n x k : (k < n)%nat -> derivative_correct (rosenbrock n) x k.
Proof.
  intros Hk. set (d1 := if Nat.ltb k (n - 1) then -400 * (x (k + 1)%nat - x k ^ 2) * x k - 2 * (1 - x k) else 0). set (d2 := if Nat.ltb 0 k then 200 * (x k - x (k - 1)%nat ^ 2) else 0).
  exists (d1 + d2). split.
  - cbn [evaluate rosenbrock]. assert (E1 : (if (Z.of_nat k <? Z.of_nat n - 1)%Z then match at_ n x (Z.of_nat k + 1), at_ n x (Z.of_nat k) with Some a, Some b => Some (-400 * (a - b ^ 2) * b - 2 * (1 - b)) | _, _ => None end else Some 0) = Some d1).
    { unfold d1. destruct (Z.ltb_spec (Z.of_nat k) (Z.of_nat n - 1)) as [L|L], (Nat.ltb_spec k (n - 1)); try lia; [|reflexivity]. rewrite (at_eq n x (k + 1) (Z.of_nat k + 1)%Z), at_nat by lia. reflexivity. }
    assert (E2 : (if (0 <? Z.of_nat k)%Z then match at_ n x (Z.of_nat k), at_ n x (Z.of_nat k - 1) with Some a, Some b => Some (200 * (a - b ^ 2)) | _, _ => None end else Some 0) = Some d2).
    { unfold d2. destruct (Z.ltb_spec 0 (Z.of_nat k)) as [L|L], (Nat.ltb_spec 0 k); try lia; [|reflexivity]. rewrite (at_eq n x (k - 1) (Z.of_nat k - 1)%Z), at_nat by lia. reflexivity. }
    cbv zeta. rewrite E1, E2. reflexivity.
  - unfold is_partial, value. cbn [evaluate rosenbrock].
    replace (d1 + d2) with (rsum (n - 1) (fun i => (if Nat.eqb i k then d1 else 0) + (if Nat.eqb (i + 1) k then d2 else 0))).
    + apply (is_derive_rsum (n - 1) (fun i t => rterm (upd x k t) i)). intros i Hi. destruct (Nat.eqb_spec i k) as [-> |N1].
      * destruct (Nat.eqb_spec (k + 1) k); [lia|]. rewrite Rplus_0_r. unfold d1. destruct (Nat.ltb_spec k (n - 1)); [|lia]. apply rterm_lo.
      * rewrite Rplus_0_l. destruct (Nat.eqb_spec (i + 1) k) as [<- |N2]; [|apply rterm_no; lia]. unfold d2. destruct (Nat.ltb_spec 0 (i + 1)); [|lia]. replace (i + 1 - 1)%nat with i by lia. apply rterm_hi.
    + rewrite rsum_plus. f_equal.
      * unfold d1. destruct (Nat.ltb_spec k (n - 1)) as [L|L]; [apply (rsum_single (n - 1) (fun _ => -400 * (x (k + 1)%nat - x k ^ 2) * x k - 2 * (1 - x k)) k L)|]. apply rsum_zero. intros i _. destruct (Nat.eqb i k); reflexivity.
      * unfold d2. destruct (Nat.ltb_spec 0 k) as [L|L].
        -- rewrite (rsum_ext _ _ (fun i => if Nat.eqb i (k - 1) then 200 * (x k - x (k - 1)%nat ^ 2) else 0)); [apply (rsum_single (n - 1) (fun _ => 200 * (x k - x (k - 1)%nat ^ 2)) (k - 1)); lia|]. intros i _. destruct (Nat.eqb_spec (i + 1) k), (Nat.eqb_spec i (k - 1)); try lia; reflexivity.
        -- apply rsum_zero. intros i _. destruct (Nat.eqb_spec (i + 1) k); [lia|reflexivity].
Qed.
(** ** branin *)
Lemma branin_value x : value branin x = branin_f (x 0%nat) (x 1%nat).
Proof. unfold value, branin_f. cbn [evaluate branin]. ring. Qed.
Lemma branin_ok x k : (k < 2)%nat -> derivative_correct branin x k.
Proof.
  intros Hk. unfold derivative_correct, is_partial. assert (V : forall t, value branin (upd x k t) = branin_f (upd x k t 0%nat) (upd x k t 1%nat)) by (intros; apply branin_value).
  assert (K : k = 0%nat \/ k = 1%nat) by lia. destruct K as [-> | ->]; eexists; (split; [reflexivity|]).
  - apply (is_derive_ext (fun t => branin_f t (x 1%nat))); [intros t; symmetry; rewrite V; reflexivity|]. unfold branin_f. set (b := 51 / 10 / (4 * PI ^ 2)). set (c := 5 / PI). set (t0 := 1 / (8 * PI)). clearbody b c t0. auto_derive; [exact I|]. ring.
  - apply (is_derive_ext (fun t => branin_f (x 0%nat) t)); [intros t; symmetry; rewrite V; reflexivity|]. unfold branin_f. set (b := 51 / 10 / (4 * PI ^ 2)). set (c := 5 / PI). set (t0 := 1 / (8 * PI)). clearbody b c t0. auto_derive; [exact I|]. ring.
Qed.
(** ** tensor product *)
Lemma cosh_pos v : 0 < cosh v.
Proof. unfold cosh. pose proof (exp_pos v). pose proof (exp_pos (- v)). lra. Qed.
Lemma tf_derive f a v : is_derive (tf f a) v (dtf f a v).
Proof.
  destruct f; unfold tf, dtf.
  - set (q := a * PI). replace (- a * PI * sin (q * v)) with (q * - sin (q * v)) by (unfold q; ring). clearbody q. auto_derive; [exact I|]. ring.
  - auto_derive; [exact I|]. ring.
  - apply (is_derive_ext (fun v => (exp (a * v) - exp (- (a * v))) / (exp (a * v) + exp (- (a * v))))).
    + intros t. unfold tanh, sinh, cosh. pose proof (exp_pos (a * t)). pose proof (exp_pos (- (a * t))). match goal with |- ?p = ?q => change (@eq R p q) end. field. repeat split; lra.
    + pose proof (exp_pos (a * v)) as P1. pose proof (exp_pos (- (a * v))) as P2. auto_derive; [lra|]. unfold cosh. assert (E : exp (- (a * v)) = / exp (a * v)) by apply exp_Ropp. rewrite E in *. set (e := exp (a * v)) in *. clearbody e. field. assert (0 < e * e + 1) by (pose proof (Rmult_lt_0_compat e e P1 P1); lra). split; [lra|]. nra.
  - set (q := -2 * a). replace (- 4 * a * v * exp (q * v ^ 2)) with (2 * q * v * exp (q * v ^ 2)) by (unfold q; ring). clearbody q. auto_derive; [exact I|]. cbn [pow]. replace (q * (v * (v * 1))) with (q * (v * v)) by ring. ring.
Qed.
Lemma tensor_ok f a n x k : (k < n)%nat -> derivative_correct (tensor_product f a n) x k.
Proof.
  intros Hk. eexists. split; [reflexivity|]. unfold is_partial, value. cbn [evaluate tensor_product].
  replace (rprod n (fun i => if (Z.of_nat k =? Z.of_nat i)%Z then dtf f a (x i) else tf f a (x i))) with (dtf f a (x k) * rprod n (fun i => if Nat.eqb i k then 1 else tf f a (upd x k (x k) i))).
  - apply (is_derive_rprod_one n (fun i t => tf f a (upd x k t i)) k (dtf f a (x k)) (x k) Hk).
    + intros i Hi N t. rewrite !upd_neq by exact N. reflexivity.
    + apply (is_derive_ext (tf f a)); [intros t; rewrite upd_eq; reflexivity|apply tf_derive].
  - symmetry. rewrite (rprod_split n _ k Hk). rewrite Z.eqb_refl. f_equal. apply rprod_ext. intros i Hi. destruct (Nat.eqb_spec i k); [reflexivity|]. destruct (Z.eqb_spec (Z.of_nat k) (Z.of_nat i)); [lia|]. rewrite upd_same. reflexivity.
Qed.
Lemma tensor_out f a n x z : (z >= Z.of_nat n)%Z -> evaluate (tensor_product f a n) x (Some z) = evaluate (tensor_product f a n) x None.
Proof. intros H. cbn [evaluate tensor_product]. f_equal. apply rprod_ext. intros i Hi. destruct (Z.eqb_spec z (Z.of_nat i)); [lia|reflexivity]. Qed.
