From Coq Require Import Reals ZArith Arith Bool List Lia Lra.
From Coquelicot Require Import Coquelicot.
From Verif Require Import RSum Rbf_P Poly_P Problems_M Problems_S Problems_P.
Import ListNotations.
Open Scope R_scope.
(** ** Lp norm *)
Lemma root_spec p s : (0 < p)%nat -> 0 <= s -> 0 <= root p s /\ root p s ^ p = s.
Proof.
  intros Hp Hs. unfold root. destruct (Rle_dec s 0) as [L|L].
  - split; [lra|]. replace s with 0 by lra. apply pow_i. exact Hp.
  - split; [left; apply exp_pos|]. rewrite <- Rpower_pow by apply exp_pos. rewrite Rpower_mult. replace (1 / INR p * INR p) with 1 by (field; apply not_0_INR; lia). apply Rpower_1. lra.
Qed.
Lemma pow_inj p a b : (0 < p)%nat -> 0 <= a -> 0 <= b -> a ^ p = b ^ p -> a = b.
Proof.
  intros Hp Ha Hb E. destruct (Rtotal_order a b) as [H|[H|H]]; [|exact H|].
  - assert (a ^ p < b ^ p) by (clear E; destruct p as [|p]; [lia|]; clear Hp; induction p as [|p IH]; [cbn; lra|]; change (a * a ^ S p < b * b ^ S p); apply Rmult_le_0_lt_compat; [exact Ha|apply pow_le; exact Ha|exact H|exact IH]). lra.
  - assert (b ^ p < a ^ p) by (clear E; destruct p as [|p]; [lia|]; clear Hp; induction p as [|p IH]; [cbn; lra|]; change (b * b ^ S p < a * a ^ S p); apply Rmult_le_0_lt_compat; [exact Hb|apply pow_le; exact Hb|exact H|exact IH]). lra.
Qed.
Lemma abs_sum_nonneg p n (x : vec) : 0 <= rsum n (fun i => Rabs (x i) ^ p).
Proof. apply rsum_nonneg. intros. apply pow_le. apply Rabs_pos. Qed.
Lemma lp_value p n x : (0 < p)%nat -> 0 <= value (lp_norm p n) x /\ value (lp_norm p n) x ^ p = rsum n (fun i => Rabs (x i) ^ p).
Proof.
  intros Hp. unfold value. cbn [evaluate lp_norm]. destruct (Nat.eqb_spec p 0); [lia|]. apply root_spec; [exact Hp|apply abs_sum_nonneg].
Qed.
Lemma root1 s : 0 <= s -> root 1 s = s.
Proof. intros H. destruct (root_spec 1 s ltac:(lia) H) as [_ E]. rewrite pow_1 in E. exact E. Qed.
Lemma root2 s : 0 <= s -> root 2 s = sqrt s.
Proof. intros H. destruct (root_spec 2 s ltac:(lia) H) as [P E]. apply (pow_inj 2); [lia|exact P|apply sqrt_pos|]. rewrite E, pow2_sqrt by exact H. reflexivity. Qed.
Lemma sign_pos v : 0 < v -> sign v = 1. Proof. intros. unfold sign. destruct (Rlt_dec 0 v); [reflexivity|lra]. Qed.
Lemma sign_neg v : v < 0 -> sign v = -1. Proof. intros. unfold sign. destruct (Rlt_dec 0 v); [lra|]. destruct (Rlt_dec v 0); [reflexivity|lra]. Qed.
Lemma sign_abs v : sign v * Rabs v = v.
Proof. unfold sign. destruct (Rlt_dec 0 v); [rewrite Rabs_pos_eq by lra; ring|]. destruct (Rlt_dec v 0); [rewrite Rabs_left by lra; ring|]. replace v with 0 by lra. ring. Qed.
Lemma abs_derive v : v <> 0 -> is_derive Rabs v (sign v).
Proof.
  intros N. destruct (Rlt_le_dec 0 v) as [P|P].
  - rewrite sign_pos by exact P. apply (is_derive_ext_loc (fun t => t)); [|apply (is_derive_id (K := R_AbsRing))]. exists (mkposreal v P). intros t Ht. unfold ball in Ht; cbn in Ht. unfold AbsRing_ball, abs, minus, plus, opp in Ht; cbn in Ht. apply Rabs_def2 in Ht. symmetry. apply Rabs_pos_eq. lra.
  - assert (Q : v < 0) by lra. rewrite sign_neg by exact Q. apply (is_derive_ext_loc (fun t => - t)). 2:{ auto_derive; [exact I|ring]. } assert (0 < - v) as Q' by lra. exists (mkposreal (- v) Q'). intros t Ht. unfold ball in Ht; cbn in Ht. unfold AbsRing_ball, abs, minus, plus, opp in Ht; cbn in Ht. apply Rabs_def2 in Ht. symmetry. apply Rabs_left. lra.
Qed.
Lemma lp1_ok n x k : (k < n)%nat -> x k <> 0 -> derivative_correct (lp_norm 1 n) x k.
Proof.
  intros Hk N. eexists. split; [cbn [evaluate lp_norm Nat.eqb matrix_norm_ok orb]; rewrite at_nat by exact Hk; reflexivity|]. cbn [Nat.sub]. rewrite pow_O, Rmult_1_r.
  unfold is_partial. apply (is_derive_ext (fun t => rsum n (fun i => Rabs (upd x k t i)))).
  - intros t. unfold value. cbn [evaluate lp_norm Nat.eqb]. rewrite root1 by apply (abs_sum_nonneg 1 n (upd x k t)). apply rsum_ext. intros. rewrite pow_1. reflexivity.
  - rewrite <- (rsum_single n (fun _ => sign (x k)) k Hk). apply (is_derive_rsum n (fun i t => Rabs (upd x k t i))). intros i Hi. destruct (Nat.eqb_spec i k) as [-> |Ni].
    + apply (is_derive_ext Rabs); [intros t; rewrite upd_eq; reflexivity|apply abs_derive; exact N].
    + apply (is_derive_ext (fun _ => Rabs (x i))); [intros t; rewrite upd_neq by exact Ni; reflexivity|apply derive_cst].
Qed.
Lemma lp2_ok n x k : (k < n)%nat -> (exists i, (i < n)%nat /\ x i <> 0) -> derivative_correct (lp_norm 2 n) x k.
Proof.
  intros Hk (i0 & Hi0 & N). eexists. split; [cbn [evaluate lp_norm Nat.eqb matrix_norm_ok orb]; rewrite at_nat by exact Hk; reflexivity|]. cbn [Nat.sub].
  assert (SQ : forall y : vec, rsum n (fun i => Rabs (y i) ^ 2) = rsum n (fun i => y i ^ 2)) by (intros y; apply rsum_ext; intros; rewrite pow2_abs; reflexivity).
  rewrite root2 by apply (abs_sum_nonneg 2). rewrite SQ. set (s := rsum n (fun i => x i ^ 2)).
  assert (Ps : 0 < s). { apply (rsum_pos n (fun i => x i ^ 2) i0); [intros; apply pow2_ge_0|exact Hi0|apply pow2_gt_0; exact N]. }
  assert (Pq : 0 < sqrt s) by (apply sqrt_lt_R0; exact Ps).
  replace (sign (x k) * (Rabs (x k) / sqrt s) ^ 1) with (2 * x k * / (2 * sqrt s)). 2:{ rewrite pow_1. transitivity (sign (x k) * Rabs (x k) / sqrt s); [rewrite sign_abs; field; lra|unfold Rdiv; ring]. }
  unfold is_partial. apply (is_derive_ext (fun t => sqrt (value (sphere n) (upd x k t)))).
  - intros t. unfold value. cbn [evaluate lp_norm sphere Nat.eqb]. rewrite root2 by apply (abs_sum_nonneg 2 n (upd x k t)). rewrite SQ. reflexivity.
  - destruct (sphere_ok n x k Hk) as (d & Ed & Dd). cbn in Ed. rewrite at_nat in Ed by exact Hk. cbn in Ed. injection Ed as <-. unfold is_partial in Dd.
    assert (V : value (sphere n) (upd x k (x k)) = s) by (unfold value, s; cbn [evaluate sphere]; apply rsum_ext; intros; rewrite upd_same; reflexivity).
    pose proof (is_derive_comp sqrt (fun t => value (sphere n) (upd x k t)) (x k) (/ (2 * sqrt s)) (2 * x k)) as C. apply C; [|exact Dd]. rewrite V. apply is_derive_Reals. apply derivable_pt_lim_sqrt. exact Ps.
Qed.
Lemma lp_high p n x k : (3 <= p)%nat -> evaluate (lp_norm p n) x (Some k) = None.
Proof. intros H. cbn [evaluate lp_norm]. destruct (Nat.eqb_spec p 0); [lia|]. unfold matrix_norm_ok. destruct (Nat.eqb_spec p 1); [lia|]. destruct (Nat.eqb_spec p 2); [lia|]. reflexivity. Qed.

(** ** slices *)
Lemma strided n (f : vec) (s step m : nat) (mask : nat -> bool) : (0 < step)%nat ->
  (forall i, (i < n)%nat -> mask i = true <-> exists j, (j < m)%nat /\ i = (s + step * j)%nat) -> (forall j, (j < m)%nat -> (s + step * j < n)%nat) ->
  rsum n (fun i => if mask i then f i else 0) = rsum m (fun j => f (s + step * j)%nat).
Proof.
  intros Hs HM HB. transitivity (rsum n (fun i => rsum m (fun j => if Nat.eqb i (s + step * j) then f i else 0))).
  - apply rsum_ext. intros i Hi. destruct (mask i) eqn:E.
    + apply HM in E; [|exact Hi]. destruct E as (j & Hj & ->). rewrite (rsum_ext m _ (fun a => if Nat.eqb a j then f (s + step * j)%nat else 0)); [symmetry; apply (rsum_single m (fun _ => f (s + step * j)%nat) j Hj)|].
      intros a Ha. destruct (Nat.eqb_spec (s + step * j) (s + step * a)), (Nat.eqb_spec a j); subst; try reflexivity; try lia. exfalso. apply n0. nia.
    + symmetry. apply rsum_zero. intros j Hj. destruct (Nat.eqb_spec i (s + step * j)) as [-> |]; [|reflexivity]. exfalso. assert (mask (s + step * j)%nat = true) by (apply HM; [exact Hi|exists j; split; [exact Hj|reflexivity]]). congruence.
  - rewrite rsum_swap. apply rsum_ext. intros j Hj. apply (rsum_single n f (s + step * j) (HB j Hj)).
Qed.
Lemma slice_eq n x (s e step m : nat) : (0 < step)%nat -> (s <= n)%nat -> (e <= n)%nat ->
  (forall j, (j < m)%nat <-> (s + step * j < e)%nat) -> slice_sum n x (Z.of_nat s) (Z.of_nat e) step = rsum m (fun j => x (s + step * j)%nat).
Proof.
  intros H0 Hs He HM. unfold slice_sum. assert (B : forall v, (v <= n)%nat -> bound n (Z.of_nat v) = v). { intros v Hv. unfold bound. destruct (Z.ltb_spec (Z.of_nat v) 0); [lia|]. rewrite Nat2Z.id. lia. }
  rewrite (B s Hs), (B e He). apply strided; [exact H0| |intros j Hj; apply HM in Hj; lia].
  intros i Hi. rewrite !andb_true_iff, Nat.leb_le, Nat.ltb_lt, Nat.eqb_eq. split.
  - intros [[A B1] C]. exists ((i - s) / step)%nat. assert (E : i = (s + step * ((i - s) / step))%nat) by (pose proof (Nat.div_mod (i - s) step ltac:(lia)); lia). split; [apply HM; lia|exact E].
  - intros (j & Hj & ->). split; [split; [lia|apply HM; exact Hj]|]. replace (s + step * j - s)%nat with (j * step)%nat by lia. apply Nat.mod_mul. lia.
Qed.
Lemma heading_eq n x i : (2 * i + 1 < n)%nat -> arm_angle n x (Z.of_nat i) = arm_heading x i.
Proof.
  intros H. unfold arm_angle, arm_heading. replace (2 * Z.of_nat i + 2)%Z with (Z.of_nat (2 * i + 2)) by lia. change 1%Z with (Z.of_nat 1). rewrite (slice_eq n x 1 (2 * i + 2) 2 (S i)); [apply rsum_ext; intros; f_equal; lia|lia|lia|lia|intros; lia].
Qed.
(** ** robot arm *)
Lemma heading_derive x k i : is_derive (fun t => arm_heading (upd x k t) i) (x k) (if Nat.eqb (k mod 2) 1 && Nat.leb (k / 2) i then 1 else 0).
Proof.
  unfold arm_heading. match goal with |- is_derive _ _ ?d => replace d with (rsum (S i) (fun j => if Nat.eqb (2 * j + 1) k then 1 else 0)) end.
  - apply (is_derive_rsum (S i) (fun j t => upd x k t (2 * j + 1)%nat)). intros j Hj. apply derive_x.
  - pose proof (Nat.div_mod k 2 ltac:(lia)) as D. pose proof (Nat.mod_upper_bound k 2 ltac:(lia)) as M. destruct (Nat.eqb_spec (k mod 2) 1) as [E|E]; cbn [andb].
    + destruct (Nat.leb_spec (k / 2) i) as [L|L].
      * rewrite (rsum_ext (S i) _ (fun j => if Nat.eqb j (k / 2) then 1 else 0)); [apply (rsum_single (S i) (fun _ => 1) (k / 2)); lia|]. intros j Hj. destruct (Nat.eqb_spec (2 * j + 1) k), (Nat.eqb_spec j (k / 2)); try lia; reflexivity.
      * apply rsum_zero. intros j Hj. destruct (Nat.eqb_spec (2 * j + 1) k); [lia|reflexivity].
    + apply rsum_zero. intros j Hj. destruct (Nat.eqb_spec (2 * j + 1) k); [lia|reflexivity].
Qed.
Definition arm_dx (m : nat) (x : vec) (k : nat) : R := rsum m (fun i => (if Nat.eqb (2 * i) k then 1 else 0) * cos (arm_heading x i) + x (2 * i)%nat * (- sin (arm_heading x i) * (if Nat.eqb (k mod 2) 1 && Nat.leb (k / 2) i then 1 else 0))).
Definition arm_dy (m : nat) (x : vec) (k : nat) : R := rsum m (fun i => (if Nat.eqb (2 * i) k then 1 else 0) * sin (arm_heading x i) + x (2 * i)%nat * (cos (arm_heading x i) * (if Nat.eqb (k mod 2) 1 && Nat.leb (k / 2) i then 1 else 0))).
Lemma heading_same x k i : arm_heading (upd x k (x k)) i = arm_heading x i.
Proof. unfold arm_heading. apply rsum_ext. intros; apply upd_same. Qed.
Lemma trig_derive (g dg : R -> R) (f : R -> R) t df : (forall u, is_derive g u (dg u)) -> is_derive f t df -> is_derive (fun s => g (f s)) t (dg (f t) * df).
Proof.
  intros Hg Hf. pose proof (is_derive_comp g f t (dg (f t)) df (Hg (f t)) Hf) as C. unfold scal in C; cbn in C; unfold mult in C; cbn in C. rewrite Rmult_comm. exact C.
Qed.
Lemma arm_x_derive m x k : is_derive (fun t => arm_x m (upd x k t)) (x k) (arm_dx m x k).
Proof.
  unfold arm_x, arm_dx. apply (is_derive_rsum m (fun i t => upd x k t (2 * i)%nat * cos (arm_heading (upd x k t) i))). intros i Hi.
  pose proof (derive_mul (fun t => upd x k t (2 * i)%nat) (fun t => cos (arm_heading (upd x k t) i)) (x k) _ _ (derive_x x k (2 * i)) (trig_derive cos (fun u => - sin u) _ _ _ is_derive_cos (heading_derive x k i))) as D. cbv beta in D. rewrite heading_same, upd_same in D. exact D.
Qed.
Lemma arm_y_derive m x k : is_derive (fun t => arm_y m (upd x k t)) (x k) (arm_dy m x k).
Proof.
  unfold arm_y, arm_dy. apply (is_derive_rsum m (fun i t => upd x k t (2 * i)%nat * sin (arm_heading (upd x k t) i))). intros i Hi.
  pose proof (derive_mul (fun t => upd x k t (2 * i)%nat) (fun t => sin (arm_heading (upd x k t) i)) (x k) _ _ (derive_x x k (2 * i)) (trig_derive sin cos _ _ _ is_derive_sin (heading_derive x k i))) as D. cbv beta in D. rewrite heading_same, upd_same in D. exact D.
Qed.
Lemma hyp_derive (u v : R -> R) t du dv : 0 < u t ^ 2 + v t ^ 2 -> is_derive u t du -> is_derive v t dv ->
  is_derive (fun s => sqrt (u s ^ 2 + v s ^ 2)) t (u t / sqrt (u t ^ 2 + v t ^ 2) * du + v t / sqrt (u t ^ 2 + v t ^ 2) * dv).
Proof.
  intros P Du Dv. set (q := sqrt (u t ^ 2 + v t ^ 2)). assert (Pq : 0 < q) by (apply sqrt_lt_R0; exact P).
  assert (D : is_derive (fun s => u s ^ 2 + v s ^ 2) t (2 * u t * du + 2 * v t * dv)).
  { apply (is_derive_ext (fun s => u s * u s + v s * v s)); [intros; match goal with |- ?a = ?b => change (@eq R a b) end; ring|]. pose proof (is_derive_plus (K := R_AbsRing) (V := R_NormedModule) (fun s => u s * u s) (fun s => v s * v s) t _ _ (derive_mul u u t du du Du Du) (derive_mul v v t dv dv Dv Dv)) as D. replace (2 * u t * du + 2 * v t * dv) with (du * u t + u t * du + (dv * v t + v t * dv)) by ring. exact D. }
  pose proof (is_derive_comp sqrt (fun s => u s ^ 2 + v s ^ 2) t (/ (2 * q)) _ (proj2 (is_derive_Reals sqrt _ _) (derivable_pt_lim_sqrt _ P)) D) as C. unfold scal in C; cbn in C; unfold mult in C; cbn in C.
  replace (u t / q * du + v t / q * dv) with ((2 * u t * du + 2 * v t * dv) * / (2 * q)) by (field; lra). exact C.
Qed.
Lemma robot_is n p : robot_arm n = Some p -> p = arm_problem n.
Proof. unfold robot_arm. destruct (negb _); congruence. Qed.
Lemma half m : ((2 * m) / 2)%nat = m.
Proof. rewrite Nat.mul_comm, Nat.div_mul; lia. Qed.
Lemma robot_value m p x : robot_arm (2 * m) = Some p -> value p x = sqrt (arm_x m x ^ 2 + arm_y m x ^ 2).
Proof.
  intros Hp. rewrite (robot_is _ _ Hp). unfold value, arm_problem. cbn [evaluate]. rewrite half.
  cbv zeta. unfold arm_x, arm_y. f_equal. f_equal; f_equal; apply rsum_ext; intros i Hi; rewrite heading_eq by lia; reflexivity.
Qed.
Lemma robot_ok m p x k : robot_arm (2 * m) = Some p -> (k < 2 * m)%nat -> 0 < arm_x m x ^ 2 + arm_y m x ^ 2 -> derivative_correct p x k.
Proof.
  intros Hp Hk P. exists (arm_x m x / sqrt (arm_x m x ^ 2 + arm_y m x ^ 2) * arm_dx m x k + arm_y m x / sqrt (arm_x m x ^ 2 + arm_y m x ^ 2) * arm_dy m x k). split.
  - rewrite (robot_is _ _ Hp). unfold arm_problem. cbn [evaluate]. rewrite half. cbv zeta.
    rewrite (rsum_ext m (fun i => x (2 * i)%nat * cos (arm_angle (2 * m) x (Z.of_nat i))) (fun i => x (2 * i)%nat * cos (arm_heading x i))) by (intros i Hi; rewrite heading_eq by lia; reflexivity).
    rewrite (rsum_ext m (fun i => x (2 * i)%nat * sin (arm_angle (2 * m) x (Z.of_nat i))) (fun i => x (2 * i)%nat * sin (arm_heading x i))) by (intros i Hi; rewrite heading_eq by lia; reflexivity).
    fold (arm_x m x) (arm_y m x). pose proof (Nat.div_mod k 2 ltac:(lia)) as D. pose proof (Nat.mod_upper_bound k 2 ltac:(lia)) as M.
    assert (ZM : (Z.of_nat k mod 2)%Z = Z.of_nat (k mod 2)) by (rewrite Nat2Z.inj_mod; reflexivity). assert (ZD : (Z.of_nat k / 2)%Z = Z.of_nat (k / 2)) by (rewrite Nat2Z.inj_div; reflexivity). rewrite ZM, ZD.
    destruct (Z.eqb_spec (Z.of_nat (k mod 2)) 0) as [K|K].
    + assert (K1 : (k mod 2)%nat = 0%nat) by lia. rewrite (heading_eq (2 * m) x (k / 2)) by lia. do 2 f_equal; f_equal.
      * unfold arm_dx. rewrite K1. cbn [Nat.eqb andb]. rewrite (rsum_ext m _ (fun i => if Nat.eqb i (k / 2) then cos (arm_heading x i) else 0)); [symmetry; apply (rsum_single m (fun i => cos (arm_heading x i)) (k / 2)); lia|]. intros i Hi. destruct (Nat.eqb_spec (2 * i) k), (Nat.eqb_spec i (k / 2)); try lia; ring.
      * unfold arm_dy. rewrite K1. cbn [Nat.eqb andb]. rewrite (rsum_ext m _ (fun i => if Nat.eqb i (k / 2) then sin (arm_heading x i) else 0)); [symmetry; apply (rsum_single m (fun i => sin (arm_heading x i)) (k / 2)); lia|]. intros i Hi. destruct (Nat.eqb_spec (2 * i) k), (Nat.eqb_spec i (k / 2)); try lia; ring.
    + assert (K1 : (k mod 2)%nat = 1%nat) by lia. do 2 f_equal; f_equal.
      * unfold arm_dx. rewrite K1. cbn [Nat.eqb andb]. apply rsum_ext. intros i Hi. rewrite heading_eq by lia. destruct (Nat.eqb_spec (2 * i) k); [lia|]. destruct (Z.leb_spec (Z.of_nat (k / 2)) (Z.of_nat i)), (Nat.leb_spec (k / 2) i); try lia; ring.
      * unfold arm_dy. rewrite K1. cbn [Nat.eqb andb]. apply rsum_ext. intros i Hi. rewrite heading_eq by lia. destruct (Nat.eqb_spec (2 * i) k); [lia|]. destruct (Z.leb_spec (Z.of_nat (k / 2)) (Z.of_nat i)), (Nat.leb_spec (k / 2) i); try lia; ring.
  - unfold is_partial. apply (is_derive_ext (fun t => sqrt (arm_x m (upd x k t) ^ 2 + arm_y m (upd x k t) ^ 2))); [intros t; symmetry; apply robot_value; exact Hp|].
    assert (SX : arm_x m (upd x k (x k)) = arm_x m x) by (unfold arm_x; apply rsum_ext; intros; rewrite heading_same, upd_same; reflexivity).
    assert (SY : arm_y m (upd x k (x k)) = arm_y m x) by (unfold arm_y; apply rsum_ext; intros; rewrite heading_same, upd_same; reflexivity).
    pose proof (hyp_derive (fun t => arm_x m (upd x k t)) (fun t => arm_y m (upd x k t)) (x k) (arm_dx m x k) (arm_dy m x k)) as Hh. cbv beta in Hh. rewrite SX, SY in Hh. apply Hh; [exact P|apply arm_x_derive|apply arm_y_derive].
Qed.
