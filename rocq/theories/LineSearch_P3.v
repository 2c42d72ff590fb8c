From Coq Require Import Reals Arith Bool List Lia Lra Psatz.
From Coquelicot Require Import Coquelicot.
From Verif Require Import RSum Mat LineSearch_M LineSearch_P.
Open Scope R_scope.
Lemma parabola_solves a1 p1 dp1 a2 p2 c0 c1 c2 : parabola a1 p1 dp1 a2 p2 = Some (c0, c1, c2) ->
  c0 + c1 * a1 + c2 * a1 ^ 2 = p1 /\ c0 + c1 * a2 + c2 * a2 ^ 2 = p2 /\ c1 + c2 * (2 * a1) = dp1.
Proof. unfold parabola. destruct (Req_EM_T a1 a2) as [|H]; [discriminate|]. intros [= <- <- <-]. repeat split; field; lra. Qed.
Lemma parabola_iff a1 p1 dp1 a2 p2 : parabola a1 p1 dp1 a2 p2 = None <-> a1 = a2.
Proof. unfold parabola. destruct (Req_EM_T a1 a2); split; intros; try discriminate; try reflexivity; try assumption; contradiction. Qed.
Section P.
Variables (n : nat) (x dx : vec) (func : vec -> R) (grad : vec -> vec) (u1 u2 al be ga : R).
Notation ph := (phi x dx func). Notation dph := (dphi n x dx grad).
Hypothesis U : 0 <= u1 <= 1 / 2 /\ 0 <= u2.
Hypothesis P : forall a, ph a = al + be * a + ga * a ^ 2.
Hypothesis DP : forall a, dph a = be + 2 * ga * a.
Hypothesis G : be < 0 < ga.
Lemma rule_exact a1 a2 : a1 <> a2 -> quadratic_rule a1 (ph a1) (dph a1) a2 (ph a2) (dph a2) = Some (- be / (2 * ga)).
Proof.
  intros N. unfold quadratic_rule, parabola. destruct (Req_EM_T a1 a2) as [|_]; [contradiction|]. cbv zeta. rewrite !P, !DP.
  replace ((al + be * a2 + ga * a2 ^ 2 - (al + be * a1 + ga * a1 ^ 2) - (be + 2 * ga * a1) * (a2 - a1)) / (a2 - a1) ^ 2) with ga by (field; lra).
  destruct (Req_EM_T (2 * ga) 0) as [E|_]; [lra|]. f_equal. field. lra.
Qed.
Lemma best_dec : func_decreased n x dx func grad u1 (- be / (2 * ga)) = true.
Proof.
  apply dec_true. rewrite !P, DP. assert (0 < / ga) by (apply Rinv_0_lt_compat; lra). assert (E : - be / (2 * ga) = (- be / 2) * / ga) by (field; lra). rewrite E.
  replace (al + be * (- be / 2 * / ga) + ga * (- be / 2 * / ga) ^ 2) with (al - (be * be) * / ga * / 4) by (field; lra).
  replace (al + be * 0 + ga * 0 ^ 2 + u1 * (- be / 2 * / ga) * (be + 2 * ga * 0)) with (al - u1 * (be * be) * / ga * / 2) by (field; lra).
  assert (0 < be * be) by nra. assert (0 < be * be * / ga) by (apply Rmult_lt_0_compat; assumption). nra.
Qed.
Lemma best_grad : grad_decreased n x dx grad u2 (- be / (2 * ga)) = true.
Proof. unfold grad_decreased. rewrite DP. replace (be + 2 * ga * (- be / (2 * ga))) with 0 by (field; lra). rewrite Rabs_R0. destruct (Rle_dec _ _) as [|N]; [reflexivity|]. exfalso. apply N. apply Rabs_pos. Qed.
Lemma best_low a : ph (- be / (2 * ga)) <= ph a.
Proof. rewrite !P. replace (al + be * (- be / (2 * ga)) + ga * (- be / (2 * ga)) ^ 2) with (al + be * a + ga * a ^ 2 - ga * (a + be / (2 * ga)) ^ 2) by (field; lra). pose proof (pow2_ge_0 (a + be / (2 * ga))). nra. Qed.
Lemma zoom_one a1 a2 f : a1 <> a2 -> zoom n x dx func grad u1 u2 quadratic_rule (S f) a1 (ph a1) (dph a1) a2 (ph a2) (dph a2) = Found (- be / (2 * ga)).
Proof.
  intros N. cbn [zoom]. rewrite rule_exact by exact N. rewrite best_dec. cbn [negb orb].
  destruct (Rlt_dec (ph a1) (ph (- be / (2 * ga)))) as [L|_]; [pose proof (best_low a1); lra|]. rewrite best_grad. reflexivity.
Qed.
Lemma bracket_one f : forall rounds a1 a2, 0 <= a1 < a2 -> let r := bracket n x dx func grad u1 u2 quadratic_rule (S f) rounds a1 (ph a1) (dph a1) a2 (ph a2) (dph a2) in
  r = Found (- be / (2 * ga)) \/ (exists k, (k < rounds)%nat /\ r = Found (a2 * (3 / 2) ^ k)) \/ (r = ReturnsNone /\ forall k, (k < rounds)%nat -> a2 * (3 / 2) ^ k < - be / (2 * ga)).
Proof.
  induction rounds as [|r IH]; intros a1 a2 H; cbn [bracket].
  - right; right. split; [reflexivity|]. intros k Hk. lia.
  - destruct (negb (func_decreased n x dx func grad u1 a2) || (if Rlt_dec (ph a1) (ph a2) then true else false)); [left; apply zoom_one; lra|].
    destruct (grad_decreased n x dx grad u2 a2); [right; left; exists 0%nat; split; [lia|]; cbn; f_equal; ring|].
    destruct (Rle_dec 0 (dph a2)) as [L|L]; [left; apply zoom_one; lra|]. apply Rnot_le_lt in L.
    assert (B : a2 < - be / (2 * ga)). { rewrite DP in L. apply Rmult_lt_reg_r with (2 * ga); [lra|]. replace (- be / (2 * ga) * (2 * ga)) with (- be) by (field; lra). lra. }
    destruct (IH a2 (a2 * (3 / 2))) as [E|[(k & Hk & E)|(E & X)]]; [lra| | |].
    + left. exact E.
    + right; left. exists (S k). split; [lia|]. cbv zeta. rewrite E. f_equal. cbn [pow]. ring.
    + right; right. split; [exact E|]. intros [|k] Hk; [cbn; rewrite Rmult_1_r; exact B|]. specialize (X k ltac:(lia)). replace (a2 * (3 / 2) ^ S k) with (a2 * (3 / 2) * (3 / 2) ^ k) by (cbn [pow]; ring). exact X.
Qed.
Lemma quadratic_exact f a0 : 0 < a0 -> let r := bracketed n x dx func grad u1 u2 quadratic_rule (S f) a0 in
  r = Found (- be / (2 * ga)) \/ (exists k, (k < 20)%nat /\ r = Found (a0 * (3 / 2) ^ k)) \/ (r = ReturnsNone /\ forall k, (k < 20)%nat -> a0 * (3 / 2) ^ k < - be / (2 * ga)).
Proof. intros H. apply bracket_one. lra. Qed.
End P.

Lemma nonvac54b : (forall a, is_derive (fun a => (fun v : vec => (v 0%nat - 1) ^ 2) (fun i => 0 + a * 1)) a (rsum 1 (fun i => (fun (v : vec) (_ : nat) => 2 * (v 0%nat - 1)) (fun i => 0 + a * 1) i * 1))) /\
  bracketed 1 (fun _ => 0) (fun _ => 1) (fun v => (v 0%nat - 1) ^ 2) (fun v _ => 2 * (v 0%nat - 1)) (1 / 10000) (1 / 10) quadratic_rule 1 3 = Found 1.
Proof.
  split.
  - intros a. cbn. auto_derive; [exact I|ring].
  - set (fn := fun v : vec => (v 0%nat - 1) ^ 2). set (gr := fun (v : vec) (_ : nat) => 2 * (v 0%nat - 1)).
    assert (P : forall a, phi (fun _ => 0) (fun _ => 1) fn a = 1 + (-2) * a + 1 * a ^ 2) by (intros a; unfold phi, ls_point, fn; ring).
    assert (DP : forall a, dphi 1 (fun _ => 0) (fun _ => 1) gr a = -2 + 2 * 1 * a) by (intros a; unfold dphi, dot, ls_point, gr; cbn; ring).
    unfold bracketed. cbn [bracket].
    assert (N : func_decreased 1 (fun _ => 0) (fun _ => 1) fn gr (1 / 10000) 3 = false).
    { unfold func_decreased. rewrite !P, DP. destruct (Rle_dec _ _); [lra|reflexivity]. }
    rewrite N. cbn [negb orb]. rewrite (zoom_one 1 (fun _ => 0) (fun _ => 1) fn gr (1 / 10000) (1 / 10) 1 (-2) 1); try assumption; try lra. f_equal. field.
Qed.
