From Coq Require Import Reals ZArith Arith Bool List Lia Lra Psatz.
From Coquelicot Require Import Coquelicot.
From Verif Require Import RSum Problems_M Problems_S CStep_M CStep_S CStep_P CStep_P2 CStep_P3.
Import ListNotations.
Open Scope list_scope.
Open Scope R_scope.

Lemma dx_pos : 0 < the_dx.
Proof. unfold the_dx. apply Rinv_0_lt_compat. apply pow_lt. lra. Qed.
Lemma evalR_ext e x y : (forall j, x j = y j) -> evalR e x = evalR e y.
Proof. intros H. induction e; cbn [evalR]; try rewrite IHe1, IHe2; try rewrite IHe; try rewrite H; reflexivity. Qed.
Section G.
Variables (n : nat) (lo up : list R) (e : expr).
Hypothesis RG : forall x, within n lo up the_dx x -> regular e x.
Let p (fd : bool) (ch dx : R) := numerical n lo up fd ch dx e.
Lemma dom_within fd ch dx x : in_domain (p fd ch dx) x -> within n lo up the_dx x.
Proof. pose proof dx_pos as D. intros H i Hi. specialize (H i Hi). cbn in H. lra. Qed.
Lemma gen_value fd ch dx x : in_domain (p fd ch dx) x -> evaluate (p fd ch dx) x None = Some (val e x).
Proof. intros H. cbn. apply evalR_val. apply RG. eapply dom_within. exact H. Qed.
Lemma gen_step dx x k : in_domain (p false 1 dx) x -> (k < n)%nat -> step_consistent (fun ch => p false ch dx) x k.
Proof.
  intros H Hk. assert (Rx : regular e x) by (apply RG; eapply dom_within; exact H). exists (der e x k). split; [apply num_partial; exact Rx|].
  intros eps He. destruct (num_step n lo up e dx x k Hk Rx) as (L & h & Hh & D). fold (p false) in *.
  apply is_lim_spec in L. destruct (L (mkposreal eps He)) as (d & Hd).
  exists (Rmin h d). split; [apply Rmin_pos; [exact Hh|apply cond_pos]|]. intros ch (H0 & H1).
  assert (B : Rabs (ch - 0) < d) by (rewrite Rminus_0_r; eapply Rlt_le_trans; [exact H1|apply Rmin_r]).
  assert (N0 : ch <> 0) by (intros ->; rewrite Rabs_R0 in H0; lra). specialize (Hd ch B N0).
  specialize (D ch ltac:(eapply Rlt_le_trans; [exact H1|apply Rmin_l])). fold (p false ch dx) in *.
  destruct (evaluate (p false ch dx) x (Some (Z.of_nat k))) as [v|]; [|contradiction]. exists v. split; [reflexivity|exact Hd].
Qed.
Lemma gen_central ch x k : in_domain (p true ch the_dx) x -> (k < n)%nat ->
  exists d, evaluate (p true ch the_dx) x (Some (Z.of_nat k)) = Some d /\ derivative_within (value (p true ch the_dx)) x k the_dx d.
Proof.
  intros H Hk. destruct (num_central n lo up e ch the_dx x k Hk dx_pos) as (t & Ht & d & E & D).
  - intros t Ht. apply RG. intros i Hi. specialize (H i Hi). cbn in H. pose proof dx_pos. apply Rabs_le_between in Ht.
    destruct (Nat.eq_dec i k) as [-> |N]; [rewrite upd_eq; lra|rewrite upd_neq by exact N; lra].
  - exists d. split; [exact E|]. exists t. split; [exact Ht|]. unfold is_partial. rewrite upd_eq.
    revert D. apply is_derive_ext. intros s. unfold p, value. cbn.
    rewrite (evalR_ext e (upd x k s) (upd (upd x k t) k s)) by (intros j; symmetry; apply upd2). reflexivity.
Qed.
End G.

Lemma pi_deg t : t / 180 * PI = t * PI / 180. Proof. field. Qed.
Lemma flow_val c s x : val (flow_expr c s) x = borehole c s (x 0%nat) (x 1%nat) (x 2%nat) (x 3%nat) (x 4%nat) (x 5%nat) (x 6%nat) (x 7%nat).
Proof. reflexivity. Qed.
Lemma wing_val x : val wing_expr x = wing_formula (x 0%nat) (x 1%nat) (x 2%nat) (x 3%nat) (x 4%nat) (x 5%nat) (x 6%nat) (x 7%nat) (x 8%nat) (x 9%nat).
Proof. unfold wing_expr, wing_formula, V, N. cbn [val]. cbv zeta. rewrite pi_deg. reflexivity. Qed.
Lemma beam_val x : val beam_expr x = weld_formula (x 0%nat) (x 1%nat) (x 2%nat).
Proof.
  unfold beam_expr, weld_formula, V, N. cbn [val]. cbv zeta.
  replace (25 / 100 * (x 2%nat ^ 2 + (x 1%nat + x 0%nat) ^ 2)) with ((x 2%nat ^ 2 + (x 1%nat + x 0%nat) ^ 2) / 4) by field.
  replace (1 / 2 * x 2%nat) with (x 2%nat / 2) by field. replace (25 / 100 * (x 1%nat + x 0%nat) ^ 2) with ((x 1%nat + x 0%nat) ^ 2 / 4) by field. reflexivity.
Qed.
Lemma torsion_lowest K1 K2 K3 J1 J2 : 0 < K1 -> 0 < K2 -> 0 < K3 -> 0 < J1 -> 0 < J2 ->
  let b := - ((K1 + K2) / J1 + (K2 + K3) / J2) in let c := (K1 * K2 + K2 * K3 + K3 * K1) / (J1 * J2) in
  lowest_root K1 K2 K3 J1 J2 ((- b - sqrt (b ^ 2 - 4 * 1 * c)) / (2 * 1)).
Proof.
  intros A1 A2 A3 B1 B2 b c. destruct (torsion_roots K1 K2 K3 J1 J2 A1 A2 A3 B1 B2) as (D & S0). fold b c in D, S0.
  set (s := sqrt (b ^ 2 - 4 * 1 * c)) in *. assert (E : s * s = b ^ 2 - 4 * 1 * c) by (apply sqrt_sqrt; lra).
  assert (Sp : 0 <= s) by apply sqrt_pos.
  assert (JJ : 0 < J1 * J2) by (apply Rmult_lt_0_compat; assumption).
  assert (F : forall t, (K1 + K2 - J1 * t) * (K2 + K3 - J2 * t) - K2 ^ 2 = J1 * J2 * ((t - (- b - s) / 2) * (t - (- b + s) / 2))).
  { intros t. replace ((t - (- b - s) / 2) * (t - (- b + s) / 2)) with (t ^ 2 + b * t + (b ^ 2 - s * s) / 4) by field. rewrite E. unfold b, c. field. lra. }
  unfold lowest_root. cbv zeta. split; [|split].
  - rewrite F. replace ((- b - s) / (2 * 1)) with ((- b - s) / 2) by field. ring.
  - exact S0.
  - intros t Ht. rewrite F in Ht. apply Rmult_integral in Ht. destruct Ht as [Ht|Ht]; [lra|]. apply Rmult_integral in Ht. destruct Ht; lra.
Qed.
Lemma torsion_val x : within 15 torsion_lo torsion_up the_dx x -> exists w,
  lowest_root (stiffness (x 0%nat) (x 1%nat) (x 2%nat)) (stiffness (x 6%nat) (x 7%nat) (x 8%nat)) (stiffness (x 9%nat) (x 3%nat) (x 4%nat)) (inertia (x 5%nat) (x 10%nat) (x 11%nat)) (inertia (x 12%nat) (x 13%nat) (x 14%nat)) w /\
  val torsion_expr x = sqrt w / (2 * PI).
Proof.
  intros W. dims W. assert (E6 : / 10 ^ 6 = / 1000000) by (f_equal; ring). rewrite !E6 in *. pose proof PI_RGT_0 as Pp.
  eexists. split; [apply torsion_lowest; unfold stiffness, inertia; posi; lra|]. unfold torsion_expr, stiffness, inertia, V, N. cbn [val]. cbv zeta. reflexivity.
Qed.

Lemma weld_lt t h l : 5 <= t -> 0 < h -> 5 <= l -> weld_documented t h l < weld_formula t h l.
Proof.
  intros Ht Hh Hl. unfold weld_documented, weld_formula. cbv zeta. set (r := sqrt ((l ^ 2 + (h + t) ^ 2) / 4)).
  assert (L2 : 25 <= l ^ 2) by (replace (l ^ 2) with (l * l) by ring; nra).
  assert (T2 : 25 < (h + t) ^ 2) by (replace ((h + t) ^ 2) with ((h + t) * (h + t)) by ring; nra).
  assert (Hr : 1 < r) by (rewrite <- sqrt_1; apply sqrt_lt_1; lra).
  assert (S2 : 0 < sqrt 2) by (apply sqrt_lt_R0; lra). 
  set (a := 6000 / (sqrt 2 * h * l)). assert (A : 0 < a) by (unfold a; posi; lra).
  set (q := 6000 * (14 + l / 2) * r). assert (Q : 0 < q) by (unfold q; posi; lra).
  set (c1 := 2 * (707 / 1000 * h * l * (l ^ 2 / 12 + (h + t) ^ 2 / 4))). set (c2 := 2 * (707 / 1000 * h * l * (l / 12 + (h + t) ^ 2 / 4))).
  assert (HL : 0 < 707 / 1000 * h * l) by (posi; lra).
  assert (C2 : 0 < c2) by (unfold c2; apply Rmult_lt_0_compat; [lra|]; apply Rmult_lt_0_compat; lra).
  assert (C1 : c2 < c1). { unfold c1, c2. apply Rmult_lt_compat_l; [lra|]. apply Rmult_lt_compat_l; [exact HL|]. assert (l < l ^ 2) by (replace (l ^ 2) with (l * l) by ring; nra). lra. }
  set (u := q / c1). set (v := q / c2).
  assert (U : 0 < u) by (unfold u; apply Rdiv_lt_0_compat; lra).
  assert (UV : u < v) by (unfold u, v, Rdiv; apply Rmult_lt_compat_l; [exact Q|]; apply Rinv_lt_contravar; [apply Rmult_lt_0_compat; lra|exact C1]).
  assert (AU : 0 < a * u) by (apply Rmult_lt_0_compat; assumption). assert (AUV : a * u < a * v) by (apply Rmult_lt_compat_l; assumption).
  assert (A2 : 0 < a ^ 2) by (apply pow_lt; exact A). assert (U2 : 0 < u ^ 2) by (apply pow_lt; exact U).
  assert (V2 : u ^ 2 < v ^ 2) by (replace (u ^ 2) with (u * u) by ring; replace (v ^ 2) with (v * v) by ring; apply Rmult_le_0_lt_compat; lra).
  assert (X : l * a * u < l * a * v) by (rewrite !Rmult_assoc; apply Rmult_lt_compat_l; lra).
  assert (X0 : 0 < l * a * u) by (rewrite Rmult_assoc; apply Rmult_lt_0_compat; lra).
  assert (Ir : 0 < / r < 1) by (split; [apply Rinv_0_lt_compat; lra|rewrite <- Rinv_1; apply Rinv_lt_contravar; lra]).
  apply sqrt_lt_1.
  - apply Rlt_le. apply Rdiv_lt_0_compat; lra.
  - assert (0 < l * a * v / r) by (apply Rdiv_lt_0_compat; lra). lra.
  - unfold Rdiv. rewrite Rmult_plus_distr_r. apply Rplus_lt_compat; [|apply Rmult_lt_compat_r; lra].
    apply Rlt_trans with (a ^ 2 + u ^ 2); [|lra]. rewrite <- (Rmult_1_r (a ^ 2 + u ^ 2)) at 2. apply Rmult_lt_compat_l; lra.
Qed.
