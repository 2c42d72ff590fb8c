From Coq Require Import Reals Arith Bool List Lia Lra.
From Verif Require Import RSum Mat LineSearch_M.
Open Scope R_scope.

Lemma hermite_iff a1 p1 dp1 a2 p2 dp2 : hermite_cubic a1 p1 dp1 a2 p2 dp2 = None <-> a1 = a2.
Proof. unfold hermite_cubic. destruct (Req_EM_T a1 a2); split; intros; try discriminate; try reflexivity; try assumption; contradiction. Qed.
Lemma hermite_solves a1 p1 dp1 a2 p2 dp2 c0 c1 c2 c3 : hermite_cubic a1 p1 dp1 a2 p2 dp2 = Some (c0, c1, c2, c3) ->
  c0 + c1 * a1 + c2 * a1 ^ 2 + c3 * a1 ^ 3 = p1 /\ c0 + c1 * a2 + c2 * a2 ^ 2 + c3 * a2 ^ 3 = p2 /\
  c1 + c2 * (2 * a1) + c3 * (3 * a1 ^ 2) = dp1 /\ c1 + c2 * (2 * a2) + c3 * (3 * a2 ^ 2) = dp2.
Proof. unfold hermite_cubic. destruct (Req_EM_T a1 a2) as [|H]; [discriminate|]. cbv zeta. intros [= <- <- <- <-]. repeat split; field; lra. Qed.

Lemma roots_none swap d2 d1 d0 : two_roots swap d2 d1 d0 = None <-> d2 = 0.
Proof. unfold two_roots. destruct (Req_EM_T d2 0); [tauto|]. cbv zeta. destruct (Rlt_dec _ 0); split; try discriminate; tauto. Qed.
Lemma roots_complex swap d2 d1 d0 : two_roots swap d2 d1 d0 = Some None -> forall a, d0 + d1 * a + d2 * a ^ 2 <> 0.
Proof.
  unfold two_roots. destruct (Req_EM_T d2 0) as [|N]; [discriminate|]. cbv zeta. destruct (Rlt_dec _ 0) as [L|L]; [|destruct swap; discriminate]. intros _ a E.
  assert (d1 ^ 2 - 4 * d2 * d0 = (2 * d2 * a + d1) ^ 2 - 4 * d2 * (d0 + d1 * a + d2 * a ^ 2)) as F by ring. rewrite E in F.
  pose proof (pow2_ge_0 (2 * d2 * a + d1)). lra.
Qed.
Lemma roots_real swap d2 d1 d0 r1 r2 : two_roots swap d2 d1 d0 = Some (Some (r1, r2)) -> forall a, d0 + d1 * a + d2 * a ^ 2 = 0 <-> a = r1 \/ a = r2.
Proof.
  unfold two_roots. destruct (Req_EM_T d2 0) as [|N]; [discriminate|]. cbv zeta. destruct (Rlt_dec _ 0) as [L|L]; [discriminate|].
  set (D := d1 ^ 2 - 4 * d2 * d0) in *. assert (SS : sqrt D * sqrt D = D) by (apply sqrt_sqrt; lra).
  set (w := sqrt D) in *. intros E a.
  assert (F : d0 + d1 * a + d2 * a ^ 2 = d2 * (a - (- d1 - w) / (2 * d2)) * (a - (- d1 + w) / (2 * d2))).
  { transitivity (d0 + d1 * a + d2 * a ^ 2 + (D - w * w) / (4 * d2)); [rewrite SS; field; exact N|]. unfold D. field. exact N. }
  assert (G : d0 + d1 * a + d2 * a ^ 2 = 0 <-> a = (- d1 - w) / (2 * d2) \/ a = (- d1 + w) / (2 * d2)).
  { rewrite F. split.
    - intros Z. destruct (Rmult_integral _ _ Z) as [Z'|Z']; [|right; lra]. destruct (Rmult_integral _ _ Z') as [Z''|Z'']; [contradiction|left; lra].
    - intros [-> | ->]; ring. }
  rewrite G. destruct swap; injection E as <- <-; tauto.
Qed.
Definition between (a1 a2 a : R) : Prop := Rmin a1 a2 <= a <= Rmax a1 a2.
Lemma try_spec phi a1 a2 r st : (between a1 a2 r /\ phi r < snd st /\ try_root phi a1 a2 r st = (Some r, phi r)) \/
  (~ (between a1 a2 r /\ phi r < snd st) /\ try_root phi a1 a2 r st = st).
Proof.
  unfold try_root, between, Rmin, Rmax.
  destruct (Rle_dec a1 r), (Rle_dec r a2), (Rle_dec a2 r), (Rle_dec r a1), (Rle_dec a1 a2); cbn [orb]; try (right; split; [lra|reflexivity]);
    try (exfalso; lra); destruct (Rlt_dec (phi r) (snd st)); try (left; split; [lra|split; [assumption|reflexivity]]); right; split; try reflexivity; lra.
Qed.
Lemma cubic_rule_some phi swap a1 p1 dp1 a2 p2 dp2 a : cubic_rule phi swap a1 p1 dp1 a2 p2 dp2 = Some a ->
  exists c0 c1 c2 c3, hermite_cubic a1 p1 dp1 a2 p2 dp2 = Some (c0, c1, c2, c3) /\ between a1 a2 a /\ c1 + 2 * c2 * a + 3 * c3 * a ^ 2 = 0 /\ phi a < Rmax p1 p2 /\
    forall b, between a1 a2 b -> c1 + 2 * c2 * b + 3 * c3 * b ^ 2 = 0 -> phi a <= phi b.
Proof.
  unfold cubic_rule. destruct (hermite_cubic a1 p1 dp1 a2 p2 dp2) as [[[[c0 c1] c2] c3]|]; [|discriminate].
  destruct (two_roots swap (3 * c3) (2 * c2) c1) as [[[r1 r2]|]|] eqn:T; try discriminate.
  pose proof (roots_real _ _ _ _ _ _ T) as Rt. intros E. exists c0, c1, c2, c3. split; [reflexivity|].
  destruct (try_spec phi a1 a2 r1 (None, Rmax p1 p2)) as [(B1 & L1 & E1)|(N1 & E1)]; rewrite E1 in E; cbn [snd] in *.
  - destruct (try_spec phi a1 a2 r2 (Some r1, phi r1)) as [(B2 & L2 & E2)|(N2 & E2)]; rewrite E2 in E; cbn [fst snd] in *; injection E as <-.
    + split; [exact B2|]. split; [apply Rt; right; reflexivity|]. split; [lra|]. intros b Bb Z. apply Rt in Z. destruct Z as [-> | ->]; lra.
    + split; [exact B1|]. split; [apply Rt; left; reflexivity|]. split; [exact L1|]. intros b Bb Z. apply Rt in Z. destruct Z as [-> | ->]; [lra|].
      apply Rnot_lt_le. intros L. apply N2. split; assumption.
  - destruct (try_spec phi a1 a2 r2 (None, Rmax p1 p2)) as [(B2 & L2 & E2)|(N2 & E2)]; rewrite E2 in E; cbn [fst snd] in *; [|discriminate]. injection E as <-.
    split; [exact B2|]. split; [apply Rt; right; reflexivity|]. split; [exact L2|]. intros b Bb Z. apply Rt in Z. destruct Z as [-> | ->]; [|lra].
    apply Rnot_lt_le. intros L. apply N1. split; [assumption|lra].
Qed.
Lemma cubic_rule_none phi swap a1 p1 dp1 a2 p2 dp2 : cubic_rule phi swap a1 p1 dp1 a2 p2 dp2 = None <->
  a1 = a2 \/ exists c0 c1 c2 c3, hermite_cubic a1 p1 dp1 a2 p2 dp2 = Some (c0, c1, c2, c3) /\
    (c3 = 0 \/ forall b, between a1 a2 b -> c1 + 2 * c2 * b + 3 * c3 * b ^ 2 = 0 -> Rmax p1 p2 <= phi b).
Proof.
  split.
  - intros E. destruct (hermite_cubic a1 p1 dp1 a2 p2 dp2) as [[[[c0 c1] c2] c3]|] eqn:Hc; [|left; apply hermite_iff in Hc; exact Hc].
    right. exists c0, c1, c2, c3. split; [reflexivity|]. unfold cubic_rule in E. rewrite Hc in E.
    destruct (two_roots swap (3 * c3) (2 * c2) c1) as [[[r1 r2]|]|] eqn:T; [right|right|left; apply roots_none in T; lra].
    + pose proof (roots_real _ _ _ _ _ _ T) as Rt. intros b Bb Z. apply Rt in Z.
      destruct (try_spec phi a1 a2 r1 (None, Rmax p1 p2)) as [(B1 & L1 & E1)|(N1 & E1)]; rewrite E1 in E; cbn [snd] in *.
      * destruct (try_spec phi a1 a2 r2 (Some r1, phi r1)) as [(B2 & L2 & E2)|(N2 & E2)]; rewrite E2 in E; discriminate.
      * destruct (try_spec phi a1 a2 r2 (None, Rmax p1 p2)) as [(B2 & L2 & E2)|(N2 & E2)]; rewrite E2 in E; [discriminate|]. cbn [snd] in *.
        apply Rnot_lt_le. intros L. destruct Z as [-> | ->]; [apply N1|apply N2]; split; assumption.
    + intros b _ Z. exfalso. exact (roots_complex _ _ _ _ T b Z).
  - intros [E|(c0 & c1 & c2 & c3 & E & H)].
    + apply (hermite_iff a1 p1 dp1 a2 p2 dp2) in E. unfold cubic_rule. rewrite E. reflexivity.
    + destruct (cubic_rule phi swap a1 p1 dp1 a2 p2 dp2) as [a|] eqn:C; [exfalso|reflexivity].
      destruct H as [Z|H].
      * unfold cubic_rule in C. rewrite E in C. assert (T : two_roots swap (3 * c3) (2 * c2) c1 = None) by (apply roots_none; lra). rewrite T in C. discriminate.
      * destruct (cubic_rule_some _ _ _ _ _ _ _ _ _ C) as (c0' & c1' & c2' & c3' & E' & B & Z & L & _). rewrite E' in E. injection E as -> -> -> ->.
        specialize (H a B Z). lra.
Qed.
(** a quadratic leaves no cubic term *)
Lemma cubic_on_quadratic phi swap al be ga a1 a2 : (forall a, phi a = al + be * a + ga * a ^ 2) ->
  cubic_rule phi swap a1 (phi a1) (be + 2 * ga * a1) a2 (phi a2) (be + 2 * ga * a2) = None.
Proof.
  intros P. apply cubic_rule_none. destruct (Req_EM_T a1 a2) as [|N]; [left; assumption|right].
  destruct (hermite_cubic a1 (phi a1) (be + 2 * ga * a1) a2 (phi a2) (be + 2 * ga * a2)) as [[[[c0 c1] c2] c3]|] eqn:E; [|apply hermite_iff in E; contradiction].
  exists c0, c1, c2, c3. split; [reflexivity|]. left. unfold hermite_cubic in E. destruct (Req_EM_T a1 a2); [contradiction|]. cbv zeta in E. injection E as _ _ _ <-. rewrite !P. field. lra.
Qed.
Section Q.
Variables (n : nat) (x dx : vec) (func : vec -> R) (grad : vec -> vec) (u1 u2 al be ga : R) (swap : bool).
Hypothesis P : forall a, phi x dx func a = al + be * a + ga * a ^ 2.
Hypothesis DP : forall a, dphi n x dx grad a = be + 2 * ga * a.
Lemma zoom_raises fuel a1 a2 : zoom n x dx func grad u1 u2 (cubic_rule (phi x dx func) swap) (S fuel) a1 (phi x dx func a1) (dphi n x dx grad a1) a2 (phi x dx func a2) (dphi n x dx grad a2) = Raises.
Proof. cbn [zoom]. rewrite !DP, (cubic_on_quadratic _ swap al be ga a1 a2 P). reflexivity. Qed.
Lemma bracket_cubic fuel : forall rounds a1 a2, let r := bracket n x dx func grad u1 u2 (cubic_rule (phi x dx func) swap) (S fuel) rounds a1 (phi x dx func a1) (dphi n x dx grad a1) a2 (phi x dx func a2) (dphi n x dx grad a2) in
  r = Raises \/ (exists k, (k < rounds)%nat /\ r = Found (a2 * (3 / 2) ^ k)) \/ r = ReturnsNone.
Proof.
  induction rounds as [|r IH]; intros a1 a2; cbn [bracket]; [right; right; reflexivity|]. cbv zeta.
  destruct (negb _ || _)%bool; [left; apply zoom_raises|]. destruct (grad_decreased _ _ _ _ _ _); [right; left; exists 0%nat; split; [lia|]; f_equal; ring|].
  destruct (Rle_dec 0 _); [left; apply zoom_raises|].
  destruct (IH a2 (a2 * (3 / 2))) as [E|[(k & Hk & E)|E]]; [left; exact E|right; left; exists (S k); split; [lia|]; rewrite E; f_equal; cbn; ring|right; right; exact E].
Qed.
Lemma bracketed_cubic fuel a0 : let r := bracketed n x dx func grad u1 u2 (cubic_rule (phi x dx func) swap) (S fuel) a0 in
  r = Raises \/ (exists k, (k < 20)%nat /\ r = Found (a0 * (3 / 2) ^ k)) \/ r = ReturnsNone.
Proof. exact (bracket_cubic fuel 20 0 a0). Qed.
End Q.
(** (a - 1)^2 from 0, first step 3, as in the quadratic example *)
Lemma cubic_raises swap fuel : bracketed 1 (fun _ => 0) (fun _ => 1) (fun v => (v 0%nat - 1) ^ 2) (fun v _ => 2 * (v 0%nat - 1)) (1 / 10000) (1 / 10)
  (cubic_rule (fun a => (fun v : vec => (v 0%nat - 1) ^ 2) (fun i => 0 + a * 1)) swap) (S fuel) 3 = Raises.
Proof.
  assert (P : forall a, phi (fun _ => 0) (fun _ => 1) (fun v => (v 0%nat - 1) ^ 2) a = 1 + (-2) * a + 1 * a ^ 2) by (intros; unfold phi, ls_point; ring).
  assert (DP : forall a, dphi 1 (fun _ => 0) (fun _ => 1) (fun v _ => 2 * (v 0%nat - 1)) a = -2 + 2 * 1 * a) by (intros; unfold dphi, ls_point, dot, rsum; ring).
  unfold bracketed. assert (E : forall f r a1 p1 dp1 a2 p2 dp2 rule, func_decreased 1 (fun _ => 0) (fun _ => 1) (fun v => (v 0%nat - 1) ^ 2) (fun v _ => 2 * (v 0%nat - 1)) (1 / 10000) a2 = false ->
     bracket 1 (fun _ => 0) (fun _ => 1) (fun v => (v 0%nat - 1) ^ 2) (fun v _ => 2 * (v 0%nat - 1)) (1 / 10000) (1 / 10) rule f (S r) a1 p1 dp1 a2 p2 dp2 =
     zoom 1 (fun _ => 0) (fun _ => 1) (fun v => (v 0%nat - 1) ^ 2) (fun v _ => 2 * (v 0%nat - 1)) (1 / 10000) (1 / 10) rule f a1 p1 dp1 a2 p2 dp2)
    by (intros f r a1 p1 dp1 a2 p2 dp2 rule F; cbn [bracket]; rewrite F; reflexivity).
  rewrite E.
  - exact (zoom_raises 1 (fun _ => 0) (fun _ => 1) (fun v => (v 0%nat - 1) ^ 2) (fun v _ => 2 * (v 0%nat - 1)) (1 / 10000) (1 / 10) 1 (-2) 1 swap P DP fuel 0 3).
  - unfold func_decreased. rewrite !P, DP. destruct (Rle_dec _ _); [exfalso; lra|reflexivity].
Qed.
(** a case where it works: phi a = a^3 - 3 a on [0, 3] *)
Lemma cubic_works swap : cubic_rule (fun a => a ^ 3 - 3 * a) swap 0 0 (-3) 3 18 24 = Some 1.
Proof.
  destruct (cubic_rule (fun a => a ^ 3 - 3 * a) swap 0 0 (-3) 3 18 24) as [a|] eqn:E.
  - destruct (cubic_rule_some _ _ _ _ _ _ _ _ _ E) as (c0 & c1 & c2 & c3 & H & B & Z & L & _). unfold hermite_cubic in H. destruct (Req_EM_T 0 3); [discriminate|]. cbv zeta in H. injection H as _ <- <- <-.
    unfold between in B. rewrite Rmin_left, Rmax_right in B by lra. f_equal. assert (Q : (a - 1) * (a + 1) = 0) by lra. destruct (Rmult_integral _ _ Q); lra.
  - exfalso. apply cubic_rule_none in E. destruct E as [E|(c0 & c1 & c2 & c3 & H & D)]; [lra|]. unfold hermite_cubic in H. destruct (Req_EM_T 0 3); [discriminate|]. cbv zeta in H. injection H as _ <- <- <-.
    destruct D as [D|D]; [lra|]. specialize (D 1). unfold between in D. rewrite Rmin_left, !Rmax_right in D by lra. assert (18 <= 1 ^ 3 - 3 * 1) by (apply D; [lra|lra]). lra.
Qed.
