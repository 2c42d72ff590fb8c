From Coq Require Import Reals Arith Bool List Lia Lra.
From Coquelicot Require Import Coquelicot.
From Verif Require Import RSum Mat LineSearch_M.
Open Scope R_scope.
Section P.
Variables (n : nat) (x dx : vec) (func : vec -> R) (grad : vec -> vec) (u1 u2 : R).
Notation ph := (phi x dx func). Notation dph := (dphi n x dx grad). Notation pt := (ls_point x dx).
Notation dec := (func_decreased n x dx func grad u1).
Lemma dec_true a : dec a = true <-> ph a <= ph 0 + u1 * a * dph 0.
Proof. unfold func_decreased. destruct (Rle_dec _ _); split; intros; try assumption; try reflexivity; try discriminate; contradiction. Qed.
Lemma backtrack_spec fuel : forall a rho r, backtrack n x dx func grad u1 fuel a rho = Some r ->
  exists m, (m < fuel)%nat /\ r = a * rho ^ m /\ ph r <= ph 0 + u1 * r * dph 0 /\
    (forall j, (j < m)%nat -> ph 0 + u1 * (a * rho ^ j) * dph 0 < ph (a * rho ^ j)).
Proof.
  induction fuel as [|f IH]; intros a rho r H; cbn in H; [discriminate|].
  destruct (dec a) eqn:D; cbn in H.
  - injection H as <-. exists 0%nat. split; [lia|]. split; [cbn; ring|]. split; [apply dec_true; exact D|]. intros j Hj. lia.
  - destruct (IH _ _ _ H) as (m & Hm & E & P & Q). exists (S m). split; [lia|]. split; [rewrite E; cbn; ring|]. split; [exact P|].
    intros [|j] Hj.
    + rewrite pow_O, Rmult_1_r. apply Rnot_le_lt. intros C. apply dec_true in C. congruence.
    + replace (a * rho ^ S j) with (a * rho * rho ^ j) by (cbn; ring). apply Q. lia.
Qed.
Lemma backtrack_finds m : forall a rho, dec (a * rho ^ m) = true -> exists fuel r, (fuel <= S m)%nat /\ backtrack n x dx func grad u1 fuel a rho = Some r.
Proof.
  induction m as [|m IH]; intros a rho H.
  - exists 1%nat, a. split; [lia|]. cbn in *. rewrite Rmult_1_r in H. rewrite H. reflexivity.
  - destruct (dec a) eqn:D.
    + exists 1%nat, a. split; [lia|]. cbn. rewrite D. reflexivity.
    + destruct (IH (a * rho) rho) as (f & r & Hf & E).
      { replace (a * rho * rho ^ m) with (a * rho ^ S m) by (cbn; ring). exact H. }
      exists (S f), r. split; [lia|]. cbn. rewrite D. exact E.
Qed.
Lemma backtrack_terminates a0 rho : 0 < a0 -> 0 < rho < 1 -> u1 < 1 -> is_derive ph 0 (dph 0) -> dph 0 < 0 ->
  exists fuel r, backtrack n x dx func grad u1 fuel a0 rho = Some r.
Proof.
  intros Ha Hr Hu Hd Hn.
  set (g := dph 0) in *.
  assert (He : 0 < - (1 - u1) * g) by nra.
  (* close to 0, phi a <= phi 0 + a g + eps a *)
  destruct Hd as (_ & Hd). 
  assert (Hd' := Hd 0 (fun P H => H) (mkposreal _ He)). cbn in Hd'. destruct Hd' as (d & Hd').
  destruct (pow_lt_1_zero rho ltac:(rewrite Rabs_pos_eq; lra) (d / a0) ltac:(apply Rdiv_lt_0_compat; [apply cond_pos|exact Ha])) as (m & Hm).
  destruct (backtrack_finds m a0 rho) as (f & r & _ & E); [|exists f, r; exact E].
  apply dec_true. set (a := a0 * rho ^ m).
  assert (Pa : 0 < a) by (apply Rmult_lt_0_compat; [exact Ha|apply pow_lt; lra]).
  assert (La : a < d).
  { specialize (Hm m (le_n m)). rewrite Rabs_pos_eq in Hm by (apply pow_le; lra). unfold a.
    apply (Rmult_lt_compat_l a0) in Hm; [|exact Ha]. replace (a0 * (d / a0)) with (pos d) in Hm by (field; lra). exact Hm. }
  specialize (Hd' a). 
  assert (B : ball 0 d a). { unfold ball. cbn. unfold AbsRing_ball, abs, minus, plus, opp. cbn. match goal with |- Rabs ?e < _ => replace e with a by ring end. rewrite Rabs_pos_eq; lra. }
  specialize (Hd' B). unfold norm, minus, plus, opp, scal in Hd'. cbn in Hd'. unfold mult, abs in Hd'. cbn in Hd'.
  unfold minus, plus, opp in Hd'. cbn in Hd'.
  replace (a + - 0) with a in Hd' by ring. rewrite (Rabs_pos_eq a) in Hd' by lra.
  pose proof (Rle_abs (ph a + - ph 0 + - (a * g))) as X. fold g in X.
  assert (ph a - ph 0 - a * g <= - (1 - u1) * g * a) by (apply Rle_trans with (1 := X) in Hd'; unfold Rminus; lra). fold g. lra.
Qed.
Lemma convex_ascent_diverges rho a0 : 0 < a0 -> 0 < rho -> u1 < 1 -> 0 < dph 0 -> (forall a, 0 < a -> ph 0 + a * dph 0 <= ph a) ->
  forall fuel, backtrack n x dx func grad u1 fuel a0 rho = None.
Proof.
  intros Ha Hr Hu Hg Hc fuel. revert a0 Ha. induction fuel as [|f IH]; intros a0 Ha; cbn; [reflexivity|].
  destruct (dec a0) eqn:D; cbn.
  - exfalso. apply dec_true in D. pose proof (Hc a0 Ha). assert (0 < (1 - u1) * (a0 * dph 0)) by (apply Rmult_lt_0_compat; [lra|apply Rmult_lt_0_compat; assumption]). lra.
  - apply IH. apply Rmult_lt_0_compat; assumption.
Qed.
Variable rule : R -> R -> R -> R -> R -> R -> option R.
Lemma zoom_wolfe fuel : forall a1 p1 dp1 a2 p2 dp2 a, zoom n x dx func grad u1 u2 rule fuel a1 p1 dp1 a2 p2 dp2 = Found a ->
  ph a <= ph 0 + u1 * a * dph 0 /\ Rabs (dph a) <= Rabs (u2 * dph 0).
Proof.
  induction fuel as [|f IH]; intros a1 p1 dp1 a2 p2 dp2 a H; cbn in H; [discriminate|].
  destruct (rule a1 p1 dp1 a2 p2 dp2) as [b|]; [|discriminate].
  destruct (dec b) eqn:D; cbn in H; [|apply IH in H; exact H].
  destruct (Rlt_dec p1 (ph b)); [apply IH in H; exact H|].
  destruct (grad_decreased n x dx grad u2 b) eqn:G.
  - injection H as <-. split; [apply dec_true; exact D|]. unfold grad_decreased in G. destruct (Rle_dec _ _); [assumption|discriminate].
  - destruct (Rle_dec 0 (dph b * (a2 - a1))); apply IH in H; exact H.
Qed.
Lemma bracket_wolfe fuel rounds : forall a1 p1 dp1 a2 dp2 a, bracket n x dx func grad u1 u2 rule fuel rounds a1 p1 dp1 a2 (ph a2) dp2 = Found a ->
  ph a <= ph 0 + u1 * a * dph 0 /\ Rabs (dph a) <= Rabs (u2 * dph 0).
Proof.
  induction rounds as [|r IH]; intros a1 p1 dp1 a2 dp2 a H; cbn in H; [discriminate|].
  destruct (dec a2) eqn:D; cbn in H; [|apply zoom_wolfe in H; exact H].
  destruct (Rlt_dec p1 (ph a2)); [apply zoom_wolfe in H; exact H|].
  destruct (grad_decreased n x dx grad u2 a2) eqn:G.
  - injection H as <-. split; [apply dec_true; exact D|]. unfold grad_decreased in G. destruct (Rle_dec _ _); [assumption|discriminate].
  - destruct (Rle_dec 0 dp2); [apply zoom_wolfe in H; exact H|]. apply IH in H. exact H.
Qed.
Lemma bracketed_wolfe fuel a0 a : bracketed n x dx func grad u1 u2 rule fuel a0 = Found a ->
  ph a <= ph 0 + u1 * a * dph 0 /\ Rabs (dph a) <= Rabs (u2 * dph 0).
Proof. apply bracket_wolfe. Qed.
End P.
(** a linear decreasing objective: no bracket is ever found *)
Lemma bracketed_linear rule fuel :
  bracketed 1 (fun _ => 0) (fun _ => 1) (fun v => - v 0%nat) (fun _ _ => -1) (1 / 10000) (9 / 10) rule fuel 1 = ReturnsNone.
Proof.
  unfold bracketed. set (F := fun v : vec => - v 0%nat). set (G := fun (_ : vec) (_ : nat) => -1).
  assert (E : forall a, phi (fun _ => 0) (fun _ => 1) F a = - a) by (intros a; unfold phi, ls_point, F; ring).
  assert (D : forall a, dphi 1 (fun _ => 0) (fun _ => 1) G a = -1) by (intros a; unfold dphi, dot, G; cbn; ring).
  assert (H : forall r a1 a2, 0 <= a1 < a2 -> bracket 1 (fun _ => 0) (fun _ => 1) F G (1 / 10000) (9 / 10) rule fuel r a1 (- a1) (-1) a2 (- a2) (-1) = ReturnsNone).
  { induction r as [|r IH]; intros a1 a2 Ha; cbn [bracket]; [reflexivity|]. cbv zeta.
    unfold func_decreased, grad_decreased. rewrite !E, !D.
    destruct (Rle_dec (- a2) (-0 + 1 / 10000 * a2 * -1)) as [_|C]; [|exfalso; apply C; lra]. cbn [negb orb].
    destruct (Rlt_dec (- a1) (- a2)) as [C|_]; [lra|].
    destruct (Rle_dec (Rabs (-1)) (Rabs (9 / 10 * -1))) as [C|_].
    { exfalso. rewrite !Rabs_left in C by lra. lra. }
    destruct (Rle_dec 0 (-1)) as [C|_]; [lra|]. apply IH. lra. }
  rewrite !E, !D. replace (- 0) with (- (0)) by ring. apply (H 20%nat 0 1). lra.
Qed.
Lemma nonvac54 : backtrack 1 (fun _ => 1) (fun _ => -3) (fun v => v 0%nat * v 0%nat) (fun v _ => 2 * v 0%nat) (1 / 10000) 2 1 (1 / 2) = Some (1 * (1 / 2)) /\
  bracketed 1 (fun _ => 1) (fun _ => -1) (fun v => v 0%nat * v 0%nat) (fun v _ => 2 * v 0%nat) (1 / 10000) (9 / 10) midpoint_rule 0 1 = Found 1.
Proof.
  split.
  - cbn [backtrack]. unfold func_decreased, phi, dphi, ls_point, dot. cbn [rsum].
    destruct (Rle_dec _ _) as [C|C]; [exfalso; lra|]. cbn [negb]. destruct (Rle_dec _ _) as [D|D]; [reflexivity|exfalso; apply D; lra].
  - unfold bracketed. cbn [bracket]. unfold func_decreased, grad_decreased, phi, dphi, ls_point, dot. cbn [rsum].
    destruct (Rle_dec _ _) as [C|C]; [|exfalso; apply C; lra]. cbn [negb orb].
    destruct (Rlt_dec _ _) as [D|_]; [lra|]. destruct (Rle_dec _ _) as [D|D]; [reflexivity|]. exfalso. apply D.
    rewrite !Rabs_left1 by lra. replace (0 + 2 * (1 + 1 * -1) * -1) with 0 by ring. lra.
Qed.
