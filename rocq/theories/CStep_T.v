(** C110: benchmark problems that are differentiated numerically. *)
From Coq Require Import Reals ZArith Arith Bool List Lia Lra.
From Coquelicot Require Import Coquelicot.
From Verif Require Import RSum Problems_M Problems_S CStep_M CStep_S CStep_P CStep_P2 CStep_P3 CStep_P4.
Import ListNotations.
Open Scope list_scope.
Open Scope R_scope.

Definition numerically_differentiated : list (bool -> R -> R -> problem) := [water_flow; water_flow_lfidelity; wing_weight; welded_beam; torsion_vibration].
(** everywhere in the domain the value is a number, given by these formulas *)
Theorem C110_values : forall fd ch dx (x : vec),
  (in_domain (water_flow fd ch dx) x -> evaluate (water_flow fd ch dx) x None = Some (borehole (2 * PI) 1 (x 0%nat) (x 1%nat) (x 2%nat) (x 3%nat) (x 4%nat) (x 5%nat) (x 6%nat) (x 7%nat))) /\
  (in_domain (water_flow_lfidelity fd ch dx) x -> evaluate (water_flow_lfidelity fd ch dx) x None = Some (borehole 5 (3 / 2) (x 0%nat) (x 1%nat) (x 2%nat) (x 3%nat) (x 4%nat) (x 5%nat) (x 6%nat) (x 7%nat))) /\
  (in_domain (wing_weight fd ch dx) x -> evaluate (wing_weight fd ch dx) x None = Some (wing_formula (x 0%nat) (x 1%nat) (x 2%nat) (x 3%nat) (x 4%nat) (x 5%nat) (x 6%nat) (x 7%nat) (x 8%nat) (x 9%nat))) /\
  (in_domain (welded_beam fd ch dx) x -> evaluate (welded_beam fd ch dx) x None = Some (weld_formula (x 0%nat) (x 1%nat) (x 2%nat))) /\
  (in_domain (torsion_vibration fd ch dx) x -> exists w, evaluate (torsion_vibration fd ch dx) x None = Some (sqrt w / (2 * PI)) /\
     lowest_root (stiffness (x 0%nat) (x 1%nat) (x 2%nat)) (stiffness (x 6%nat) (x 7%nat) (x 8%nat)) (stiffness (x 9%nat) (x 3%nat) (x 4%nat))
       (inertia (x 5%nat) (x 10%nat) (x 11%nat)) (inertia (x 12%nat) (x 13%nat) (x 14%nat)) w).
Proof.
  intros fd ch dx x. split; [|split; [|split; [|split]]]; intros H.
  - unfold water_flow. rewrite <- flow_val. apply gen_value; [intros y; apply flow_regular; lra|exact H].
  - unfold water_flow_lfidelity. rewrite <- flow_val. apply gen_value; [intros y; apply flow_regular; lra|exact H].
  - unfold wing_weight. rewrite <- wing_val. apply gen_value; [exact wing_regular|exact H].
  - unfold welded_beam. rewrite <- beam_val. apply gen_value; [exact beam_regular|exact H].
  - destruct (torsion_val x) as (w & L & E); [eapply dom_within; exact H|]. exists w. split; [|exact L]. rewrite <- E. unfold torsion_vibration. apply gen_value; [exact torsion_regular|exact H].
Qed.
Print Assumptions C110_values.
(** complex step (the default): everywhere in the domain and for every variable, the reported number tends to the partial derivative of the
    value as the step (1e-20 in the code) tends to zero, and it is a number for every small step *)
Theorem C110_complex_step : forall p dx (x : vec) k, In p numerically_differentiated -> in_domain (p false 1 dx) x -> (k < ndim (p false 1%R dx))%nat ->
  step_consistent (fun ch => p false ch dx) x k.
Proof.
  intros p dx x k I H Hk. unfold numerically_differentiated in I. destruct I as [<-|[<-|[<-|[<-|[<-|[]]]]]].
  - apply (gen_step 8 flow_lo flow_up (flow_expr (2 * PI) 1)); [intros y; apply flow_regular; lra|exact H|exact Hk].
  - apply (gen_step 8 flow_lo flow_up (flow_expr 5 (3 / 2))); [intros y; apply flow_regular; lra|exact H|exact Hk].
  - apply (gen_step 10 wing_lo wing_up wing_expr); [exact wing_regular|exact H|exact Hk].
  - apply (gen_step 3 [5; 125 / 1000; 5] [10; 1; 10] beam_expr); [exact beam_regular|exact H|exact Hk].
  - apply (gen_step 15 torsion_lo torsion_up torsion_expr); [exact torsion_regular|exact H|exact Hk].
Qed.
Print Assumptions C110_complex_step.
(** use_FD: the reported number is the exact partial derivative at a point less than 1e-6 away in that direction *)
Theorem C110_central : forall p ch (x : vec) k, In p numerically_differentiated -> in_domain (p true ch (/ 10 ^ 6)) x -> (k < ndim (p true ch (/ 10 ^ 6)%R))%nat ->
  exists d, evaluate (p true ch (/ 10 ^ 6)) x (Some (Z.of_nat k)) = Some d /\ derivative_within (value (p true ch (/ 10 ^ 6))) x k (/ 10 ^ 6) d.
Proof.
  intros p ch x k I H Hk. unfold numerically_differentiated in I. fold the_dx in *. destruct I as [<-|[<-|[<-|[<-|[<-|[]]]]]].
  - apply (gen_central 8 flow_lo flow_up (flow_expr (2 * PI) 1)); [intros y; apply flow_regular; lra|exact H|exact Hk].
  - apply (gen_central 8 flow_lo flow_up (flow_expr 5 (3 / 2))); [intros y; apply flow_regular; lra|exact H|exact Hk].
  - apply (gen_central 10 wing_lo wing_up wing_expr); [exact wing_regular|exact H|exact Hk].
  - apply (gen_central 3 [5; 125 / 1000; 5] [10; 1; 10] beam_expr); [exact beam_regular|exact H|exact Hk].
  - apply (gen_central 15 torsion_lo torsion_up torsion_expr); [exact torsion_regular|exact H|exact Hk].
Qed.
Print Assumptions C110_central.
(** the formula printed in the documentation of the welded beam is another function: smaller everywhere in the domain; the inertia printed in the
    documentation of the torsion problem lacks a factor D/2 *)
Theorem C110_documented_refuted : forall fd ch dx (x : vec), in_domain (welded_beam fd ch dx) x ->
  weld_documented (x 0%nat) (x 1%nat) (x 2%nat) < value (welded_beam fd ch dx) x.
Proof.
  intros fd ch dx x H. unfold value, welded_beam. rewrite gen_value by (try exact beam_regular; exact H). rewrite beam_val.
  apply weld_lt; [pose proof (H 0%nat ltac:(cbn; lia)) as B|pose proof (H 1%nat ltac:(cbn; lia)) as B|pose proof (H 2%nat ltac:(cbn; lia)) as B]; cbn in B; lra.
Qed.
Print Assumptions C110_documented_refuted.
Theorem C110_documented_inertia_refuted : forall d t rho, inertia d t rho = inertia_documented d t rho * (d / 2).
Proof. intros. unfold inertia, inertia_documented. field. Qed.
Print Assumptions C110_documented_inertia_refuted.
(** the domains *)
Theorem C110_domain : forall fd ch dx (x : vec),
  (in_domain (welded_beam fd ch dx) x <-> 5 <= x 0%nat <= 10 /\ 125 / 1000 <= x 1%nat <= 1 /\ 5 <= x 2%nat <= 10) /\
  (in_domain (water_flow fd ch dx) x <-> in_domain (water_flow_lfidelity fd ch dx) x) /\
  (in_domain (water_flow fd ch dx) x <-> 5 / 100 <= x 0%nat <= 15 / 100 /\ 100 <= x 1%nat <= 50000 /\ 63070 <= x 2%nat <= 115600 /\ 990 <= x 3%nat <= 1110 /\
     631 / 10 <= x 4%nat <= 116 /\ 700 <= x 5%nat <= 820 /\ 1120 <= x 6%nat <= 1680 /\ 9855 <= x 7%nat <= 12045) /\
  (in_domain (wing_weight fd ch dx) x <-> 150 <= x 0%nat <= 200 /\ 220 <= x 1%nat <= 300 /\ 6 <= x 2%nat <= 10 /\ -10 <= x 3%nat <= 10 /\ 16 <= x 4%nat <= 45 /\
     5 / 10 <= x 5%nat <= 1 /\ 8 / 100 <= x 6%nat <= 18 / 100 /\ 25 / 10 <= x 7%nat <= 6 /\ 1700 <= x 8%nat <= 2500 /\ 25 / 1000 <= x 9%nat <= 8 / 100).
Proof.
  assert (Q : forall n (lo up : list R) fd ch dx e x, in_domain (numerical n lo up fd ch dx e) x <-> forall i, (i < n)%nat -> nth i lo 0 <= x i <= nth i up 0) by (intros; reflexivity).
  assert (I3 : forall P : nat -> Prop, (forall i, (i < 3)%nat -> P i) <-> P 0%nat /\ P 1%nat /\ P 2%nat).
  { intros P. split; [intros H; repeat split; apply H; lia|]. intros (A & B & C) i Hi. do 3 (destruct i as [|i]; [assumption|]). lia. }
  assert (I8 : forall P : nat -> Prop, (forall i, (i < 8)%nat -> P i) <-> P 0%nat /\ P 1%nat /\ P 2%nat /\ P 3%nat /\ P 4%nat /\ P 5%nat /\ P 6%nat /\ P 7%nat).
  { intros P. split; [intros H; repeat split; apply H; lia|]. intros (A0 & A1 & A2 & A3 & A4 & A5 & A6 & A7) i Hi. do 8 (destruct i as [|i]; [assumption|]). lia. }
  assert (I10 : forall P : nat -> Prop, (forall i, (i < 10)%nat -> P i) <-> P 0%nat /\ P 1%nat /\ P 2%nat /\ P 3%nat /\ P 4%nat /\ P 5%nat /\ P 6%nat /\ P 7%nat /\ P 8%nat /\ P 9%nat).
  { intros P. split; [intros H; repeat split; apply H; lia|]. intros (A0 & A1 & A2 & A3 & A4 & A5 & A6 & A7 & A8 & A9) i Hi. do 10 (destruct i as [|i]; [assumption|]). lia. }
  intros fd ch dx x. split; [|split; [reflexivity|split]].
  - unfold welded_beam. rewrite Q, I3. reflexivity.
  - unfold water_flow. rewrite Q, I8. reflexivity.
  - unfold wing_weight. rewrite Q, I10. reflexivity.
Qed.
Print Assumptions C110_domain.
(** a concrete case: every problem has points in its domain (the lower corner) *)
Example C110_nonvacuous : forall p fd ch dx, In p numerically_differentiated -> in_domain (p fd ch dx) (lower (p fd ch dx)) /\ (0 < ndim (p fd ch dx))%nat.
Proof.
  intros p fd ch dx I. unfold numerically_differentiated in I. destruct I as [<-|[<-|[<-|[<-|[<-|[]]]]]]; (split; [|cbn; lia]); intros i Hi; (split; [apply Rle_refl|]);
    cbv [ndim water_flow water_flow_lfidelity wing_weight welded_beam torsion_vibration numerical] in Hi; cbv [lower upper water_flow water_flow_lfidelity wing_weight welded_beam torsion_vibration numerical].
  1,2: do 8 (destruct i as [|i]; [cbv [nth flow_lo flow_up]; lra|]); lia.
  - do 10 (destruct i as [|i]; [cbv [nth wing_lo wing_up]; lra|]); lia.
  - do 3 (destruct i as [|i]; [cbv [nth]; lra|]); lia.
  - do 15 (destruct i as [|i]; [cbv [nth torsion_lo torsion_up]; lra|]); lia.
Qed.
Print Assumptions C110_nonvacuous.
