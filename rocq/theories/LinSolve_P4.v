From Coq Require Import Reals Arith Bool List Lia Lra.
From Coquelicot Require Import Coquelicot.
From Verif Require Import RSum Mat Tri_M Tri_P Rmtc_S Mfk_S Mfk_P4 LinSolve_M LinSolve_S LinSolve_P LinSolve_P2 LinSolve_P3.
Open Scope R_scope.
Import ListNotations.
Lemma mg_call_twice direct smooth mgc ops last A calls b :
  mg_call direct smooth mgc ops last A (calls ++ [b]) b = hd (fun _ => 0) (mg_solve direct smooth mgc (mg_setup ops last) last A b (mg_history direct smooth mgc ops last A (calls ++ [b]))) /\
  hd (fun _ => 0) (mg_history direct smooth mgc ops last A (calls ++ [b])) = mg_call direct smooth mgc ops last A calls b.
Proof. split; [reflexivity|]. unfold mg_call, mg_history. rewrite fold_left_app. reflexivity. Qed.
Lemma two_level_keep direct smooth mgc n P last A calls b : direct_contract direct -> fixes_solutions smooth -> independent n last P -> msym n A -> mpd n A ->
  solves n A b (mg_call direct smooth mgc [(n, P)] last A calls b) ->
  same n (mg_call direct smooth mgc [(n, P)] last A (calls ++ [b]) b) (mg_call direct smooth mgc [(n, P)] last A calls b).
Proof.
  intros HD HS HI Sy PD Hs. destruct (mg_call_twice direct smooth mgc [(n, P)] last A calls b) as [E1 E2]. rewrite E1.
  apply (mg_keep direct smooth HD HS mgc [(n, P)] last A b); [discriminate|split; [exact HI|exact I]|exact Sy|exact PD|exact Hs| |exact I].
  rewrite E2. intros i Hi; reflexivity.
Qed.
(** ** contracts can be met *)
Definition lu_w : nat -> mat -> vec -> vec := fun n M r => fsub M r n.
Lemma lu_w_ok : lu_contract lu_w.
Proof. intros n M r L D i Hi. unfold lu_w. apply fsub_solves; [|exact D|exact Hi]. intros a c H1 H2. apply L; lia. Qed.
Definition direct_w : nat -> mat -> vec -> vec := fun n M r => mv n (chol_inv n M) r.
Lemma direct_w_ok : direct_contract direct_w.
Proof.
  intros n A b Sy PD i Hi. unfold direct_w. rewrite <- mv_mm. transitivity (mv n idm b i); [|apply mv_id; exact Hi]. apply mv_ext; [|reflexivity]. intros j Hj.
  exact (proj1 (chol_inv_contract n A Sy PD i j Hi Hj)).
Qed.
(** ** with a smoother the answer depends on earlier calls *)
Definition wA : mat := fun i j => if Nat.eqb i j then 2 else 1.
Definition wP : mat := fun i j => if Nat.eqb i 0 then 1 else 0.
Definition wb : vec := fun i => if Nat.eqb i 1 then 1 else 0.
Definition zb : vec := fun _ => 0.
Lemma wA_sym : msym 2 wA.
Proof. intros i j _ _. unfold wA. rewrite Nat.eqb_sym. reflexivity. Qed.
Lemma wA_pd : mpd 2 wA.
Proof.
  intros x (i & Hi & Hx). unfold dot, mv, wA. cbn [rsum Nat.eqb]. assert (K : x 0%nat <> 0 \/ x 1%nat <> 0) by (destruct i as [|[|i]]; [left; exact Hx|right; exact Hx|lia]).
  assert (Q : 0 < x 0%nat ^ 2 + x 1%nat ^ 2 + (x 0%nat + x 1%nat) ^ 2); [|lra].
  destruct K as [K|K]; [assert (0 < x 0%nat ^ 2) by (apply pow2_gt_0; exact K)|assert (0 < x 1%nat ^ 2) by (apply pow2_gt_0; exact K)]; pose proof (pow2_ge_0 (x 0%nat)); pose proof (pow2_ge_0 (x 1%nat)); pose proof (pow2_ge_0 (x 0%nat + x 1%nat)); lra.
Qed.
Lemma wP_ind : independent 2 1 wP.
Proof. intros c H j Hj. specialize (H 0%nat ltac:(lia)). unfold mv, wP in H. cbn [rsum Nat.eqb] in H. destruct j; [lra|lia]. Qed.
Section W.
Variables (lu direct : nat -> mat -> vec -> vec).
Hypotheses (HL : lu_contract lu) (HD : direct_contract direct).
Lemma wA_nz : forall i, (i < 2)%nat -> wA i i <> 0.
Proof. intros i _. unfold wA. rewrite Nat.eqb_refl. lra. Qed.
Lemma sweep b x : gs lu 2 wA 1 b x 0%nat = (b 0%nat - x 1%nat) / 2 /\ gs lu 2 wA 1 b x 1%nat = (b 1%nat - (b 0%nat - x 1%nat) / 2) / 2.
Proof.
  pose proof (gs_row lu HL 2 wA 1 R1_neq_R0 wA_nz b x 0 ltac:(lia)) as E0. pose proof (gs_row lu HL 2 wA 1 R1_neq_R0 wA_nz b x 1 ltac:(lia)) as E1. set (g := gs lu 2 wA 1 b x) in *. clearbody g.
  unfold wA in E0, E1. cbn [rsum Nat.eqb Nat.add Nat.sub] in E0, E1. assert (G0 : g 0%nat = (b 0%nat - x 1%nat) / 2) by (rewrite E0; field). split; [exact G0|]. rewrite E1, G0. field.
Qed.
Lemma sweeps_b m : forall x, 0 <= x 1%nat -> / 2 <= iterate lu GS 2 wA 1 wb (S m) x 1%nat.
Proof.
  induction m as [|m IH]; intros x Hx.
  - cbn [iterate step]. rewrite (proj2 (sweep wb x)). unfold wb. cbn [Nat.eqb]. lra.
  - change (iterate lu GS 2 wA 1 wb (S (S m)) x) with (iterate lu GS 2 wA 1 wb (S m) (step lu GS 2 wA 1 wb x)). apply IH. cbn [step]. rewrite (proj2 (sweep wb x)). unfold wb. cbn [Nat.eqb]. lra.
Qed.
Lemma sweeps_0 m : forall x, 0 < x 1%nat -> 0 < iterate lu GS 2 wA 1 zb m x 1%nat.
Proof.
  induction m as [|m IH]; intros x Hx; [exact Hx|]. cbn [iterate]. apply IH. cbn [step]. rewrite (proj2 (sweep zb x)). unfold zb. lra.
Qed.
Definition wops : list (nat * mat) := [(2%nat, wP)].
Lemma one_pass m b st : mg_solve direct (stationary lu GS 1 m) 0 (mg_setup wops 1) 1 wA b st =
  [iterate lu GS 2 wA 1 b m (fun i => hd (fun _ => 0) st i + mv 1 wP (direct 1%nat (galerkin {| ml_n := 2; ml_P := wP; ml_next := 1 |} wA) (mv 2 (tr wP) (residual 2 wA b (hd (fun _ => 0) st)))) i);
   direct 1%nat (galerkin {| ml_n := 2; ml_P := wP; ml_next := 1 |} wA) (mv 2 (tr wP) (residual 2 wA b (hd (fun _ => 0) st)))].
Proof. unfold mg_solve, stationary, wops. cbn [cycles mg_setup cycle ml_n ml_P ml_next]. rewrite hd_match. reflexivity. Qed.
Lemma row1 (c : vec) (x : vec) : x 1%nat + mv 1 wP c 1%nat = x 1%nat.
Proof. unfold mv, wP. cbn [rsum Nat.eqb]. ring. Qed.
Lemma history_matters m : 0 < mg_call direct (stationary lu GS 1 (S m)) 0 wops 1 wA [wb] zb 1%nat /\ mg_call direct (stationary lu GS 1 (S m)) 0 wops 1 wA [] zb 1%nat = 0.
Proof.
  split.
  - unfold mg_call, mg_history. cbn [fold_left]. rewrite !one_pass. cbn [hd]. apply sweeps_0. rewrite row1. match goal with |- 0 < iterate _ _ _ _ _ _ _ ?x _ => enough (H : / 2 <= iterate lu GS 2 wA 1 wb (S m) x 1%nat) by lra end. apply sweeps_b. rewrite row1. cbn [length wops repeat hd]. lra.
  - assert (K : same 2 (mg_call direct (stationary lu GS 1 (S m)) 0 wops 1 wA [] zb) zb); [|apply K; lia]. unfold mg_call. apply (mg_keep direct (stationary lu GS 1 (S m)) HD (stationary_fixes lu GS 1 (S m) HL R1_neq_R0) 0 wops 1 wA zb zb).
    + discriminate.
    + split; [exact wP_ind|exact I].
    + exact wA_sym.
    + exact wA_pd.
    + intros i Hi. apply mv_zero. reflexivity.
    + intros i Hi. reflexivity.
    + exact I.
Qed.
End W.
