From Coq Require Import Reals Arith Bool List Lia Lra.
From Coquelicot Require Import Coquelicot.
From Verif Require Import RSum Mat Tri_M Tri_P Rmtc_S Mfk_S Mfk_P4 LinSolve_M LinSolve_S LinSolve_P LinSolve_P2.
Open Scope R_scope.
Import ListNotations.
Notation levels_of := mg_setup.
Lemma next_eq r last : match r with [] => last | (m, _) :: _ => m end = finest r last.
Proof. destruct r as [|[m P] r]; reflexivity. Qed.
Lemma to_finest_lin ops last y z : forall i, to_finest ops last (fun j => y j + z j) i = to_finest ops last y i + to_finest ops last z i.
Proof.
  induction ops as [|[n P] r IH]; intros i; [reflexivity|]. cbn [to_finest]. rewrite <- mv_plus. apply mv_ext; [reflexivity|]. intros; apply IH.
Qed.
Lemma to_finest_sub ops last y z : forall i, to_finest ops last (fun j => y j - z j) i = to_finest ops last y i - to_finest ops last z i.
Proof.
  induction ops as [|[n P] r IH]; intros i; [reflexivity|]. cbn [to_finest]. rewrite <- mv_minus. apply mv_ext; [reflexivity|]. intros; apply IH.
Qed.
Lemma to_finest_zero ops last : forall i, to_finest ops last (fun _ => 0) i = 0.
Proof. induction ops as [|[n P] r IH]; intros i; [reflexivity|]. cbn [to_finest]. apply mv_zero. intros; apply IH. Qed.
Lemma galerkin_mv n P m A x i : mv m (galerkin {| ml_n := n; ml_P := P; ml_next := m |} A) x i = mv n (tr P) (mv n A (mv m P x)) i.
Proof. unfold galerkin. cbn [ml_n ml_P]. rewrite !mv_mm. reflexivity. Qed.
Lemma galerkin_sym n P m A : msym n A -> msym m (galerkin {| ml_n := n; ml_P := P; ml_next := m |} A).
Proof.
  intros Sy i j Hi Hj. unfold galerkin, mm, tr. cbn [ml_n ml_P].
  transitivity (rsum n (fun k => rsum n (fun l => P l i * A l k * P k j))).
  - apply rsum_ext. intros. rewrite <- rsum_scal_r. apply rsum_ext. intros; ring.
  - rewrite rsum_swap. apply rsum_ext. intros k Hk. rewrite <- rsum_scal_r. apply rsum_ext. intros l Hl. rewrite (Sy k l) by assumption. ring.
Qed.
Lemma galerkin_pd n P m A : independent n m P -> mpd n A -> mpd m (galerkin {| ml_n := n; ml_P := P; ml_next := m |} A).
Proof.
  intros I PD x (i & Hi & Hx). rewrite (dot_ext m x _ x (mv n (tr P) (mv n A (mv m P x)))) by (intros; first [reflexivity|apply galerkin_mv]).
  rewrite <- dot_mv_tr. apply PD. destruct (nonzero_dec n (mv m P x)) as [W|W]; [exact W|]. exfalso. apply Hx. apply (I x W i Hi).
Qed.
(** what the default solver maintains: the stored vector of every level but the coarsest is in the image of the coarsest *)
Fixpoint inrange (ops : list (nat * mat)) (last : nat) (sols : list vec) : Prop :=
  match ops with [] => True | (n, P) :: r => (exists y, same n (hd (fun _ => 0) sols) (to_finest ops last y)) /\ inrange r last (tl sols) end.
Lemma hd_match (l : list vec) : match l with [] => fun _ => 0 | s :: _ => s end = hd (fun _ => 0) l.
Proof. destruct l; reflexivity. Qed.
Section N.
Variable direct : nat -> mat -> vec -> vec.
Hypothesis HD : direct_contract direct.
Lemma cycle_null pre ops last : chained ops last -> forall A b sols, msym (finest ops last) A -> mpd (finest ops last) A -> inrange ops last sols ->
  let out := cycle direct null pre (levels_of ops last) last A b sols in
  inrange ops last out /\ (exists y, same (finest ops last) (hd (fun _ => 0) out) (to_finest ops last y)) /\
  forall z, dot (finest ops last) (to_finest ops last z) (residual (finest ops last) A b (hd (fun _ => 0) out)) = 0.
Proof.
  induction ops as [|[n P] r IH]; intros C A b sols Sy PD IR.
  - cbn. split; [exact I|]. split; [exists (direct last A b); intros i Hi; reflexivity|]. intros z. apply dot_zero_r. intros i Hi. unfold residual. rewrite (HD last A b Sy PD i Hi). ring.
  - cbn [mg_setup cycle ml_n ml_P ml_next]. rewrite !next_eq. cbn [finest] in *. destruct C as [C1 C2]. rewrite next_eq in C1. destruct IR as [(y & Hy) IR]. cbn [to_finest] in Hy. rewrite next_eq in Hy. rewrite hd_match.
    assert (EX : (if pre then null n A b (hd (fun _ => 0) sols) else hd (fun _ => 0) sols) = hd (fun _ => 0) sols) by (destruct pre; reflexivity). rewrite EX. set (x := hd (fun _ => 0) sols) in *. set (m := finest r last) in *.
    pose proof (galerkin_sym n P m A Sy) as GS. pose proof (galerkin_pd n P m A C1 PD) as GP. set (G := galerkin _ A) in *. set (rc := mv n (tr P) (residual n A b x)).
    specialize (IH C2 G rc (tl sols) GS GP IR). cbv zeta in IH. set (out := cycle direct null pre (levels_of r last) last G rc (tl sols)) in *. destruct IH as (I1 & (y' & I2) & I3). rewrite hd_match. set (e := hd (fun _ => 0) out) in *.
    cbv zeta. cbn [inrange hd tl]. unfold null. assert (RG : exists y0, same n (fun i => x i + mv m P e i) (to_finest ((n, P) :: r) last y0)).
    { exists (fun j => y j + y' j). intros i Hi. cbn [to_finest]. rewrite next_eq. fold m. rewrite (Hy i Hi). rewrite (mv_ext m P P e (to_finest r last y') i); [|reflexivity|intros j Hj; apply I2; exact Hj]. rewrite <- mv_plus. apply mv_ext; [reflexivity|]. intros j Hj. symmetry. apply to_finest_lin. }
    split; [split; [exact RG|exact I1]|]. split; [exact RG|]. intros z. cbn [to_finest]. rewrite next_eq. fold m. rewrite dot_mv_tr.
    rewrite <- (I3 z). apply dot_ext; [reflexivity|]. intros j Hj. transitivity (mv n (tr P) (fun i => residual n A b x i - mv n A (mv m P e) i) j).
    + apply mv_ext; [reflexivity|]. intros i Hi. unfold residual. rewrite mv_plus. ring.
    + rewrite mv_minus. unfold residual at 2. fold rc. rewrite <- (galerkin_mv n P m A e j). reflexivity.
Qed.
Lemma inrange_zero ops last : inrange ops last (repeat (fun _ : nat => 0) (S (length ops))).
Proof.
  induction ops as [|[n P] r IH]; [exact I|]. cbn [inrange length repeat hd tl]. split; [|exact IH]. exists (fun _ => 0). intros i Hi. symmetry. apply to_finest_zero.
Qed.
Variables (ops : list (nat * mat)) (last : nat) (A : mat).
Hypotheses (C : chained ops last) (Sy : msym (finest ops last) A) (PD : mpd (finest ops last) A).
Notation n := (finest ops last).
Notation lv := (levels_of ops last).
Definition good (b : vec) (x : vec) : Prop := (exists y, same n x (to_finest ops last y)) /\ forall z, dot n (to_finest ops last z) (residual n A b x) = 0.
Lemma mg_null_step mgc b sols : inrange ops last sols -> inrange ops last (mg_solve direct null mgc lv last A b sols) /\ good b (hd (fun _ => 0) (mg_solve direct null mgc lv last A b sols)).
Proof.
  intros IR. unfold mg_solve. destruct (cycle_null false ops last C A b sols Sy PD IR) as (I1 & I2 & I3). set (s1 := cycle _ _ _ _ _ _ _ _) in *. clearbody s1.
  assert (G : good b (hd (fun _ => 0) s1)) by (split; assumption). clear I2 I3. revert s1 I1 G. induction mgc as [|k IHk]; intros s1 I1 G; cbn [cycles]; [split; assumption|].
  destruct (cycle_null true ops last C A b s1 Sy PD I1) as (J1 & J2 & J3). apply IHk; [exact J1|split; assumption].
Qed.
Notation history sm mgc calls := (mg_history direct sm mgc ops last A calls).
Lemma history_inrange mgc calls : inrange ops last (history null mgc calls).
Proof.
  unfold mg_history. generalize (inrange_zero ops last). generalize (repeat (fun _ : nat => 0) (S (length ops))). induction calls as [|b r IH]; intros st IR; [exact IR|]. cbn [fold_left]. apply IH. apply mg_null_step. exact IR.
Qed.
Lemma good_min b x : good b x -> forall z, energy n A b x <= energy n A b (to_finest ops last z).
Proof.
  intros [(y & Hy) H] z. destruct (solution_ex n A b Sy PD) as [s Hs]. rewrite (energy_gap n A b s x Sy Hs), (energy_gap n A b s (to_finest ops last z) Sy Hs).
  set (v := to_finest ops last z). set (d := fun i => v i - x i). set (e := fun i => x i - s i).
  rewrite (dot_ext n (fun i => v i - s i) (mv n A (fun i => v i - s i)) (fun i => d i + e i) (fun i => mv n A d i + mv n A e i)).
  2:{ intros; unfold d, e; ring. } 2:{ intros i Hi. rewrite <- mv_plus. apply mv_ext; [reflexivity|]. intros; unfold d, e; ring. }
  rewrite dot_plus_l, !dot_plus_r. rewrite (dot_mv_sym n A e d Sy).
  assert (Z : dot n d (mv n A e) = 0).
  { rewrite <- Ropp_0, <- (H (fun j => z j - y j)), <- dot_opp_r. apply dot_ext.
    - intros i Hi. unfold d, v. rewrite (Hy i Hi), to_finest_sub. reflexivity.
    - intros i Hi. unfold residual, e. rewrite mv_minus, (Hs i Hi). ring. }
  rewrite Z. pose proof (mpd_psd n A PD d). lra.
Qed.
Lemma good_unique b x x' : good b x -> good b x' -> same n x x'.
Proof.
  intros [(y & Hy) H] [(y' & Hy') H'] i Hi. set (d := fun i => x i - x' i). enough (d i = 0) by (unfold d in *; lra).
  assert (Ed : forall i, (i < n)%nat -> d i = to_finest ops last (fun j => y j - y' j) i) by (intros j Hj; unfold d; rewrite to_finest_sub, (Hy j Hj), (Hy' j Hj); reflexivity).
  assert (Q : dot n d (mv n A d) = 0).
  { pose proof (H (fun j => y j - y' j)) as E1. pose proof (H' (fun j => y j - y' j)) as E2. rewrite (dot_ext n d _ (to_finest ops last (fun j => y j - y' j)) (fun i => residual n A b x' i - residual n A b x i)); [rewrite dot_minus_r, E1, E2; ring|exact Ed|]. intros j Hj. unfold residual, d. rewrite mv_minus. ring. }
  destruct (nonzero_dec n d) as [W|W]; [|apply W; exact Hi]. pose proof (PD d W). lra.
Qed.
Lemma mg_default mgc calls b : (exists y, same n (mg_call direct null mgc ops last A calls b) (to_finest ops last y)) /\
  (forall z, energy n A b (mg_call direct null mgc ops last A calls b) <= energy n A b (to_finest ops last z)).
Proof. pose proof (proj2 (mg_null_step mgc b _ (history_inrange mgc calls))) as G. split; [exact (proj1 G)|apply good_min; exact G]. Qed.
Lemma mg_default_history mgc calls mgc' calls' b : same n (mg_call direct null mgc ops last A calls b) (mg_call direct null mgc' ops last A calls' b).
Proof. apply (good_unique b); apply mg_null_step; apply history_inrange. Qed.
End N.
(** ** smoothers that fix solutions: exact solutions survive when the coarser stored vectors are zero *)
Section F.
Variables (direct : nat -> mat -> vec -> vec) (smooth : nat -> mat -> vec -> vec -> vec).
Hypotheses (HD : direct_contract direct) (HS : fixes_solutions smooth).
Fixpoint zeros (ops : list (nat * mat)) (last : nat) (sols : list vec) : Prop :=
  match ops with [] => True | (n, _) :: r => same n (hd (fun _ => 0) sols) (fun _ => 0) /\ zeros r last (tl sols) end.
Lemma cycle_keep pre ops last : chained ops last -> forall A b s sols, msym (finest ops last) A -> mpd (finest ops last) A -> solves (finest ops last) A b s ->
  (ops <> [] -> same (finest ops last) (hd (fun _ => 0) sols) s) -> zeros (tl ops) last (tl sols) ->
  let out := cycle direct smooth pre (levels_of ops last) last A b sols in same (finest ops last) (hd (fun _ => 0) out) s /\ zeros (tl ops) last (tl out).
Proof.
  induction ops as [|[n P] r IH]; intros C A b s sols Sy PD Hs Hx Hz; cbv zeta.
  - cbn. split; [|exact I]. cbn [finest] in *. intros i Hi. apply (mpd_unique last A (direct last A b) s PD); [|exact Hi]. intros j Hj. rewrite (HD last A b Sy PD j Hj), (Hs j Hj). reflexivity.
  - cbn [mg_setup cycle ml_n ml_P ml_next]. rewrite !next_eq. cbn [finest tl] in *. destruct C as [C1 C2]. rewrite next_eq in C1. specialize (Hx ltac:(discriminate)). rewrite !hd_match. set (x := hd (fun _ => 0) sols) in *.
    assert (Sx : forall v, same n v s -> solves n A b v). { intros v Hv i Hi. rewrite <- (Hs i Hi). apply mv_ext; [reflexivity|]. exact Hv. }
    set (x1 := if pre then smooth n A b x else x). assert (X1 : same n x1 s). { unfold x1. destruct pre; [|exact Hx]. intros i Hi. rewrite (HS n A b x Sy PD (Sx x Hx) i Hi). apply Hx. exact Hi. }
    set (m := finest r last) in *. pose proof (galerkin_sym n P m A Sy) as GS. pose proof (galerkin_pd n P m A C1 PD) as GP. set (G := galerkin _ A) in *. set (rc := mv n (tr P) (residual n A b x1)).
    assert (RZ : forall i, rc i = 0). { intros i. unfold rc. apply mv_zero. intros j Hj. unfold residual. rewrite (Sx x1 X1 j Hj). ring. }
    assert (SZ : solves m G rc (fun _ => 0)). { intros i Hi. rewrite RZ. apply mv_zero. reflexivity. }
    assert (HZ : r <> [] -> same m (hd (fun _ => 0) (tl sols)) (fun _ => 0)). { intros Hr. unfold m. destruct r as [|[m' P'] r']; [contradiction|]. exact (proj1 Hz). }
    assert (HZ2 : zeros (tl r) last (tl (tl sols))). { destruct r as [|[m' P'] r']; [exact I|]. exact (proj2 Hz). }
    destruct (IH C2 G rc (fun _ => 0) (tl sols) GS GP SZ HZ HZ2) as [K1 K2]. set (out := cycle direct smooth pre (levels_of r last) last G rc (tl sols)) in *. cbn [hd tl]. split.
    + set (e := hd (fun _ => 0) out) in *. set (x2 := fun i => x1 i + mv m P e i). assert (X2 : same n x2 s). { intros i Hi. unfold x2. rewrite (mv_zero m P e i); [rewrite Rplus_0_r; apply X1; exact Hi|]. exact K1. }
      intros i Hi. rewrite (HS n A b x2 Sy PD (Sx x2 X2) i Hi). apply X2. exact Hi.
    + destruct r as [|[m' P'] r']; [exact I|]. split; [exact K1|exact K2].
Qed.
Lemma mg_keep mgc ops last A b s sols : ops <> [] -> chained ops last -> msym (finest ops last) A -> mpd (finest ops last) A -> solves (finest ops last) A b s ->
  same (finest ops last) (hd (fun _ => 0) sols) s -> zeros (tl ops) last (tl sols) ->
  same (finest ops last) (hd (fun _ => 0) (mg_solve direct smooth mgc (levels_of ops last) last A b sols)) s.
Proof.
  intros N C Sy PD Hs Hx Hz. unfold mg_solve. destruct (cycle_keep false ops last C A b s sols Sy PD Hs (fun _ => Hx) Hz) as [K1 K2]. set (s1 := cycle _ _ _ _ _ _ _ _) in *. clearbody s1.
  revert s1 K1 K2. induction mgc as [|k IHk]; intros s1 K1 K2; [exact K1|]. cbn [cycles]. destruct (cycle_keep true ops last C A b s s1 Sy PD Hs (fun _ => K1) K2) as [J1 J2]. apply IHk; assumption.
Qed.
End F.
Lemma stationary_fixes lu k w m : lu_contract lu -> w <> 0 -> fixes_solutions (stationary lu k w m).
Proof. unfold stationary. intros HL Hw n A b x Sy PD H. apply iter_fixed; [exact HL|exact Hw| |exact H]. intros i Hi. pose proof (mpd_diag n A i PD Hi). lra. Qed.
