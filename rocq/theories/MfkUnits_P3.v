(** Multi-fidelity models trained on reordered data in other units. *)
From Coq Require Import Reals Arith Bool List Lia Lra.
From Verif Require Import RSum Mat Tri_M Tri_P Kernels_M Krg_M Krg_S Krg_P Krg_P2 Krg_P3 Krg_P4 Het_S Het_P4 Order_S Order_P1 Order_P2 Order_P3 Mfk_M Mfk_S Mfk_P Mfk_P2 Mfk_P3 Rmtc_S MfkUnits_S MfkUnits_P MfkUnits_P2.
Import ListNotations.
Open Scope list_scope.
Open Scope R_scope.
Section U.
Variables (nx : nat) (po rho : poly) (qr : nat -> nat -> mat -> mat * mat) (rcond : nat -> mat -> R) (condF : nat -> nat -> mat -> R) (nugget : R).
Hypotheses (HQ : qr_contract qr) (HR : rcond_contract rcond) (HG : rcond_gram rcond) (HC : cond_rows condF).
Section One.
Variables (A B : vec) (a b : R) (all all' : list data).
Hypotheses (HA : forall c, (c < nx)%nat -> 0 < A c) (Ha : 0 < a) (D : same_data nx A B a b all all').
Hypotheses (VX : forall c, (c < nx)%nat -> varies all (fun d i => d_X d i c)) (VY : varies all d_y).
Notation E := (lv_eq nx po rho (y_scale all) (y_scale all')).
Lemma steps todo todo' : same_data nx A B a b todo todo' -> forall done done' lvls, List.Forall2 E done done' -> train_levels nx po rho qr rcond condF nugget all done todo = Some lvls ->
  exists lvls', train_levels nx po rho qr rcond condF nugget all' done' todo' = Some lvls' /\ List.Forall2 E lvls lvls'.
Proof.
  induction 1 as [|d d' l l' (En & Ek & f & RO & Hd) _ IH]; intros done done' lvls HD T; cbn [train_levels] in *.
  - injection T as <-. exists done'. split; [reflexivity|exact HD].
  - destruct (train_level nx po rho qr rcond condF nugget all done d) as [lv|] eqn:El; [|discriminate].
    destruct (step nx po rho qr rcond condF nugget HQ HR HG HC A B a b all all' HA Ha D VX VY done done' d d' f HD En Ek RO Hd lv El) as (lv' & -> & Q).
    apply (IH _ _ _ (List.Forall2_app HD (List.Forall2_cons lv lv' Q (List.Forall2_nil _))) T).
Qed.
Lemma F2_firstn {X Y} (P : X -> Y -> Prop) l l' : List.Forall2 P l l' -> forall k, List.Forall2 P (firstn k l) (firstn k l').
Proof. induction 1 as [|x y l l' H _ IH]; intros [|k]; cbn; constructor; auto. Qed.
Lemma trains lvls : mfk_train nx po rho qr rcond condF nugget all = Some lvls -> exists lvls', mfk_train nx po rho qr rcond condF nugget all' = Some lvls' /\ List.Forall2 E lvls lvls'.
Proof. intros T. apply (steps all all' D [] [] lvls (List.Forall2_nil _) T). Qed.
Section Q.
Variables (lvls lvls' : list level) (x : vec).
Hypothesis HE : List.Forall2 E lvls lvls'.
Notation x' := (fun c => A c * x c + B c).
Let Ax : agree nx (stdx all x) (stdx all' x').
Proof. intros c Hc. apply (std_query nx A B a b all all' HA D VX x x' c Hc). reflexivity. Qed.
Lemma val l l' : List.Forall2 E l l' -> mfk_value nx po rho all' l' x' = option_map (fun v => a * v + b) (mfk_value nx po rho all l x).
Proof.
  intros HL. unfold mfk_value. rewrite (last_eq nx po rho _ _ l l' _ _ HL Ax). destruct (last_mean nx po rho l (stdx all x)) as [m|]; [|reflexivity]. cbn [option_map]. f_equal.
  rewrite (yoff nx A B a b all all' D VY), (yscale nx A B a b all all' Ha D VY). ring.
Qed.
Lemma inter k : predict_intermediate nx po rho all' lvls' k x' = option_map (fun v => a * v + b) (predict_intermediate nx po rho all lvls k x).
Proof. apply val. apply F2_firstn. exact HE. Qed.
Lemma vars inv pls : inv_contract inv -> mfk_variances nx po rho inv pls all' lvls' x' = map (fun v => a ^ 2 * v) (mfk_variances nx po rho inv pls all lvls x).
Proof.
  intros HI. unfold mfk_variances. rewrite (mses_eq nx po rho _ _ inv pls lvls lvls' _ _ HI HE Ax), map_map. apply map_ext. intros v. rewrite (yscale nx A B a b all all' Ha D VY). ring.
Qed.
Lemma der corr kx : (kx < nx)%nat -> mfk_derivative nx po rho corr all' lvls' x' kx = option_map (fun v => v * a / A kx) (mfk_derivative nx po rho corr all lvls x kx).
Proof.
  intros Hk. unfold mfk_derivative. rewrite (derivs_eq nx po rho _ _ lvls lvls' _ _ kx HE Ax Hk).
  assert (P : forall v, v * y_scale all' / x_scale all' kx = v * y_scale all / x_scale all kx * a / A kx).
  { intros v. rewrite (yscale nx A B a b all all' Ha D VY), (xscale nx A B a b all all' HA D VX kx Hk). pose proof (HA kx Hk). assert (x_scale all kx <> 0) by apply scale1_nz. field. split; [assumption|lra]. }
  destruct corr; try reflexivity. destruct po, rho; try reflexivity; (destruct (rev _) as [|v l]; [reflexivity|]; cbn [option_map]; f_equal; apply P).
Qed.
End Q.
End One.
(** going back *)
Lemma same_back A B a b all all' : (forall c, (c < nx)%nat -> 0 < A c) -> 0 < a -> same_data nx A B a b all all' -> same_data nx (fun c => / A c) (fun c => - B c / A c) (/ a) (- b / a) all' all.
Proof.
  intros HA Ha. induction 1 as [|d d' l l' (En & Ek & f & RO & Hd) _ IH]; constructor; [|exact IH]. split; [congruence|]. split; [congruence|]. destruct (reorder_inv _ f RO) as (g & RG & FG & GF).
  exists g. rewrite En. split; [exact RG|]. intros i Hi. assert (Hg : (g i < d_nt d)%nat) by (apply RG; exact Hi). destruct (Hd (g i) Hg) as (H1 & H2 & H3). rewrite FG in H1, H2, H3 by exact Hi. split; [|split].
  - intros c Hc. rewrite H1 by exact Hc. pose proof (HA c Hc). field. lra.
  - rewrite H2. field. lra.
  - congruence.
Qed.
Lemma varies_moved A B a b all all' : (forall c, (c < nx)%nat -> 0 < A c) -> 0 < a -> same_data nx A B a b all all' ->
  (forall c, (c < nx)%nat -> varies all (fun d i => d_X d i c) -> varies all' (fun d i => d_X d i c)) /\ (varies all d_y -> varies all' d_y).
Proof.
  intros HA Ha D. assert (L : forall d i, In d all -> (i < d_nt d)%nat -> exists d' k, In d' all' /\ (k < d_nt d')%nat /\ (forall c, (c < nx)%nat -> d_X d' k c = A c * d_X d i c + B c) /\ d_y d' k = a * d_y d i + b).
  { clear -D. induction D as [|d d' l l' (En & Ek & f & RO & Hd) _ IH]; intros e i Hin Hi; [destruct Hin|]. destruct Hin as [-> | Hin].
    - destruct (reorder_inv _ f RO) as (g & RG & FG & _). assert (Hg : (g i < d_nt e)%nat) by (apply RG; exact Hi). destruct (Hd (g i) Hg) as (H1 & H2 & _). rewrite FG in H1, H2 by exact Hi.
      exists d', (g i). split; [left; reflexivity|]. split; [rewrite En; exact Hg|]. split; assumption.
    - destruct (IH e i Hin Hi) as (e' & k & H1 & H2). exists e', k. split; [right; exact H1|exact H2]. }
  split; [intros c Hc|]; intros (d & e & i & j & Hd & He & Hi & Hj & N); destruct (L d i Hd Hi) as (d' & k & H1 & H2 & H3 & H4); destruct (L e j He Hj) as (e' & l & G1 & G2 & G3 & G4); exists d', e', k, l;
    (split; [exact H1|]; split; [exact G1|]; split; [exact H2|]; split; [exact G2|]); intros E.
  - rewrite H3, G3 in E by exact Hc. apply N. pose proof (HA c Hc). apply (Rmult_eq_reg_l (A c)); lra.
  - rewrite H4, G4 in E. apply N. apply (Rmult_eq_reg_l a); lra.
Qed.
Lemma mfk_units A B a b all all' : (forall c, (c < nx)%nat -> 0 < A c) -> 0 < a -> same_data nx A B a b all all' ->
  (forall c, (c < nx)%nat -> varies all (fun d i => d_X d i c)) -> varies all d_y ->
  (mfk_train nx po rho qr rcond condF nugget all = None <-> mfk_train nx po rho qr rcond condF nugget all' = None) /\
  forall lvls lvls', mfk_train nx po rho qr rcond condF nugget all = Some lvls -> mfk_train nx po rho qr rcond condF nugget all' = Some lvls' -> forall x, let x' := fun c => A c * x c + B c in
  mfk_value nx po rho all' lvls' x' = option_map (fun v => a * v + b) (mfk_value nx po rho all lvls x) /\
  (forall k, predict_intermediate nx po rho all' lvls' k x' = option_map (fun v => a * v + b) (predict_intermediate nx po rho all lvls k x)) /\
  (forall inv pls, inv_contract inv -> mfk_variances nx po rho inv pls all' lvls' x' = map (fun v => a ^ 2 * v) (mfk_variances nx po rho inv pls all lvls x)) /\
  (forall corr kx, (kx < nx)%nat -> mfk_derivative nx po rho corr all' lvls' x' kx = option_map (fun v => v * a / A kx) (mfk_derivative nx po rho corr all lvls x kx)).
Proof.
  intros HA Ha D VX VY. split.
  - split; intros H.
    + destruct (mfk_train nx po rho qr rcond condF nugget all') as [lvls'|] eqn:E'; [|reflexivity]. exfalso.
      destruct (varies_moved A B a b all all' HA Ha D) as [W1 W2]. pose proof (same_back A B a b all all' HA Ha D) as Db.
      destruct (trains (fun c => / A c) (fun c => - B c / A c) (/ a) (- b / a) all' all (fun c Hc => Rinv_0_lt_compat _ (HA c Hc)) (Rinv_0_lt_compat _ Ha) Db (fun c Hc => W1 c Hc (VX c Hc)) (W2 VY) lvls' E') as (l & E & _). congruence.
    + destruct (mfk_train nx po rho qr rcond condF nugget all) as [lvls|] eqn:E; [|reflexivity]. exfalso. destruct (trains A B a b all all' HA Ha D VX VY lvls E) as (l & E' & _). congruence.
  - intros lvls lvls' T T' x x'. destruct (trains A B a b all all' HA Ha D VX VY lvls T) as (l & E' & HE). rewrite T' in E'. injection E' as <-. split; [|split; [|split]].
    + exact (val A B a b all all' HA Ha D VX VY x lvls lvls' HE).
    + intros k. exact (inter A B a b all all' HA Ha D VX VY lvls lvls' x HE k).
    + intros inv pls HI. exact (vars A B a b all all' HA Ha D VX VY lvls lvls' x HE inv pls HI).
    + intros corr kx Hk. exact (der A B a b all all' HA Ha D VX VY lvls lvls' x HE corr kx Hk).
Qed.
End U.
(** three levels: points reversed, other units *)
From Verif Require Import Mfk_P6 Krg_Qr Order_P6.
Definition u_d (y : vec) : data := {| d_nt := 3; d_X := (fun i _ => 2 * INR (2 - i) + 5); d_y := (fun i => 3 * y (2 - i)%nat - 1); d_k := w_k; d_noise := (fun _ => 0) |}.
Definition u_all : list data := [u_d (fun i => if Nat.eqb i 1 then 1 else 0); u_d (fun i => if Nat.eqb i 1 then 1 else 0); u_d (fun i => if Nat.eqb i 2 then 1 else 0)].
Lemma u_rev : reorder 3 (fun i => (2 - i)%nat).
Proof. split; [intros; lia|]. intros i j Hi Hj E. lia. Qed.
Lemma u_same y : same_level 1 (fun _ => 2) (fun _ => 5) 3 (-1) (w_d y) (u_d y).
Proof.
  split; [reflexivity|]. split; [reflexivity|]. exists (fun i => (2 - i)%nat). split; [exact u_rev|]. intros i Hi. split; [intros c Hc; reflexivity|]. split; [cbn; ring|reflexivity].
Qed.
Lemma u_example : same_data 1 (fun _ => 2) (fun _ => 5) 3 (-1) w_all u_all /\ (forall c, (c < 1)%nat -> varies w_all (fun d i => d_X d i c)) /\ varies w_all d_y /\
  exists lvls, mfk_train 1 PConstant PConstant gs_qr rcond01 cond0 0 w_all = Some lvls.
Proof.
  split; [repeat constructor; apply u_same|]. split; [|split; [|exact w_train]].
  - intros c Hc. exists (w_d (fun i => if Nat.eqb i 1 then 1 else 0)), (w_d (fun i => if Nat.eqb i 1 then 1 else 0)), 0%nat, 1%nat. split; [left; reflexivity|]. split; [left; reflexivity|]. split; [cbn; lia|]. split; [cbn; lia|]. cbn. lra.
  - exists (w_d (fun i => if Nat.eqb i 1 then 1 else 0)), (w_d (fun i => if Nat.eqb i 1 then 1 else 0)), 0%nat, 1%nat. split; [left; reflexivity|]. split; [left; reflexivity|]. split; [cbn; lia|]. split; [cbn; lia|]. cbn. lra.
Qed.
