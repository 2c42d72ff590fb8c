(** C125: continuity of the IDW predictions, at the training points too. *)
From Coq Require Import Reals Arith Bool List Lia Lra.
From Coquelicot Require Import Coquelicot.
From Verif Require Import RSum Mat Idw_M Idw_P Idw_P2 Cont_S Cont_P.
Open Scope R_scope.

Section Idw.
Variables (nx nt : nat) (p : R) (xt : nat -> nat -> R).
Notation r2 := (idw_r2 nx xt). Notation w := (idw_w nx p xt). Notation on := (on_data nx xt).
Lemma r2_cont i x : continuous_at nx (fun y => r2 y i) x.
Proof. unfold idw_r2. apply (c_sum nx x nx (fun k y => (y k - xt i k) ^ 2)). intros k Hk. con; apply c_coord; exact Hk. Qed.
Lemma w_cont i x : r2 x i <> 0 -> continuous_at nx (fun y => w y i) x.
Proof.
  intros N. pose proof (r2_nonneg nx xt x i). unfold idw_w. apply (c_comp nx x (fun y => r2 y i) (fun u => Rpower u (- p / 2)) (r2_cont i x)).
  apply (ex_derive_continuous (K := R_AbsRing) (V := R_NormedModule)). unfold Rpower. auto_derive. lra.
Qed.
Lemma near_r2 i x : r2 x i <> 0 -> near nx x (fun y => r2 y i <> 0 /\ w y i <= w x i + 1).
Proof.
  intros N. pose proof (r2_nonneg nx xt x i) as P. destruct (r2_cont i x (r2 x i) ltac:(lra)) as (d & Hd & K). destruct (w_cont i x N 1 ltac:(lra)) as (e & He & L).
  exists (Rmin d e). split; [apply Rmin_glb_lt; assumption|]. intros y Hy. split.
  - assert (Q : Rabs (r2 y i - r2 x i) < r2 x i) by (apply K; intros k Hk; eapply Rlt_le_trans; [apply Hy; exact Hk|apply Rmin_l]). apply Rabs_def2 in Q. lra.
  - assert (Q : Rabs (w y i - w x i) < 1) by (apply L; intros k Hk; eapply Rlt_le_trans; [apply Hy; exact Hk|apply Rmin_r]). apply Rabs_def2 in Q. lra.
Qed.
Lemma near_all x (ok : nat -> Prop) (P : nat -> vec -> Prop) m : (forall i, ok i \/ ~ ok i) -> (forall i, (i < m)%nat -> ok i -> near nx x (P i)) -> near nx x (fun y => forall i, (i < m)%nat -> ok i -> P i y).
Proof.
  intros D. induction m as [|m IH]; intros H; [exists 1; split; [lra|intros; lia]|]. specialize (IH (fun i Hi => H i ltac:(lia))).
  destruct (D m) as [O|O].
  - pose proof (filter_and (F := near nx x) _ _ (H m ltac:(lia) O) IH) as A. refine (filter_imp (F := near nx x) _ _ _ A). intros y (A1 & A2) i Hi Oi. destruct (Nat.eq_dec i m) as [->|]; [exact A1|apply A2; [lia|exact Oi]].
  - refine (filter_imp (F := near nx x) _ _ _ IH). intros y A i Hi Oi. destruct (Nat.eq_dec i m) as [->|]; [contradiction|apply A; [lia|exact Oi]].
Qed.
Lemma idw_cont yt x : 0 < p -> (forall i j, (i < nt)%nat -> (j < nt)%nat -> i <> j -> ~ (forall k, (k < nx)%nat -> xt i k = xt j k)) -> continuous_at nx (idw_value nx nt p xt yt) x.
Proof.
  intros Hp D. destruct (first_or_none nx xt x nt) as [F|(i & Hi & O & F)].
  - destruct (Nat.eq_dec nt 0) as [Z|Z].
    { subst nt. unfold idw_value. cbn [rsum]. apply c_const. }
    apply (c_near nx x (fun y => rsum nt (fun i => w y i * yt i) * / rsum nt (w y))).
    + pose proof (near_all x (fun _ => True) (fun i y => r2 y i <> 0 /\ w y i <= w x i + 1) nt ltac:(auto)) as A.
      assert (B : near nx x (fun y => forall i, (i < nt)%nat -> True -> r2 y i <> 0 /\ w y i <= w x i + 1)).
      { apply A. intros i Hi _. apply near_r2. intros E. apply (F i Hi). apply r2_zero. exact E. }
      refine (filter_imp (F := near nx x) _ _ _ B). intros y Hy. rewrite value_off; [reflexivity|]. intros i Hi Oi. apply r2_zero in Oi. destruct (Hy i Hi I). contradiction.
    + assert (W : forall i, (i < nt)%nat -> continuous_at nx (fun y => w y i) x) by (intros i Hi; apply w_cont; intros E; apply (F i Hi); apply r2_zero; exact E).
      apply c_mult.
      * apply (c_sum nx x nt (fun i y => w y i * yt i)). intros i Hi. apply c_mult; [apply W; exact Hi|apply c_const].
      * apply c_inv; [apply (c_sum nx x nt (fun i y => w y i)); exact W|]. apply Rgt_not_eq. apply sum_pos. lia.
  - assert (N : forall j, (j < nt)%nat -> j <> i -> r2 x j <> 0) by (apply distinct_others; [exact O|]; intros j Hj Nj; apply D; assumption).
    intros eps He. rewrite (value_on nx nt p xt yt x i Hi O F).
    set (C := rsum nt (fun j => if Nat.eqb j i then 0 else (w x j + 1) * Rabs (yt j - yt i))).
    assert (HC : 0 <= C).
    { apply rsum_nonneg. intros j _. destruct (Nat.eqb j i); [lra|]. apply Rmult_le_pos; [pose proof (w_pos nx p xt x j); lra|apply Rabs_pos]. }
    set (E := eps / (C + 1)). assert (HE : 0 < E) by (apply Rdiv_lt_0_compat; lra).
    assert (B : near nx x (fun y => forall j, (j < nt)%nat -> j <> i -> r2 y j <> 0 /\ w y j <= w x j + 1)).
    { apply (near_all x (fun j => j <> i)); [intros j; destruct (Nat.eq_dec j i); tauto|]. intros j Hj Nj. apply near_r2. apply N; assumption. }
    assert (B2 : near nx x (fun y => r2 y i < Rpower E (2 / p))).
    { destruct (r2_cont i x (Rpower E (2 / p)) (exp_pos _)) as (d & Hd & K). exists d. split; [exact Hd|]. intros y Hy. specialize (K y Hy).
      apply r2_zero in O. rewrite O in K. apply Rabs_def2 in K. lra. }
    pose proof (filter_and (F := near nx x) _ _ B B2) as (d & Hd & A). exists d. split; [exact Hd|]. intros y Hy. destruct (A y Hy) as (A1 & A2).
    destruct (Req_dec (r2 y i) 0) as [Z|Z].
    + rewrite (value_on nx nt p xt yt y i Hi); [rewrite Rminus_diag_eq, Rabs_R0 by reflexivity; exact He|apply r2_zero; exact Z|].
      intros j Hj Oj. apply r2_zero in Oj. destruct (A1 j ltac:(lia) ltac:(lia)). contradiction.
    + pose proof (r2_nonneg nx xt y i) as Nn. eapply Rle_lt_trans; [apply (value_bound nx nt p xt yt x y i Hi)|].
      * intros j Hj Oj. apply r2_zero in Oj. destruct (Nat.eq_dec j i) as [->|Nj]; [contradiction|]. destruct (A1 j Hj Nj). contradiction.
      * intros j Hj Nj. apply (A1 j Hj Nj).
      * fold C. unfold idw_w. unfold Rdiv. replace (- p * / 2) with (- (p / 2)) by field. rewrite Rpower_Ropp, Rinv_inv.
        assert (L : Rpower (r2 y i) (p / 2) < E).
        { replace E with (Rpower (Rpower E (2 / p)) (p / 2)). - apply Rlt_Rpower_l; lra. - rewrite Rpower_mult. replace (2 / p * (p / 2)) with 1 by (field; lra). apply Rpower_1. exact HE. }
        assert (PP : 0 < Rpower (r2 y i) (p / 2)) by apply exp_pos.
        apply Rle_lt_trans with (C * E); [apply Rmult_le_compat_l; lra|]. assert (Q : (C + 1) * E = eps) by (unfold E; field; lra). lra.
Qed.
End Idw.
