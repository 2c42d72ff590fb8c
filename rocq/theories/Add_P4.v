(** Proofs for C119: RBF, LS, QP and IDW with more data. *)
From Coq Require Import Reals Arith Bool List Lia Lra.
From Verif Require Import RSum Mat Psd2 Tri_P Rbf_M Rbf_S Rbf_P Poly_M Poly_P Poly_P2 Idw_M Idw_P Add_P3.
Open Scope R_scope.
Lemma sum_ext n N (w q : vec) : (n <= N)%nat -> rsum N (fun i => (if Nat.ltb i n then w i else 0) * q i) = rsum n (fun i => w i * q i).
Proof.
  intros H. rewrite (rsum_tail_zero N n) by (first [exact H|intros j Hj; destruct (Nat.ltb_spec j n); [lia|ring]]).
  apply rsum_ext. intros i Hi. destruct (Nat.ltb_spec i n); [reflexivity|lia].
Qed.
(** ** RBF *)
Section Rbf.
Variables (nx n N : nat) (deg : degree) (d0 : vec) (xt xt2 : nat -> vec) (reg : R) (yt yt2 sol sol2 : vec).
Hypothesis HN : (n <= N)%nat.
Hypothesis EX : forall i, (i < n)%nat -> xt2 i = xt i /\ yt2 i = yt i.
Let e : vec := fun j => if Nat.ltb j n then sol j else if Nat.ltb j N then 0 else sol (j - N + n)%nat.
Lemma e_low j : (j < N)%nat -> e j = if Nat.ltb j n then sol j else 0.
Proof. intros H. unfold e. destruct (Nat.ltb_spec j n); [reflexivity|]. destruct (Nat.ltb_spec j N); [reflexivity|lia]. Qed.
Lemma e_high k : e (N + k)%nat = sol (n + k)%nat.
Proof. unfold e. destruct (Nat.ltb_spec (N + k) n); [lia|]. destruct (Nat.ltb_spec (N + k) N); [lia|]. f_equal. lia. Qed.
Lemma e_sum (q : vec -> R) : rsum N (fun j => e j * q (xt2 j)) = rsum n (fun j => sol j * q (xt j)).
Proof.
  rewrite (rsum_ext N _ (fun i => (if Nat.ltb i n then sol i else 0) * q (xt2 i))) by (intros j Hj; rewrite e_low by exact Hj; reflexivity).
  rewrite (sum_ext n N sol (fun i => q (xt2 i)) HN). apply rsum_ext. intros i Hi. rewrite (proj1 (EX i Hi)). reflexivity.
Qed.
Lemma e_value x : rbf_value nx N deg d0 xt2 e x = rbf_value nx n deg d0 xt sol x.
Proof.
  rewrite !val_split. f_equal.
  - rewrite (rsum_ext N _ (fun j => e j * gauss nx (fun k => / d0 k ^ 2) x (xt2 j))) by (intros; ring). rewrite (e_sum (fun z => gauss nx (fun k => / d0 k ^ 2) x z) : rsum N (fun j => e j * gauss nx (fun k => / d0 k ^ 2) x (xt2 j)) = rsum n (fun j => sol j * gauss nx (fun k => / d0 k ^ 2) x (xt j))). apply rsum_ext. intros; ring.
  - pose proof (e_high 0) as H0. rewrite !Nat.add_0_r in H0. destruct deg; [reflexivity|exact H0|]. rewrite H0. f_equal. apply rsum_ext. intros k Hk.
    replace (N + 1 + k)%nat with (N + (1 + k))%nat by lia. rewrite e_high. replace (n + 1 + k)%nat with (n + (1 + k))%nat by lia. reflexivity.
Qed.
Hypothesis S : rbf_solves nx n deg d0 xt reg yt sol.
Hypothesis CO : forall i, (n <= i < N)%nat -> yt2 i = rbf_value nx n deg d0 xt sol (xt2 i).
Lemma e_solves : rbf_solves nx N deg d0 xt2 reg yt2 e.
Proof.
  intros i Hi. destruct (Nat.ltb_spec i N) as [L|L].
  - rewrite mv_row by exact L. rewrite e_value, (e_low i L). unfold rbf_rhs. destruct (Nat.ltb_spec i N); [|lia]. destruct (Nat.ltb_spec i n) as [A|A].
    + destruct (EX i A) as [-> ->]. rewrite (interpolates nx n deg d0 xt reg yt sol S i A). ring.
    + rewrite (CO i) by lia. ring.
  - rewrite mv_low by exact L. unfold rbf_rhs. destruct (Nat.ltb_spec i N); [lia|].
    unfold num_dof in Hi. destruct deg eqn:D; cbn [num_poly] in Hi; [lia| |].
    + assert (i = N) as -> by lia. rewrite (rsum_ext N _ (fun j => e j * 1)) by (intros j Hj; unfold rbf_jac; rewrite Nat.ltb_irrefl; ring). rewrite (e_sum (fun _ => 1) : rsum N (fun j => e j * 1) = rsum n (fun j => sol j * 1)).
      rewrite (rsum_ext n _ sol) by (intros; ring). apply (side_const nx n Constant d0 xt reg yt sol); [discriminate|exact S].
    + destruct (Nat.eq_dec i N) as [-> | Q].
      * rewrite (rsum_ext N _ (fun j => e j * 1)) by (intros j Hj; unfold rbf_jac; rewrite Nat.ltb_irrefl, Nat.eqb_refl; ring). rewrite (e_sum (fun _ => 1) : rsum N (fun j => e j * 1) = rsum n (fun j => sol j * 1)).
        rewrite (rsum_ext n _ sol) by (intros; ring). apply (side_const nx n Linear d0 xt reg yt sol); [discriminate|exact S].
      * rewrite (rsum_ext N _ (fun j => e j * xt2 j (i - (N + 1))%nat)).
        -- rewrite (e_sum (fun z => z (i - (N + 1))%nat) : rsum N (fun j => e j * xt2 j (i - (N + 1))%nat) = rsum n (fun j => sol j * xt j (i - (N + 1))%nat)). apply (side_linear nx n Linear d0 xt reg yt sol (i - (N + 1)) eq_refl); [lia|exact S].
        -- intros j Hj. unfold rbf_jac. destruct (Nat.ltb_spec i N); [lia|]. destruct (Nat.eqb_spec i N); [lia|]. ring.
Qed.
Lemma rbf_more : (forall k, (k < nx)%nat -> d0 k <> 0) -> 0 <= reg -> (reg = 0 -> distinct nx N xt2) -> trend_full_rank nx N deg xt2 ->
  rbf_solves nx N deg d0 xt2 reg yt2 sol2 -> forall x, rbf_value nx N deg d0 xt2 sol2 x = rbf_value nx n deg d0 xt sol x.
Proof.
  intros Hd Hr D F S2 x. rewrite <- e_value. apply dot_ext; [reflexivity|]. intros i Hi. exact (unique nx N deg d0 xt2 reg yt2 sol2 e Hd Hr D F S2 e_solves i Hi).
Qed.
End Rbf.
(** ** LS *)
Lemma rsum_tail n N (f g : nat -> R) : (n <= N)%nat -> (forall i, (n <= i < N)%nat -> f i = 0) -> (forall i, (i < n)%nat -> f i = g i) -> rsum N f = rsum n g.
Proof. intros H Z E. rewrite (rsum_tail_zero N n f) by (first [exact H|exact Z]). apply rsum_ext. exact E. Qed.
Lemma rsum_prefix n N (f : nat -> R) : (n <= N)%nat -> (forall i, 0 <= f i) -> rsum n f <= rsum N f.
Proof. intros H P. replace N with (n + (N - n))%nat by lia. rewrite rsum_app. pose proof (rsum_nonneg (N - n) (fun i => f (n + i)%nat) (fun i _ => P _)). lra. Qed.
Section Ls.
Variables (lstsq : nat -> nat -> mat -> vec -> vec) (nx n N : nat) (xt xt2 : nat -> vec) (yt yt2 : vec).
Hypothesis L : forall nt (X : mat) (y : vec) k, (k < nx)%nat -> mv nt (tr X) (fun e => mv nx X (lstsq nt nx X y) e - y e) k = 0.
Hypotheses (Hn : (0 < n)%nat) (HN : (n <= N)%nat).
Hypothesis EX : forall i, (i < n)%nat -> xt2 i = xt i /\ yt2 i = yt i.
Let m := ls_fit lstsq nx n xt yt.
Let m2 := ls_fit lstsq nx N xt2 yt2.
Hypothesis CO : forall i, (n <= i < N)%nat -> yt2 i = ls_value nx m (xt2 i).
Lemma ls_more_at i : (i < N)%nat -> ls_value nx m2 (xt2 i) = ls_value nx m (xt2 i).
Proof.
  intros Hi. assert (HN0 : (0 < N)%nat) by lia.
  pose proof (ls_diff lstsq nx N xt2 yt2 (L N) HN0 (fst m) (snd m)) as D. rewrite <- (surjective_pairing m) in D. fold m2 in D.
  pose proof (ls_optimal lstsq nx n xt yt (L n) Hn (fst m2) (snd m2)) as O. rewrite <- (surjective_pairing m2) in O. fold m in O.
  assert (A : train_err N (ls_value nx m) xt2 yt2 = train_err n (ls_value nx m) xt yt).
  { unfold train_err. apply rsum_tail; [exact HN| |].
    - intros j Hj. rewrite (CO j Hj). ring.
    - intros j Hj. destruct (EX j Hj) as [-> ->]. reflexivity. }
  assert (B : train_err n (ls_value nx m2) xt yt <= train_err N (ls_value nx m2) xt2 yt2).
  { unfold train_err. rewrite (rsum_ext n _ (fun e => (ls_value nx m2 (xt2 e) - yt2 e) ^ 2)) by (intros j Hj; destruct (EX j Hj) as [-> ->]; reflexivity). apply (rsum_prefix n N (fun e => (ls_value nx m2 (xt2 e) - yt2 e) ^ 2) HN). intros; apply pow2_ge_0. }
  pose proof (rsum_nonneg N (fun e => (ls_value nx m (xt2 e) - ls_value nx m2 (xt2 e)) ^ 2) (fun e _ => pow2_ge_0 _)) as P.
  assert (Z : rsum N (fun e => (ls_value nx m (xt2 e) - ls_value nx m2 (xt2 e)) ^ 2) = 0) by lra.
  pose proof (rsum_zero_inv N (fun e => (ls_value nx m (xt2 e) - ls_value nx m2 (xt2 e)) ^ 2) (fun e _ => pow2_ge_0 _) Z i Hi) as Q. cbn beta in Q. nra.
Qed.
Lemma ls_more : (forall a' (b' : vec), (forall i, (i < N)%nat -> a' + rsum nx (fun k => b' k * xt2 i k) = 0) -> a' = 0 /\ forall k, (k < nx)%nat -> b' k = 0) ->
  forall x, ls_value nx m2 x = ls_value nx m x.
Proof.
  intros F x. destruct (F (snd m2 - snd m) (fun k => fst m2 k - fst m k)) as [A B].
  - intros i Hi. pose proof (ls_more_at i Hi) as Q. unfold ls_value, dot in Q. rewrite (rsum_ext nx _ (fun k => xt2 i k * fst m2 k - xt2 i k * fst m k)) by (intros; ring). rewrite rsum_minus. lra.
  - unfold ls_value, dot. rewrite (rsum_ext nx (fun i => x i * fst m2 i) (fun i => x i * fst m i)); [lra|]. intros k Hk. specialize (B k Hk). cbn beta in B. replace (fst m2 k) with (fst m k) by lra. reflexivity.
Qed.
End Ls.
(** ** QP *)
Definition qgram (dim nt : nat) (xt : nat -> vec) : mat := mm nt (tr (fun e a => qp_row dim (xt e) a)) (fun e a => qp_row dim (xt e) a).
Lemma qp_more inv dim n N xt xt2 yt yt2 c c2 : (n <= N)%nat -> (forall i, (i < n)%nat -> xt2 i = xt i /\ yt2 i = yt i) ->
  (forall i j, (i < qp_napp dim)%nat -> (j < qp_napp dim)%nat -> mm (qp_napp dim) (qgram dim n xt) (inv (qgram dim n xt)) i j = idm i j) ->
  (forall i j, (i < qp_napp dim)%nat -> (j < qp_napp dim)%nat -> mm (qp_napp dim) (inv (qgram dim N xt2)) (qgram dim N xt2) i j = idm i j) ->
  qp_train inv dim n xt yt = Some c -> qp_train inv dim N xt2 yt2 = Some c2 -> (forall i, (n <= i < N)%nat -> yt2 i = qp_value dim c (xt2 i)) ->
  forall x, qp_value dim c2 x = qp_value dim c x.
Proof.
  intros HN EX I I2 T T2 CO x. unfold qp_train in T, T2. destruct (Nat.ltb (2 * n) _); [discriminate|]. destruct (Nat.ltb (2 * N) _); [discriminate|]. injection T as Ec. injection T2 as Ec2.
  set (p := qp_napp dim) in *. set (X := fun e a => qp_row dim (xt e) a) in *. set (X2 := fun e a => qp_row dim (xt2 e) a) in *.
  assert (Nm : forall a, (a < p)%nat -> mv n (tr X) (fun e => mv p X c e - yt e) a = 0) by (rewrite <- Ec; exact (inv_normal p n X (inv (mm n (tr X) X)) yt I)).
  assert (Nm2 : forall a, (a < p)%nat -> mv N (tr X2) yt2 a = mv p (mm N (tr X2) X2) c a).
  { intros a Ha. rewrite mv_mm. apply Rminus_diag_uniq. rewrite <- mv_minus.
    transitivity (- mv n (tr X) (fun e => mv p X c e - yt e) a); [|rewrite Nm by exact Ha; ring]. unfold mv at 1 3. rewrite <- rsum_opp. apply rsum_tail; [exact HN| |].
    - intros i Hi. rewrite (CO i Hi). assert (V : qp_value dim c (xt2 i) = mv p X2 c i) by reflexivity. rewrite V. ring.
    - intros i Hi. destruct (EX i Hi) as [E1 E2]. rewrite E2. unfold tr, mv, X, X2. rewrite E1. ring. }
  unfold qp_value. fold p. apply dot_ext; [reflexivity|]. intros a Ha. rewrite <- Ec2. change (mv p (inv (mm N (tr X2) X2)) (mv N (tr X2) yt2) a = c a).
  rewrite (mv_ext p _ (inv (mm N (tr X2) X2)) _ (mv p (mm N (tr X2) X2) c) a) by (first [reflexivity|intros; apply Nm2; assumption]).
  rewrite <- mv_mm. rewrite (mv_ext p _ idm c c a) by (intros; try apply I2; auto). apply mv_id. exact Ha.
Qed.
(** ** IDW: adding a point that lies on the prediction changes it *)
Lemma idw_more p : p <> 0 -> ya 2%nat = idw_value 1 2 p Xa ya (Xa 2%nat) /\ idw_value 1 3 p Xa ya (fun _ => 1 / 2) <> idw_value 1 2 p Xa ya (fun _ => 1 / 2).
Proof.
  intros Hp. split.
  - rewrite value_off.
    + unfold idw_w, idw_r2, ya, Xa. cbn [rsum Nat.eqb]. replace (0 + (1 - 0) ^ 2) with 1 by ring. replace (0 + (1 - 2) ^ 2) with 1 by ring.
      pose proof (exp_pos (- p / 2 * ln 1)) as P. fold (Rpower 1 (- p / 2)) in P. field. lra.
    + intros i Hi Q. specialize (Q 0%nat ltac:(lia)). unfold Xa in Q. destruct i as [|[|i]]; [| |lia]; cbn [Nat.eqb] in Q; lra.
  - assert (F : forall nt, (nt <= 3)%nat -> forall i, (i < nt)%nat -> ~ on_data 1 Xa (fun _ => 1 / 2) i).
    { intros nt H i Hi Q. specialize (Q 0%nat ltac:(lia)). unfold Xa in Q. destruct i as [|[|[|i]]]; try lia; cbn [Nat.eqb] in Q; lra. }
    rewrite (value_off 1 3 p Xa ya _ (F 3%nat ltac:(lia))), (value_off 1 2 p Xa ya _ (F 2%nat ltac:(lia))). unfold idw_w, idw_r2, ya, Xa. cbn [rsum Nat.eqb].
    replace (0 + (1 / 2 - 0) ^ 2) with (1 / 4) by field. replace (0 + (1 / 2 - 2) ^ 2) with (9 / 4) by field. replace (0 + (1 / 2 - 1) ^ 2) with (1 / 4) by field.
    set (u := Rpower (1 / 4) (- p / 2)). set (v := Rpower (9 / 4) (- p / 2)).
    assert (U : 0 < u) by apply exp_pos. assert (V : 0 < v) by apply exp_pos.
    intros Q. assert (UV : u = v).
    { assert (C : (0 + u * 0 + v * 2 + u * 1) * (0 + u + v) = (0 + u * 0 + v * 2) * (0 + u + v + u)).
      { transitivity ((0 + u * 0 + v * 2 + u * 1) / (0 + u + v + u) * ((0 + u + v + u) * (0 + u + v))); [field; lra|]. rewrite Q. field. lra. }
      assert (C' : u * (u - v) = 0) by nra. apply Rmult_integral in C'. destruct C'; lra. }
    unfold u, v, Rpower in UV. apply exp_inv in UV. assert (L : ln (1 / 4) < ln (9 / 4)) by (apply ln_increasing; lra).
    assert (Z : p * (ln (9 / 4) - ln (1 / 4)) = 0) by lra. apply Rmult_integral in Z. destruct Z; [contradiction|lra].
Qed.
