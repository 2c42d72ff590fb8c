(** C125: continuity of the predictions in the query point. *)
From Coq Require Import Reals Arith Bool List Lia Lra.
From Coquelicot Require Import Coquelicot.
From Verif Require Import RSum Mat Tri_M Rbf_M Poly_M Poly_P Units_P3 Kernels_M Krg_M Moe_M Cont_S.
Import ListNotations.
Open Scope list_scope.
Open Scope R_scope.

Section Near.
Variables (n : nat) (x : vec).
Definition near : (vec -> Prop) -> Prop := fun P => exists d, 0 < d /\ forall y, (forall k, (k < n)%nat -> Rabs (y k - x k) < d) -> P y.
Global Instance near_filter : ProperFilter near.
Proof.
  constructor.
  - intros P (d & Hd & H). exists x. apply H. intros k _. rewrite Rminus_diag_eq, Rabs_R0 by reflexivity. exact Hd.
  - constructor.
    + exists 1. split; [lra|trivial].
    + intros P Q (d & Hd & H) (e & He & K). exists (Rmin d e). split; [apply Rmin_glb_lt; assumption|]. intros y Hy. split; [apply H|apply K]; intros k Hk; specialize (Hy k Hk).
      * eapply Rlt_le_trans; [exact Hy|apply Rmin_l].
      * eapply Rlt_le_trans; [exact Hy|apply Rmin_r].
    + intros P Q I (d & Hd & H). exists d. split; [exact Hd|]. intros y Hy. apply I, H, Hy.
Qed.
Notation cont f := (filterlim f near (locally (f x))).
Lemma cont_iff f : continuous_at n f x <-> cont f.
Proof.
  split.
  - intros H. apply filterlim_locally. intros e. destruct (H e (cond_pos e)) as (d & Hd & K). exists d. split; [exact Hd|]. intros y Hy. exact (K y Hy).
  - intros H e He. pose proof (proj1 (filterlim_locally f (f x)) H (mkposreal e He)) as (d & Hd & K). exists d. split; [exact Hd|]. intros y Hy. exact (K y Hy).
Qed.
Lemma c_const a : continuous_at n (fun _ => a) x.
Proof. apply cont_iff. apply filterlim_const. Qed.
Lemma c_coord k : (k < n)%nat -> continuous_at n (fun y => y k) x.
Proof. intros Hk e He. exists e. split; [exact He|]. intros y Hy. apply Hy. exact Hk. Qed.
Lemma c_plus f g : continuous_at n f x -> continuous_at n g x -> continuous_at n (fun y => f y + g y) x.
Proof. intros F G. apply cont_iff in F, G. apply cont_iff. apply (filterlim_comp_2 f g (fun a b => a + b) F G). exact (filterlim_plus (K := R_AbsRing) (V := R_NormedModule) (f x) (g x)). Qed.
Lemma c_mult f g : continuous_at n f x -> continuous_at n g x -> continuous_at n (fun y => f y * g y) x.
Proof. intros F G. apply cont_iff in F, G. apply cont_iff. apply (filterlim_comp_2 f g (fun a b => a * b) F G). exact (filterlim_mult (K := R_AbsRing) (f x) (g x)). Qed.
Lemma c_comp f (h : R -> R) : continuous_at n f x -> continuous h (f x) -> continuous_at n (fun y => h (f y)) x.
Proof. intros F H. apply cont_iff in F. apply cont_iff. apply (filterlim_comp _ _ _ f h near (locally (f x)) (locally (h (f x))) F). exact H. Qed.
Lemma c_ext f g : (forall y, f y = g y) -> continuous_at n f x -> continuous_at n g x.
Proof. intros E H e He. destruct (H e He) as (d & Hd & K). exists d. split; [exact Hd|]. intros y Hy. rewrite <- !E. apply K. exact Hy. Qed.
(** agreement near x and at x *)
Lemma c_near f g : near (fun y => f y = g y) -> continuous_at n f x -> continuous_at n g x.
Proof.
  intros (d0 & H0 & E) H e He. destruct (H e He) as (d & Hd & K). exists (Rmin d d0). split; [apply Rmin_glb_lt; assumption|]. intros y Hy.
  assert (X : f x = g x) by (apply E; intros; rewrite Rminus_diag_eq, Rabs_R0 by reflexivity; exact H0).
  rewrite <- X, <- (E y). + apply K. intros k Hk. eapply Rlt_le_trans; [apply Hy; exact Hk|apply Rmin_l]. + intros k Hk. eapply Rlt_le_trans; [apply Hy; exact Hk|apply Rmin_r].
Qed.
Lemma c_scal a f : continuous_at n f x -> continuous_at n (fun y => a * f y) x.
Proof. intros H. apply c_mult; [apply c_const|exact H]. Qed.
Lemma c_opp f : continuous_at n f x -> continuous_at n (fun y => - f y) x.
Proof. intros H. apply (c_ext (fun y => -1 * f y)); [intros; ring|apply c_scal; exact H]. Qed.
Lemma c_minus f g : continuous_at n f x -> continuous_at n g x -> continuous_at n (fun y => f y - g y) x.
Proof. intros F G. apply c_plus; [exact F|apply c_opp; exact G]. Qed.
Lemma c_div f a : continuous_at n f x -> continuous_at n (fun y => f y / a) x.
Proof. intros H. apply (c_mult f (fun _ => / a)); [exact H|apply c_const]. Qed.
Lemma c_inv f : continuous_at n f x -> f x <> 0 -> continuous_at n (fun y => / f y) x.
Proof. intros H N. apply (c_comp f Rinv H). apply (ex_derive_continuous (K := R_AbsRing) (V := R_NormedModule)). auto_derive. exact N. Qed.
Lemma c_pow f m : continuous_at n f x -> continuous_at n (fun y => f y ^ m) x.
Proof. intros H. induction m as [|m IH]; cbn [pow]; [apply c_const|apply c_mult; assumption]. Qed.
Lemma c_exp f : continuous_at n f x -> continuous_at n (fun y => exp (f y)) x.
Proof. intros H. apply (c_comp f exp H). apply (ex_derive_continuous (K := R_AbsRing) (V := R_NormedModule)). auto_derive. exact I. Qed.
Lemma c_abs f : continuous_at n f x -> continuous_at n (fun y => Rabs (f y)) x.
Proof. intros H e He. destruct (H e He) as (d & Hd & K). exists d. split; [exact Hd|]. intros y Hy. eapply Rle_lt_trans; [apply Rabs_triang_inv2|apply K; exact Hy]. Qed.
Lemma c_sum m (f : nat -> vec -> R) : (forall i, (i < m)%nat -> continuous_at n (f i) x) -> continuous_at n (fun y => rsum m (fun i => f i y)) x.
Proof. induction m as [|m IH]; intros H; cbn [rsum]; [apply c_const|]. apply c_plus; [apply IH; intros; apply H; lia|apply H; lia]. Qed.
Lemma c_prod m (f : nat -> vec -> R) : (forall i, (i < m)%nat -> continuous_at n (f i) x) -> continuous_at n (fun y => rprod m (fun i => f i y)) x.
Proof. induction m as [|m IH]; intros H; cbn [rprod]; [apply c_const|]. apply c_mult; [apply IH; intros; apply H; lia|apply H; lia]. Qed.
Lemma c_dot m (f g : vec -> vec) : (forall i, (i < m)%nat -> continuous_at n (fun y => f y i) x) -> (forall i, (i < m)%nat -> continuous_at n (fun y => g y i) x) -> continuous_at n (fun y => dot m (f y) (g y)) x.
Proof. intros F G. unfold dot. apply (c_sum m (fun i y => f y i * g y i)). intros i Hi. apply c_mult; [apply F|apply G]; exact Hi. Qed.
(** triangular solves of a continuous right-hand side *)
Lemma c_fsub L (b : vec -> vec) m : (forall i, (i < m)%nat -> continuous_at n (fun y => b y i) x) -> forall i, continuous_at n (fun y => fsub L (b y) m i) x.
Proof.
  induction m as [|m IH]; intros H i; cbn [fsub]; [apply c_const|]. cbv zeta. unfold upd. destruct (Nat.eqb i m).
  - apply c_div. apply c_minus; [apply H; lia|]. apply (c_sum m (fun j y => L m j * fsub L (b y) m j)). intros j Hj. apply c_scal. apply IH. intros; apply H; lia.
  - apply IH. intros; apply H; lia.
Qed.
Lemma c_bsub N U (b : vec -> vec) m : (m <= N)%nat -> (forall i, (i < N)%nat -> continuous_at n (fun y => b y i) x) -> forall i, continuous_at n (fun y => bsub N U (b y) m i) x.
Proof.
  induction m as [|m IH]; intros Hm H i; cbn [bsub]; [apply c_const|]. cbv zeta. unfold upd. destruct (Nat.eqb i (N - S m)).
  - apply c_div. apply c_minus; [apply H; lia|]. apply (c_sum m (fun j y => U (N - S m)%nat (S (N - S m) + j)%nat * bsub N U (b y) m (S (N - S m) + j)%nat)). intros j Hj. apply c_scal. apply IH; [lia|exact H].
  - apply IH; [lia|exact H].
Qed.
Lemma c_solve N A (b : vec -> vec) lower : (forall i, (i < N)%nat -> continuous_at n (fun y => b y i) x) -> forall i, continuous_at n (fun y => solve_triangular N A (b y) lower i) x.
Proof. intros H i. unfold solve_triangular. destruct lower; [apply c_fsub; exact H|apply c_bsub; [lia|exact H]]. Qed.
End Near.
Opaque continuous_at.
Ltac con := repeat first [apply c_const | apply c_plus | apply c_minus | apply c_opp | apply c_mult | apply c_div | apply c_pow | apply c_exp | apply c_abs].

(** LS, QP *)
Lemma ls_cont nx m x : continuous_at nx (ls_value nx m) x.
Proof. unfold ls_value. apply c_plus; [|apply c_const]. apply (c_dot nx x nx (fun y => y) (fun _ => fst m)); intros i Hi; [apply c_coord; exact Hi|apply c_const]. Qed.
Lemma qp_cont dim c x : continuous_at dim (qp_value dim c) x.
Proof.
  unfold qp_value. apply (c_dot dim x _ (fun y => qp_row dim y) (fun _ => c)); intros a Ha; [|apply c_const].
  destruct (row_cases dim a Ha) as [-> |[(i & Hi & ->)|[(i & Hi & ->)|(i & j & Hi & Hj & ->)]]].
  - apply (c_ext dim x (fun _ => 1)); [intros; rewrite row_const; reflexivity|apply c_const].
  - apply (c_ext dim x (fun y => y i)); [intros; rewrite row_linear by exact Hi; reflexivity|apply c_coord; exact Hi].
  - apply (c_ext dim x (fun y => y i ^ 2)); [intros; rewrite row_square by exact Hi; reflexivity|apply c_pow, c_coord; exact Hi].
  - apply (c_ext dim x (fun y => y i * y j)); [intros; rewrite row_cross by assumption; reflexivity|apply c_mult; apply c_coord; lia].
Qed.
(** RBF *)
Lemma rbf_cont nx nt deg d0 xt sol x : continuous_at nx (rbf_value nx nt deg d0 xt sol) x.
Proof.
  unfold rbf_value. apply (c_dot nx x _ (fun y => rbf_jac nx nt deg d0 xt y) (fun _ => sol)); intros j Hj; [|apply c_const].
  unfold rbf_jac. destruct (Nat.ltb_spec j nt) as [L|L].
  - unfold rbf_radial. cbv zeta. apply c_exp, c_opp. apply (c_sum nx x nx (fun ix y => ((y ix - xt j ix) / d0 ix) ^ 2)). intros i Hi. con; apply c_coord; exact Hi.
  - unfold num_dof, num_poly in Hj. destruct deg; [apply c_const|apply c_const|]. destruct (Nat.eqb_spec j nt); [apply c_const|]. apply c_coord. lia.
Qed.
(** Kriging *)
Lemma quad_list nx ks : (forall k, In k ks -> (k < nx)%nat) -> forall L, (forall g, In g L -> forall x, continuous_at nx g x) ->
  exists L', (forall g, In g L' -> forall x, continuous_at nx g x) /\ forall x : vec, fold_left (fun f k => f ++ map (fun j => x k * x j) (seq k (nx - k))) ks (map (fun g => g x) L) = map (fun g => g x) L'.
Proof.
  induction ks as [|k ks IH]; intros Hk L HL; [exists L; split; [exact HL|reflexivity]|]. cbn [fold_left].
  destruct (IH (fun a Ha => Hk a (or_intror Ha)) (L ++ map (fun j (x : vec) => x k * x j) (seq k (nx - k)))) as (L' & A & B).
  - intros g Hg x. apply in_app_iff in Hg. destruct Hg as [Hg|Hg]; [apply HL; exact Hg|]. apply in_map_iff in Hg. destruct Hg as (j & <- & Hj). apply in_seq in Hj. pose proof (Hk k (or_introl eq_refl)). apply c_mult; apply c_coord; lia.
  - exists L'. split; [exact A|]. intros x. rewrite <- B, map_app, map_map. reflexivity.
Qed.
Lemma regr_list po nx : exists L, (forall g, In g L -> forall x, continuous_at nx g x) /\ forall x, regr po nx x = map (fun g => g x) L.
Proof.
  assert (Lin : exists L, (forall g, In g L -> forall x, continuous_at nx g x) /\ forall x : vec, 1 :: map x (seq 0 nx) = map (fun g => g x) L).
  { exists ((fun _ => 1) :: map (fun i (x : vec) => x i) (seq 0 nx)). split; [|intros x; cbn [map]; rewrite map_map; reflexivity].
    intros g [<-|Hg] x; [apply c_const|]. apply in_map_iff in Hg. destruct Hg as (i & <- & Hi). apply in_seq in Hi. apply c_coord. lia. }
  destruct po; cbn [regr].
  - exists [fun _ => 1]. split; [intros g [<-|[]] x; apply c_const|reflexivity].
  - exact Lin.
  - destruct Lin as (L & A & B). destruct (quad_list nx (seq 0 nx)) with (L := L) as (L' & A' & B'); [intros k Hk; apply in_seq in Hk; lia|exact A|]. exists L'. split; [exact A'|]. intros x. rewrite B. apply B'.
Qed.
(** composition with the (coordinatewise continuous) normalisation *)
Transparent continuous_at.
Lemma c_vec n (T : vec -> vec) f x : (forall k, (k < n)%nat -> continuous_at n (fun y => T y k) x) -> continuous_at n f (T x) -> continuous_at n (fun y => f (T y)) x.
Proof.
  intros HT Hf e He. destruct (Hf e He) as (d & Hd & K).
  assert (C : near n x (fun y => forall k, (k < n)%nat -> Rabs (T y k - T x k) < d)).
  { assert (Q : forall m, (m <= n)%nat -> near n x (fun y => forall k, (k < m)%nat -> Rabs (T y k - T x k) < d)).
    { induction m as [|m IH]; intros Hm; [exists 1; split; [lra|intros; lia]|]. destruct (HT m ltac:(lia) d Hd) as (d1 & H1 & K1).
      assert (N1 : near n x (fun y => Rabs (T y m - T x m) < d)) by (exists d1; split; [exact H1|exact K1]).
      pose proof (filter_and _ _ N1 (IH ltac:(lia))) as A. refine (filter_imp _ _ _ A). intros y (A1 & A2) k Hk. destruct (Nat.eq_dec k m) as [->|]; [exact A1|apply A2; lia]. }
    apply (Q n). lia. }
  destruct C as (d2 & H2 & K2). exists d2. split; [exact H2|]. intros y Hy. apply K. apply K2. exact Hy.
Qed.
Opaque continuous_at.
Lemma fvec_cont po nx j x : continuous_at nx (fun y => fvec po nx y j) x.
Proof.
  destruct (regr_list po nx) as (L & A & B). apply (c_ext nx x (fun y => nth j L (fun _ => 0) y)).
  - intros y. unfold fvec. rewrite B. change 0 with ((fun g : vec -> R => g y) (fun _ => 0)) at 2. rewrite map_nth. reflexivity.
  - destruct (nth_in_or_default j L (fun _ => 0)) as [H| ->]; [apply A; exact H|apply c_const].
Qed.
Lemma kernel_cont c nx nc theta (d : vec -> vec) x : (forall j, (j < nc)%nat -> continuous_at nx (fun y => d y j) x) -> continuous_at nx (fun y => kernel c nc 0 theta (d y) None None) x.
Proof.
  intros H. assert (S : continuous_at nx (fun y => rsum nc (fun j => theta j * d y j)) x) by (apply (c_sum nx x nc (fun j y => theta j * d y j)); intros; apply c_scal, H; assumption).
  destruct c; cbn [kernel]; unfold k_exp, k_m52, k_m32, k_act; cbv zeta.
  all: try (apply c_exp, c_opp; exact S).
  all: try (apply c_mult; [|apply c_exp, c_scal; exact S]).
  all: try (apply (c_prod nx x nc (fun j y => 1 + sqrt 5 * (theta j * d y j) + 5 / 3 * (theta j * d y j) ^ 2)) || apply (c_prod nx x nc (fun j y => 1 + sqrt 3 * (theta j * d y j))); intros j Hj; con; apply H; exact Hj).
  cbn [rsum]. apply c_const.
Qed.
Lemma kf_cont s nx p x : continuous_at nx (fun y => kf s nx y p) x.
Proof.
  unfold kf, kd. destruct s as [c theta|c nc co theta].
  - apply (kernel_cont c nx nx theta (fun y => comp_dist c (fun j => y j - p j))). intros j Hj. unfold comp_dist. destruct c; con; apply c_coord; exact Hj.
  - apply (kernel_cont c nx nc theta (fun y => comp_dist_pls c nx co (fun j => y j - p j))). intros l Hl. unfold comp_dist_pls.
    destruct c; first [apply (c_sum nx x nx (fun j y => (y j - p j) ^ 2 * co j l ^ 2)) | apply (c_sum nx x nx (fun j y => Rabs (y j - p j) * Rabs (co j l)))]; intros j Hj; con; apply c_coord; exact Hj.
Qed.
Section Krg.
Variable m : model.
Lemma xn_cont k x : (k < m_nx m)%nat -> continuous_at (m_nx m) (fun y => xn m y k) x.
Proof. intros H. unfold xn. con; apply c_coord; exact H. Qed.
Lemma rvec_cont i x : continuous_at (m_nx m) (fun y => rvec m y i) x.
Proof. unfold rvec. apply (c_vec (m_nx m) (xn m) (fun z => kf (m_k m) (m_nx m) z (m_Xn m i))); [intros; apply xn_cont; assumption|apply kf_cont]. Qed.
Lemma fx_cont j x : continuous_at (m_nx m) (fun y => fvec (m_poly m) (m_nx m) (xn m y) j) x.
Proof. apply (c_vec (m_nx m) (xn m) (fun z => fvec (m_poly m) (m_nx m) z j)); [intros; apply xn_cont; assumption|apply fvec_cont]. Qed.
Lemma krg_cont x : continuous_at (m_nx m) (predict_value m) x.
Proof.
  unfold predict_value. cbv zeta. apply c_plus; [apply c_const|]. apply c_scal. apply c_plus.
  - apply (c_dot _ _ _ (fun y => fvec (m_poly m) (m_nx m) (xn m y)) (fun _ => p_beta (m_par m))); intros; [apply fx_cont|apply c_const].
  - apply (c_dot _ _ _ (rvec m) (fun _ => p_gamma (m_par m))); intros; [apply rvec_cont|apply c_const].
Qed.
Lemma krg_var_cont x : continuous_at (m_nx m) (predict_variance m) x.
Proof.
  assert (RT : forall i, continuous_at (m_nx m) (fun y => rt m y i) x) by (intros i; unfold rt; apply (c_solve _ _ (m_nt m) (p_C (m_par m)) (rvec m)); intros; apply rvec_cont).
  assert (UR : forall j, continuous_at (m_nx m) (fun y => u_rhs m y j) x).
  { intros j. unfold u_rhs. apply c_minus; [|apply fx_cont]. unfold mv. apply (c_sum _ _ (m_nt m) (fun i y => tr (p_Ft (m_par m)) j i * rt m y i)). intros. apply c_scal, RT. }
  unfold predict_variance. cbv zeta. set (p := n_regr (m_poly m) (m_nx m)).
  set (u := fun y => solve_triangular p (tr (p_G (m_par m))) (u_rhs m y) false).
  assert (M : continuous_at (m_nx m) (fun y => p_sigma2 (m_par m) * (1 - dot (m_nt m) (rt m y) (rt m y) + dot p (u y) (u y))) x).
  { apply c_scal, c_plus; [apply c_minus; [apply c_const|]|].
    - apply (c_dot _ _ _ (rt m) (rt m)); intros; apply RT.
    - apply (c_dot _ _ _ u u); intros; unfold u; apply (c_solve _ _ p (tr (p_G (m_par m))) (u_rhs m)); intros; apply UR. }
  pose proof (c_plus _ _ _ _ M (c_abs _ _ _ M)) as PM. apply (c_scal _ _ (/ 2)) in PM. revert PM. apply c_ext. intros y. fold (u y).
  destruct (Rlt_dec _ 0) as [L|L].
  - rewrite Rabs_left by exact L. field.
  - rewrite Rabs_pos_eq by lra. field.
Qed.
End Krg.
Transparent continuous_at.
(** mixture of experts with smooth recombination *)
Lemma moe_smooth_cont n k w (rv e : vec -> nat -> R) x : (forall j, (j < k)%nat -> continuous_at n (fun y => rv y j) x) -> (forall j, (j < k)%nat -> continuous_at n (fun y => e y j) x) ->
  0 < rsum k (fun j => w j * rv x j) -> continuous_at n (fun y => smooth_value k w (rv y) (e y)) x /\ continuous_at n (fun y => smooth_variance k w (rv y) (e y)) x.
Proof.
  intros Hr He Hp.
  assert (S : continuous_at n (fun y => rsum k (fun j => w j * rv y j)) x) by (apply (c_sum n x k (fun j y => w j * rv y j)); intros; apply c_scal, Hr; assumption).
  assert (P : forall j, (j < k)%nat -> continuous_at n (fun y => proba k w (rv y) j) x).
  { intros j Hj. unfold proba. destruct (Nat.eqb k 1); [apply c_const|]. cbv zeta.
    apply (c_near n x (fun y => w j * rv y j * / rsum k (fun j => w j * rv y j))).
    - destruct (S _ Hp) as (d & Hd & K). exists d. split; [exact Hd|]. intros y Hy. specialize (K y Hy). apply Rabs_def2 in K. destruct (Rlt_dec 0 _) as [_|N]; [reflexivity|lra].
    - apply c_mult; [apply c_scal, Hr; exact Hj|]. apply c_inv; [exact S|lra]. }
  split; unfold smooth_value, smooth_variance.
  - apply (c_sum n x k (fun j y => e y j * proba k w (rv y) j)). intros j Hj. apply c_mult; [apply He|apply P]; exact Hj.
  - apply (c_sum n x k (fun j y => e y j * proba k w (rv y) j ^ 2)). intros j Hj. apply c_mult; [apply He; exact Hj|apply c_pow, P; exact Hj].
Qed.
Lemma hard2 (r e : nat -> R) : 0 < r 0%nat -> 0 < r 1%nat -> hard_value 2 (fun _ => 1 / 2) r e = e (if Rlt_dec (r 0%nat) (r 1%nat) then 1%nat else 0%nat).
Proof.
  intros H0 H1. unfold hard_value. f_equal. change (argmax 2 ?p) with (if Rlt_dec (p 0%nat) (p 1%nat) then 1%nat else 0%nat).
  unfold proba. cbn [Nat.eqb]. cbv zeta. cbn [rsum]. set (D := 0 + 1 / 2 * r 0%nat + 1 / 2 * r 1%nat). assert (PD : 0 < D) by (unfold D; lra).
  destruct (Rlt_dec 0 D) as [_|N]; [|contradiction]. assert (PI' : 0 < / D) by (apply Rinv_0_lt_compat; exact PD).
  destruct (Rlt_dec (r 0%nat) (r 1%nat)) as [L|L], (Rlt_dec (1 / 2 * r 0%nat / D) (1 / 2 * r 1%nat / D)) as [M|M]; try reflexivity; exfalso.
  - apply M. unfold Rdiv at 1 3. apply Rmult_lt_compat_r; [exact PI'|lra].
  - apply L. unfold Rdiv at 1 3 in M. apply Rmult_lt_reg_r in M; [lra|exact PI'].
Qed.
(** with hard recombination the prediction jumps where the most probable cluster changes *)
Lemma moe_hard_jumps : exists (rv : vec -> nat -> R) (e : vec -> nat -> R), (forall j x, continuous_at 1 (fun y => rv y j) x) /\ (forall j x, continuous_at 1 (fun y => e y j) x) /\
  (forall x, 0 < rsum 2 (fun j => 1 / 2 * rv x j)) /\ ~ continuous_at 1 (fun y => hard_value 2 (fun _ => 1 / 2) (rv y) (e y)) (fun _ => 0).
Proof.
  exists (fun y j => if Nat.eqb j 0 then 1 else exp (y 0%nat)), (fun _ j => INR j). split; [|split; [|split]].
  - intros j x. destruct (Nat.eqb j 0); [apply c_const|apply c_exp, c_coord; lia].
  - intros. apply c_const.
  - intros x. cbn. pose proof (exp_pos (x 0%nat)). lra.
  - intros C. destruct (C (1 / 2) ltac:(lra)) as (d & Hd & K). specialize (K (fun _ => d / 2)). assert (Q : 1 / 2 <= Rabs (hard_value 2 (fun _ => 1 / 2) (fun j => if Nat.eqb j 0 then 1 else exp (d / 2)) (fun j => INR j) - hard_value 2 (fun _ => 1 / 2) (fun j => if Nat.eqb j 0 then 1 else exp 0) (fun j => INR j))).
    { rewrite !hard2; cbn [Nat.eqb]; try lra; try apply exp_pos. pose proof (exp_increasing 0 (d / 2) ltac:(lra)) as E. rewrite exp_0 in *.
      destruct (Rlt_dec 1 (exp (d / 2))) as [_|N]; [|lra]. destruct (Rlt_dec 1 1) as [N|_]; [lra|]. cbn [INR]. rewrite Rabs_pos_eq by lra. lra. }
    apply (Rlt_irrefl (1 / 2)). eapply Rle_lt_trans; [exact Q|]. apply K. intros k _. rewrite Rabs_pos_eq by lra. lra.
Qed.
