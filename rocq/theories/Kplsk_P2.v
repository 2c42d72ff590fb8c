(** C103: ordinary data; an instance. *)
From Coq Require Import Reals Arith Bool List Lia Lra.
From Coquelicot Require Import Coquelicot.
From Verif Require Import RSum Mat Tri_M Kernels_M Krg_M Krg_S Krg_P Krg_P2 Krg_P3 Krg_P6 Krg_P8 Krg_Qr HyperOpt_M HyperOpt_S HyperOpt_P HyperOpt_P2 Kplsk_M Kplsk_S Kplsk_P.
Import ListNotations.
Open Scope list_scope.
Open Scope R_scope.

Lemma no_pinf qr rcond condF nx nt po X y nugget noise0 hn : qr_contract qr -> rcond_contract rcond -> (2 <= nt)%nat -> (n_regr po nx <= nt)%nat ->
  (forall b : vec, exists i, (i < nt)%nat /\ ynorm nt y i <> mv (n_regr po nx) (fun i j => fvec po nx (Xnorm nt X i) j) b i) ->
  forall a, lik_full qr rcond condF nx nt po (Xnorm nt X) (ynorm nt y) (scale1 nt y) false false nugget noise0 hn a <> PosInf.
Proof.
  intros HQ HR Hn Hp H a. unfold lik_full, eval_at, theta_part, noise_part, nug, est. cbn [andb].
  destruct (reduced_likelihood _ _ _ _ _ _ _ _ _ _) as [v pr| |] eqn:E; try discriminate.
  assert (T : exists m, krg_train qr rcond condF nx nt po (KStd SquarExp (vec_of a)) nugget (fun _ => noise0) X y = Some m /\ m_par m = pr).
  { unfold krg_train. destruct (Nat.leb_spec nt 1); [lia|]. destruct (Nat.ltb_spec nt (n_regr po nx)); [lia|]. rewrite E. eexists. split; reflexivity. }
  destruct T as (m & T & <-). pose proof (sigma2_pos _ _ _ _ _ _ _ _ _ (train_inv _ _ _ _ _ _ _ _ _ _ _ _ HQ HR T) H) as P. destruct (Req_EM_T _ 0) as [Z|Z]; [lra|discriminate].
Qed.
Lemma t_not_worse_data qr rcond condF nx nt po X y co nc nugget noise0 hn a b c d nb opt1 opt2 rnd1 rnd2 theta0 n nb' v1 p1 t1 w v p t :
  qr_contract qr -> rcond_contract rcond -> (2 <= nt)%nat -> (n_regr po nx <= nt)%nat ->
  (forall b : vec, exists i, (i < nt)%nat /\ ynorm nt y i <> mv (n_regr po nx) (fun i j => fvec po nx (Xnorm nt X i) j) b i) ->
  phase1 qr rcond condF nx nt po (Xnorm nt X) (ynorm nt y) (scale1 nt y) co nc false false nugget noise0 hn a b c d nb opt1 rnd1 theta0 = Done n nb' v1 (Some (p1, t1)) ->
  length t1 = nc -> weights nx nc co (vec_of t1) w -> within a b w ->
  (forall s, good_attempt (lik_full qr rcond condF nx nt po (Xnorm nt X) (ynorm nt y) (scale1 nt y) false false nugget noise0 hn) (opt2 s 0%nat)) ->
  (forall s, ~ raised (opt2 s 0%nat)) -> tries_start opt2 ->
  kplsk_train qr rcond condF nx nt po (Xnorm nt X) (ynorm nt y) (scale1 nt y) co nc false false nugget noise0 hn a b c d nb opt1 opt2 rnd1 rnd2 theta0 = Trained v p t -> v1 <= v.
Proof.
  intros HQ HR Hn Hp H P1 L W B G Nr Ts T.
  exact (t_not_worse qr rcond condF nx nt po (Xnorm nt X) (ynorm nt y) (scale1 nt y) co nc false false nugget noise0 hn a b c d nb opt1 opt2 rnd1 rnd2 theta0 n nb' v1 p1 t1 w v p t eq_refl (no_pinf qr rcond condF nx nt po X y nugget noise0 hn HQ HR Hn Hp H) P1 L W B G Nr Ts T).
Qed.
(** ** an optimiser that returns its starting point *)
Definition obj_of {Th Par} (L : Th -> ev Par) (t : Th) : fval := match L t with Fin v _ => FFin (- v) | PosInf => FNegInf | NegInf => FPosInf | Exc => FFin 0 end.
Definition echo {Par} (L : list R -> ev Par) : optimiser := fun s _ => Cobyla {| r_evals := [s]; r_out := Some (s, obj_of L s) |}.
Lemma echo_good {Par} (L : list R -> ev Par) s : L s <> Exc -> good_attempt L (echo L s 0%nat).
Proof.
  intros N x f. cbn [r_out r_evals]. intros [= <- <-]. split; [left; reflexivity|]. unfold objective, obj_of. split; [destruct (L s); try reflexivity; contradiction|].
  intros t g [<- |[]] H. destruct (L s); try (subst g; cbn; try destruct (Rlt_dec _ _); try lra; reflexivity). contradiction.
Qed.
Lemma echo_done {Par} (L : list R -> ev Par) L' nb s v p : L s = Fin v p -> search (list R) Par L (10 + 2 * nb) nb (@echo Par L' s) = Done 1 nb v (Some (p, s)).
Proof.
  intros E. unfold search. change (10 + 2 * nb)%nat with (S (9 + 2 * nb)). cbn [loop]. unfold init at 1 2. cbn [s_k s_stop]. change (Nat.ltb 0 1) with true. cbv iota.
  assert (B : body (list R) Par L (init (list R) Par nb) (echo L' s 0%nat) = Continue (list R) Par {| s_k := 1; s_stop := 1; s_nb := nb; s_mem := Some (v, s); s_bv := v; s_bp := Some (p, s) |}).
  { unfold body, minimise, echo. cbn [r_evals r_out evals]. unfold note. rewrite E. cbn [init s_mem evals]. rewrite E. cbv zeta. cbn [with_mem s_k Nat.eqb init]. destruct (Rlt_dec v v); reflexivity. }
  rewrite B. destruct (9 + 2 * nb)%nat; reflexivity.
Qed.
Definition X1 : nat -> vec := fun i _ => INR i.
Definition y1 : vec := INR.
Definition ones : mat := fun _ _ => 1.
Notation L1 := (lik_full gs_qr rcond01 cond0 1 2 PConstant (Xnorm 2 X1) (ynorm 2 y1) (scale1 2 y1) false false 0 0 (fun _ => 0)).
Lemma L1_noexc s : L1 s <> Exc.
Proof.
  unfold lik_full, eval_at, reduced_likelihood. destruct (cholesky _ _); [|discriminate]. destruct (gs_qr _ _ _). destruct (Rlt_dec (rcond01 _ _) _).
  - destruct (Rlt_dec _ _) as [Q|Q]; [|discriminate]. unfold cond0 in Q. assert (0 < 10 ^ 15) by (apply pow_lt; lra). lra.
  - cbv zeta. destruct (Req_EM_T _ _); discriminate.
Qed.
Lemma y1_not_trend : forall b : vec, exists i, (i < 2)%nat /\ ynorm 2 y1 i <> mv (n_regr PConstant 1) (fun i j => fvec PConstant 1 (Xnorm 2 X1 i) j) b i.
Proof.
  intros b. destruct (Req_dec (ynorm 2 y1 0) (mv (n_regr PConstant 1) (fun i j => fvec PConstant 1 (Xnorm 2 X1 i) j) b 0)) as [E|E]; [|exists 0%nat; split; [lia|exact E]].
  exists 1%nat. split; [lia|]. intros E1. assert (Q : mv (n_regr PConstant 1) (fun i j => fvec PConstant 1 (Xnorm 2 X1 i) j) b 0 = mv (n_regr PConstant 1) (fun i j => fvec PConstant 1 (Xnorm 2 X1 i) j) b 1) by reflexivity.
  rewrite <- E, <- E1 in Q. unfold ynorm in Q. set (s := scale1 2 y1) in *. assert (s <> 0) by apply scale1_nz. set (m := mean 2 y1) in *. apply (Rmult_eq_compat_r s) in Q. unfold Rdiv in Q. rewrite !Rmult_assoc, Rinv_l, !Rmult_1_r in Q by assumption. unfold y1 in Q. cbn in Q. lra.
Qed.
Lemma L1_fin : exists v p, L1 [1] = Fin v p.
Proof.
  destruct (train_gs 1 2 PConstant (KStd SquarExp (vec_of [1])) 0 (fun _ => 0) X1 y1) as [m E]; [lia|cbn; lia| |apply constant_regular; lia|].
  - apply corr_matrix_pd_distinct; [congruence| |apply Xnorm_distinct|intros; lra].
    + intros j Hj. assert (j = 0%nat) as -> by lia. unfold vec_of. cbn. lra.
    + intros i j _ _ N Q. apply N. apply INR_eq. exact (Q 0%nat ltac:(lia)).
  - pose proof (no_pinf gs_qr rcond01 cond0 1 2 PConstant X1 y1 0 0 (fun _ => 0) gs_contract rcond01_contract ltac:(lia) ltac:(cbn; lia) y1_not_trend [1]) as Np.
    unfold krg_train in E. cbv zeta in E. cbn [Nat.leb Nat.ltb n_regr] in E. unfold lik_full, eval_at, theta_part, noise_part, nug, est in *. cbn [andb] in *.
    match type of E with match ?d with _ => _ end = _ => destruct d as [v pr| |] eqn:ER; [|discriminate|discriminate] end. cbn [n_regr] in *. rewrite ER in *. destruct (Req_EM_T _ 0); [contradiction|]. eexists. eexists. reflexivity.
Qed.
Lemma instance : exists v p, weights 1 1 ones (vec_of [1]) [1] /\ within (1 / 10) 10 [1] /\
  phase1 gs_qr rcond01 cond0 1 2 PConstant (Xnorm 2 X1) (ynorm 2 y1) (scale1 2 y1) ones 1 false false 0 0 (fun _ => 0) (1 / 10) 10 0 1 5 (echo L1) (fun _ => 0) [1] = Done 1 5 v (Some (p, [1])) /\
  kplsk_train gs_qr rcond01 cond0 1 2 PConstant (Xnorm 2 X1) (ynorm 2 y1) (scale1 2 y1) ones 1 false false 0 0 (fun _ => 0) (1 / 10) 10 0 1 5 (echo L1) (echo L1) (fun _ => 0) (fun _ => 0) [1] = Trained v p [1].
Proof.
  destruct L1_fin as (v & p & E). exists v, p.
  assert (W : weights 1 1 ones (vec_of [1]) [1]) by (split; [reflexivity|]; intros j Hj; assert (j = 0%nat) as -> by lia; unfold vec_of, ones; cbn; ring).
  assert (B : within (1 / 10) 10 [1]) by (intros t [<- |[]]; lra).
  assert (P : phase1 gs_qr rcond01 cond0 1 2 PConstant (Xnorm 2 X1) (ynorm 2 y1) (scale1 2 y1) ones 1 false false 0 0 (fun _ => 0) (1 / 10) 10 0 1 5 (echo L1) (fun _ => 0) [1] = Done 1 5 v (Some (p, [1]))).
  { unfold phase1. rewrite (start_plain false false 0 (1 / 10) 10 0 1 (fun _ => 0) [1] eq_refl B). apply echo_done. rewrite <- (same_plain gs_qr rcond01 cond0 1 2 PConstant (Xnorm 2 X1) (ynorm 2 y1) (scale1 2 y1) ones 1 false false 0 0 (fun _ => 0) [1] [1] eq_refl W). exact E. }
  split; [exact W|]. split; [exact B|]. split; [exact P|]. unfold kplsk_train. rewrite P. cbn [best_vec].
  destruct (next_plain 1 ones 1 false [1] eq_refl eq_refl) as (w & -> & W'). assert (w = [1]) as ->.
  { destruct W' as [Lw Ww]. destruct w as [|a [|]]; cbn in Lw; try lia. f_equal. specialize (Ww 0%nat ltac:(lia)). unfold vec_of, ones in Ww. cbn in Ww. lra. }
  unfold phase2. rewrite (start_plain false false 0 (1 / 10) 10 0 1 (fun _ => 0) [1] eq_refl B). rewrite (echo_done L1 L1 5 [1] v p E). reflexivity.
Qed.
