(** C103: proofs. *)
From Coq Require Import Reals Arith Bool List Lia Lra FunctionalExtensionality.
From Verif Require Import RSum Mat Tri_M Kernels_M Kernels_P Krg_M Krg_S Krg_P Krg_P2 Krg_P3 Krg_P6 Krg_P8 Krg_Qr HyperOpt_M HyperOpt_S HyperOpt_P HyperOpt_P2 Kplsk_M Kplsk_S.
Import ListNotations.
Open Scope list_scope.
Open Scope R_scope.

(** the kernel of the components is the kernel of the inputs with the summed weights *)
Lemma kd_pls nc co th nx w : (forall j, (j < nx)%nat -> w j = rsum nc (fun l => th l * co j l ^ 2)) -> kd (KPls SquarExp nc co th) nx = kd (KStd SquarExp w) nx.
Proof.
  intros H. apply functional_extensionality. intros D. pose proof (pls_corr SquarExp nx nc co th D (fun _ => 0) (or_intror eq_refl)) as E. unfold corr_of_pls, corr_of in E.
  replace (fun j => D j - 0) with D in E by (apply functional_extensionality; intros; ring). cbn [kd]. etransitivity; [exact E|]. cbn [kernel]. unfold k_exp, comp_dist. do 2 f_equal. apply rsum_ext. intros j Hj. rewrite (H j Hj). reflexivity.
Qed.
Lemma corr_matrix_pls nc co th nx w nt X nugget noise : (forall j, (j < nx)%nat -> w j = rsum nc (fun l => th l * co j l ^ 2)) ->
  corr_matrix (KPls SquarExp nc co th) nx nt X nugget noise = corr_matrix (KStd SquarExp w) nx nt X nugget noise.
Proof. intros H. unfold corr_matrix. rewrite (kd_pls nc co th nx w H). reflexivity. Qed.
Lemma removelast_app1 {A} (l : list A) a : removelast (l ++ [a]) = l.
Proof. rewrite removelast_app by discriminate. cbn. apply app_nil_r. Qed.

(** the first attempt of an optimiser that does not raise and returns the best point it has evaluated ends the search *)
Lemma search_first Th Par (L : Th -> ev Par) f nb att n b v d e w q : (forall t, L t <> PosInf) -> good_attempt L (att 0%nat) -> ~ raised (att 0%nat) -> In e (points (att 0%nat)) -> L e = Fin w q ->
  search Th Par L f nb att = Done n b v d -> w <= v.
Proof.
  intros Np G Nr He E. unfold search. destruct f as [|f]; [discriminate|]. cbn [loop init s_k s_stop Nat.ltb Nat.leb]. unfold body. pose proof (minimise_best L Np (s_mem Th Par (init Th Par nb)) (att 0%nat) G) as M.
  destruct (minimise Th Par L (s_mem Th Par (init Th Par nb)) (att 0%nat)) as [|mem|mem x]; [discriminate|destruct M as (_ & _ & M); contradiction|]. destruct M as (_ & _ & (_ & M) & _).
  destruct (L x) as [vx px| | |] eqn:Lx; try discriminate.
  - cbv zeta. cbn [s_k init with_mem with_best tick Nat.eqb s_bv s_bp s_nb s_stop Nat.add]. destruct f; cbn [loop s_k s_stop Nat.ltb Nat.leb s_nb s_bv s_bp]; intros [= _ _ <- _]; exact (M e w q He E).
  - exfalso. exact (Np x Lx).
  - exfalso. exact (M e w q He E).
Qed.
Section K.
Variables (qr : nat -> nat -> mat -> mat * mat) (rcond : nat -> mat -> R) (condF : nat -> nat -> mat -> R).
Variables (nx nt : nat) (po : poly) (Xn : nat -> vec) (yn : vec) (ystd : R) (co : mat) (nc : nat).
Variables (eval_noise het : bool) (nugget noise0 : R) (het_noise : vec) (tb_lo tb_hi nb_lo nb_hi : R).
Notation Lp := (lik_pls qr rcond condF nx nt po Xn yn ystd co nc eval_noise het nugget noise0 het_noise).
Notation Lf := (lik_full qr rcond condF nx nt po Xn yn ystd eval_noise het nugget noise0 het_noise).
Notation nxt := (next_theta0 nx co nc eval_noise).
Notation st := (start eval_noise het noise0 tb_lo tb_hi nb_lo nb_hi).
Lemma w_ok theta : weights nx nc co (vec_of theta) (map (fun j => rsum nc (fun l => nth l theta 0 * co j l ^ 2)) (seq 0 nx)).
Proof.
  split; [rewrite map_length, seq_length; reflexivity|]. intros j Hj. rewrite (nth_indep _ _ ((fun j => rsum nc (fun l => nth l theta 0 * co j l ^ 2)) 0%nat)) by (rewrite map_length, seq_length; exact Hj).
  rewrite (map_nth (fun j => rsum nc (fun l => nth l theta 0 * co j l ^ 2))), seq_nth by exact Hj. reflexivity.
Qed.
Lemma next_plain theta : eval_noise = false -> length theta = nc -> exists w, nxt theta = Some w /\ weights nx nc co (vec_of theta) w.
Proof. intros -> L. unfold next_theta0. rewrite L, Nat.eqb_refl. eexists. split; [reflexivity|apply w_ok]. Qed.
Lemma next_noise theta s : eval_noise = true -> length theta = nc -> exists w, nxt (theta ++ [s]) = Some w /\ weights nx nc co (vec_of theta) w.
Proof. intros -> L. unfold next_theta0. rewrite removelast_app1, L, Nat.eqb_refl. eexists. split; [reflexivity|apply w_ok]. Qed.
Lemma same_plain theta w : eval_noise = false -> weights nx nc co (vec_of theta) w -> Lf w = Lp theta.
Proof.
  intros E [Lw W]. unfold lik_full, lik_pls, eval_at, theta_part, noise_part, est. rewrite E. cbn [andb].
  rewrite (corr_matrix_pls nc co (vec_of theta) nx (vec_of w)); [reflexivity|exact W].
Qed.
Lemma same_noise theta w s : eval_noise = true -> het = false -> length theta = nc -> weights nx nc co (vec_of theta) w -> Lf (w ++ [s]) = Lp (theta ++ [s]).
Proof.
  intros E Eh Lt [Lw W]. unfold lik_full, lik_pls, eval_at, theta_part, noise_part, est. rewrite E, Eh. cbn [andb negb].
  assert (A : forall (l : list R) n, length l = n -> firstn n (l ++ [s]) = l /\ nth n (l ++ [s]) 0 = s).
  { intros l n <-. split; [rewrite firstn_app, Nat.sub_diag, firstn_all, firstn_O, app_nil_r; reflexivity|rewrite app_nth2, Nat.sub_diag by lia; reflexivity]. }
  destruct (A w nx Lw) as [-> ->]. destruct (A theta nc Lt) as [-> ->]. rewrite (corr_matrix_pls nc co (vec_of theta) nx (vec_of w)); [reflexivity|exact W].
Qed.
Lemma start_id rnd w : within tb_lo tb_hi w -> start_theta tb_lo tb_hi rnd w = w.
Proof.
  intros H. apply (nth_ext _ _ 0 0); [apply start_length|]. intros i Hi. rewrite start_length in Hi. rewrite start_theta_spec by exact Hi. cbv zeta. pose proof (H _ (nth_In w 0 Hi)). destruct (Rlt_dec _ _); [lra|]. destruct (Rlt_dec _ _); [lra|reflexivity].
Qed.
Lemma start_plain rnd w : eval_noise = false -> within tb_lo tb_hi w -> st rnd w = w.
Proof. intros E H. unfold start, est. rewrite E. cbn [andb]. rewrite app_nil_r. apply start_id. exact H. Qed.
(** ** the whole training *)
Notation train := (kplsk_train qr rcond condF nx nt po Xn yn ystd co nc eval_noise het nugget noise0 het_noise tb_lo tb_hi nb_lo nb_hi).
Notation ph1 := (phase1 qr rcond condF nx nt po Xn yn ystd co nc eval_noise het nugget noise0 het_noise tb_lo tb_hi nb_lo nb_hi).
Lemma t_final nb opt1 opt2 rnd1 rnd2 theta0 v p t : train nb opt1 opt2 rnd1 rnd2 theta0 = Trained v p t -> Lf t = Fin v p.
Proof.
  unfold kplsk_train. destruct (ph1 nb opt1 rnd1 theta0) as [n nb' v1 b| | |]; try discriminate. destruct (nxt (best_vec b)) as [w|]; [|discriminate]. unfold phase2.
  destruct (search _ _ _ _ nb' _) as [n2 nb2 v2 b2| | |] eqn:E; try discriminate. destruct b2 as [[p2 t2]|]; [|discriminate]. intros [= <- <- <-]. exact (search_consistent _ _ _ _ _ _ _ _ _ E).
Qed.
Lemma t_start nb opt1 rnd1 rnd2 theta0 n nb' v1 p1 t1 : eval_noise = false -> ph1 nb opt1 rnd1 theta0 = Done n nb' v1 (Some (p1, t1)) -> length t1 = nc ->
  exists w, nxt t1 = Some w /\ weights nx nc co (vec_of t1) w /\ (within tb_lo tb_hi w -> st rnd2 w = w /\ Lf (st rnd2 w) = Fin v1 p1).
Proof.
  intros E H L. destruct (next_plain t1 E L) as (w & Hw & W). exists w. split; [exact Hw|]. split; [exact W|]. intros B. rewrite (start_plain rnd2 w E B). split; [reflexivity|]. rewrite (same_plain t1 w E W).
  exact (search_consistent _ _ _ _ _ _ _ _ _ H).
Qed.
Lemma t_not_worse nb opt1 opt2 rnd1 rnd2 theta0 n nb' v1 p1 t1 w v p t : eval_noise = false ->
  (forall a, Lf a <> PosInf) ->
  ph1 nb opt1 rnd1 theta0 = Done n nb' v1 (Some (p1, t1)) -> length t1 = nc -> weights nx nc co (vec_of t1) w -> within tb_lo tb_hi w ->
  (forall s, good_attempt Lf (opt2 s 0%nat)) -> (forall s, ~ raised (opt2 s 0%nat)) -> tries_start opt2 ->
  train nb opt1 opt2 rnd1 rnd2 theta0 = Trained v p t -> v1 <= v.
Proof.
  intros E Np H L W B G Nr Ts T. destruct (t_start nb opt1 rnd1 rnd2 theta0 n nb' v1 p1 t1 E H L) as (w' & Hw & W' & C).
  assert (w' = w) as ->. { destruct W as [W1 W2], W' as [V1 V2]. apply (nth_ext _ _ 0 0); [congruence|]. intros i Hi. rewrite V2, W2 by lia. reflexivity. }
  destruct (C B) as [_ F]. unfold kplsk_train in T. rewrite H in T. cbn [best_vec] in T. rewrite Hw in T. unfold phase2 in T.
  destruct (search _ _ _ _ nb' _) as [n2 nb2 v2 b2| | |] eqn:S2; try discriminate. destruct b2 as [[p2 t2]|]; [|discriminate]. injection T as <- <- <-.
  set (s2 := st rnd2 w) in *. refine (search_first _ _ _ _ _ _ _ _ _ _ s2 v1 p1 Np (G s2) (Nr s2) _ F S2).
  specialize (Ts s2). unfold points. destruct (opt2 s2 0%nat) as [a|a b]; [exact Ts|apply in_or_app; left; exact Ts].
Qed.
Lemma t_zero_coefficient rnd w theta j : 0 < tb_lo -> weights nx nc co theta w -> (j < nx)%nat -> (forall l, (l < nc)%nat -> co j l = 0) ->
  nth j (st rnd w) 0 = rnd j * (tb_hi - tb_lo) + tb_lo.
Proof.
  intros P [Lw W] Hj Z. unfold start. rewrite app_nth1 by (rewrite start_length; lia). rewrite start_theta_spec by lia. cbv zeta. rewrite (W j Hj). rewrite rsum_zero by (intros l Hl; rewrite Z by exact Hl; ring). destruct (Rlt_dec 0 tb_lo); [reflexivity|contradiction].
Qed.
Lemma t_noise_restarts rnd w : eval_noise = true -> het = false -> within tb_lo tb_hi w -> nb_lo <= nb_hi -> exists s, st rnd w = w ++ [s] /\ nb_lo <= s <= nb_hi /\
  (nb_lo <= noise0 <= nb_hi -> noise0 <> 0 -> s = noise0).
Proof.
  intros E Eh B Hb. unfold start, est. rewrite E, Eh. cbn [andb negb]. rewrite start_id by exact B. eexists. split; [reflexivity|]. unfold start_noise. destruct (Req_EM_T noise0 0) as [Q|Q]; destruct (Rlt_dec _ _); try destruct (Rlt_dec _ _); split; try lra; intros; lra.
Qed.
Lemma het_next best : eval_noise = true -> length best = nc -> 
  (nc = 1%nat -> exists w, nxt best = Some w /\ length w = nx /\ forall j, nth j w 0 = 0) /\
  (nc = 2%nat -> exists w, nxt best = Some w /\ weights nx nc co (fun _ => nth 0 best 0) w) /\
  ((3 <= nc)%nat -> nxt best = None).
Proof.
  intros E L. unfold next_theta0. rewrite E. split; [|split].
  - intros N. destruct best as [|a [|]]; cbn [length] in L; try lia. cbn [removelast length]. rewrite N. cbn [Nat.eqb]. eexists. split; [reflexivity|]. split; [rewrite map_length, seq_length; reflexivity|].
    intros j. cbn [rsum]. destruct (lt_dec j nx) as [Hj|Hj].
    + exact (map_nth (fun _ : nat => 0) (seq 0 nx) 0%nat j).
    + apply nth_overflow. rewrite map_length, seq_length. lia.
  - intros N. destruct best as [|a [|b [|]]]; cbn [length] in L; try lia. cbn [removelast length]. rewrite N. cbn [Nat.eqb]. eexists. split; [reflexivity|]. split; [rewrite map_length, seq_length; reflexivity|]. intros j Hj.
    rewrite (nth_indep _ _ ((fun j => rsum 2 (fun l => nth 0 [a] 0 * co j l ^ 2)) 0%nat)) by (rewrite map_length, seq_length; exact Hj). rewrite (map_nth (fun j => rsum 2 (fun l => nth 0 [a] 0 * co j l ^ 2))), seq_nth by exact Hj. reflexivity.
  - intros N. assert (Q : length (removelast best) = (nc - 1)%nat).
    { destruct (@exists_last _ best) as (l & a & ->); [intros ->; cbn in L; lia|]. rewrite removelast_app1. rewrite app_length in L. cbn in L. lia. }
    rewrite Q. destruct (Nat.eqb_spec (nc - 1) nc); [lia|]. destruct (Nat.eqb_spec (nc - 1) 1); [lia|]. destruct (Nat.eqb_spec nc 1); [lia|reflexivity].
Qed.
Lemma t_het_raises nb opt1 opt2 rnd1 rnd2 theta0 n nb' v1 p1 t1 : eval_noise = true -> (3 <= nc)%nat -> ph1 nb opt1 rnd1 theta0 = Done n nb' v1 (Some (p1, t1)) -> length t1 = nc ->
  train nb opt1 opt2 rnd1 rnd2 theta0 = Raised.
Proof. intros E N H L. unfold kplsk_train. rewrite H. cbn [best_vec]. destruct (het_next t1 E L) as (_ & _ & Q). rewrite (Q N). reflexivity. Qed.
End K.
(** ** with the data of an ordinary training *)
Lemma t_model qr rcond condF nx nt po X y co nc eval_noise het nugget noise0 hn a b c d nb opt1 opt2 rnd1 rnd2 theta0 v p t : (2 <= nt)%nat -> (n_regr po nx <= nt)%nat ->
  kplsk_train qr rcond condF nx nt po (Xnorm nt X) (ynorm nt y) (scale1 nt y) co nc eval_noise het nugget noise0 hn a b c d nb opt1 opt2 rnd1 rnd2 theta0 = Trained v p t ->
  exists m theta, (forall j, (j < nx)%nat -> theta j = nth j t 0) /\
    krg_train qr rcond condF nx nt po (KStd SquarExp theta) (if eval_noise then 0 else nugget)
      (if het then hn else if eval_noise then (fun _ => nth nx t 0) else (fun _ => noise0)) X y = Some m /\ m_par m = p /\ m_k m = final_kernel nx eval_noise het t.
Proof.
  intros Hn Hp T. apply t_final in T. exists {| m_nx := nx; m_nt := nt; m_poly := po; m_k := final_kernel nx eval_noise het t; m_off := fun c => mean nt (fun a => X a c); m_scale := fun c => scale1 nt (fun a => X a c);
    m_Xn := Xnorm nt X; m_ymean := mean nt y; m_ystd := scale1 nt y; m_par := p |}, (vec_of (theta_part eval_noise het nx t)).
  split; [|split; [|split; reflexivity]].
  - intros j Hj. unfold vec_of, theta_part. destruct (est eval_noise het); [|reflexivity]. assert (G : forall (l : list R) n k, (k < n)%nat -> nth k (firstn n l) 0 = nth k l 0); [|apply G; exact Hj].
    intros l. induction l as [|r l IH]; intros [|n] [|k] H; try reflexivity; try lia. cbn. apply IH. lia.
  - unfold lik_full, eval_at in T. unfold krg_train. cbv zeta. destruct (Nat.leb_spec nt 1); [lia|]. destruct (Nat.ltb_spec nt (n_regr po nx)); [lia|].
    change (reduced_likelihood qr rcond condF nt (n_regr po nx) (INR nt) (corr_matrix (KStd SquarExp (vec_of (theta_part eval_noise het nx t))) nx nt (Xnorm nt X) (nug eval_noise nugget) (noise_part eval_noise het noise0 hn nx t))
      (fun i j => fvec po nx (Xnorm nt X i) j) (ynorm nt y) (scale1 nt y)) with (reduced_likelihood qr rcond condF nt (n_regr po nx) (INR nt) (corr_matrix (KStd SquarExp (vec_of (theta_part eval_noise het nx t))) nx nt (Xnorm nt X) (if eval_noise then 0 else nugget) (if het then hn else if eval_noise then (fun _ => nth nx t 0) else (fun _ => noise0)))
      (fun i j => fvec po nx (Xnorm nt X i) j) (ynorm nt y) (scale1 nt y)) in T.
    match type of T with match ?e with _ => _ end = _ => destruct e as [v' pr| |]; try discriminate end. destruct (Req_EM_T _ 0); [discriminate|]. injection T as _ <-. reflexivity.
Qed.
Lemma t_same_predictions qr rcond condF nx nt po X y co nc theta w nugget noise m : weights nx nc co theta w ->
  krg_train qr rcond condF nx nt po (KPls SquarExp nc co theta) nugget noise X y = Some m ->
  exists m', krg_train qr rcond condF nx nt po (KStd SquarExp (vec_of w)) nugget noise X y = Some m' /\
    forall x, predict_value m' x = predict_value m x /\ predict_variance m' x = predict_variance m x.
Proof.
  intros [Lw W]. unfold krg_train. cbv zeta. rewrite (corr_matrix_pls nc co theta nx (vec_of w)) by exact W. destruct (Nat.leb nt 1); [discriminate|]. destruct (Nat.ltb nt _); [discriminate|].
  destruct (reduced_likelihood _ _ _ _ _ _ _ _ _ _) as [v pr| |]; try discriminate. intros [= <-]. eexists. split; [reflexivity|]. intros x.
  assert (K : kf (KPls SquarExp nc co theta) nx = kf (KStd SquarExp (vec_of w)) nx) by (unfold kf; rewrite (kd_pls nc co theta nx (vec_of w) W); reflexivity).
  split; [unfold predict_value, rvec|unfold predict_variance, u_rhs, rt, rvec]; cbn [m_k m_nx m_Xn m_nt m_par m_poly m_off m_scale m_ymean m_ystd]; rewrite K; reflexivity.
Qed.
