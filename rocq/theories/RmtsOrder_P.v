(** C104: RMTS does not depend on the order of the training points. *)
From Coq Require Import Reals ZArith Arith Bool List Lia Lra FunctionalExtensionality.
From Verif Require Import RSum Mat Het_S Het_P4 Index_M Rmtb_M Rmtc_M RmtsTrain_M RmtsMulti_M.
Import ListNotations.
Open Scope list_scope.
Open Scope R_scope.
Section O.
Variables (n : nat) (H : mat) (f : nat -> nat -> nat).
Definition shuffled (b : block) : block := mkB (b_kx b) (b_nt b) (fun t => b_J b (f (b_kx b) t)) (b_c b).
Definition shuffled_yt (yt : nat -> nat -> R) : nat -> nat -> R := fun kx t => yt kx (f kx t).
Section B.
Variables (blocks : list block).
Hypothesis RO : forall b, In b blocks -> reorder (b_nt b) (f (b_kx b)).
Lemma resid_s yt b sol t : resid n (shuffled_yt yt) (shuffled b) sol t = resid n yt b sol (f (b_kx b) t).
Proof. reflexivity. Qed.
Lemma fold_s {A} (g h : A -> block -> A) (l : list block) a : (forall x b, In b l -> g x (shuffled b) = h x b) -> fold_left g (map shuffled l) a = fold_left h l a.
Proof.
  revert a. induction l as [|b l IH]; intros a E; [reflexivity|]. cbn [map fold_left]. rewrite (E a b (or_introl eq_refl)). apply IH. intros x c Hc. apply E. right. exact Hc.
Qed.
Lemma func_s p yt : opt_func n H (map shuffled blocks) p (shuffled_yt yt) = opt_func n H blocks p yt.
Proof.
  apply functional_extensionality. intros sol. unfold opt_func. apply fold_s. intros x b Hb. cbn [shuffled b_c b_nt]. f_equal. f_equal.
  exact (rsum_reorder (b_nt b) (f (b_kx b)) (fun t => resid n yt b sol t ^ p) (RO b Hb)).
Qed.
Lemma grad_s p yt : opt_grad n H (map shuffled blocks) p (shuffled_yt yt) = opt_grad n H blocks p yt.
Proof.
  apply functional_extensionality. intros sol. apply functional_extensionality. intros k. unfold opt_grad. apply fold_s. intros x b Hb. f_equal.
  exact (rsum_reorder (b_nt b) (f (b_kx b)) (fun t => 1 / 2 * b_c b * tr (b_J b) k t * INR p * resid n yt b sol t ^ (p - 1)) (RO b Hb)).
Qed.
Lemma hess_s p yt : opt_hess n H (map shuffled blocks) p (shuffled_yt yt) = opt_hess n H blocks p yt.
Proof.
  apply functional_extensionality. intros sol. apply functional_extensionality. intros i. apply functional_extensionality. intros j. unfold opt_hess. apply fold_s. intros x b Hb. f_equal.
  exact (rsum_reorder (b_nt b) (f (b_kx b)) (fun t => 1 / 2 * b_c b * tr (b_J b) i t * (INR p * (INR p - 1) * resid n yt b sol t ^ (p - 2)) * b_J b t j) (RO b Hb)).
Qed.
Variable solve : mat -> vec -> vec.
Variable search : vec -> vec -> (vec -> R) -> (vec -> vec) -> option vec.
Lemma newton_s yt p tol fuel st : newton n H (map shuffled blocks) (shuffled_yt yt) solve search p tol fuel st = newton n H blocks yt solve search p tol fuel st.
Proof.
  revert st. induction fuel as [|fuel IH]; intros st; [reflexivity|]. cbn [newton]. unfold opt_norm. rewrite grad_s, func_s, hess_s.
  destruct (Rlt_dec _ _); [|reflexivity]. destruct (search _ _ _ _); [apply IH|reflexivity].
Qed.
Lemma newton_all_s p tol fuel outs mtx : newton_all n H (map shuffled blocks) solve search p tol fuel (map (fun o : (nat -> nat -> R) * vec => (shuffled_yt (fst o), snd o)) outs) mtx = newton_all n H blocks solve search p tol fuel outs mtx.
Proof.
  revert mtx. induction outs as [|[yt sol] outs IH]; intros mtx; [reflexivity|]. cbn [map newton_all fst snd]. rewrite newton_s. destruct (newton _ _ _ _ _ _ _ _ _ _) as [[s m]|]; [|reflexivity]. rewrite IH. reflexivity.
Qed.
Lemma combine_s (yts : list (nat -> nat -> R)) (sols : list vec) : combine (map shuffled_yt yts) sols = map (fun o : (nat -> nat -> R) * vec => (shuffled_yt (fst o), snd o)) (combine yts sols).
Proof. revert sols. induction yts as [|y yts IH]; intros [|s sols]; try reflexivity. cbn [map combine fst snd]. rewrite IH. reflexivity. Qed.
Lemma train_s p maxiter tol yts mtx : train_all n H (map shuffled blocks) solve search p maxiter tol (map shuffled_yt yts) mtx = train_all n H blocks solve search p maxiter tol yts mtx.
Proof.
  unfold train_all, solve_all.
  replace (map (fun yt => (yt, (fun _ : nat => 0) : vec)) (map shuffled_yt yts)) with (map (fun o : (nat -> nat -> R) * vec => (shuffled_yt (fst o), snd o)) (map (fun yt => (yt, (fun _ : nat => 0) : vec)) yts)) by (rewrite !map_map; reflexivity).
  rewrite newton_all_s. destruct (newton_all n H blocks solve search 2 tol 1 _ mtx) as [[sols m]|]; [|reflexivity]. rewrite combine_s, newton_all_s. reflexivity.
Qed.
(** sensitivities: point t of the new order is point f t of the old *)
Lemma outd_s dsolve mtx p yts sols iy b dy t : output_derivative_all n (map shuffled blocks) dsolve mtx p (map shuffled_yt yts) sols iy (shuffled b) dy t = output_derivative_all n blocks dsolve mtx p yts sols iy b dy (f (b_kx b) t).
Proof.
  unfold output_derivative_all. rewrite (map_nth shuffled_yt yts (fun _ _ => 0) iy : nth iy (map shuffled_yt yts) (fun _ _ => 0) = _). reflexivity.
Qed.
End B.
End O.
Section G.
Variables (jac : nat -> (nat -> vec) -> mat).
Hypothesis J : forall kx xt f, jac kx (fun t => xt (f t)) = fun t => jac kx xt (f t).
Lemma gen_order n H solve search p maxiter tol mtx (kinds : list (nat * R)) (nt : nat -> nat) (xt : nat -> nat -> vec) (yts : list (nat -> nat -> R)) (f : nat -> nat -> nat) :
  (forall kx c, In (kx, c) kinds -> reorder (nt kx) (f kx)) ->
  let blocks := map (fun kc : nat * R => mkB (fst kc) (nt (fst kc)) (jac (fst kc) (xt (fst kc))) (snd kc)) kinds in
  let blocks' := map (fun kc : nat * R => mkB (fst kc) (nt (fst kc)) (jac (fst kc) (fun t => xt (fst kc) (f (fst kc) t))) (snd kc)) kinds in
  let yts' := map (fun (yt : nat -> nat -> R) kx t => yt kx (f kx t)) yts in
  train_all n H blocks' solve search p maxiter tol yts' mtx = train_all n H blocks solve search p maxiter tol yts mtx /\
  forall dsolve mtx sols iy i dy t, (i < length kinds)%nat ->
    output_derivative_all n blocks' dsolve mtx p yts' sols iy (nth i blocks' (mkB 0 0 (fun _ _ => 0) 0)) dy t =
    output_derivative_all n blocks dsolve mtx p yts sols iy (nth i blocks (mkB 0 0 (fun _ _ => 0) 0)) dy (f (fst (nth i kinds (0%nat, 0))) t).
Proof.
  intros RO blocks blocks' yts'.
  assert (E : blocks' = map (shuffled f) blocks).
  { unfold blocks, blocks'. rewrite map_map. apply map_ext. intros [kx c]. unfold shuffled. cbn [fst snd b_kx b_nt b_J b_c]. rewrite J. reflexivity. }
  rewrite E. change yts' with (map (shuffled_yt f) yts). split.
  - apply train_s. intros b Hb. unfold blocks in Hb. apply in_map_iff in Hb. destruct Hb as [[kx c] [<- Hk]]. cbn [b_nt b_kx fst]. exact (RO kx c Hk).
  - intros dsolve mtx' sols iy i dy t Hi.
    rewrite (nth_indep (map (shuffled f) blocks) (mkB 0 0 (fun _ _ => 0) 0) (shuffled f (mkB 0 0 (fun _ _ => 0) 0))) by (unfold blocks; rewrite !map_length; exact Hi).
    rewrite map_nth, outd_s. f_equal. f_equal. unfold blocks.
    set (h := fun kc : nat * R => mkB (fst kc) (nt (fst kc)) (jac (fst kc) (xt (fst kc))) (snd kc)).
    rewrite (nth_indep (map h kinds) (mkB 0 0 (fun _ _ => 0) 0) (h (0%nat, 0))) by (rewrite map_length; exact Hi). rewrite map_nth. reflexivity.
Qed.
End G.
Definition rmtb_order orders ncps lo up := gen_order (rmtb_jac orders ncps lo up) (fun _ _ _ => eq_refl).
Definition rmtc_order nelems lo up inv := gen_order (rmtc_jac nelems lo up inv) (fun _ _ _ => eq_refl).
