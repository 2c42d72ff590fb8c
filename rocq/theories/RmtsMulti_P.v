From Coq Require Import Reals Arith Bool List Lia Lra.
From Verif Require Import RSum Mat RmtsTrain_M RmtsMulti_M.
Import ListNotations.
Open Scope list_scope.
Open Scope R_scope.

Lemma Forall2_nth A B (R : A -> B -> Prop) la lb : List.Forall2 R la lb -> forall i a, nth_error la i = Some a -> exists b, nth_error lb i = Some b /\ R a b.
Proof. induction 1 as [|a b la lb Hr _ IH]; intros i x E; destruct i; cbn in *; try discriminate; [injection E as <-; exists b; auto|apply IH; exact E]. Qed.
Lemma Forall2_len A B (R : A -> B -> Prop) la lb : List.Forall2 R la lb -> length la = length lb.
Proof. induction 1; cbn; congruence. Qed.

Section Multi.
Variables (n : nat) (H : mat) (blocks : list block).
Variable solve : mat -> vec -> vec.
Variable search : vec -> vec -> (vec -> R) -> (vec -> vec) -> option vec.
Notation newt yt := (newton n H blocks yt solve search).
Notation newt_all := (newton_all n H blocks solve search).
Notation sol_all := (solve_all n H blocks solve search).
Definition later (m m' : option mat) : option mat := match m' with Some M => Some M | None => m end.

Lemma newton_some yt p tol f : forall s M s' m', newt yt p tol f (s, Some M) = Some (s', m') -> m' <> None.
Proof.
  induction f as [|f IH]; intros s M s' m' E; cbn in E; [injection E as _ <-; discriminate|].
  destruct (Rlt_dec _ _); [|injection E as _ <-; discriminate].
  destruct (search _ _ _ _) as [v|]; [|discriminate]. exact (IH _ _ _ _ E).
Qed.
Lemma newton_from yt p tol f s m : newt yt p tol f (s, m) = match newt yt p tol f (s, None) with None => None | Some (s', m') => Some (s', later m m') end.
Proof.
  destruct f as [|f]; cbn; [reflexivity|].
  destruct (Rlt_dec _ _); [|reflexivity].
  destruct (search _ _ _ _) as [v|]; [|reflexivity].
  match goal with |- newt yt p tol f (v, Some ?M) = _ => destruct (newt yt p tol f (v, Some M)) as [[s' [m'|]]|] eqn:E end; try reflexivity.
  exfalso. exact (newton_some _ _ _ _ _ _ _ _ E eq_refl).
Qed.

Definition lastm (m : option mat) (l : list (option mat)) := fold_left later l m.
Lemma newton_all_some p tol k outs : forall m l, List.Forall2 (fun o r => newt (fst o) p tol k (snd o, None) = Some r) outs l ->
  newt_all p tol k outs m = Some (map fst l, lastm m (map snd l)).
Proof.
  induction outs as [|[yt sol] outs IH]; intros m l F; inversion F as [|o r outs' l' E F' E1 E2]; subst; [reflexivity|].
  cbn [newton_all]. rewrite newton_from. cbn [fst snd] in E. rewrite E. destruct r as [s' m']. rewrite (IH (later m m') _ F'). reflexivity.
Qed.
Lemma newton_all_none p tol k outs : forall m, (exists yt sol, In (yt, sol) outs /\ newt yt p tol k (sol, None) = None) -> newt_all p tol k outs m = None.
Proof.
  induction outs as [|[yt sol] outs IH]; intros m (yt' & sol' & I & E); [contradiction|].
  cbn [newton_all]. rewrite newton_from. destruct I as [[= -> ->]|I]; [rewrite E; reflexivity|].
  destruct (newt yt p tol k (sol, None)) as [[s' m']|]; [|reflexivity]. rewrite IH; [reflexivity|]. exists yt', sol'. auto.
Qed.
Lemma runs_dec p tol k (outs : list ((nat -> nat -> R) * vec)) : (exists l, List.Forall2 (fun o r => newt (fst o) p tol k (snd o, None) = Some r) outs l) \/
  (exists yt sol, In (yt, sol) outs /\ newt yt p tol k (sol, None) = None).
Proof.
  induction outs as [|[yt sol] outs IH]; [left; exists []; constructor|].
  destruct (newt yt p tol k (sol, None)) as [r|] eqn:E; [|right; exists yt, sol; split; [left; reflexivity|exact E]].
  destruct IH as [[l F]|(yt' & sol' & I & E')]; [left; exists (r :: l); constructor; assumption|right; exists yt', sol'; split; [right; exact I|exact E']].
Qed.

(** an output alone: both phases *)
Definition phases p maxiter tol (yt : nat -> nat -> R) (r1 r2 : vec * option mat) : Prop :=
  newt yt 2%nat tol 1 (fun _ => 0, None) = Some r1 /\ newt yt p tol maxiter (fst r1, None) = Some r2.
Lemma phases_solve p maxiter tol yt r1 r2 : phases p maxiter tol yt r1 r2 -> rmts_solve n H blocks yt solve search p maxiter tol = Some (fst r2, later (snd r1) (snd r2)).
Proof. intros [E1 E2]. unfold rmts_solve. rewrite E1. destruct r1 as [s1 m1], r2 as [s2 m2]. rewrite newton_from. cbn [fst snd] in *. rewrite E2. reflexivity. Qed.
Lemma solve_none p maxiter tol yt : rmts_solve n H blocks yt solve search p maxiter tol = None <->
  newt yt 2%nat tol 1 (fun _ => 0, None) = None \/ exists r1, newt yt 2%nat tol 1 (fun _ => 0, None) = Some r1 /\ newt yt p tol maxiter (fst r1, None) = None.
Proof.
  unfold rmts_solve. destruct (newt yt 2%nat tol 1 (fun _ => 0, None)) as [[s1 m1]|] eqn:E1; [|split; auto].
  rewrite newton_from. split.
  - intros E2. right. exists (s1, m1). split; [reflexivity|]. cbn. destruct (newt yt p tol maxiter (s1, None)) as [[s2 m2]|]; [discriminate|reflexivity].
  - intros [E|(r1 & [= <-] & E)]; [discriminate|]. cbn in E. rewrite E. reflexivity.
Qed.

Inductive both p maxiter tol : list (nat -> nat -> R) -> list (vec * option mat) -> list (vec * option mat) -> Prop :=
| both_nil : both p maxiter tol [] [] []
| both_cons yt yts r1 l1 r2 l2 : phases p maxiter tol yt r1 r2 -> both p maxiter tol yts l1 l2 -> both p maxiter tol (yt :: yts) (r1 :: l1) (r2 :: l2).
Lemma both_nth p maxiter tol yts l1 l2 : both p maxiter tol yts l1 l2 -> forall i yt, nth_error yts i = Some yt -> exists r1 r2, nth_error l1 i = Some r1 /\ nth_error l2 i = Some r2 /\ phases p maxiter tol yt r1 r2.
Proof.
  induction 1 as [|yt yts r1 l1 r2 l2 P _ IH]; intros i yt' E; destruct i; cbn in *; try discriminate; [injection E as <-; exists r1, r2; auto|apply IH; exact E].
Qed.
Lemma both_len p maxiter tol yts l1 l2 : both p maxiter tol yts l1 l2 -> length l1 = length yts /\ length l2 = length yts.
Proof. induction 1; cbn; intuition congruence. Qed.
Lemma both_phases p maxiter tol yts l1 l2 : both p maxiter tol yts l1 l2 ->
  List.Forall2 (fun o r => newt (fst o) 2%nat tol 1 (snd o, None) = Some r) (map (fun yt => (yt, (fun _ => 0) : vec)) yts) l1 /\
  List.Forall2 (fun o r => newt (fst o) p tol maxiter (snd o, None) = Some r) (combine yts (map fst l1)) l2.
Proof. induction 1 as [|yt yts r1 l1 r2 l2 [P1 P2] _ [IH1 IH2]]; cbn; split; constructor; cbn; auto. Qed.
Lemma solve_all_some p maxiter tol yts l1 l2 m : both p maxiter tol yts l1 l2 ->
  sol_all p maxiter tol yts m = Some (map fst l2, lastm (lastm m (map snd l1)) (map snd l2)).
Proof.
  intros B. destruct (both_phases _ _ _ _ _ _ B) as [F1 F2]. unfold solve_all. rewrite (newton_all_some _ _ _ _ m l1 F1). exact (newton_all_some _ _ _ _ _ _ F2).
Qed.
Lemma both_or_none p maxiter tol yts : (exists l1 l2, both p maxiter tol yts l1 l2) \/ (exists yt, In yt yts /\ rmts_solve n H blocks yt solve search p maxiter tol = None).
Proof.
  induction yts as [|yt yts IH]; [left; exists [], []; constructor|].
  destruct (newt yt 2%nat tol 1 (fun _ => 0, None)) as [r1|] eqn:E1; [|right; exists yt; split; [left; reflexivity|apply solve_none; left; exact E1]].
  destruct (newt yt p tol maxiter (fst r1, None)) as [r2|] eqn:E2; [|right; exists yt; split; [left; reflexivity|apply solve_none; right; exists r1; split; assumption]].
  destruct IH as [(l1 & l2 & B)|(yt' & I & E)]; [|right; exists yt'; split; [right; exact I|exact E]].
  left. exists (r1 :: l1), (r2 :: l2). constructor; [split; assumption|exact B].
Qed.
Lemma phases_not_none p maxiter tol yts l1 l2 : both p maxiter tol yts l1 l2 -> forall yt, In yt yts -> rmts_solve n H blocks yt solve search p maxiter tol <> None.
Proof.
  intros B yt I. destruct (In_nth_error _ _ I) as [i E]. destruct (both_nth _ _ _ _ _ _ B i yt E) as (r1 & r2 & _ & _ & P). rewrite (phases_solve _ _ _ _ _ _ P). discriminate.
Qed.
Lemma solve_all_none p maxiter tol yts m : (exists yt, In yt yts /\ rmts_solve n H blocks yt solve search p maxiter tol = None) -> sol_all p maxiter tol yts m = None.
Proof.
  intros (yt & I & E). unfold solve_all.
  destruct (runs_dec 2%nat tol 1 (map (fun yt => (yt, (fun _ => 0) : vec)) yts)) as [[l1 F1]|X]; [|rewrite (newton_all_none _ _ _ _ m X); reflexivity].
  rewrite (newton_all_some _ _ _ _ m l1 F1). apply newton_all_none.
  destruct (In_nth_error _ _ I) as [i Ei].
  destruct (Forall2_nth _ _ _ _ _ F1 i (yt, fun _ => 0)) as (r1 & N1 & E1); [rewrite nth_error_map, Ei; reflexivity|]. cbn [fst snd] in E1.
  apply solve_none in E. destruct E as [E|(r1' & E1' & E2)]; [rewrite E in E1; discriminate|].
  rewrite E1 in E1'. injection E1' as <-. exists yt, (fst r1). split; [|exact E2].
  assert (nth_error (map fst l1) i = Some (fst r1)) as N by (rewrite nth_error_map, N1; reflexivity).
  revert Ei N. clear. intros Ei N. generalize dependent (map fst l1). clear l1. revert i Ei. induction yts as [|y yts IH]; intros [|i] Ei l N; cbn in Ei; try discriminate; destruct l as [|v l]; cbn in N; try discriminate.
  - injection Ei as ->. injection N as ->. left. reflexivity.
  - right. exact (IH i Ei l N).
Qed.

(** no iteration: the point is unchanged *)
Lemma newton_idle yt p tol k s s' : newt yt p tol k (s, None) = Some (s', None) -> s' = s.
Proof.
  destruct k as [|k]; cbn; [congruence|]. destruct (Rlt_dec _ _); [|congruence].
  destruct (search _ _ _ _) as [v|]; [|discriminate]. intros E. exfalso. exact (newton_some _ _ _ _ _ _ _ _ E eq_refl).
Qed.
Lemma lastm_none l m : lastm m l = None <-> m = None /\ List.Forall (fun x => x = None) l.
Proof.
  revert m. induction l as [|x l IH]; intros m; [cbn; intuition|]. change (lastm m (x :: l)) with (lastm (later m x) l). rewrite IH. destruct x as [M|]; cbn.
  - split; [intros [E _]; discriminate|]. intros [_ F]. inversion F. discriminate.
  - split; [intros [E F]; split; [exact E|constructor; auto]|]. intros [E F]. inversion F. auto.
Qed.
Lemma lastm_in l m M : lastm m l = Some M -> (m = Some M /\ List.Forall (fun x => x = None) l) \/ (exists i, nth_error l i = Some (Some M)).
Proof.
  revert m. induction l as [|x l IH]; intros m E; [left; auto|]. change (lastm m (x :: l)) with (lastm (later m x) l) in E.
  destruct (IH _ E) as [[E1 F]|[i Ei]]; [|right; exists (S i); exact Ei].
  destruct x as [M'|]; cbn in E1; [injection E1 as ->; right; exists 0%nat; reflexivity|left; split; [exact E1|constructor; auto]].
Qed.

Lemma none_iff p maxiter tol yts m : train_all n H blocks solve search p maxiter tol yts m = NoLineSearchResultAll <->
  exists yt, In yt yts /\ rmts_train n H blocks yt solve search p maxiter tol = NoLineSearchResult.
Proof.
  assert (Q : forall yt, rmts_train n H blocks yt solve search p maxiter tol = NoLineSearchResult <-> rmts_solve n H blocks yt solve search p maxiter tol = None).
  { intros yt. unfold rmts_train. destruct (rmts_solve _ _ _ _ _ _ _ _ _) as [[s [M|]]|]; split; congruence. }
  unfold train_all. split.
  - intros E. destruct (both_or_none p maxiter tol yts) as [(l1 & l2 & B)|(yt & I & N)]; [|exists yt; split; [exact I|apply Q; exact N]].
    rewrite (solve_all_some _ _ _ _ _ _ m B) in E. destruct (lastm _ _); discriminate.
  - intros (yt & I & E). apply Q in E. rewrite (solve_all_none p maxiter tol yts m); [reflexivity|]. exists yt. auto.
Qed.
Definition alone_or_zero p maxiter tol (yt : nat -> nat -> R) (sol : vec) : Prop :=
  (exists M, rmts_train n H blocks yt solve search p maxiter tol = Trained sol M) \/ (rmts_train n H blocks yt solve search p maxiter tol = AttributeError /\ sol = fun _ => 0).
Lemma phases_alone p maxiter tol yt r1 r2 : phases p maxiter tol yt r1 r2 -> alone_or_zero p maxiter tol yt (fst r2).
Proof.
  intros P. unfold alone_or_zero, rmts_train. rewrite (phases_solve _ _ _ _ _ _ P). destruct P as [P1 P2]. destruct r1 as [s1 [m1|]], r2 as [s2 [m2|]]; cbn [later fst snd] in *; try (left; eexists; reflexivity).
  right. split; [reflexivity|]. rewrite (newton_idle _ _ _ _ _ _ P2). exact (newton_idle _ _ _ _ _ _ P1).
Qed.
Lemma phases_error p maxiter tol yt r1 r2 : phases p maxiter tol yt r1 r2 -> (rmts_train n H blocks yt solve search p maxiter tol = AttributeError <-> snd r1 = None /\ snd r2 = None).
Proof.
  intros P. unfold rmts_train. rewrite (phases_solve _ _ _ _ _ _ P). destruct r1 as [s1 [m1|]], r2 as [s2 [m2|]]; cbn; intuition discriminate.
Qed.
Lemma trained_each p maxiter tol yts m sols M : train_all n H blocks solve search p maxiter tol yts m = TrainedAll sols M ->
  length sols = length yts /\ forall i yt, nth_error yts i = Some yt -> exists sol, nth_error sols i = Some sol /\ alone_or_zero p maxiter tol yt sol.
Proof.
  unfold train_all. intros E. destruct (both_or_none p maxiter tol yts) as [(l1 & l2 & B)|X]; [|rewrite (solve_all_none _ _ _ _ m X) in E; discriminate].
  rewrite (solve_all_some _ _ _ _ _ _ m B) in E. destruct (lastm _ _); [|discriminate]. injection E as <- _.
  rewrite map_length. split; [apply (both_len _ _ _ _ _ _ B)|]. intros i yt Ei. destruct (both_nth _ _ _ _ _ _ B i yt Ei) as (r1 & r2 & _ & N2 & P).
  exists (fst r2). split; [rewrite nth_error_map, N2; reflexivity|exact (phases_alone _ _ _ _ _ _ P)].
Qed.
Lemma nth_all_none A l : List.Forall (fun x : A * option mat => snd x = None) l <-> List.Forall (fun x => x = None) (map snd l).
Proof. induction l as [|a l IH]; cbn; split; intros F; constructor; inversion F; auto; apply IH; assumption. Qed.
Lemma both_errors p maxiter tol yts l1 l2 : both p maxiter tol yts l1 l2 ->
  ((forall yt, In yt yts -> rmts_train n H blocks yt solve search p maxiter tol = AttributeError) <-> List.Forall (fun x => x = None) (map snd l1) /\ List.Forall (fun x => x = None) (map snd l2)).
Proof.
  induction 1 as [|yt yts r1 l1 r2 l2 P _ IH]; cbn; [split; [intros _; split; constructor|intros _ yt []]|]. split.
  - intros A. destruct (proj1 (phases_error _ _ _ _ _ _ P) (A yt (or_introl eq_refl))) as [E1 E2].
    destruct (proj1 IH) as [F1 F2]; [intros y I; apply A; right; exact I|]. split; constructor; assumption.
  - intros [F1 F2]. inversion F1. inversion F2. subst. intros y [<- |I]; [apply (phases_error _ _ _ _ _ _ P); auto|]. apply (proj2 IH); auto.
Qed.
Lemma error_iff p maxiter tol yts m : train_all n H blocks solve search p maxiter tol yts m = AttributeErrorAll <->
  m = None /\ forall yt, In yt yts -> rmts_train n H blocks yt solve search p maxiter tol = AttributeError.
Proof.
  unfold train_all. destruct (both_or_none p maxiter tol yts) as [(l1 & l2 & B)|X].
  - rewrite (solve_all_some _ _ _ _ _ _ m B). rewrite (both_errors _ _ _ _ _ _ B). destruct (lastm (lastm m (map snd l1)) (map snd l2)) as [M|] eqn:E.
    + split; [discriminate|]. intros (E0 & F1 & F2). assert (lastm (lastm m (map snd l1)) (map snd l2) = None) as N by (apply lastm_none; split; [apply lastm_none; split; assumption|exact F2]). rewrite N in E. discriminate.
    + split; [intros _|reflexivity]. apply lastm_none in E. destruct E as [E F2]. apply lastm_none in E. destruct E as [E0 F1]. auto.
  - rewrite (solve_all_none _ _ _ _ m X). split; [discriminate|]. intros [_ A]. destruct X as (yt & I & E). specialize (A yt I). unfold rmts_train in A. rewrite E in A. discriminate.
Qed.
Lemma stale p maxiter tol yts m : (forall yt, In yt yts -> rmts_train n H blocks yt solve search p maxiter tol = AttributeError) ->
  train_all n H blocks solve search p maxiter tol yts (Some m) = TrainedAll (map (fun _ => fun _ => 0) yts) m.
Proof.
  intros A. unfold train_all. destruct (both_or_none p maxiter tol yts) as [(l1 & l2 & B)|(yt & I & E)].
  - rewrite (solve_all_some _ _ _ _ _ _ (Some m) B). destruct (proj1 (both_errors _ _ _ _ _ _ B) A) as [F1 F2].
    assert (Q : forall l, List.Forall (fun x => x = None) l -> lastm (Some m) l = Some m).
    { clear. induction l as [|x l IH]; intros F; [reflexivity|]. inversion F; subst. exact (IH H2). }
    rewrite (Q _ F1), (Q _ F2). f_equal. clear Q. revert F1 F2. clear A. induction B as [|yt yts r1 l1 r2 l2 P B IH]; cbn; intros F1 F2; [reflexivity|].
    inversion F1. inversion F2. subst. f_equal; [|apply IH; assumption]. destruct P as [P1 P2]. destruct r1 as [s1 m1], r2 as [s2 m2]. cbn [fst snd] in *. subst. rewrite (newton_idle _ _ _ _ _ _ P2). exact (newton_idle _ _ _ _ _ _ P1).
  - specialize (A yt I). unfold rmts_train in A. rewrite E in A. discriminate.
Qed.
Lemma kept p maxiter tol yts sols M : train_all n H blocks solve search p maxiter tol yts None = TrainedAll sols M ->
  exists i yt sol M', nth_error yts i = Some yt /\ nth_error sols i = Some sol /\ rmts_train n H blocks yt solve search p maxiter tol = Trained sol M' /\ M' = M.
Proof.
  unfold train_all. intros E. destruct (both_or_none p maxiter tol yts) as [(l1 & l2 & B)|X]; [|rewrite (solve_all_none _ _ _ _ None X) in E; discriminate].
  rewrite (solve_all_some _ _ _ _ _ _ None B) in E. destruct (lastm (lastm None (map snd l1)) (map snd l2)) as [M'|] eqn:L; [|discriminate]. injection E as <- ->.
  assert (exists i yt r1 r2, nth_error yts i = Some yt /\ nth_error l2 i = Some r2 /\ phases p maxiter tol yt r1 r2 /\ later (snd r1) (snd r2) = Some M) as (i & yt & r1 & r2 & Ei & E2 & P & EM).
  { destruct (lastm_in _ _ _ L) as [[L1 F2]|[i Ei]].
    - destruct (lastm_in _ _ _ L1) as [[L0 _]|[i Ei]]; [discriminate|].
      assert (i < length yts)%nat as Hi. { rewrite <- (proj1 (both_len _ _ _ _ _ _ B)). rewrite <- (map_length snd). apply nth_error_Some. rewrite Ei. discriminate. }
      destruct (nth_error yts i) as [yt|] eqn:Ey; [|apply nth_error_None in Ey; lia].
      destruct (both_nth _ _ _ _ _ _ B i yt Ey) as (r1 & r2 & N1 & N2 & P). exists i, yt, r1, r2. rewrite nth_error_map, N1 in Ei. cbn in Ei. injection Ei as Ei.
      assert (snd r2 = None) as E2. { rewrite List.Forall_forall in F2. apply F2. apply in_map. exact (nth_error_In _ _ N2). }
      rewrite E2. auto.
    - assert (i < length yts)%nat as Hi. { rewrite <- (proj2 (both_len _ _ _ _ _ _ B)). rewrite <- (map_length snd). apply nth_error_Some. rewrite Ei. discriminate. }
      destruct (nth_error yts i) as [yt|] eqn:Ey; [|apply nth_error_None in Ey; lia].
      destruct (both_nth _ _ _ _ _ _ B i yt Ey) as (r1 & r2 & N1 & N2 & P). exists i, yt, r1, r2. rewrite nth_error_map, N2 in Ei. cbn in Ei. injection Ei as Ei. rewrite Ei. auto. }
  exists i, yt, (fst r2), M. split; [exact Ei|]. split; [rewrite nth_error_map, E2; reflexivity|]. split; [|reflexivity].
  unfold rmts_train. rewrite (phases_solve _ _ _ _ _ _ P), EM. reflexivity.
Qed.
End Multi.

(** order 2: the matrix does not depend on outputs and point *)
Lemma hess2 n H blocks yt yt' s s' : opt_hess n H blocks 2 yt s = opt_hess n H blocks 2 yt' s'.
Proof. reflexivity. Qed.
Lemma newton2 n H blocks yt solve search tol k s m s' m' : newton n H blocks yt solve search 2 tol k (s, m) = Some (s', m') -> m' = m \/ m' = Some (opt_hess n H blocks 2 (fun _ _ => 0) (fun _ => 0)).
Proof.
  revert s m. induction k as [|k IH]; intros s m E; cbn in E; [injection E as _ ->; auto|].
  destruct (Rlt_dec _ _); [|injection E as _ ->; auto]. destruct (search _ _ _ _) as [v|]; [|discriminate].
  destruct (IH _ _ E) as [-> | ->]; right; [f_equal; apply hess2|reflexivity].
Qed.
Lemma alone2 n H blocks yt solve search maxiter tol sol M : rmts_train n H blocks yt solve search 2 maxiter tol = Trained sol M -> M = opt_hess n H blocks 2 (fun _ _ => 0) (fun _ => 0).
Proof.
  unfold rmts_train, rmts_solve. destruct (newton _ _ _ _ _ _ 2 tol 1 _) as [[s1 m1]|] eqn:E1; [|discriminate].
  destruct (newton _ _ _ _ _ _ 2 tol maxiter _) as [[s2 [m2|]]|] eqn:E2; try discriminate. intros [= _ <-].
  destruct (newton2 _ _ _ _ _ _ _ _ _ _ _ _ E2) as [E|E]; [|injection E as ->; reflexivity]. subst m1.
  destruct (newton2 _ _ _ _ _ _ _ _ _ _ _ _ E1) as [E|E]; [discriminate|injection E as ->; reflexivity].
Qed.
Lemma kept2 n H blocks solve search maxiter tol yts sols M yt sol : train_all n H blocks solve search 2 maxiter tol yts None = TrainedAll sols M -> M = opt_hess n H blocks 2 yt sol.
Proof. intros E. destruct (kept _ _ _ _ _ _ _ _ _ _ _ E) as (i & y & s & M' & _ & _ & T & <-). rewrite (alone2 _ _ _ _ _ _ _ _ _ _ T). apply hess2. Qed.
