(** Proofs about the optimiser of GENN. *)
From Coq Require Import Reals Arith Lia Lra Bool List FunctionalExtensionality.
From Verif Require Import GennOpt_M GennOpt_S.
Import ListNotations.
Open Scope list_scope.
Open Scope R_scope.
Section P.
Context {K : Type}.
Notation design := (K -> R).
Variable f : design -> R.
Definition total (c : design -> option R) : Prop := forall x, c x = Some (f x).

(** the moments of the state are the averages of the directions *)
Definition holds (kd : kind) (ds : list design) (st : ostate K) : Prop :=
  match kd with
  | GD => True
  | Adam => (forall k, zeros_if_none (mom1 st) k = average (9 / 10) k ds) /\ (forall k, zeros_if_none (mom2 st) k = average (99 / 100) k (map square ds))
  end.
Lemma average_app : forall b k ds (g : design), average b k (ds ++ [g]) = b * average b k ds + (1 - b) * g k.
Proof. intros b k ds g. unfold average. rewrite fold_left_app. reflexivity. Qed.
Lemma update_ok : forall kd t x g r st ds, holds kd ds st -> fst (update kd t x g r st) = point kd t ds g x r /\ holds kd (ds ++ [g]) (snd (update kd t x g r st)).
Proof.
  intros kd t x g r st ds H. destruct kd; cbn [update].
  - split; [reflexivity|exact I].
  - destruct H as [H1 H2]. cbn [fst snd beta_1 beta_2 mom1 mom2]. split.
    + cbn [point]. unfold adam_point. apply functional_extensionality. intros k. rewrite map_app. cbn [map]. rewrite !average_app, <- H1, <- H2. unfold square, EPS. unfold Rdiv. ring.
    + cbn [holds mom1 mom2 zeros_if_none]. split; intros k; [|rewrite map_app; cbn [map]]; rewrite average_app; [rewrite H1|rewrite H2]; reflexivity.
Qed.
Lemma pow_double : forall tau k, tau ^ (2 ^ S k) = tau ^ (2 ^ k) * tau ^ (2 ^ k).
Proof. intros tau k. rewrite <- pow_add. f_equal. cbn. lia. Qed.

Lemma rate_step : forall lr tau k, rate lr (tau * tau) k = rate lr tau (S k).
Proof. intros lr tau k. unfold rate. rewrite Rpow_mult_distr, pow_double. reflexivity. Qed.
Lemma repeat_app1 : forall (g : design) k, repeat g (S k) = [g] ++ repeat g k.
Proof. reflexivity. Qed.
Lemma try_step : forall kd t (ds : list design) g x lr tau k, try_point kd t (ds ++ [g]) g x lr (tau * tau) k = try_point kd t ds g x lr tau (S k).
Proof. intros kd t ds g x lr tau k. unfold try_point. rewrite rate_step, <- app_assoc. reflexivity. Qed.
Lemma try_zero : forall kd t (ds : list design) g x lr tau, try_point kd t ds g x lr tau 0 = point kd t ds g x (lr * tau).
Proof. intros. unfold try_point, rate. cbn [repeat Nat.pow]. rewrite app_nil_r, pow_1. reflexivity. Qed.
Lemma rate_zero : forall lr tau, rate lr tau 0 = lr * tau.
Proof. intros. unfold rate. cbn [Nat.pow]. rewrite pow_1. reflexivity. Qed.

(** the line search returns the first good try *)
Lemma search_sound : forall fuel kd c lr t x g tau st ds x' st' tau', total c -> holds kd ds st -> search_loop fuel kd c lr t x g tau st = Ret (x', st', tau') ->
  exists k, (k < fuel)%nat /\ first_good f kd t ds g x lr tau k /\ x' = try_point kd t ds g x lr tau k /\ tau' = tau ^ (2 ^ k) /\ holds kd (ds ++ repeat g (k + 1)) st'.
Proof.
  induction fuel as [|n IH]; intros kd c lr t x g tau st ds x' st' tau' T H E; cbn [search_loop] in E; [discriminate|].
  destruct (update_ok kd t x g (lr * tau) st ds H) as [U1 U2]. destruct (update kd t x g (lr * tau) st) as [y sy] eqn:EU. cbn [fst snd] in U1, U2. rewrite !T in E. cbn [rlift rbind] in E.
  assert (Z : forall (G : good_step f x y (lr * tau)), (y, sy, tau) = (x', st', tau') -> exists k, (k < S n)%nat /\ first_good f kd t ds g x lr tau k /\ x' = try_point kd t ds g x lr tau k /\ tau' = tau ^ (2 ^ k) /\ holds kd (ds ++ repeat g (k + 1)) st').
  { intros G [= <- <- <-]. exists 0%nat. split; [lia|]. split; [|split; [|split]].
    - split; [|intros j L; lia]. rewrite try_zero, rate_zero, <- U1. exact G.
    - rewrite try_zero. exact U1.
    - cbn [Nat.pow]. rewrite pow_1. reflexivity.
    - exact U2. }
  destruct (Rlt_dec (f y) (f x)) as [L|L]; [apply Z; [left; exact L|congruence]|].
  destruct (Rlt_dec (lr * tau) (/ 10 ^ 6)) as [M|M]; [apply Z; [right; exact M|congruence]|].
  destruct (IH kd c lr t x g (tau * tau) sy (ds ++ [g]) x' st' tau' T U2 E) as (k & Hk & [G1 G2] & A & B & C). exists (S k). split; [lia|]. split; [|split; [|split]].
  - split; [rewrite <- try_step, <- rate_step; exact G1|]. intros j Hj. destruct j as [|j].
    + rewrite try_zero, rate_zero, <- U1. intros [X|X]; contradiction.
    + rewrite <- try_step, <- rate_step. apply G2. lia.
  - rewrite <- try_step. exact A.
  - rewrite B, pow_double, Rpow_mult_distr. reflexivity.
  - cbn [Nat.add]. rewrite repeat_app1, app_assoc. exact C.
Qed.
(** ... and it returns as soon as some try is good *)
Lemma search_complete : forall k fuel kd c lr t x g tau st ds, total c -> holds kd ds st -> (k < fuel)%nat -> good_step f x (try_point kd t ds g x lr tau k) (rate lr tau k) ->
  exists r, search_loop fuel kd c lr t x g tau st = Ret r.
Proof.
  induction k as [|k IH]; intros [|fuel] kd c lr t x g tau st ds T H L G; try lia; cbn [search_loop]; destruct (update_ok kd t x g (lr * tau) st ds H) as [U1 U2]; destruct (update kd t x g (lr * tau) st) as [y sy] eqn:EU; cbn [fst snd] in U1, U2; rewrite !T; cbn [rlift rbind].
  - rewrite try_zero, rate_zero, <- U1 in G. destruct (Rlt_dec (f y) (f x)); [eexists; reflexivity|]. destruct (Rlt_dec (lr * tau) (/ 10 ^ 6)); [eexists; reflexivity|]. destruct G; contradiction.
  - destruct (Rlt_dec (f y) (f x)); [eexists; reflexivity|]. destruct (Rlt_dec (lr * tau) (/ 10 ^ 6)); [eexists; reflexivity|]. apply (IH fuel kd c lr t x g (tau * tau) sy (ds ++ [g]) T U2 ltac:(lia)). rewrite try_step, rate_step. exact G.
Qed.
Lemma search_loops : forall fuel kd c lr t x g tau st ds, total c -> holds kd ds st -> (forall k, ~ good_step f x (try_point kd t ds g x lr tau k) (rate lr tau k)) -> search_loop fuel kd c lr t x g tau st = Loop.
Proof.
  induction fuel as [|n IH]; intros kd c lr t x g tau st ds T H N; cbn [search_loop]; [reflexivity|]. destruct (update_ok kd t x g (lr * tau) st ds H) as [U1 U2]. destruct (update kd t x g (lr * tau) st) as [y sy] eqn:EU. cbn [fst snd] in U1, U2. rewrite !T. cbn [rlift rbind].
  pose proof (N 0%nat) as N0. rewrite try_zero, rate_zero, <- U1 in N0. destruct (Rlt_dec (f y) (f x)) as [L|L]; [destruct N0; left; exact L|]. destruct (Rlt_dec (lr * tau) (/ 10 ^ 6)) as [L'|L']; [destruct N0; right; exact L'|].
  apply (IH kd c lr t x g (tau * tau) sy (ds ++ [g]) T U2). intros k. rewrite try_step, rate_step. apply N.
Qed.
(** the rates go to 0 *)
Lemma rate_small : forall lr tau, 0 <= tau < 1 -> exists k, rate lr tau k < / 10 ^ 6.
Proof.
  intros lr tau H. destruct (Rle_lt_dec lr 0) as [L|L].
  - exists 0%nat. rewrite rate_zero. assert (lr * tau <= 0) by nra. assert (0 < / 10 ^ 6) by (apply Rinv_0_lt_compat; lra). lra.
  - destruct (pow_lt_1_zero tau ltac:(rewrite Rabs_right; lra) (/ 10 ^ 6 / lr)) as [N HN]. { apply Rdiv_lt_0_compat; [apply Rinv_0_lt_compat; lra|exact L]. }
    exists N. unfold rate. specialize (HN (2 ^ N)%nat). assert (N <= 2 ^ N)%nat by (pose proof (Nat.pow_gt_lin_r 2 N); lia). specialize (HN ltac:(lia)). pose proof (pow_le tau (2 ^ N) ltac:(lra)). rewrite Rabs_right in HN by lra.
    apply Rmult_lt_compat_l with (r := lr) in HN; [|exact L]. replace (lr * (/ 10 ^ 6 / lr)) with (/ 10 ^ 6) in HN by (field; lra). exact HN.
Qed.
Definition clip (tau : R) : R := Rmax 0 (Rmin 1 tau).
Lemma clip_range : forall tau, 0 <= clip tau <= 1 /\ (tau < 1 -> clip tau < 1) /\ (1 <= tau -> clip tau = 1) /\ (0 <= tau <= 1 -> clip tau = tau).
Proof. intros tau. unfold clip, Rmax, Rmin. destruct (Rle_dec 1 tau); destruct (Rle_dec 0 _); repeat split; intros; lra. Qed.
Lemma search_ends : forall kd c lr t x g tau st ds, total c -> holds kd ds st -> tau < 1 -> exists fuel, forall fuel', (fuel <= fuel')%nat -> exists r, backtracking_line_search fuel' kd c lr t x g tau st = Ret r.
Proof.
  intros kd c lr t x g tau st ds T H L. destruct (clip_range tau) as ([C1 C2] & C3 & _). destruct (rate_small lr (clip tau) ltac:(split; [exact C1|apply C3; exact L])) as [k Hk]. exists (S k). intros fuel' Hf. apply (search_complete k fuel' kd c lr t x g (clip tau) st ds T H ltac:(lia)). right. exact Hk.
Qed.
(** uniform bound for the default tau: 6 tries up to a learning rate of 4294 *)
Lemma default_tries : forall lr, lr <= 4294 -> rate lr (1 / 2) 5 < / 10 ^ 6.
Proof. intros lr H. unfold rate. change (2 ^ 5)%nat with 32%nat. replace ((1 / 2) ^ 32) with (/ 4294967296) by field. replace (/ 10 ^ 6) with (4294967296 / 1000000 * / 4294967296) by (field). apply Rmult_lt_compat_r; [lra|lra]. Qed.
Lemma first_good_bound : forall kd t ds g x lr tau k n, first_good f kd t ds g x lr tau k -> rate lr tau n < / 10 ^ 6 -> (k <= n)%nat.
Proof. intros kd t ds g x lr tau k n [_ G] H. destruct (le_lt_dec k n) as [L|L]; [exact L|]. exfalso. apply (G n L). right. exact H. Qed.
Lemma first_good_unique : forall kd t ds g x lr tau k k', first_good f kd t ds g x lr tau k -> first_good f kd t ds g x lr tau k' -> k = k'.
Proof. intros kd t ds g x lr tau k k' [A B] [A' B']. destruct (lt_eq_lt_dec k k') as [[L|L]|L]; [destruct (B' k L A)|exact L|destruct (B k' L A')]. Qed.
End P.
