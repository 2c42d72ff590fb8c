(** Proofs about the optimiser of GENN: line search from any state, and a step that increases the cost. *)
From Coq Require Import Reals Arith Lia Lra Bool List FunctionalExtensionality.
From Verif Require Import GennOpt_M GennOpt_S GennOpt_P GennOpt_P2.
Import ListNotations.
Open Scope list_scope.
Open Scope R_scope.
Section P.
Context {K : Type}.
Notation design := (K -> R).
Variable f : design -> R.
Lemma ends_any : forall k fuel kd c lr t x g tau st, (forall x, c x = Some (f x)) -> (k < fuel)%nat -> rate lr tau k < / 10 ^ 6 -> exists r, search_loop (K := K) fuel kd c lr t x g tau st = Ret r.
Proof.
  induction k as [|k IH]; intros [|fuel] kd c lr t x g tau st T L G; try lia; cbn [search_loop]; destruct (update kd t x g (lr * tau) st) as [y sy]; rewrite !T; cbn [rlift rbind]; (destruct (Rlt_dec (f y) (f x)); [eexists; reflexivity|]); (destruct (Rlt_dec (lr * tau) (/ 10 ^ 6)) as [A|A]; [eexists; reflexivity|]).
  - rewrite rate_zero in G. contradiction.
  - apply IH; [exact T|lia|]. rewrite rate_step. exact G.
Qed.
Lemma accepted_any : forall fuel kd c lr t x g tau st x' st' tau', (forall x, c x = Some (f x)) -> search_loop (K := K) fuel kd c lr t x g tau st = Ret (x', st', tau') -> (f x' < f x \/ lr * tau' < / 10 ^ 6) /\ exists k, (k < fuel)%nat /\ tau' = tau ^ (2 ^ k).
Proof.
  induction fuel as [|n IH]; intros kd c lr t x g tau st x' st' tau' T E; cbn [search_loop] in E; [discriminate|]. destruct (update kd t x g (lr * tau) st) as [y sy]. rewrite !T in E. cbn [rlift rbind] in E.
  destruct (Rlt_dec (f y) (f x)); [injection E as <- <- <-; split; [left; assumption|exists 0%nat; split; [lia|cbn [Nat.pow]; rewrite pow_1; reflexivity]]|].
  destruct (Rlt_dec (lr * tau) (/ 10 ^ 6)); [injection E as <- <- <-; split; [right; assumption|exists 0%nat; split; [lia|cbn [Nat.pow]; rewrite pow_1; reflexivity]]|].
  destruct (IH _ _ _ _ _ _ _ _ _ _ _ T E) as (A & k & L & B). split; [exact A|]. exists (S k). split; [lia|]. rewrite B, pow_double, Rpow_mult_distr. reflexivity.
Qed.
Lemma tau_one : forall c lr t x g tau st, (forall x, c x = Some (f x)) -> 1 <= tau -> / 10 ^ 6 <= lr -> f x <= f (gd_point x g lr) -> forall fuel, backtracking_line_search fuel GD c lr t x g tau st = Loop.
Proof.
  intros c lr t x g tau st T Ht Hl Hf fuel. unfold backtracking_line_search. destruct (clip_range tau) as (_ & _ & C & _). unfold clip in C. rewrite (C Ht). apply (search_loops f fuel GD c lr t x g 1 st [] T I). intros k. unfold try_point, rate, point. rewrite pow1, Rmult_1_r. intros [X|X]; lra.
Qed.
End P.
(** 2^64 x^2 from 1 with learning rate 1: the sixth try is accepted although it increases the cost enormously *)
Definition steep (x : unit -> R) : R := 2 ^ 64 * x tt ^ 2.
Definition steep' (x : unit -> R) : unit -> R := fun _ => 2 * 2 ^ 64 * x tt.
Lemma steep_try : forall k, try_point GD 1 [] (steep' (fun _ => 1)) (fun _ => 1) 1 (1 / 2) k = fun _ => 1 - (1 / 2) ^ (2 ^ k) * 2 ^ 65.
Proof. intros k. apply functional_extensionality. intros []. unfold try_point, point, gd_point, rate, steep'. replace (2 ^ 65) with (2 * 2 ^ 64) by (cbn [pow]; ring). ring. Qed.
Lemma steep_worse : forall k, (k < 6)%nat -> steep (fun _ => 1) < steep (try_point GD 1 [] (steep' (fun _ => 1)) (fun _ => 1) 1 (1 / 2) k).
Proof.
  intros k H. rewrite steep_try. unfold steep. assert (P : 0 < 2 ^ 64) by (apply pow_lt; lra). apply Rmult_lt_compat_l; [exact P|]. rewrite pow1.
  assert (Q : 4 <= (1 / 2) ^ (2 ^ k) * 2 ^ 65). { replace ((1 / 2) ^ (2 ^ k)) with (/ 2 ^ (2 ^ k)) by (rewrite Rinv_pow by lra; f_equal; lra). assert (Z : (2 ^ k <= 32)%nat). { change 32%nat with (2 ^ 5)%nat. apply Nat.pow_le_mono_r; lia. }
    replace (2 ^ 65) with (2 ^ (2 ^ k) * 2 ^ (65 - 2 ^ k)) by (rewrite <- pow_add; f_equal; lia). assert (0 < 2 ^ (2 ^ k)) by (apply pow_lt; lra). replace (/ 2 ^ 2 ^ k * (2 ^ 2 ^ k * 2 ^ (65 - 2 ^ k))) with (2 ^ (65 - 2 ^ k)) by (field; lra).
    replace 4 with (2 ^ 2) by ring. apply Rle_pow; [lra|lia]. }
  nra.
Qed.
Lemma steep_run : first_good steep GD 1 [] (steep' (fun _ => 1)) (fun _ => 1) 1 (1 / 2) 5.
Proof.
  split.
  - right. apply default_tries. lra.
  - intros j J [X|X]; [pose proof (steep_worse j ltac:(lia)); lra|]. unfold rate in X. rewrite Rmult_1_l in X. assert ((1 / 2) ^ 16 <= (1 / 2) ^ (2 ^ j)).
    { assert (L : (2 ^ j <= 16)%nat) by (change 16%nat with (2 ^ 4)%nat; apply Nat.pow_le_mono_r; lia). replace 16%nat with (2 ^ j + (16 - 2 ^ j))%nat by lia. rewrite pow_add. assert (0 < (1 / 2) ^ (2 ^ j)) by (apply pow_lt; lra). assert ((1 / 2) ^ (16 - 2 ^ j) <= 1).
      { replace ((1 / 2) ^ (16 - 2 ^ j)) with (/ 2 ^ (16 - 2 ^ j)) by (rewrite Rinv_pow by lra; f_equal; lra). rewrite <- Rinv_1. apply Rinv_le_contravar; [lra|]. apply pow_R1_Rle. lra. } nra. }
    assert (/ 10 ^ 6 < (1 / 2) ^ 16) by lra. lra.
Qed.
Lemma steep_increases : exists fuel x st h, optimize fuel GD (fun x => Some (steep x)) (fun x => Some (steep' x)) 1 1 (fun _ => 1) (new_optimizer (9 / 10) (99 / 100)) = Ret (x, st, h) /\ steep (fun _ => 1) < steep x.
Proof.
  destruct (optimize_ends steep steep' GD (fun x => Some (steep x)) (fun x => Some (steep' x)) 1 (fun _ => eq_refl) (fun _ => eq_refl)) as [fuel H]. destruct (H fuel 1%nat (fun _ => 1) (9 / 10) (99 / 100) (le_n _)) as [[[x st] h] E]. exists fuel, x, st, h. split; [exact E|].
  destruct (optimize_sound steep steep' fuel GD _ _ 1 1 _ _ _ x st h (fun _ => eq_refl) (fun _ => eq_refl) E) as (n & xs & ds & R & _ & L & S & _). assert (n = 1%nat) by (destruct S as [S|[S _]]; lia). subst n.
  inversion R as [|n1 x1 ys es k R1 G]; subst. inversion R1; subst. pose proof (first_good_unique _ _ _ _ _ _ _ _ _ _ G steep_run) as ->. apply (steep_worse 5). lia.
Qed.
