From Coq Require Import Reals String Bool Arith List Permutation Lra Lia Psatz.
From Verif Require Import RSum Mat Moe_M Moe_S.
Import ListNotations.
Open Scope list_scope.
Open Scope R_scope.

(** ** probabilities *)
Lemma live_pos k w rv : live k w rv -> 0 < rsum k (fun j => w j * rv j).
Proof. intros [A (j & Hj & P)]. exact (rsum_pos k (fun j => w j * rv j) j A Hj P). Qed.
Lemma proba_formula k w rv j : live k w rv -> k <> 1%nat -> proba k w rv j = w j * rv j / rsum k (fun j => w j * rv j).
Proof.
  intros L K. unfold proba. destruct (Nat.eqb_spec k 1); [congruence|]. cbv zeta. destruct (Rlt_dec 0 (rsum k (fun j => w j * rv j))) as [_|N]; [reflexivity|]. exfalso. apply N, live_pos, L.
Qed.
Lemma proba_nonneg k w rv j : live k w rv -> (j < k)%nat -> 0 <= proba k w rv j.
Proof.
  intros L Hj. destruct (Nat.eq_dec k 1) as [-> |K]; [unfold proba; cbn; lra|]. rewrite (proba_formula k w rv j L K). pose proof (live_pos _ _ _ L). apply Rmult_le_pos; [apply L, Hj|left; apply Rinv_0_lt_compat; assumption].
Qed.
Lemma proba_sum k w rv : live k w rv -> rsum k (proba k w rv) = 1.
Proof.
  intros L. destruct (Nat.eq_dec k 1) as [-> |K]; [unfold proba; cbn; lra|]. rewrite (rsum_ext k (proba k w rv) (fun j => w j * rv j * / rsum k (fun j => w j * rv j))) by (intros j _; exact (proba_formula k w rv j L K)).
  rewrite rsum_scal_r. pose proof (live_pos _ _ _ L). field. lra.
Qed.
Lemma smooth_bounds k w rv e lo hi : live k w rv -> (forall j, (j < k)%nat -> lo <= e j <= hi) -> lo <= smooth_value k w rv e <= hi.
Proof.
  intros L B. unfold smooth_value. pose proof (proba_sum _ _ _ L) as S.
  assert (E : forall c, c = rsum k (fun j => c * proba k w rv j)) by (intros c; rewrite rsum_scal_l, S; ring).
  split; [rewrite (E lo)|rewrite (E hi)]; apply rsum_le; intros j Hj; pose proof (proba_nonneg _ _ _ j L Hj); specialize (B j Hj); nra.
Qed.
Lemma smooth_formula k w rv e : live k w rv -> k <> 1%nat -> smooth_value k w rv e = rsum k (fun j => w j * rv j * e j) / rsum k (fun j => w j * rv j).
Proof.
  intros L K. unfold smooth_value. rewrite (rsum_ext k _ (fun j => w j * rv j * e j * / rsum k (fun j => w j * rv j))).
  - rewrite rsum_scal_r. reflexivity.
  - intros j Hj. rewrite (proba_formula k w rv j L K). unfold Rdiv. ring.
Qed.
Lemma proba_le1 k w rv j : live k w rv -> (j < k)%nat -> proba k w rv j <= 1.
Proof. intros L Hj. rewrite <- (proba_sum _ _ _ L). apply rsum_ge_term; [intros i Hi; apply proba_nonneg; assumption|exact Hj]. Qed.
Lemma smooth_var_bounds k w rv e hi : live k w rv -> (forall j, (j < k)%nat -> 0 <= e j <= hi) -> 0 <= smooth_variance k w rv e <= hi.
Proof.
  intros L B. unfold smooth_variance. split.
  - apply rsum_nonneg. intros j Hj. apply Rmult_le_pos; [apply B, Hj|apply pow2_ge_0].
  - assert (E : hi = rsum k (fun j => hi * proba k w rv j)) by (rewrite rsum_scal_l, (proba_sum _ _ _ L); ring). rewrite E. apply rsum_le. intros j Hj.
    pose proof (proba_nonneg _ _ _ j L Hj). pose proof (proba_le1 _ _ _ j L Hj). specialize (B j Hj). assert (proba k w rv j ^ 2 <= proba k w rv j) by nra. assert (0 <= proba k w rv j ^ 2) by nra. nra.
Qed.
Lemma argmax_spec p : forall k, (0 < k)%nat -> (argmax k p < k)%nat /\ (forall j, (j < k)%nat -> p j <= p (argmax k p)) /\ forall j, (j < argmax k p)%nat -> p j < p (argmax k p).
Proof.
  induction k as [|k IH]; intros H; [lia|]. cbn [argmax]. destruct (Nat.eqb_spec k 0) as [-> |K].
  - split; [lia|]. split; intros j Hj; [assert (j = 0)%nat as -> by lia; lra|lia].
  - destruct (IH ltac:(lia)) as (A & B & C). destruct (Rlt_dec (p (argmax k p)) (p k)) as [L|L].
    + split; [lia|]. split; intros j Hj.
      * destruct (Nat.eq_dec j k) as [-> |]; [lra|]. specialize (B j ltac:(lia)). lra.
      * specialize (B j Hj). lra.
    + split; [lia|]. split; [|exact C]. intros j Hj. destruct (Nat.eq_dec j k) as [-> |]; [lra|apply B; lia].
Qed.
Lemma hard_spec k w rv e : live k w rv -> exists i, (i < k)%nat /\ hard_value k w rv e = e i /\ (forall j, (j < k)%nat -> w j * rv j <= w i * rv i) /\ forall j, (j < i)%nat -> w j * rv j < w i * rv i.
Proof.
  intros L. assert (P : (0 < k)%nat) by (destruct L as [_ (j & H & _)]; lia). destruct (argmax_spec (proba k w rv) k P) as (A & B & C). exists (argmax k (proba k w rv)). split; [exact A|]. split; [reflexivity|].
  destruct (Nat.eq_dec k 1) as [-> |K].
  - split; intros j Hj; [replace j with (argmax 1 (proba 1 w rv)) by lia; lra|lia].
  - pose proof (live_pos _ _ _ L) as S. assert (T : forall j, w j * rv j = proba k w rv j * rsum k (fun j => w j * rv j)) by (intros j; rewrite (proba_formula k w rv j L K); field; lra).
    split; intros j Hj; rewrite (T j), (T (argmax k (proba k w rv))); [apply Rmult_le_compat_r; [lra|exact (B j Hj)]|apply Rmult_lt_compat_r; [lra|exact (C j Hj)]].
Qed.
Lemma underflow k w rv e : (2 <= k)%nat -> (forall j, (j < k)%nat -> w j * rv j = 0) -> smooth_value k w rv e = 0 /\ smooth_variance k w rv e = 0 /\ hard_value k w rv e = e 0%nat.
Proof.
  intros K Z. assert (Q : forall j, proba k w rv j = w j * rv j).
  { intros j. unfold proba. destruct (Nat.eqb_spec k 1); [lia|]. cbv zeta. rewrite (rsum_zero k (fun j => w j * rv j) Z). destruct (Rlt_dec 0 0); [lra|reflexivity]. }
  split; [|split]; [apply rsum_zero|apply rsum_zero|]; try (intros j Hj; rewrite Q, (Z j Hj); ring).
  unfold hard_value. f_equal. destruct (argmax_spec (proba k w rv) k ltac:(lia)) as (A & B & C). destruct (argmax k (proba k w rv)) as [|m] eqn:E; [reflexivity|]. exfalso. specialize (C 0%nat ltac:(lia)). rewrite !Q, (Z 0%nat), (Z (S m)) in C by lia. lra.
Qed.

(** ** choice of the expert *)
Lemma best_loop_spec {A} : forall (l : list (A * R)) best r, best_loop l best = Some r ->
  (best = Some r \/ In r l) /\ (forall a s, In (a, s) l -> snd r <= s) /\ (forall b t, best = Some (b, t) -> snd r <= t) /\
  (best = Some r \/ exists l1 l2, l = l1 ++ r :: l2 /\ (forall a s, In (a, s) l1 -> snd r < s) /\ forall b t, best = Some (b, t) -> snd r < t).
Proof.
  induction l as [|[a s] l IH]; intros best r; cbn [best_loop]; intros H.
  - subst best. split; [left; reflexivity|]. split; [intros ? ? []|]. split; [intros b t [= ->]; cbn; lra|left; reflexivity].
  - specialize (IH _ r H). destruct IH as (I1 & I2 & I3 & I4). destruct best as [[b t]|].
    + destruct (Rlt_dec s t) as [L|L].
      * specialize (I3 a s eq_refl). split; [right; destruct I1 as [[= <-]|I1]; [left; reflexivity|right; exact I1]|]. split.
        { intros a' s' [[= <- <-]|I]; [exact I3|exact (I2 a' s' I)]. } split; [intros b' t' [= <- <-]; lra|]. right.
        destruct I4 as [[= <-]|(l1 & l2 & -> & F & G)]; [exists [], l; cbn; split; [reflexivity|split; [intros ? ? []|intros b' t' [= <- <-]; exact L]]|].
        exists ((a, s) :: l1), l2. split; [reflexivity|]. split; [intros a' s' [[= <- <-]|I]; [exact (G a s eq_refl)|exact (F a' s' I)]|intros b' t' [= <- <-]; specialize (G a s eq_refl); lra].
      * specialize (I3 b t eq_refl). split; [destruct I1 as [I1|I1]; [left; exact I1|right; right; exact I1]|]. split.
        { intros a' s' [[= <- <-]|I]; [lra|exact (I2 a' s' I)]. } split; [intros b' t' [= <- <-]; exact I3|].
        destruct I4 as [I4|(l1 & l2 & -> & F & G)]; [left; exact I4|right]. exists ((a, s) :: l1), l2. split; [reflexivity|]. specialize (G b t eq_refl). split; [intros a' s' [[= <- <-]|I]; [lra|exact (F a' s' I)]|intros b' t' [= <- <-]; exact G].
    + specialize (I3 a s eq_refl). split; [right; destruct I1 as [[= <-]|I1]; [left; reflexivity|right; exact I1]|]. split; [intros a' s' [[= <- <-]|I]; [exact I3|exact (I2 a' s' I)]|]. split; [discriminate|]. right.
      destruct I4 as [[= <-]|(l1 & l2 & -> & F & G)]; [exists [], l; cbn; split; [reflexivity|split; [intros ? ? []|discriminate]]|].
      exists ((a, s) :: l1), l2. split; [reflexivity|]. split; [intros a' s' [[= <- <-]|I]; [exact (G a s eq_refl)|exact (F a' s' I)]|discriminate].
Qed.
Lemma best_loop_some {A} : forall (l : list (A * R)) b, best_loop l (Some b) <> None.
Proof. induction l as [|[a s] l IH]; intros [b t]; cbn [best_loop]; [discriminate|]. destruct (Rlt_dec s t); apply IH. Qed.
Lemma map_split {A B} (f : A -> B) : forall l l1 x l2, map f l = l1 ++ x :: l2 -> exists k1 y k2, l = k1 ++ y :: k2 /\ map f k1 = l1 /\ f y = x /\ map f k2 = l2.
Proof.
  induction l as [|a l IH]; intros [|b l1] x l2 E; try discriminate.
  - injection E as <- <-. exists [], a, l. auto.
  - injection E as <- E. destruct (IH _ _ _ E) as (k1 & y & k2 & -> & <- & <- & <-). exists (a :: k1), y, k2. auto.
Qed.
Section Choice.
Context {A : Type} (norm2 : nat -> (nat -> nat -> R) -> R).
Lemma find_best_spec n (expected : nat -> R) (experts : list (A * (nat -> R))) a : find_best_model norm2 n expected experts = Some a ->
  exists l1 p l2, experts = l1 ++ (a, p) :: l2 /\ (forall b q, In (b, q) l1 -> score norm2 n expected p < score norm2 n expected q) /\
                  forall b q, In (b, q) experts -> score norm2 n expected p <= score norm2 n expected q.
Proof.
  unfold find_best_model. set (f := fun '(a, actual) => (a, score norm2 n expected actual)). destruct (best_loop (map f experts) None) as [r|] eqn:E; [|discriminate]. intros [= <-].
  destruct (best_loop_spec _ _ _ E) as (_ & M & _ & [C|(l1 & l2 & E2 & F & _)]); [discriminate|].
  destruct (map_split f _ _ _ _ E2) as (k1 & [a p] & k2 & -> & <- & <- & _). exists k1, p, k2. cbn [f fst snd] in *. split; [reflexivity|]. split.
  - intros b q I. apply (F b). apply (in_map f) in I. exact I.
  - intros b q I. apply (M b). apply (in_map f) in I. exact I.
Qed.
Lemma find_best_total n expected (experts : list (A * (nat -> R))) : find_best_model norm2 n expected experts = None <-> experts = [].
Proof.
  unfold find_best_model. destruct experts as [|[a p] l]; [cbn; tauto|]. cbn [map best_loop]. match goal with |- context[best_loop ?l (Some ?b)] => pose proof (best_loop_some l b); destruct (best_loop l (Some b)) end; [|congruence]. split; discriminate.
Qed.
End Choice.

(** ** the score *)
Lemma score_apply n (e a x : vec) : forall i, mv n (fun i j => e j - a i) x i = dot n e x - a i * rsum n x.
Proof. intros i. unfold mv, dot. rewrite <- rsum_scal_l, <- rsum_minus. apply rsum_ext. intros j _. ring. Qed.
Lemma centered n e : (0 < n)%nat -> rsum n (fun i => e i - mean n e) = 0.
Proof. intros H. rewrite rsum_minus, rsum_const. unfold mean. field. apply not_0_INR. lia. Qed.
Section Perfect.
Variables (n : nat) (e : vec).
Hypothesis N : (0 < n)%nat.
Let c : vec := fun i => e i - mean n e.
Let D := dot n c c.
Lemma INRn : 0 < INR n. Proof. apply lt_0_INR. exact N. Qed.
Lemma c_sum : rsum n c = 0. Proof. exact (centered n e N). Qed.
Lemma e_dot x : dot n e x = mean n e * rsum n x + dot n c x.
Proof. unfold dot, c. rewrite <- rsum_scal_l, <- rsum_plus. apply rsum_ext. intros; ring. Qed.
Lemma cauchy (u v : vec) : dot n u v ^ 2 <= dot n u u * dot n v v.
Proof.
  destruct (nonzero_dec n v) as [(i & Hi & Nz)|Z].
  - pose proof (dot_self_pos n v i Hi Nz) as P. set (t := dot n u v / dot n v v).
    pose proof (dot_self_nonneg n (fun i => u i - t * v i)) as Q. rewrite dot_minus_l, !dot_minus_r, !dot_scal_l, !dot_scal_r in Q. rewrite (dot_sym n v u) in Q.
    assert (T : t * dot n v v = dot n u v) by (unfold t; field; lra). assert (t * (t * dot n v v) = t * dot n u v) by (rewrite T; reflexivity).
    assert (0 <= dot n u u - t * dot n u v) by lra. assert (0 <= (dot n u u - t * dot n u v) * dot n v v) by (apply Rmult_le_pos; lra). nra.
  - rewrite (dot_zero_r n u v Z), (dot_zero_r n v v Z). lra.
Qed.
(** the perfect expert *)
Lemma perfect_sq x : dot n (mv n (fun i j => e j - e i) x) (mv n (fun i j => e j - e i) x) = INR n * dot n c x ^ 2 + rsum n x ^ 2 * D.
Proof.
  transitivity (rsum n (fun i => dot n c x ^ 2 + (- 2 * dot n c x * rsum n x * c i + rsum n x ^ 2 * (c i * c i)))).
  - unfold dot at 1. apply rsum_ext. intros i _. rewrite score_apply, e_dot. assert (Ci : e i = c i + mean n e) by (unfold c; ring). rewrite Ci. ring.
  - rewrite !rsum_plus, !rsum_scal_l, c_sum, rsum_const. unfold D, dot. ring.
Qed.
Lemma perfect_upper x : dot n (mv n (fun i j => e j - e i) x) (mv n (fun i j => e j - e i) x) <= INR n * D * dot n x x.
Proof.
  rewrite perfect_sq. set (d := fun i => x i - mean n x). pose proof INRn as P.
  assert (S : rsum n x = INR n * mean n x) by (unfold mean; field; lra).
  assert (C : dot n c x = dot n c d). { unfold d. rewrite dot_minus_r. replace (dot n c (fun _ => mean n x)) with (mean n x * rsum n c); [rewrite c_sum; ring|]. unfold dot. rewrite <- rsum_scal_l. apply rsum_ext. intros; ring. }
  assert (Q : dot n x x = INR n * mean n x ^ 2 + dot n d d).
  { transitivity (rsum n (fun i => mean n x ^ 2 + (2 * mean n x * d i + d i * d i))); [apply rsum_ext; intros i _; unfold d; ring|]. rewrite !rsum_plus, rsum_const, rsum_scal_l. unfold d at 1. rewrite (centered n x N). unfold dot. ring. }
  rewrite C, S, Q. pose proof (cauchy c d) as K. fold D in K. nra.
Qed.
Lemma any_lower (a : vec) s : 0 <= s -> (forall x : vec, dot n (mv n (fun i j => e j - a i) x) (mv n (fun i j => e j - a i) x) <= s ^ 2 * dot n x x) -> INR n * D <= s ^ 2.
Proof.
  intros S H. destruct (Req_dec D 0) as [Z|Z]; [rewrite Z; nra|]. assert (P : 0 < D) by (pose proof (dot_self_nonneg n c); unfold D in *; lra).
  specialize (H c). replace (dot n (mv n (fun i j => e j - a i) c) (mv n (fun i j => e j - a i) c)) with (INR n * (D * D)) in H.
  - fold D in H. apply Rmult_le_reg_r with D; [exact P|]. lra.
  - unfold dot. rewrite <- rsum_const. apply rsum_ext. intros i _. rewrite score_apply, e_dot, c_sum. fold D. ring.
Qed.
End Perfect.
Lemma perfect_minimal n (e a : vec) s t : (0 < n)%nat -> is_spectral_norm n (fun i j => e j - e i) s -> is_spectral_norm n (fun i j => e j - a i) t -> s <= t.
Proof.
  intros N (S0 & _ & Sm) (T0 & Tu & _). apply Sm; [exact T0|]. intros x. eapply Rle_trans; [exact (perfect_upper n e N x)|]. apply Rmult_le_compat_r; [apply dot_self_nonneg|]. exact (any_lower n e N a t T0 Tu).
Qed.
(** an expert with the right mean and no more spread than the data scores exactly like the perfect expert *)
Lemma right_mean_sq n (e a : vec) : (0 < n)%nat -> mean n a = mean n e ->
  dot n (fun i => a i - mean n a) (fun i => a i - mean n a) <= dot n (fun i => e i - mean n e) (fun i => e i - mean n e) ->
  forall x, dot n (mv n (fun i j => e j - a i) x) (mv n (fun i j => e j - a i) x) <= dot n (mv n (fun i j => e j - e i) x) (mv n (fun i j => e j - e i) x).
Proof.
  intros N M L x. rewrite (perfect_sq n e N). set (c := fun i => e i - mean n e) in *. set (d := fun i => a i - mean n a) in *.
  replace (dot n (mv n (fun i j => e j - a i) x) (mv n (fun i j => e j - a i) x)) with (INR n * dot n c x ^ 2 + rsum n x ^ 2 * dot n d d).
  - pose proof (pow2_ge_0 (rsum n x)). nra.
  - symmetry. transitivity (rsum n (fun i => dot n c x ^ 2 + (- 2 * dot n c x * rsum n x * d i + rsum n x ^ 2 * (d i * d i)))).
    + unfold dot at 1. apply rsum_ext. intros i _. rewrite score_apply, (e_dot n e). fold c. unfold d. rewrite M. ring.
    + rewrite !rsum_plus, !rsum_scal_l, rsum_const. unfold d at 1. rewrite (centered n a N). unfold dot. ring.
Qed.
Lemma right_mean_ties n (e a : vec) s t : (0 < n)%nat -> mean n a = mean n e ->
  dot n (fun i => a i - mean n a) (fun i => a i - mean n a) <= dot n (fun i => e i - mean n e) (fun i => e i - mean n e) ->
  is_spectral_norm n (fun i j => e j - e i) s -> is_spectral_norm n (fun i j => e j - a i) t -> t = s.
Proof.
  intros N M L HS HT. apply Rle_antisym; [|exact (perfect_minimal n e a s t N HS HT)]. destruct HS as (S0 & Su & _), HT as (_ & _ & Tm). apply Tm; [exact S0|]. intros x. eapply Rle_trans; [exact (right_mean_sq n e a N M L x)|apply Su].
Qed.
Lemma spectral_unique n M s t : is_spectral_norm n M s -> is_spectral_norm n M t -> s = t.
Proof. intros (A & B & C) (A' & B' & C'). apply Rle_antisym; [apply C|apply C']; assumption. Qed.
Lemma spectral_one (M : mat) s : is_spectral_norm 1 M s -> s = Rabs (M 0%nat 0%nat).
Proof.
  intros H. apply (spectral_unique 1 M); [exact H|]. split; [apply Rabs_pos|].
  assert (E : forall x : vec, dot 1 (mv 1 M x) (mv 1 M x) = M 0%nat 0%nat ^ 2 * dot 1 x x) by (intros x; unfold dot, mv; cbn; ring). split.
  - intros x. rewrite E, <- (pow2_abs (M 0%nat 0%nat)). lra.
  - intros d D B. specialize (B (fun _ => 1)). rewrite E in B. unfold dot in B. cbn [rsum] in B. rewrite <- (pow2_abs (M 0%nat 0%nat)) in B. pose proof (Rabs_pos (M 0%nat 0%nat)). nra.
Qed.
Lemma score_single norm2 e a : is_spectral_norm 1 (fun i j => e j - a i) (norm2 1%nat (fun i j => e j - a i)) -> score norm2 1 e a = Rabs (e 0%nat - a 0%nat).
Proof. intros H. exact (spectral_one _ _ H). Qed.

(** ** witnesses with two validation points *)
Definition w_e : vec := fun i => if Nat.eqb i 0 then -1 else 1.
Definition w_zero : vec := fun _ => 0.
Definition w_far : vec := fun i => if Nat.eqb i 0 then -2 else 2.
Definition w_flip : vec := fun i => if Nat.eqb i 0 then 1 else -1.
Ltac two := unfold dot, mv, w_e, w_zero, w_far, w_flip; cbn [rsum Nat.eqb].
Lemma norm_perfect : is_spectral_norm 2 (fun i j => w_e j - w_e i) 2.
Proof.
  assert (E : forall x : vec, dot 2 (mv 2 (fun i j => w_e j - w_e i) x) (mv 2 (fun i j => w_e j - w_e i) x) = 4 * dot 2 x x) by (intros x; two; ring).
  split; [lra|]. split; [intros x; rewrite E; lra|]. intros d D B. specialize (B (fun i => 1)). rewrite E in B. unfold dot in B. cbn [rsum] in B. nra.
Qed.
Lemma norm_zero : is_spectral_norm 2 (fun i j => w_e j - w_zero i) 2.
Proof.
  assert (E : forall x : vec, dot 2 (mv 2 (fun i j => w_e j - w_zero i) x) (mv 2 (fun i j => w_e j - w_zero i) x) = 2 * (x 1%nat - x 0%nat) ^ 2) by (intros x; two; ring).
  split; [lra|]. split; [intros x; rewrite E; unfold dot; cbn [rsum]; pose proof (pow2_ge_0 (x 1%nat + x 0%nat)); nra|]. intros d D B. specialize (B w_e). rewrite E in B. revert B. two. intros B. nra.
Qed.
Lemma norm_flip : is_spectral_norm 2 (fun i j => w_e j - w_flip i) 2.
Proof.
  assert (E : forall x : vec, dot 2 (mv 2 (fun i j => w_e j - w_flip i) x) (mv 2 (fun i j => w_e j - w_flip i) x) = 4 * dot 2 x x) by (intros x; two; ring).
  split; [lra|]. split; [intros x; rewrite E; lra|]. intros d D B. specialize (B (fun i => 1)). rewrite E in B. unfold dot in B. cbn [rsum] in B. nra.
Qed.
Lemma norm_far s : is_spectral_norm 2 (fun i j => w_e j - w_far i) s -> 4 <= s.
Proof. intros (S & B & _). specialize (B (fun _ => 1)). revert B. two. intros B. nra. Qed.
Lemma keeps_wrong (norm2 : nat -> (nat -> nat -> R) -> R) : (forall n M s, is_spectral_norm n M s -> norm2 n M = s) -> (exists s, is_spectral_norm 2 (fun i j => w_e j - w_far i) s) ->
  find_best_model norm2 2 w_e [(0%nat, w_zero); (1%nat, w_e)] = Some 0%nat /\ find_best_model norm2 2 w_e [(0%nat, w_far); (1%nat, w_flip)] = Some 1%nat.
Proof.
  intros H [s Hs]. unfold find_best_model, score. cbn [map best_loop]. rewrite (H _ _ _ norm_zero), (H _ _ _ norm_perfect), (H _ _ _ norm_flip), (H _ _ _ Hs). pose proof (norm_far s Hs).
  destruct (Rlt_dec 2 2); [lra|]. destruct (Rlt_dec 2 s); [|lra]. auto.
Qed.

(** ** heaviside factor *)
Lemma rmax_list_spec l : forall m, m <= rmax_list l m /\ (forall x, In x l -> x <= rmax_list l m) /\ (rmax_list l m = m \/ In (rmax_list l m) l).
Proof.
  induction l as [|a l IH]; intros m; cbn [rmax_list]; [split; [lra|split; [intros x []|left; reflexivity]]|]. destruct (IH (Rmax m a)) as (A & B & C). pose proof (Rmax_l m a). pose proof (Rmax_r m a).
  split; [lra|]. split; [intros x [<-|I]; [lra|apply B, I]|]. destruct C as [C|C]; [|right; right; exact C]. rewrite C. destruct (Rle_dec m a); [rewrite Rmax_right by lra; right; left; reflexivity|rewrite Rmax_left by lra; left; reflexivity].
Qed.
Lemma first_min_spec l : forall i bi b, (bi < i)%nat ->
  (first_min l i bi b = bi /\ (forall j x, nth_error l j = Some x -> b <= x)) \/
  (exists j x, first_min l i bi b = (i + j)%nat /\ nth_error l j = Some x /\ x < b /\ (forall k y, nth_error l k = Some y -> x <= y) /\ (forall k y, (k < j)%nat -> nth_error l k = Some y -> x < y)).
Proof.
  induction l as [|a l IH]; intros i bi b H; cbn [first_min].
  - left. split; [reflexivity|]. intros [|j] x; discriminate.
  - destruct (Rlt_dec a b) as [L|L].
    + destruct (IH (S i) i a ltac:(lia)) as [[-> F]|(j & x & -> & E & X & F & G)].
      * right. exists 0%nat, a. split; [lia|]. split; [reflexivity|]. split; [exact L|]. split; [|intros; lia]. intros [|k] y Ey; [injection Ey as <-; lra|exact (F k y Ey)].
      * right. exists (S j), x. split; [lia|]. split; [exact E|]. split; [lra|]. split; [intros [|k] y Ey; [injection Ey as <-; lra|exact (F k y Ey)]|].
        intros [|k] y Hk Ey; [injection Ey as <-; exact X|apply (G k); [lia|exact Ey]].
    + destruct (IH (S i) bi b ltac:(lia)) as [[-> F]|(j & x & -> & E & X & F & G)].
      * left. split; [reflexivity|]. intros [|k] y Ey; [injection Ey as <-; lra|exact (F k y Ey)].
      * right. exists (S j), x. split; [lia|]. split; [exact E|]. split; [exact X|]. split; [intros [|k] y Ey; [injection Ey as <-; lra|exact (F k y Ey)]|].
        intros [|k] y Hk Ey; [injection Ey as <-; lra|apply (G k); [lia|exact Ey]].
Qed.
Lemma nth_err (err : nat -> R) j : nth_error (map err (seq 1 20)) j = if Nat.ltb j 20 then Some (err (S j)) else None.
Proof.
  destruct (Nat.ltb_spec j 20) as [L|L].
  - rewrite nth_error_map, (nth_error_nth' (seq 1 20) 0%nat) by (rewrite seq_length; lia). rewrite seq_nth by lia. reflexivity.
  - apply nth_error_None. rewrite map_length, seq_length. lia.
Qed.
Lemma heaviside_spec n_clusters err : 
  ((n_clusters <= 1)%nat -> best_heaviside n_clusters err = 1) /\
  ((2 <= n_clusters)%nat -> (forall i, (i <= 20)%nat -> err i < 1 / 10 ^ 6) -> best_heaviside n_clusters err = 1) /\
  ((2 <= n_clusters)%nat -> forall i, (i <= 20)%nat -> 1 / 10 ^ 6 <= err i ->
    exists j, (j <= 20)%nat /\ best_heaviside n_clusters err = (INR j + 1) / 10 /\ (forall k, (k <= 20)%nat -> err j <= err k) /\ forall k, (k < j)%nat -> err j < err k).
Proof.
  unfold best_heaviside. split; [intros H; destruct (Nat.ltb_spec 1 n_clusters); [lia|reflexivity]|].
  change (map err (seq 0 21)) with (err 0%nat :: map err (seq 1 20)). cbn [tl hd]. cbv zeta. destruct (rmax_list_spec (map err (seq 1 20)) (err 0%nat)) as (A & B & C). set (m := rmax_list (map err (seq 1 20)) (err 0%nat)) in *.
  assert (B' : forall i, (i <= 20)%nat -> err i <= m). { intros [|i] Hi; [exact A|]. apply B. apply in_map. apply in_seq. lia. }
  split; intros H.
  - intros S. destruct (Nat.ltb_spec 1 n_clusters); [|reflexivity]. destruct (Rlt_dec m (1 / 10 ^ 6)) as [_|L]; [reflexivity|]. exfalso. apply L. destruct C as [-> |C]; [apply S; lia|].
    apply in_map_iff in C. destruct C as (k & <- & Ik). apply in_seq in Ik. apply S. lia.
  - intros i Hi L. destruct (Nat.ltb_spec 1 n_clusters); [|lia]. destruct (Rlt_dec m (1 / 10 ^ 6)) as [Q|_]; [specialize (B' i Hi); lra|].
    assert (T : forall j, hfactor j = (INR j + 1) / 10) by (intros j; unfold hfactor; lra).
    destruct (first_min_spec (map err (seq 1 20)) 1 0 (err 0%nat) ltac:(lia)) as [[-> F]|(j & x & -> & E & X & F & G)].
    + exists 0%nat. split; [lia|]. split; [apply T|]. split; [|intros; lia]. intros [|k] Hk; [lra|]. apply (F k). rewrite nth_err. destruct (Nat.ltb_spec k 20); [reflexivity|lia].
    + rewrite nth_err in E. destruct (Nat.ltb_spec j 20); [|discriminate]. injection E as <-. exists (S j). split; [lia|]. split; [apply T|]. split.
      * intros [|k] Hk; [lra|]. apply (F k). rewrite nth_err. destruct (Nat.ltb_spec k 20); [reflexivity|lia].
      * intros [|k] Hk; [lra|]. apply (G k); [lia|]. rewrite nth_err. destruct (Nat.ltb_spec k 20); [reflexivity|lia].
Qed.

(** ** enabled experts *)
Lemma mem_in s l : mem s l = true <-> In s l.
Proof. unfold mem. rewrite existsb_exists. split; [intros (x & I & E); apply String.eqb_eq in E; subst; exact I|intros I; exists s; split; [exact I|apply String.eqb_refl]]. Qed.
Lemma enabled_spec names types deriv var allow deny name : In name (enabled names types deriv var allow deny) <->
  exists p, In p types /\ p_name p = name /\ In name names /\ (deriv = true -> p_deriv p = true) /\ (var = true -> p_var p = true) /\ (allow <> [] -> In name allow) /\ (deny <> [] -> ~ In name deny).
Proof.
  unfold enabled. set (ps1 := filter (fun p => mem (p_name p) names) types). set (ps2 := if deriv then filter p_deriv ps1 else ps1). set (ps3 := if var then filter p_var ps2 else ps2).
  set (ps4 := match allow with [] => ps3 | _ => filter (fun p => mem (p_name p) allow) ps3 end). set (ps5 := match deny with [] => ps4 | _ => filter (fun p => negb (mem (p_name p) deny)) ps4 end).
  assert (I1 : forall p, In p ps1 <-> In p types /\ In (p_name p) names) by (intros p; unfold ps1; rewrite filter_In, mem_in; tauto).
  assert (I2 : forall p, In p ps2 <-> In p ps1 /\ (deriv = true -> p_deriv p = true)) by (intros p; unfold ps2; destruct deriv; [rewrite filter_In; tauto|intuition congruence]).
  assert (I3 : forall p, In p ps3 <-> In p ps2 /\ (var = true -> p_var p = true)) by (intros p; unfold ps3; destruct var; [rewrite filter_In; tauto|intuition congruence]).
  assert (I4 : forall p, In p ps4 <-> In p ps3 /\ (allow <> [] -> In (p_name p) allow)).
  { intros p. unfold ps4. destruct allow as [|a l]; [intuition congruence|]. rewrite filter_In, mem_in. intuition congruence. }
  assert (I5 : forall p, In p ps5 <-> In p ps4 /\ (deny <> [] -> ~ In (p_name p) deny)).
  { intros p. unfold ps5. destruct deny as [|a l]; [intuition congruence|]. rewrite filter_In, negb_true_iff. split; intros [H1 H2]; (split; [exact H1|]).
    - intros _ I. apply mem_in in I. congruence.
    - destruct (mem (p_name p) (a :: l)) eqn:E; [|reflexivity]. apply mem_in in E. exfalso. apply H2; [discriminate|exact E]. }
  rewrite in_map_iff. split.
  - intros (p & <- & I). exists p. apply I5 in I. destruct I as [I K5]. apply I4 in I. destruct I as [I K4]. apply I3 in I. destruct I as [I K3]. apply I2 in I. destruct I as [I K2]. apply I1 in I. tauto.
  - intros (p & I & <- & K). exists p. split; [reflexivity|]. rewrite I5, I4, I3, I2, I1. tauto.
Qed.
