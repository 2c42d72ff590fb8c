From Coq Require Import ZArith QArith Qfield Bool Arith List Lia Lqa.
From Verif Require Import MixInt_M MixInt_S MixInt_P Sampling_M Sampling_S.
Import ListNotations.
Open Scope list_scope.
Open Scope nat_scope.

Ltac qnz := let H := fresh in intro H; lra.

Lemma q_of_nat_S n : (q_of_nat (S n) == q_of_nat n + 1)%Q.
Proof. unfold q_of_nat. rewrite Nat2Z.inj_succ, <- Z.add_1_r, inject_Z_plus. reflexivity. Qed.
Lemma q_of_nat_le a b : a <= b -> (q_of_nat a <= q_of_nat b)%Q.
Proof. intros H. unfold q_of_nat. rewrite <- Zle_Qle. lia. Qed.
Lemma q_of_nat_lt a b : a < b -> (q_of_nat a < q_of_nat b)%Q.
Proof. intros H. unfold q_of_nat. rewrite <- Zlt_Qlt. lia. Qed.
Lemma q_of_nat_inj a b : (q_of_nat a == q_of_nat b)%Q -> a = b.
Proof. unfold q_of_nat. rewrite inject_Z_injective. lia. Qed.
Lemma q_of_nat_0 : (q_of_nat 0 == 0)%Q. Proof. reflexivity. Qed.

(** ** scaling *)
Lemma scale_row_spec : forall lims x y, length x = length lims ->
  (scale_row lims x = Ok y -> Forall3 affine_image lims x y /\ length y = length lims) .
Proof.
  induction lims as [|[lo up] lims IH]; intros [|v x] y L H; try discriminate; cbn in H.
  - injection H as <-. split; [constructor|reflexivity].
  - destruct (scale_row lims x) eqn:E; try discriminate. injection H as <-.
    destruct (IH x a) as [F Ly]; [cbn in L; lia|exact E|]. split; [|cbn; lia].
    constructor; [|exact F]. unfold affine_image. cbn. ring.
Qed.
Lemma scale_row_total : forall lims x, length x = length lims -> exists y, scale_row lims x = Ok y.
Proof.
  induction lims as [|[lo up] lims IH]; intros [|v x] L; try discriminate; cbn.
  - exists []. reflexivity.
  - destruct (IH x) as (y & ->); [cbn in L; lia|]. eexists; reflexivity.
Qed.
Lemma map_rows_Forall2 {A B} (f : A -> res B) (P : A -> Prop) (R : A -> B -> Prop) rows :
  (forall x, P x -> exists y, f x = Ok y /\ R x y) -> Forall P rows ->
  exists ys, map_rows f rows = Ok ys /\ Forall2 R rows ys.
Proof.
  intros H. induction 1 as [|x rows Hx F IH]; [exists []; split; [reflexivity|constructor]|].
  destruct (H x Hx) as (y & E & Hy). destruct IH as (ys & E' & F2).
  exists (y :: ys). cbn. rewrite E, E'. split; [reflexivity|constructor; assumption].
Qed.

Lemma scale_affine : forall lims rows, Forall (fun r => length r = length lims) rows ->
  exists out, scale lims rows = Ok out /\ Forall2 (Forall3 affine_image lims) rows out.
Proof.
  intros lims rows F. apply (map_rows_Forall2 _ (fun r => length r = length lims)); [|exact F].
  intros x L. destruct (scale_row_total lims x L) as (y & E). exists y. split; [exact E|].
  apply (scale_row_spec lims x y L E).
Qed.

Lemma affine_inside lim u v : (fst lim <= snd lim)%Q -> (0 <= u <= 1)%Q -> affine_image lim u v -> inside lim v.
Proof. unfold affine_image, inside. intros H [H0 H1] E. rewrite E. split; nra. Qed.
Lemma affine_mono lim u u' v v' : (fst lim < snd lim)%Q -> affine_image lim u v -> affine_image lim u' v' ->
  ((u < u')%Q <-> (v < v')%Q) /\ ((u == u')%Q <-> (v == v')%Q).
Proof.
  unfold affine_image. intros H E E'. rewrite E, E'. split; split; intros C; try nra.
Qed.

Lemma scale_row_ok_inside : forall lims x y, Forall (fun l => fst l <= snd l)%Q lims ->
  Forall (fun v => 0 <= v <= 1)%Q x -> Forall3 affine_image lims x y -> Forall2 inside lims y.
Proof.
  intros lims x y L X F. revert L X. induction F as [|l u v lims x y H F IH]; intros L X; [constructor|].
  inversion L; subst. inversion X; subst. constructor; [eapply affine_inside; eassumption|apply IH; assumption].
Qed.

Lemma random_inside : forall rand lims nt, Forall (fun l => fst l <= snd l)%Q lims ->
  length (rand nt (length lims)) = nt ->
  Forall (fun r => length r = length lims /\ Forall (fun v => 0 <= v <= 1)%Q r) (rand nt (length lims)) ->
  exists out, random_sampling rand lims nt = Ok out /\ length out = nt /\ Forall (Forall2 inside lims) out.
Proof.
  intros rand lims nt HL Ln HR. unfold random_sampling.
  destruct (map_rows_Forall2 (scale_row lims) (fun r => length r = length lims /\ Forall (fun v => 0 <= v <= 1)%Q r)
     (fun _ y => Forall2 inside lims y) (rand nt (length lims))) as (ys & E & F).
  - intros x [L X]. destruct (scale_row_total lims x L) as (y & E). exists y. split; [exact E|].
    eapply scale_row_ok_inside; [exact HL|exact X|]. apply (scale_row_spec lims x y L E).
  - exact HR.
  - exists ys. split; [exact E|]. split; [rewrite <- Ln; symmetry; eapply Forall2_length; exact F|].
    clear -F. induction F; constructor; assumption.
Qed.

(** ** level search *)
Lemma incr_one_more : forall i l, i < length l -> one_more l (incr i l).
Proof.
  induction i as [|i IH]; intros [|n l] H; cbn in H; try lia.
  - exists [], l, n. split; reflexivity.
  - destruct (IH l ltac:(lia)) as (a & b & m & E1 & E2). exists (n :: a), b, m. cbn. rewrite E2. rewrite E1 at 1. split; reflexivity.
Qed.
Lemma incr_length : forall i l, length (incr i l) = length l.
Proof. induction i as [|i IH]; intros [|n l]; cbn; try reflexivity. rewrite IH. reflexivity. Qed.
Lemma incr_nth : forall i l j, nth j (incr i l) 0 = if Nat.eqb j i && (j <? length l) then S (nth j l 0) else nth j l 0.
Proof.
  induction i as [|i IH]; intros [|n l] j; cbn.
  - destruct j; cbn; rewrite ?andb_false_r; reflexivity.
  - destruct j; reflexivity.
  - destruct j; cbn; rewrite ?andb_false_r; reflexivity.
  - destruct j; [reflexivity|]. rewrite IH. reflexivity.
Qed.
Lemma prod_pos : forall l, Forall (fun n => 1 <= n) l -> 1 <= prod_nat l.
Proof. unfold prod_nat. induction 1; cbn; nia. Qed.
Lemma incr_pos : forall i l, Forall (fun n => 1 <= n) l -> Forall (fun n => 1 <= n) (incr i l).
Proof. induction i as [|i IH]; intros [|n l] F; cbn; auto; inversion F; subst; constructor; auto; lia. Qed.
Lemma incr_prod : forall i l, i < length l -> Forall (fun n => 1 <= n) l -> prod_nat l < prod_nat (incr i l).
Proof.
  unfold prod_nat. induction i as [|i IH]; intros [|n l] H F; cbn in *; try lia; inversion F; subst.
  - pose proof (prod_pos l H3). unfold prod_nat in *. nia.
  - specialize (IH l ltac:(lia) H3). nia.
Qed.

Lemma scores_length : forall w num s, length (scores w num s) = Nat.min (length w) (length num).
Proof. induction w as [|a w IH]; intros [|n num] s; cbn; auto. Qed.
Lemma scores_nth : forall w num s k, k < length w -> k < length num ->
  nth k (scores w num s) 0%Q = (nth k w 0 - q_of_nat (nth k num 0%nat) / q_of_nat s)%Q.
Proof. induction w as [|a w IH]; intros [|n num] s [|k] H1 H2; cbn in *; try lia; [reflexivity|]. apply IH; lia. Qed.

Definition best (w : list Q) (num : list nat) (k : nat) : Prop :=
  k < length num /\ forall j, j < length num ->
    (nth j w 0 - q_of_nat (nth j num 0%nat) / q_of_nat (sum_nat num) <=
     nth k w 0 - q_of_nat (nth k num 0%nat) / q_of_nat (sum_nat num))%Q.

Lemma choice_best w num a b : length w = length num -> scores w num (sum_nat num) = a :: b ->
  best w num (argmax_from a 0 1 b).
Proof.
  intros L E. destruct (argmax_spec a b) as (K1 & K2 & _).
  assert (Ls : length (a :: b) = length num) by (rewrite <- E, scores_length; lia).
  split; [lia|]. intros j Hj. specialize (K2 j ltac:(lia)). rewrite <- E in K2.
  rewrite !scores_nth in K2 by lia. exact K2.
Qed.

(** the loop as a relation: an invariant preserved by best increments holds at the end *)
Lemma level_loop_ind : forall (I : list nat -> Prop) w nt,
  (forall num k, I num -> length w = length num -> prod_nat num < nt -> best w num k -> I (incr k num)) ->
  forall fuel num r, I num -> length w = length num ->
  level_loop fuel w nt num = Some (Ok r) -> I r /\ length r = length num /\ nt <= prod_nat r.
Proof.
  intros I w nt Hs fuel. induction fuel as [|f IH]; intros num r Hi L H; cbn [level_loop] in H.
  - destruct (Nat.leb_spec nt (prod_nat num)); [|discriminate]. injection H as <-. auto.
  - destruct (Nat.leb_spec nt (prod_nat num)); [injection H as <-; auto|].
    destruct (scores w num (sum_nat num)) as [|a b] eqn:E; [discriminate|].
    pose proof (choice_best _ _ _ _ L E) as B.
    apply IH in H; [rewrite incr_length in H; exact H|apply Hs; assumption|rewrite incr_length; exact L].
Qed.

Lemma level_loop_total : forall fuel w nt num, length w = length num -> num <> [] ->
  Forall (fun n => 1 <= n) num -> nt <= prod_nat num + fuel ->
  exists r, level_loop fuel w nt num = Some (Ok r).
Proof.
  induction fuel as [|f IH]; intros w nt num L Ne F H; cbn [level_loop].
  - destruct (Nat.leb_spec nt (prod_nat num)); [eexists; reflexivity|lia].
  - destruct (Nat.leb_spec nt (prod_nat num)); [eexists; reflexivity|].
    destruct (scores w num (sum_nat num)) as [|a b] eqn:E.
    + exfalso. apply (f_equal (@length Q)) in E. rewrite scores_length in E. cbn in E.
      destruct num; [apply Ne; reflexivity|]. cbn in *. lia.
    + destruct (choice_best _ _ _ _ L E) as [K _].
      apply IH; [rewrite incr_length; exact L| |apply incr_pos; exact F|].
      * intros C. apply (f_equal (@length nat)) in C. rewrite incr_length in C. cbn in C. lia.
      * pose proof (incr_prod _ num K F). lia.
Qed.

(** fuel is irrelevant once the loop ends *)
Lemma level_loop_mono : forall f w nt num r, level_loop f w nt num = Some r ->
  forall f', f <= f' -> level_loop f' w nt num = Some r.
Proof.
  induction f as [|f IH]; intros w nt num r H f' Hf; cbn [level_loop] in H.
  - destruct f'; cbn [level_loop]; destruct (nt <=? prod_nat num); auto; discriminate.
  - destruct f' as [|f']; [lia|]. cbn [level_loop]. destruct (nt <=? prod_nat num); [exact H|].
    destruct (scores w num (sum_nat num)); [exact H|]. apply IH; [exact H|lia].
Qed.

(** last increment necessary *)
Lemma level_loop_last : forall fuel w nt num r, length w = length num ->
  level_loop fuel w nt num = Some (Ok r) ->
  r = num \/ exists p k, prod_nat p < nt /\ best w p k /\ r = incr k p /\ length p = length num.
Proof.
  induction fuel as [|f IH]; intros w nt num r L H; cbn [level_loop] in H.
  - destruct (Nat.leb_spec nt (prod_nat num)); [injection H as <-; auto|discriminate].
  - destruct (Nat.leb_spec nt (prod_nat num)); [injection H as <-; auto|].
    destruct (scores w num (sum_nat num)) as [|a b] eqn:E; [discriminate|].
    pose proof (choice_best _ _ _ _ L E) as B.
    apply IH in H; [|rewrite incr_length; exact L]. destruct H as [-> | (p & k & H1 & H2 & H3 & H4)].
    + right. exists num, (argmax_from a 0 1 b). auto.
    + right. exists p, k. rewrite incr_length in H4. auto.
Qed.

Lemma norm_weights_length nx w wn : norm_weights nx w = Ok wn -> length wn = nx.
Proof.
  unfold norm_weights. destruct w as [w|].
  - destruct (Nat.eqb_spec (length (map (fun v => (v / Qsum w)%Q) w)) nx) as [E|E].
    + intros H; injection H as <-. exact E.
    + destruct (map _ w) as [|v [|? ?]]; try discriminate. intros H; injection H as <-. apply repeat_length.
  - intros H; injection H as <-. apply repeat_length.
Qed.

(** positive weights keep their direction *)
Lemma Forall_repeat {A} (P : A -> Prop) x n : P x -> Forall P (repeat x n).
Proof. intros H; induction n; cbn; constructor; auto. Qed.
Lemma prod_repeat n : prod_nat (repeat 1 n) = 1.
Proof. unfold prod_nat. induction n; cbn; lia. Qed.

Lemma levels_spec : forall w nt nx wn, norm_weights nx w = Ok wn -> 1 <= nx ->
  exists num, (forall fuel, nt <= fuel -> level_loop fuel wn nt (repeat 1 nx) = Some (Ok num)) /\
    length num = nx /\ Forall (fun n => 1 <= n) num /\ nt <= prod num /\
    (num = repeat 1 nx \/ exists p, one_more p num /\ prod p < nt).
Proof.
  intros w nt nx wn Hw Hx. pose proof (norm_weights_length _ _ _ Hw) as Lw.
  assert (L : length wn = length (repeat 1 nx)) by (rewrite repeat_length; exact Lw).
  destruct (level_loop_total nt wn nt (repeat 1 nx) L) as (num & E).
  - destruct nx; [lia|discriminate].
  - apply Forall_repeat; lia.
  - rewrite prod_repeat. lia.
  - exists num. split; [intros fuel Hf; eapply level_loop_mono; eassumption|].
    destruct (level_loop_ind (Forall (fun n => 1 <= n)) wn nt) with (fuel := nt) (num := repeat 1 nx) (r := num) as (P1 & P2 & P3); auto.
    { intros; apply incr_pos; assumption. }
    { apply Forall_repeat; lia. }
    rewrite repeat_length in P2. split; [exact P2|]. split; [exact P1|]. split; [exact P3|].
    destruct (level_loop_last _ _ _ _ _ L E) as [-> | (p & k & H1 & H2 & -> & H4)]; [left; reflexivity|].
    right. exists p. split; [|exact H1]. apply incr_one_more. apply H2.
Qed.

(** every increment goes to a dimension that is most under-represented *)
Lemma levels_greedy : forall w nt nx wn num, norm_weights nx w = Ok wn ->
  level_loop nt wn nt (repeat 1 nx) = Some (Ok num) ->
  forall I : list nat -> Prop, I (repeat 1 nx) ->
  (forall a b k, length a = nx -> I a -> prod a < nt -> best wn a k -> b = incr k a -> I b) -> I num.
Proof.
  intros w nt nx wn num Hw E I H0 Hs.
  assert (L : length wn = length (repeat 1 nx)) by (rewrite repeat_length; eapply norm_weights_length; exact Hw).
  eapply (level_loop_ind (fun a => length a = nx /\ I a)) in E; [apply E| |split; [apply repeat_length|exact H0]|exact L].
  intros a k [La Ia] Lw P B. split; [rewrite incr_length; exact La|]. eapply Hs; eauto.
Qed.

Lemma sum_pos l : Forall (fun n => 1 <= n) l -> l <> [] -> 1 <= sum_nat l.
Proof. unfold sum_nat. intros F N. destruct F; [contradiction|]. cbn. lia. Qed.

Lemma nth_repeat_lt {A} (x d : A) n k : k < n -> nth k (repeat x n) d = x.
Proof. revert k; induction n as [|n IH]; intros k H; [lia|]. destruct k; cbn; [reflexivity|apply IH; lia]. Qed.

Lemma equal_balanced : forall nt nx v num, 1 <= nx ->
  level_loop nt (repeat v nx) nt (repeat 1 nx) = Some (Ok num) ->
  forall i j, i < nx -> j < nx -> nth i num 0 <= nth j num 0 + 1.
Proof.
  intros nt nx v num Hx E.
  eapply (level_loop_ind (fun a => length a = nx /\ Forall (fun n => 1 <= n) a /\
     forall i j, i < nx -> j < nx -> nth i a 0 <= nth j a 0 + 1)) in E.
  - apply E.
  - intros a k (La & Fa & Ba) Lw P [Hk Bk]. split; [rewrite incr_length; exact La|]. split; [apply incr_pos; exact Fa|].
    assert (Smin : forall j, j < nx -> nth k a 0 <= nth j a 0).
    { intros j Hj. specialize (Bk j ltac:(lia)). rewrite !nth_repeat_lt in Bk by lia.
      assert (S : 1 <= sum_nat a) by (apply sum_pos; [exact Fa|intros ->; cbn in La; lia]).
      assert (S' : (0 < q_of_nat (sum_nat a))%Q) by (apply (q_of_nat_lt 0); lia).
      destruct (le_lt_dec (nth k a 0) (nth j a 0)) as [|C]; [assumption|exfalso].
      apply q_of_nat_lt in C.
      assert (C' : (q_of_nat (nth j a 0%nat) / q_of_nat (sum_nat a) < q_of_nat (nth k a 0%nat) / q_of_nat (sum_nat a))%Q).
      { apply Qmult_lt_compat_r; [apply Qinv_lt_0_compat; exact S'|exact C]. }
      lra. }
    intros i j Hi Hj. rewrite !incr_nth. pose proof (Ba i j Hi Hj). pose proof (Smin j Hj). pose proof (Smin i Hi).
    destruct (Nat.ltb_spec i (length a)) as [Li|Li]; [|lia].
    destruct (Nat.ltb_spec j (length a)) as [Lj|Lj]; [|lia].
    destruct (Nat.eqb_spec i k) as [E1|E1], (Nat.eqb_spec j k) as [E2|E2]; cbn [andb]; try lia.
    all: subst; lia.
  - split; [apply repeat_length|]. split; [apply Forall_repeat; lia|]. intros i j Hi Hj. rewrite !nth_repeat_lt by lia. lia.
  - rewrite !repeat_length. reflexivity.
Qed.

(** ** grid *)
Lemma linspace_length n : length (linspace n) = n.
Proof. destruct n as [|[|n]]; try reflexivity. cbn [linspace]. rewrite map_length, seq_length. reflexivity. Qed.
Lemma grid_length : forall num, length (grid num) = prod_nat num.
Proof.
  induction num as [|n num IH]; [reflexivity|]. cbn [grid prod_nat fold_right]. unfold prod_nat in IH. rewrite <- IH.
  rewrite <- (linspace_length n) at 2. generalize (linspace n). induction l as [|v l IHl]; [reflexivity|].
  cbn. rewrite app_length, map_length, IHl. reflexivity.
Qed.
Definition lvl (n i : nat) : Q := if Nat.eqb n 1 then 0%Q else (q_of_nat i / q_of_nat (n - 1))%Q.
Lemma linspace_nth : forall n i, i < n -> nth i (linspace n) 0%Q = lvl n i.
Proof.
  intros n i H. destruct n as [|[|n]]; [lia|assert (i = 0) as -> by lia; reflexivity|].
  cbn [linspace]. set (f := fun i => (q_of_nat i / q_of_nat (S (S n) - 1))%Q).
  rewrite nth_indep with (d' := f 0) by (rewrite map_length, seq_length; exact H).
  rewrite map_nth, seq_nth by exact H. reflexivity.
Qed.
Lemma linspace_In : forall n v, In v (linspace n) <-> exists i, i < n /\ v = lvl n i.
Proof.
  intros n v. split.
  - intros H. destruct (In_nth _ _ 0%Q H) as (i & Hi & E). rewrite linspace_length in Hi.
    exists i. split; [exact Hi|]. rewrite <- E. apply linspace_nth; exact Hi.
  - intros (i & Hi & ->). rewrite <- linspace_nth by exact Hi. apply nth_In. rewrite linspace_length. exact Hi.
Qed.
Lemma lvl_inj n i j : i < n -> j < n -> (lvl n i == lvl n j)%Q -> i = j.
Proof.
  unfold lvl. intros Hi Hj E. destruct (Nat.eqb_spec n 1) as [-> | N]; [lia|].
  assert (P : (0 < q_of_nat (n - 1))%Q) by (apply (q_of_nat_lt 0); lia).
  apply q_of_nat_inj. apply (Qmult_inj_r _ _ (/ q_of_nat (n - 1))%Q); [|exact E].
  intros C. apply Qinv_lt_0_compat in P. rewrite C in P. lra.
Qed.
Lemma lvl_range n i : i < n -> (0 <= lvl n i <= 1)%Q.
Proof.
  unfold lvl. intros Hi. destruct (Nat.eqb_spec n 1) as [-> | N]; [split; lra|].
  assert (P : (0 < q_of_nat (n - 1))%Q) by (apply (q_of_nat_lt 0); lia).
  split.
  - apply Qle_shift_div_l; [exact P|]. rewrite Qmult_0_l. apply (q_of_nat_le 0). lia.
  - apply Qle_shift_div_r; [exact P|]. rewrite Qmult_1_l. apply q_of_nat_le. lia.
Qed.
Lemma grid_In : forall num r, In r (grid num) <-> Forall2 (fun n v => In v (linspace n)) num r.
Proof.
  induction num as [|n num IH]; intros r; cbn [grid].
  - split; [intros [<-|[]]; constructor|intros H; inversion H; left; reflexivity].
  - rewrite in_flat_map. split.
    + intros (v & Hv & Hr). apply in_map_iff in Hr. destruct Hr as (t & <- & Ht). constructor; [exact Hv|apply IH; exact Ht].
    + intros H. inversion H as [|? v ? t Hv Ht]; subst. exists v. split; [exact Hv|]. apply in_map. apply IH; exact Ht.
Qed.
Lemma grid_width num r : In r (grid num) -> length r = length num.
Proof. intros H. apply grid_In, Forall2_length in H. auto. Qed.

Lemma FOP_app {A} (R : A -> A -> Prop) l1 l2 : ForallOrdPairs R l1 -> ForallOrdPairs R l2 ->
  (forall x y, In x l1 -> In y l2 -> R x y) -> ForallOrdPairs R (l1 ++ l2).
Proof.
  intros H1 H2 H. induction H1 as [|a l F H1 IH]; cbn; [exact H2|]. constructor.
  - apply Forall_app. split; [exact F|]. apply Forall_forall. intros y Hy. apply H; [left; reflexivity|exact Hy].
  - apply IH. intros x y Hx Hy. apply H; [right; exact Hx|exact Hy].
Qed.
Lemma FOP_map {A B} (R : A -> A -> Prop) (R' : B -> B -> Prop) (f : A -> B) l :
  (forall x y, R x y -> R' (f x) (f y)) -> ForallOrdPairs R l -> ForallOrdPairs R' (map f l).
Proof.
  intros H F. induction F as [|a l Fa F IH]; cbn; constructor; [|exact IH].
  apply Forall_forall. intros y Hy. apply in_map_iff in Hy. destruct Hy as (x & <- & Hx). apply H.
  rewrite Forall_forall in Fa. apply Fa; exact Hx.
Qed.
Lemma FOP_firstn {A} (R : A -> A -> Prop) l n : ForallOrdPairs R l -> ForallOrdPairs R (firstn n l).
Proof.
  intros F. revert n. induction F as [|a l Fa F IH]; intros [|n]; cbn; constructor; auto.
  rewrite Forall_forall in *. intros y Hy. apply Fa. rewrite <- (firstn_skipn n l). apply in_or_app. left; exact Hy.
Qed.

Lemma differ_cons_tail a r r' : differ r r' -> differ (a :: r) (a :: r').
Proof. intros (k & H1 & H2 & H3). exists (S k). cbn. split; [lia|]. split; [lia|exact H3]. Qed.
Lemma differ_head a b r r' : ~ (a == b)%Q -> differ (a :: r) (b :: r').
Proof. intros H. exists 0. cbn. split; [lia|]. split; [lia|exact H]. Qed.

Lemma linspace_distinct n : ForallOrdPairs (fun a b => ~ (a == b)%Q) (linspace n).
Proof.
  destruct n as [|[|n]]; [constructor|constructor; [constructor|constructor]|].
  cbn [linspace].
  assert (G : forall f m k, (forall i j, i < k + m -> j < k + m -> (f i == f j)%Q -> i = j) ->
     ForallOrdPairs (fun a b => ~ (a == b)%Q) (map f (seq k m))).
  { intros f m. induction m as [|m IH]; intros k H; cbn; constructor.
    - apply Forall_forall. intros y Hy. apply in_map_iff in Hy. destruct Hy as (j & <- & Hj). apply in_seq in Hj.
      intros C. apply H in C; lia.
    - apply IH. intros i j Hi Hj. apply H; lia. }
  apply G. intros i j Hi Hj E. apply (lvl_inj (S (S n))); [lia|lia|].
  unfold lvl. destruct (Nat.eqb_spec (S (S n)) 1); [lia|exact E].
Qed.

Lemma grid_distinct : forall num, ForallOrdPairs differ (grid num).
Proof.
  induction num as [|n num IH]; cbn [grid]; [constructor; [constructor|constructor]|].
  pose proof (linspace_distinct n) as D. induction D as [|v l Fv D IHl]; cbn; [constructor|].
  apply FOP_app; [eapply FOP_map; [|exact IH]; intros; apply differ_cons_tail; assumption|exact IHl|].
  intros x y Hx Hy. apply in_map_iff in Hx. destruct Hx as (t & <- & Ht).
  apply in_flat_map in Hy. destruct Hy as (v' & Hv' & Hy). apply in_map_iff in Hy. destruct Hy as (t' & <- & Ht').
  apply differ_head. rewrite Forall_forall in Fv. apply Fv; exact Hv'.
Qed.

Lemma differ_scaled : forall lims x x' y y', Forall (fun l => fst l < snd l)%Q lims ->
  Forall3 affine_image lims x y -> Forall3 affine_image lims x' y' -> differ x x' -> differ y y'.
Proof.
  intros lims x x' y y' L F. revert x' y' L. induction F as [|l u v lims x y H F IH]; intros x' y' L F' D.
  - inversion F'; subst. destruct D as (k & Hk & _). cbn in Hk; lia.
  - inversion F' as [|? u' v' ? x0 y0 H' F0]; subst. inversion L as [|? ? Hl L0]; subst.
    destruct D as (k & H1 & H2 & H3). destruct k as [|k].
    + cbn in H3. apply differ_head. intros C. apply H3. eapply affine_mono; eassumption.
    + assert (D : differ x x0) by (exists k; cbn in *; split; [lia|]; split; [lia|exact H3]).
      destruct (IH x0 y0 L0 F0 D) as (k' & K1 & K2 & K3). exists (S k'). cbn. split; [lia|]. split; [lia|exact K3].
Qed.

Lemma FOP_scaled : forall lims xs ys, Forall (fun l => fst l < snd l)%Q lims ->
  Forall2 (Forall3 affine_image lims) xs ys -> ForallOrdPairs differ xs -> ForallOrdPairs differ ys.
Proof.
  intros lims xs ys L F. induction F as [|x y xs ys H F IH]; intros D; [constructor|].
  inversion D as [|? ? Dx D0]; subst. constructor; [|apply IH; exact D0].
  apply Forall_forall. intros y' Hy'.
  assert (exists x', In x' xs /\ Forall3 affine_image lims x' y') as (x' & Hx' & H').
  { clear -F Hy'. induction F as [|a b xs ys H F IH]; [destruct Hy'|]. destruct Hy' as [<-|Hy'].
    - exists a. split; [left; reflexivity|exact H].
    - destruct (IH Hy') as (x' & Hx & H2). exists x'. split; [right; exact Hx|exact H2]. }
  eapply differ_scaled; [exact L|exact H|exact H'|]. rewrite Forall_forall in Dx. apply Dx; exact Hx'.
Qed.

Lemma grid_rows_unit num r : In r (grid num) -> Forall (fun v => 0 <= v <= 1)%Q r.
Proof.
  intros H. apply grid_In in H. induction H as [|n v num r Hv H IH]; constructor; [|exact IH].
  apply linspace_In in Hv. destruct Hv as (i & Hi & ->). apply lvl_range; exact Hi.
Qed.

Lemma Forall3_in_rows {A B} (P : A -> B -> Prop) xs ys : Forall2 P xs ys -> forall y, In y ys -> exists x, In x xs /\ P x y.
Proof.
  induction 1 as [|a b xs ys H F IH]; intros y Hy; [destruct Hy|]. destruct Hy as [<-|Hy].
  - exists a. split; [left; reflexivity|exact H].
  - destruct (IH y Hy) as (x' & Hx & H2). exists x'. split; [right; exact Hx|exact H2].
Qed.
Lemma Forall2_in_l {A B} (P : A -> B -> Prop) xs ys : Forall2 P xs ys -> forall x, In x xs -> exists y, In y ys /\ P x y.
Proof.
  induction 1 as [|a b xs ys H F IH]; intros y Hy; [destruct Hy|]. destruct Hy as [<-|Hy].
  - exists b. split; [left; reflexivity|exact H].
  - destruct (IH y Hy) as (x' & Hx & H2). exists x'. split; [right; exact Hx|exact H2].
Qed.

Lemma scaled_level lims num x y : Forall2 (fun n v => In v (linspace n)) num x -> Forall3 affine_image lims x y ->
  Forall3 level_value lims num y.
Proof.
  intros F G. revert num F. induction G as [|l u v lims x y H G IH]; intros num F.
  - inversion F; subst. constructor.
  - inversion F as [|n ? num0 ? Hn F0]; subst. constructor; [|apply IH; exact F0].
    apply linspace_In in Hn. destruct Hn as (i & Hi & ->). exists i. split; [exact Hi|].
    unfold affine_image in H. rewrite H. unfold lvl. destruct (Nat.eqb_spec n 1); [ring|].
    unfold q_of_nat. ring.
Qed.

Lemma full_factorial_spec : forall w clip lims nt wn, norm_weights (length lims) w = Ok wn ->
  1 <= length lims -> Forall (fun l => fst l < snd l)%Q lims ->
  exists num out, 
    (forall fuel, nt <= fuel -> level_loop fuel wn nt (repeat 1 (length lims)) = Some (Ok num)) /\
    (forall fuel, nt <= fuel -> full_factorial fuel w clip lims nt = Some (Ok out)) /\
    length out = (if clip then prod num else nt) /\ ForallOrdPairs differ out /\
    Forall (Forall2 inside lims) out /\ Forall (Forall3 level_value lims num) out.
Proof.
  intros w clip lims nt wn Hw Hx Hl.
  destruct (levels_spec w nt (length lims) wn Hw Hx) as (num & E & Ln & Fp & Pr & _).
  set (rows := firstn (if clip then prod_nat num else nt) (grid num)).
  assert (HR : forall r, In r rows -> In r (grid num)).
  { intros r Hr. unfold rows in Hr. rewrite <- (firstn_skipn (if clip then prod_nat num else nt) (grid num)). apply in_or_app. left; exact Hr. }
  assert (HW : Forall (fun r => length r = length lims) rows).
  { apply Forall_forall. intros r Hr. apply HR, grid_width in Hr. lia. }
  destruct (scale_affine lims rows HW) as (out & Es & F).
  exists num, out. split; [exact E|]. split.
  { intros fuel Hf. unfold full_factorial. rewrite Hw, (E fuel Hf). fold rows. rewrite Es. reflexivity. }
  split.
  { rewrite <- (Forall2_length _ _ _ F). unfold rows. rewrite firstn_length, grid_length.
    change (prod num) with (prod_nat num) in *. destruct clip; lia. }
  split; [eapply FOP_scaled; [exact Hl|exact F|]; apply FOP_firstn, grid_distinct|].
  split; apply Forall_forall; intros y Hy; destruct (Forall3_in_rows _ _ _ F y Hy) as (x & Hx' & Hxy).
  - eapply scale_row_ok_inside; [|eapply grid_rows_unit; apply HR; exact Hx'|exact Hxy].
    eapply Forall_impl; [|exact Hl]. cbn. intros a Ha. apply Qlt_le_weak; exact Ha.
  - eapply scaled_level; [|exact Hxy]. apply grid_In. apply HR; exact Hx'.
Qed.

(** with clip the design is the complete grid *)
Lemma affine_exists : forall lims x, length x = length lims -> exists y, Forall3 affine_image lims x y.
Proof.
  induction lims as [|l lims IH]; intros [|u x] L; try discriminate; [exists []; constructor|].
  destruct (IH x) as (y & H); [cbn in L; lia|]. exists (((1 - u) * fst l + u * snd l)%Q :: y). constructor; [unfold affine_image; reflexivity|exact H].
Qed.
Lemma full_factorial_complete : forall w lims nt out num fuel wn, norm_weights (length lims) w = Ok wn ->
  level_loop fuel wn nt (repeat 1 (length lims)) = Some (Ok num) -> length num = length lims ->
  full_factorial fuel w true lims nt = Some (Ok out) ->
  forall p, Forall3 level_value lims num p ->
  exists r, In r out /\ Forall2 Qeq r p.
Proof.
  intros w lims nt out num fuel wn Hw E Ln H p Hp. unfold full_factorial in H. rewrite Hw, E in H. cbn [fst] in H.
  rewrite <- grid_length, firstn_all in H.
  assert (HW : Forall (fun r => length r = length lims) (grid num)).
  { apply Forall_forall. intros r Hr. apply grid_width in Hr. lia. }
  destruct (scale_affine lims (grid num) HW) as (out' & Es & F). rewrite Es in H. injection H as <-.
  assert (exists x, Forall2 (fun n v => In v (linspace n)) num x /\ Forall3 (fun l u v => affine_image l u v) lims x p) as (x & Hx & Ha).
  { clear -Hp. induction Hp as [|l n v lims num p H Hp IH].
    - exists []. split; constructor.
    - destruct IH as (x & F & G). destruct H as (i & Hi & E).
      exists (lvl n i :: x). split; [constructor; [apply linspace_In; exists i; auto|exact F]|].
      constructor; [|exact G]. unfold affine_image. rewrite E. unfold lvl. destruct (Nat.eqb n 1); [ring|unfold q_of_nat; ring]. }
  apply grid_In in Hx. destruct (Forall2_in_l _ _ _ F x Hx) as (r & Hr & Hxr).
  exists r. split; [exact Hr|]. clear -Ha Hxr. revert r Hxr. induction Ha as [|l u v lims x p H Ha IH]; intros r Hxr.
  - inversion Hxr; subst. constructor.
  - inversion Hxr as [|? ? w ? ? r0 Hw Hr0]; subst. constructor; [|apply IH; exact Hr0].
    unfold affine_image in *. rewrite H, Hw. reflexivity.
Qed.

Lemma levels_terminate : forall w nt nx wn, usable w -> norm_weights nx w = Ok wn -> 1 <= nx ->
  exists num, (forall fuel, nt <= fuel -> level_loop fuel wn nt (repeat 1 nx) = Some (Ok num)) /\
    length num = nx /\ Forall (fun n => 1 <= n) num /\ nt <= prod num /\
    (num = repeat 1 nx \/ exists p, one_more p num /\ prod p < nt).
Proof. intros w nt nx wn _. apply levels_spec. Qed.

Lemma levels_greedy' : forall w nt nx wn num fuel, usable w -> norm_weights nx w = Ok wn ->
  level_loop fuel wn nt (repeat 1 nx) = Some (Ok num) ->
  forall I : list nat -> Prop, I (repeat 1 nx) ->
  (forall a b k, length a = nx -> I a -> prod a < nt -> most_needed wn a k -> more_at k a b -> I b) -> I num.
Proof.
  intros w nt nx wn num fuel _ Hw E I H0 Hs.
  assert (L : length wn = length (repeat 1 nx)) by (rewrite repeat_length; eapply norm_weights_length; exact Hw).
  eapply (level_loop_ind (fun a => length a = nx /\ I a)) in E; [apply E| |split; [apply repeat_length|exact H0]|exact L].
  intros a k [La Ia] Lw P B. split; [rewrite incr_length; exact La|].
  apply (Hs a (incr k a) k); auto; try exact B.
  split; [apply incr_length|]. intros j. rewrite incr_nth. destruct B as [B _]. destruct (Nat.eqb_spec j k); cbn [andb]; [|reflexivity].
  destruct (Nat.ltb_spec j (length a)); [reflexivity|lia].
Qed.

Lemma ff_spec : forall w clip lims nt wn, usable w -> norm_weights (length lims) w = Ok wn ->
  1 <= length lims -> Forall (fun l => fst l < snd l)%Q lims ->
  exists num out, 
    (forall fuel, nt <= fuel -> level_loop fuel wn nt (repeat 1 (length lims)) = Some (Ok num)) /\
    (forall fuel, nt <= fuel -> full_factorial fuel w clip lims nt = Some (Ok out)) /\
    length out = (if clip then prod num else nt) /\ ForallOrdPairs differ out /\
    Forall (Forall2 inside lims) out /\ Forall (Forall3 level_value lims num) out.
Proof. intros w clip lims nt wn _. apply full_factorial_spec. Qed.

Lemma ff_balanced : forall nt nx num fuel wn, 1 <= nx -> norm_weights nx None = Ok wn ->
  nt <= fuel -> level_loop fuel wn nt (repeat 1 nx) = Some (Ok num) ->
  forall i j, i < nx -> j < nx -> nth i num 0 <= nth j num 0 + 1.
Proof.
  intros nt nx num fuel wn Hx Hw Hf E. pose proof Hw as Hw'. cbn in Hw'. injection Hw' as <-.
  destruct (levels_spec None nt nx _ Hw Hx) as (num' & E' & _). rewrite (E' fuel Hf) in E. injection E as <-.
  eapply equal_balanced; [exact Hx|apply E'; lia].
Qed.

Lemma scale_spec : forall lims rows, Forall (fun r => length r = length lims) rows ->
  exists out, scale lims rows = Ok out /\ Forall2 (Forall3 affine_image lims) rows out.
Proof. exact scale_affine. Qed.

Lemma ff_complete : forall w lims nt out num fuel wn, usable w -> norm_weights (length lims) w = Ok wn ->
  1 <= length lims -> nt <= fuel ->
  level_loop fuel wn nt (repeat 1 (length lims)) = Some (Ok num) ->
  full_factorial fuel w true lims nt = Some (Ok out) ->
  forall p, Forall3 level_value lims num p -> exists r, In r out /\ Forall2 Qeq r p.
Proof.
  intros w lims nt out num fuel wn _ Hw Hx Hf E.
  destruct (levels_spec w nt _ wn Hw Hx) as (num' & E' & L & _). pose proof E as E2. rewrite (E' fuel Hf) in E2. injection E2 as ->.
  eapply full_factorial_complete; eassumption.
Qed.
