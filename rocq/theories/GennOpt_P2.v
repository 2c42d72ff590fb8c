(** Proofs about the optimiser of GENN: the main loop. *)
From Coq Require Import Reals Arith Lia Lra Bool List.
From Verif Require Import GennOpt_M GennOpt_S GennOpt_P.
Import ListNotations.
Open Scope list_scope.
Open Scope R_scope.
Definition hseq (hist : list R) (j : nat) : R := nth j (rev hist) 0.
Lemma hseq_app : forall pre hist j, (j < length hist)%nat -> hseq (pre ++ hist) j = hseq hist j.
Proof. intros pre hist j H. unfold hseq. rewrite rev_app_distr, app_nth1 by (rewrite rev_length; exact H). reflexivity. Qed.
Lemma hseq_top : forall c hist, hseq (c :: hist) (length hist) = c.
Proof. intros c hist. unfold hseq. cbn [rev]. rewrite app_nth2 by (rewrite rev_length; lia). rewrite rev_length, Nat.sub_diag. reflexivity. Qed.
Lemma small_absolute_ext : forall h h' n j, (forall i, (i <= n)%nat -> h i = h' i) -> (j < n)%nat -> small_absolute h j -> small_absolute h' j.
Proof. intros h h' n j E L. unfold small_absolute. rewrite <- !E by lia. tauto. Qed.
Lemma small_relative_ext : forall h h' n j, (forall i, (i <= n)%nat -> h i = h' i) -> (j < n)%nat -> small_relative h j -> small_relative h' j.
Proof. intros h h' n j E L. unfold small_relative. rewrite <- !E by lia. tauto. Qed.
Lemma stalled_ext : forall h h' n, (forall i, (i <= n)%nat -> h i = h' i) -> stalled h n -> stalled h' n.
Proof.
  intros h h' n E [L [H|H]]; (split; [exact L|]); [left|right]; intros j H1 H2; [apply (small_absolute_ext h h' n j E H2)|apply (small_relative_ext h h' n j E H2)]; apply H; assumption.
Qed.
(** N is the number of consecutive successes of P just before i, counted from 2 on *)
Definition counts (P : nat -> Prop) (N i : nat) : Prop :=
  ((i < 2 -> N = 0) /\ (2 <= i -> N <= i - 2 /\ (forall j, i - N <= j -> j < i -> P j) /\ (N = i - 2 \/ ~ P (i - N - 1))))%nat.
Lemma counts_early : forall P N i, (i < 2)%nat -> counts P N i -> counts P N (S i).
Proof. intros P N i L [H _]. specialize (H L). subst N. split; [reflexivity|]. intros L2. split; [lia|]. split; [intros; lia|left; lia]. Qed.
Lemma counts_yes : forall P N i, (2 <= i)%nat -> counts P N i -> P i -> counts P (S N) (S i).
Proof. intros P N i L [_ H] Y. destruct (H L) as (A & B & C). split; [lia|]. intros _. split; [lia|]. split; [intros j J1 J2; destruct (Nat.eq_dec j i) as [->|J]; [exact Y|apply B; lia]|]. destruct C as [C|C]; [left; lia|right]. replace (S i - S N - 1)%nat with (i - N - 1)%nat by lia. exact C. Qed.
Lemma counts_no : forall P N i, (2 <= i)%nat -> counts P N i -> ~ P i -> counts P 0 (S i).
Proof. intros P N i L _ Y. split; [lia|]. intros _. split; [lia|]. split; [intros; lia|right]. replace (S i - 0 - 1)%nat with i by lia. exact Y. Qed.
Lemma counts_ext : forall (P Q : nat -> Prop) N i, (forall j, (j < i)%nat -> P j <-> Q j) -> counts P N i -> counts Q N i.
Proof.
  intros P Q N i E [A B]. split; [exact A|]. intros L. destruct (B L) as (B1 & B2 & B3). split; [exact B1|]. split; [intros j J1 J2; apply E, B2; lia|]. destruct B3 as [B3|B3]; [left; exact B3|right; intros X; apply B3, E; [lia|exact X]].
Qed.
Lemma counts_stalled : forall P N n, (1 < n)%nat -> counts P N n -> ((100 < N)%nat <-> (103 <= n)%nat /\ forall j, (n <= j + 101 -> j < n -> P j)%nat).
Proof.
  intros P N n Hn [_ B]. destruct (B ltac:(lia)) as (B1 & B2 & B3). split.
  - intros H. split; [lia|]. intros j J1 J2. apply B2; lia.
  - intros [H1 H2]. destruct B3 as [B3|B3]; [lia|]. destruct (le_lt_dec N 100) as [L|L]; [|exact L]. exfalso. apply B3, H2; lia.
Qed.
Section P.
Context {K : Type}.
Notation design := (K -> R).
Variable f : design -> R.
Variable g : design -> design.
Lemma run_length : forall kd lr x0 n xs ds, run f g kd lr x0 n xs ds -> length xs = S n /\ nth n xs x0 = x0 /\ last xs x0 = x0.
Proof.
  intros kd lr x0 n xs ds H. induction H as [|n x xs ds k H (L & N & La) G]; [repeat split|]. split; [cbn in L |- *; lia|]. split; [exact N|exact La].
Qed.
Lemma map_hseq0 : forall kd lr x0 n xs ds, run f g kd lr x0 n xs ds -> hseq (map f xs) 0 = f x0.
Proof.
  intros kd lr x0 n xs ds H. induction H as [|n x xs ds k H IH G]; [reflexivity|]. unfold hseq in *. rewrite <- IH. cbn [map rev]. rewrite app_nth1; [reflexivity|]. rewrite app_length. cbn. lia.
Qed.
Lemma loop_sound : forall fuel kd c gr lr x0, (forall x, c x = Some (f x)) -> (forall x, gr x = Some (g x)) ->
  forall todo i x st xs ds N1 N2 x' st' hist', run f g kd lr x0 i (x :: xs) ds -> holds kd ds st ->
  counts (small_absolute (hseq (map f (x :: xs)))) N1 i -> counts (small_relative (hseq (map f (x :: xs)))) N2 i ->
  optimize_loop fuel kd c gr lr todo i x st (f x0) (f x) (map f (x :: xs)) N1 N2 = Ret (x', st', hist') ->
  exists n xs' ds' pre, run f g kd lr x0 n (x' :: xs') ds' /\ hist' = map f (x' :: xs') /\ (i <= n <= i + todo)%nat /\ (n = (i + todo)%nat \/ stalled (hseq hist') n) /\ (forall j, (i < j < n)%nat -> ~ stalled (hseq hist') j) /\ x' :: xs' = pre ++ x :: xs /\ holds kd ds' st'.
Proof.
  intros fuel kd c gr lr x0 T TG. induction todo as [|todo IH]; intros i x st xs ds N1 N2 x' st' hist' R H C1 C2 E; cbn [optimize_loop] in E.
  - injection E as <- <- <-. exists i, xs, ds, []. repeat split; try assumption; try lia.
  - rewrite TG in E. cbn [rlift rbind] in E. destruct (backtracking_line_search fuel kd c lr (i + 1) x (g x) (1 / 2) st) as [[[y sy] tau]| |] eqn:ES; cbn [rbind] in E; try discriminate. rewrite T in E. cbn [rlift rbind] in E.
    unfold backtracking_line_search in ES. replace (Rmax 0 (Rmin 1 (1 / 2))) with (1 / 2) in ES by (unfold Rmax, Rmin; destruct (Rle_dec 1 (1 / 2)); destruct (Rle_dec 0 _); lra).
    destruct (search_sound f fuel kd c lr (i + 1) x (g x) (1 / 2) st ds y sy tau T H ES) as (k & _ & G & Ey & _ & Hy).
    assert (Ry : run f g kd lr x0 (S i) (y :: x :: xs) (ds ++ repeat (g x) (k + 1))). { rewrite Ey. constructor; assumption. }
    change (f y :: map f (x :: xs)) with (map f (y :: x :: xs)) in E. set (hl := map f (y :: x :: xs)) in *.
    destruct (run_length _ _ _ _ _ _ R) as (Len & _). assert (EX : forall j, (j <= i)%nat -> hseq (map f (x :: xs)) j = hseq hl j). { intros j J. symmetry. apply (hseq_app [f y]). rewrite map_length. cbn in Len |- *. lia. }
    assert (Top : hseq hl (S i) = f y). { replace (S i) with (length (map f (x :: xs))) by (rewrite map_length; exact Len). apply hseq_top. }
    assert (Prev : hseq hl i = f x). { rewrite <- EX by lia. replace i with (length (map f xs)) by (rewrite map_length; cbn in Len; lia). apply hseq_top. }
    assert (Zero : hseq hl 0 = f x0) by exact (map_hseq0 _ _ _ _ _ _ Ry).
    assert (D1 : counts (small_absolute (hseq hl)) N1 i). { apply (counts_ext _ _ _ _ (fun j J => conj (small_absolute_ext _ _ i j EX J) (small_absolute_ext _ _ i j (fun a b => eq_sym (EX a b)) J)) C1). }
    assert (D2 : counts (small_relative (hseq hl)) N2 i). { apply (counts_ext _ _ _ _ (fun j J => conj (small_relative_ext _ _ i j EX J) (small_relative_ext _ _ i j (fun a b => eq_sym (EX a b)) J)) C2). }
    assert (Next : forall M1 M2, counts (small_absolute (hseq hl)) M1 (S i) -> counts (small_relative (hseq hl)) M2 (S i) -> ~ stalled (hseq hl) (S i) ->
      optimize_loop fuel kd c gr lr todo (S i) y sy (f x0) (f y) hl M1 M2 = Ret (x', st', hist') ->
      exists n xs' ds' pre, run f g kd lr x0 n (x' :: xs') ds' /\ hist' = map f (x' :: xs') /\ (i <= n <= i + S todo)%nat /\ (n = (i + S todo)%nat \/ stalled (hseq hist') n) /\ (forall j, (i < j < n)%nat -> ~ stalled (hseq hist') j) /\ x' :: xs' = pre ++ x :: xs /\ holds kd ds' st').
    { intros M1 M2 F1 F2 NS EL. destruct (IH (S i) y sy (x :: xs) _ M1 M2 x' st' hist' Ry Hy F1 F2 EL) as (n & xs' & ds' & pre & A1 & A2 & A3 & A4 & A5 & A6 & A7).
      exists n, xs', ds', (pre ++ [y]). repeat split; try assumption; try lia.
      - destruct A4 as [A4|A4]; [left; lia|right; exact A4].
      - intros j J. destruct (Nat.eq_dec j (S i)) as [->|Jn]; [|apply A5; lia]. intros X. apply NS. apply (stalled_ext (hseq hist')); [|exact X]. intros a La. rewrite A2, A6, map_app. apply hseq_app. unfold hl. rewrite map_length. cbn. cbn in Len. lia.
      - rewrite <- app_assoc. exact A6. }
    destruct (Nat.ltb_spec 1 i) as [Li|Li].
    + assert (F1 : counts (small_absolute (hseq hl)) (if Rlt_dec (Rabs (f y - f x)) (/ 10 ^ 7 * f x0) then S N1 else 0%nat) (S i)).
      { destruct (Rlt_dec (Rabs (f y - f x)) (/ 10 ^ 7 * f x0)) as [Y|Y]; [apply counts_yes|apply (counts_no _ N1)]; try assumption; unfold small_absolute; rewrite Top, Prev, Zero; exact Y. }
      assert (F2 : counts (small_relative (hseq hl)) (if Rlt_dec (Rabs (f y - f x) / Rmax (Rabs (f y)) (/ 10 ^ 6)) (/ 10 ^ 7) then S N2 else 0%nat) (S i)).
      { destruct (Rlt_dec (Rabs (f y - f x) / Rmax (Rabs (f y)) (/ 10 ^ 6)) (/ 10 ^ 7)) as [Y|Y]; [apply counts_yes|apply (counts_no _ N2)]; try assumption; unfold small_relative; rewrite Top, Prev; exact Y. }
      set (M1 := if Rlt_dec (Rabs (f y - f x)) (/ 10 ^ 7 * f x0) then S N1 else 0%nat) in *. set (M2 := if Rlt_dec (Rabs (f y - f x) / Rmax (Rabs (f y)) (/ 10 ^ 6)) (/ 10 ^ 7) then S N2 else 0%nat) in *.
      pose proof (counts_stalled _ _ (S i) ltac:(lia) F1) as S1. pose proof (counts_stalled _ _ (S i) ltac:(lia) F2) as S2. cbv zeta in E. destruct (Nat.ltb_spec 100 M1) as [L1|L1]; cbn [orb] in E.
      * injection E as <- <- <-. apply S1 in L1. exists (S i), (x :: xs), (ds ++ repeat (g x) (k + 1)), [y]. repeat split; try assumption; try lia; right; split; [tauto|left; tauto].
      * destruct (Nat.ltb_spec 100 M2) as [L2|L2].
        -- injection E as <- <- <-. apply S2 in L2. exists (S i), (x :: xs), (ds ++ repeat (g x) (k + 1)), [y]. repeat split; try assumption; try lia; right; split; [tauto|right; tauto].
        -- apply (Next M1 M2 F1 F2); [|exact E]. intros [X1 [X2|X2]]; [assert (100 < M1)%nat by (apply S1; split; assumption); lia|assert (100 < M2)%nat by (apply S2; split; assumption); lia].
    + apply (Next N1 N2); [apply counts_early; [lia|exact D1]|apply counts_early; [lia|exact D2]|intros [X _]; lia|exact E].
Qed.
Lemma optimize_sound : forall fuel kd c gr lr max_iter x0 b1 b2 x' st' h, (forall x, c x = Some (f x)) -> (forall x, gr x = Some (g x)) ->
  optimize fuel kd c gr lr max_iter x0 (new_optimizer b1 b2) = Ret (x', st', h) ->
  exists n xs ds, run f g kd lr x0 n (x' :: xs) ds /\ h = map f (rev (x' :: xs)) /\ (n <= max_iter)%nat /\ (n = max_iter \/ stalled (fun j => nth j h 0) n) /\ forall j, (j < n)%nat -> ~ stalled (fun j => nth j h 0) j.
Proof.
  intros fuel kd c gr lr max_iter x0 b1 b2 x' st' h T TG E. unfold optimize in E. rewrite T in E. cbn [rlift rbind] in E.
  destruct (optimize_loop fuel kd c gr lr max_iter 0 x0 (new_optimizer b1 b2) (f x0) (f x0) [f x0] 0 0) as [[[y sy] hl]| |] eqn:EL; cbn [rbind] in E; try discriminate. injection E as <- <- <-.
  assert (C0 : forall P, counts P 0 0) by (intros P; split; [reflexivity|lia]).
  assert (H0 : holds kd [] (new_optimizer (K := K) b1 b2)) by (destruct kd; [exact I|split; intros; reflexivity]).
  destruct (loop_sound fuel kd c gr lr x0 T TG max_iter 0 x0 (new_optimizer b1 b2) [] [] 0 0 y sy hl (run_start f g kd lr x0) H0 (C0 _) (C0 _) EL) as (n & xs' & ds' & pre & A1 & A2 & A3 & A4 & A5 & A6 & A7).
  exists n, xs', ds'. split; [exact A1|]. split; [rewrite A2, map_rev; reflexivity|]. split; [lia|]. split; [destruct A4 as [A4|A4]; [left; lia|right; exact A4]|]. intros j J. destruct j as [|j]; [intros [X _]; lia|]. apply A5. lia.
Qed.
(** with enough fuel it ends *)
Lemma loop_ends : forall fuel kd c gr lr k, (forall x, c x = Some (f x)) -> (forall x, gr x = Some (g x)) -> rate lr (1 / 2) k < / 10 ^ 6 -> (k < fuel)%nat ->
  forall todo i x st ds c0 last hist N1 N2, holds kd ds st -> exists r, optimize_loop fuel kd c gr lr todo i x st c0 last hist N1 N2 = Ret r.
Proof.
  intros fuel kd c gr lr k T TG S L. induction todo as [|todo IH]; intros i x st ds c0 last hist N1 N2 H; cbn [optimize_loop]; [eexists; reflexivity|]. rewrite TG. cbn [rlift rbind]. unfold backtracking_line_search.
  replace (Rmax 0 (Rmin 1 (1 / 2))) with (1 / 2) by (unfold Rmax, Rmin; destruct (Rle_dec 1 (1 / 2)); destruct (Rle_dec 0 _); lra).
  destruct (search_complete f k fuel kd c lr (i + 1) x (g x) (1 / 2) st ds T H L (or_intror S)) as [[[y sy] tau] E]. rewrite E. cbn [rbind]. rewrite T. cbn [rlift rbind].
  destruct (search_sound f fuel kd c lr (i + 1) x (g x) (1 / 2) st ds y sy tau T H E) as (k' & _ & _ & _ & _ & Hy).
  destruct (Nat.ltb 1 i); cbv zeta; [|apply (IH _ _ _ _ _ _ _ _ _ Hy)]. destruct (Nat.ltb 100 _ || Nat.ltb 100 _); [eexists; reflexivity|apply (IH _ _ _ _ _ _ _ _ _ Hy)].
Qed.
Lemma optimize_ends : forall kd c gr lr, (forall x, c x = Some (f x)) -> (forall x, gr x = Some (g x)) -> exists fuel, forall fuel' max_iter x0 b1 b2, (fuel <= fuel')%nat -> exists r, optimize fuel' kd c gr lr max_iter x0 (new_optimizer b1 b2) = Ret r.
Proof.
  intros kd c gr lr T TG. destruct (rate_small lr (1 / 2) ltac:(lra)) as [k Hk]. exists (S k). intros fuel' max_iter x0 b1 b2 L. unfold optimize. rewrite T. cbn [rlift rbind].
  assert (H0 : holds kd [] (new_optimizer (K := K) b1 b2)) by (destruct kd; [exact I|split; intros; reflexivity]).
  destruct (loop_ends fuel' kd c gr lr k T TG Hk ltac:(lia) max_iter 0 x0 (new_optimizer b1 b2) [] (f x0) (f x0) [f x0] 0%nat 0%nat H0) as [[[y sy] hl] E]. rewrite E. cbn [rbind]. eexists. reflexivity.
Qed.
Lemma run_unique : forall kd lr x0 n xs ds xs' ds', run f g kd lr x0 n xs ds -> run f g kd lr x0 n xs' ds' -> xs = xs' /\ ds = ds'.
Proof.
  intros kd lr x0 n xs ds xs' ds' H. revert xs' ds'. induction H as [|n x xs ds k H IH G]; intros xs' ds' H'; inversion H' as [|n' x' ys es k' R' G']; subst; [split; reflexivity|]. destruct (IH _ _ R') as [E1 E2]. injection E1 as <- <-. subst es. rewrite (first_good_unique f _ _ _ _ _ _ _ _ _ G' G). split; reflexivity.
Qed.
End P.
(** the betas of the optimizer are irrelevant *)
Section Betas.
Context {K : Type}.
Notation design := (K -> R).
Definition same (a b : ostate K) : Prop := mom1 a = mom1 b /\ mom2 a = mom2 b.
Lemma update_same : forall kd t x g r a b, same a b -> fst (update (K := K) kd t x g r a) = fst (update kd t x g r b) /\ same (snd (update kd t x g r a)) (snd (update kd t x g r b)).
Proof. intros kd t x g r a b [E1 E2]. destruct kd; cbn [update fst snd]; [split; [reflexivity|split; assumption]|]. cbn [mom1 mom2 beta_1 beta_2]. rewrite E1, E2. split; [reflexivity|split; reflexivity]. Qed.
Definition same_res {A} (a b : res (design * ostate K * A)) : Prop :=
  match a, b with Ret (x, s, t), Ret (x', s', t') => x = x' /\ same s s' /\ t = t' | Raise, Raise => True | Loop, Loop => True | _, _ => False end.
Lemma search_same : forall fuel kd c lr t x g tau a b, same a b -> same_res (search_loop (K := K) fuel kd c lr t x g tau a) (search_loop fuel kd c lr t x g tau b).
Proof.
  induction fuel as [|n IH]; intros kd c lr t x g tau a b H; cbn [search_loop]; [exact I|]. destruct (update_same kd t x g (lr * tau) a b H) as [U1 U2]. destruct (update kd t x g (lr * tau) a) as [y sa]. destruct (update kd t x g (lr * tau) b) as [y' sb]. cbn [fst snd] in U1, U2. subst y'.
  destruct (c y); cbn [rlift rbind]; [|exact I]. destruct (c x); cbn [rlift rbind]; [|exact I]. destruct (Rlt_dec _ _); [split; [reflexivity|split; [exact U2|reflexivity]]|]. destruct (Rlt_dec _ _); [split; [reflexivity|split; [exact U2|reflexivity]]|]. apply IH. exact U2.
Qed.
Lemma loop_same : forall fuel kd c gr lr todo i x a b c0 last hist N1 N2, same a b -> same_res (optimize_loop (K := K) fuel kd c gr lr todo i x a c0 last hist N1 N2) (optimize_loop fuel kd c gr lr todo i x b c0 last hist N1 N2).
Proof.
  intros fuel kd c gr lr. induction todo as [|todo IH]; intros i x a b c0 last hist N1 N2 H; cbn [optimize_loop]; [split; [reflexivity|split; [exact H|reflexivity]]|]. destruct (gr x) as [d|]; cbn [rlift rbind]; [|exact I].
  unfold backtracking_line_search. pose proof (search_same fuel kd c lr (i + 1) x d (Rmax 0 (Rmin 1 (1 / 2))) a b H) as S.
  destruct (search_loop fuel kd c lr (i + 1) x d (Rmax 0 (Rmin 1 (1 / 2))) a) as [[[y sa] ta]| |]; destruct (search_loop fuel kd c lr (i + 1) x d (Rmax 0 (Rmin 1 (1 / 2))) b) as [[[y' sb] tb]| |]; cbn [same_res] in S; try contradiction; cbn [rbind]; try exact I.
  destruct S as (<- & S & <-). destruct (c y); cbn [rlift rbind]; [|exact I]. destruct (Nat.ltb 1 i); cbv zeta; [|apply IH; exact S]. destruct (_ || _); [split; [reflexivity|split; [exact S|reflexivity]]|apply IH; exact S].
Qed.
Lemma optimize_same : forall fuel kd c gr lr max_iter x0 b1 b2 b1' b2', same_res (optimize (K := K) fuel kd c gr lr max_iter x0 (new_optimizer b1 b2)) (optimize fuel kd c gr lr max_iter x0 (new_optimizer b1' b2')).
Proof.
  intros. unfold optimize. destruct (c x0) as [c0|]; cbn [rlift rbind]; [|exact I]. pose proof (loop_same fuel kd c gr lr max_iter 0 x0 (new_optimizer b1 b2) (new_optimizer b1' b2') c0 c0 [c0] 0 0 (conj eq_refl eq_refl)) as S.
  destruct (optimize_loop fuel kd c gr lr max_iter 0 x0 (new_optimizer b1 b2) c0 c0 [c0] 0 0) as [[[y sa] ta]| |]; destruct (optimize_loop fuel kd c gr lr max_iter 0 x0 (new_optimizer b1' b2') c0 c0 [c0] 0 0) as [[[y' sb] tb]| |]; cbn [same_res] in S; try contradiction; cbn [rbind]; try exact I.
  destruct S as (<- & S & <-). split; [reflexivity|split; [exact S|reflexivity]].
Qed.
End Betas.
