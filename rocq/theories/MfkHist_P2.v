From Coq Require Import Reals Arith Bool List Lia.
From Verif Require Import MfkHist_M MfkHist_P.
Import ListNotations.
Open Scope list_scope.
Open Scope nat_scope.

Lemma items_plain lvs : forall l, check_items false lvs l = (l, true) -> length lvs = length l -> List.Forall (fun i => len i = Some 1) l.
Proof.
  induction lvs as [|lv lvs IH]; intros [|i l]; cbn [check_items length]; try (intros; constructor; fail); try discriminate.
  unfold check_item. destruct (len i) as [n|] eqn:L; cbn [andb]; [|discriminate]. destruct (Nat.eqb_spec n 1); [|discriminate]. destruct (check_items false lvs l) as [r ok] eqn:E. intros [= -> ->] Hl. subst n. constructor; [exact L|]. apply IH; [exact E|lia].
Qed.
Lemma items_plain_back lvs : forall l, List.Forall (fun i => len i = Some 1) l -> check_items false lvs l = (l, true).
Proof.
  induction lvs as [|lv lvs IH]; intros [|i l] H; cbn [check_items]; try reflexivity. inversion H; subst. unfold check_item. rewrite H2. cbn [Nat.eqb]. rewrite (IH l H3). reflexivity.
Qed.
Lemma not_rejected nm r o o' : o_eval o && o_optim o = false -> r_pre r = true -> check_param nm (r_shape r) o = (o', true) -> snd (fst (train nm r o)) <> Rejected.
Proof.
  intros Ev Hp C. rewrite (train_off _ _ _ Ev). destruct (new_train nm (r_shape r) (r_pre r) (r_out r) o) as [[o2 res] t] eqn:E. apply new_cases in E. rewrite Hp, C in E. cbn. destruct res; [|discriminate|discriminate]. destruct E as [_ [[E _]|[_ E]]]; discriminate.
Qed.
Lemma rejected nm r o o' : check_param nm (r_shape r) o = (o', false) -> snd (fst (train nm r o)) = Rejected.
Proof. intros C. unfold train, new_train. destruct (r_pre r); [rewrite C|]; reflexivity. Qed.
Lemma check_snd nm s o : snd (check_param nm s o) = true -> exists o', check_param nm s o = (o', true). Proof. intros H. destruct (check_param nm s o) as [o' ok]. cbn in H. subst ok. exists o'. reflexivity. Qed.

Lemma t_other_shape nm r o o' tr r2 : train nm r o = (o', Trained, tr) -> o_het o = false -> r_pre r2 = true ->
  (snd (fst (train nm r2 o')) <> Rejected <-> nlvl (r_shape r2) = nlvl (r_shape r) /\ (nm = NMfk -> s_nx (r_shape r2) = s_nx (r_shape r))).
Proof.
  intros H Hh Hp. destruct (train_trained _ _ _ _ _ H) as (o1 & C & _ & _ & _ & _ & Ev & b & Eb). destruct (check_ok _ _ _ _ C) as ((rw & Ht & Lr) & Ln & Hi & Hc & Hh1 & Ho & He).
  assert (Ed : dim nm (r_shape r2) o' = dim nm (r_shape r) o <-> (nm = NMfk -> s_nx (r_shape r2) = s_nx (r_shape r))).
  { rewrite Eb. destruct nm; cbn; [|rewrite Hc; split; [discriminate|reflexivity]..]. split; [intros E _; exact E|intros E; apply E; reflexivity]. }
  rewrite <- Ed. split.
  - intros N. destruct (check_param nm (r_shape r2) o') as [o2 ok] eqn:C2. destruct ok; [|rewrite (rejected _ _ _ _ C2) in N; contradiction].
    unfold check_param in C2. rewrite Eb in C2 at 2. cbn [set_eval o_theta] in C2. rewrite Ht, theta_mat, Lr in C2.
    destruct (Nat.eqb_spec (nlvl (r_shape r)) (nlvl (r_shape r2))); [|discriminate]. destruct (Nat.eqb_spec (dim nm (r_shape r) o) (dim nm (r_shape r2) o')); [|discriminate]. split; congruence.
  - intros [En Ed']. assert (C2 : exists o2, check_param nm (r_shape r2) o' = (o2, true)).
    { unfold check_param. rewrite Ed', En. rewrite Eb. cbn [set_eval o_theta o_noise o_het]. rewrite Ht, theta_mat, Lr, !Nat.eqb_refl. cbn [andb]. rewrite (spread_same _ _ Ln), Hh1, Hh.
      rewrite Hh in Hi. apply items_plain in Hi; [|symmetry; exact Ln]. rewrite (items_plain_back _ _ Hi). eexists. reflexivity. }
    destruct C2 as [o2 C2]. exact (not_rejected _ _ _ _ Ev Hp C2).
Qed.

(** theta0 = [a], noise0 one number, no use_het_noise *)
Lemma repeat_all {A} (x y : A) n : In y (repeat x n) -> y = x. Proof. apply repeat_spec. Qed.
Lemma combine_repeat {A B} (a : A) (b : B) n : combine (repeat a n) (repeat b n) = repeat (a, b) n. Proof. induction n as [|n IH]; [reflexivity|]. cbn. rewrite IH. reflexivity. Qed.
Lemma map_repeat' {A B} (f : A -> B) x n : map f (repeat x n) = repeat (f x) n. Proof. induction n as [|n IH]; [reflexivity|]. cbn. rewrite IH. reflexivity. Qed.
Lemma theta_one n d a : check_theta n d (TList [a]) = (TMat d (repeat (repeat a d) n), true).
Proof. cbn [check_theta length nth]. destruct (Nat.eqb_spec 1 d) as [<-|N]; reflexivity. Qed.
Lemma plain nm s o a ar x : o_theta o = TList [a] -> o_noise o = {| n_arr := ar; n_items := [Num x] |} -> o_het o = false ->
  (nlvl s = 1 -> exists o', check_param nm s o = (o', false)) /\
  (2 <= nlvl s -> exists o', check_param nm s o = (o', true) /\ starts o' = repeat (repeat a (dim nm s o), [x]) (nlvl s)).
Proof.
  intros Ht Hn Hh. unfold check_param. rewrite Ht, theta_one, Hn, Hh. unfold spread. cbn [n_items length n_arr]. split.
  - intros E. rewrite E. destruct (s_levels s) as [|lv lvs] eqn:El; [unfold nlvl in E; rewrite El in E; discriminate|]. cbn [Nat.eqb n_items check_items]. unfold check_item. cbn [len andb negb n_arr]. eexists. reflexivity.
  - intros E. destruct (Nat.eqb_spec 1 (nlvl s)); [lia|]. cbn [Nat.eqb n_items n_arr]. rewrite items_plain_back; [|apply Forall_forall; intros i Hi; apply repeat_spec in Hi; subst i; reflexivity].
    eexists. split; [reflexivity|]. unfold starts. cbn [set_noise set_theta o_theta o_noise rows n_items]. rewrite map_repeat'. apply combine_repeat.
Qed.
Lemma plain_train nm r o a ar x : o_theta o = TList [a] -> o_noise o = {| n_arr := ar; n_items := [Num x] |} -> o_het o = false -> r_pre r = true ->
  (nlvl (r_shape r) = 1 -> snd (fst (train nm r o)) = Rejected) /\
  (2 <= nlvl (r_shape r) -> concat (snd (train nm r o)) <> [] /\ forall st, In st (concat (snd (train nm r o))) -> st = (repeat a (dim nm (r_shape r) o), [x])).
Proof.
  intros Ht Hn Hh Hp. destruct (plain nm (r_shape r) o a ar x Ht Hn Hh) as [P1 P2]. split; [intros E; destruct (P1 E) as [o' C]; exact (rejected _ _ _ _ C)|]. intros E. destruct (P2 E) as (o1 & C & S1).
  assert (D : forall tr k, (tr = starts o1 \/ tr = firstn (S k) (starts o1)) -> tr <> [] /\ forall st, In st tr -> st = (repeat a (dim nm (r_shape r) o), [x])).
  { intros tr k. rewrite S1. destruct (nlvl (r_shape r)) as [|n] eqn:En; [lia|]. intros [->| ->]; cbn [repeat firstn]; (split; [discriminate|]); intros st H; apply (repeat_spec (S n) (repeat a (dim nm (r_shape r) o), [x])); cbn [repeat]; [exact H|].
    destruct H as [<- |H]; [left; reflexivity|right]. rewrite <- (firstn_skipn k (repeat _ n)). apply in_or_app. left. exact H. }
  unfold train. destruct (new_train nm (r_shape r) (r_pre r) (r_out r) o) as [[o2 res] t1] eqn:E1. apply new_cases in E1. rewrite Hp, C in E1. destruct res as [|j|].
  - exfalso. destruct E1 as [_ [[E1 _]|[_ E1]]]; discriminate.
  - destruct E1 as (_ & o3 & [= <-] & _ & -> & _). cbn [snd concat]. rewrite app_nil_r. apply (D _ j). right. reflexivity.
  - destruct E1 as (_ & [= <-] & -> & _). destruct (D (starts o1) 0 (or_introl eq_refl)) as [D1 D2]. destruct (o_eval o1 && o_optim o1); [|cbn [snd concat]; rewrite app_nil_r; split; [exact D1|exact D2]].
    destruct (new_train nm (r_shape r) (r_pre2 r) (r_out2 r) (set_eval o1 false)) as [[o3 res2] t2] eqn:E2. cbn [snd concat]. rewrite app_nil_r. split; [intros N; apply app_eq_nil in N; apply D1; apply N|].
    intros st Hs. apply in_app_or in Hs. destruct Hs as [Hs|Hs]; [exact (D2 st Hs)|]. apply new_cases in E2.
    assert (Es : check_param nm (r_shape r) (set_eval o1 false) = (set_eval o1 false, true)).
    { apply (check_again nm (r_shape r) o o1 (r_shape r) false C); try reflexivity. apply dim_ext. destruct (check_ok _ _ _ _ C) as (_ & _ & _ & Hc & _). exact Hc. }
    rewrite Es in E2. destruct res2 as [|j|].
    + destruct E2 as [-> _]. destruct Hs.
    + destruct E2 as (_ & o4 & [= <-] & _ & -> & _). change (starts (set_eval o1 false)) with (starts o1) in Hs. exact (proj2 (D _ j (or_intror eq_refl)) st Hs).
    + destruct E2 as (_ & [= <-] & -> & _). change (starts (set_eval o1 false)) with (starts o1) in Hs. exact (D2 st Hs).
Qed.
Lemma t_recover nm r o o' k tr t x a r2 : train nm r o = (o', Failed k, tr) -> nth_error (last tr []) k = Some (t, [x]) -> o_het o = false -> r_pre r2 = true ->
  let o2 := set_theta o' (TList [a]) in
  (nlvl (r_shape r2) = 1 -> snd (fst (train nm r2 o2)) = Rejected) /\
  (2 <= nlvl (r_shape r2) -> concat (snd (train nm r2 o2)) <> [] /\ forall st, In st (concat (snd (train nm r2 o2))) -> st = (repeat a (dim nm (r_shape r2) o'), [x])).
Proof.
  intros H N Hh Hp. destruct (train_failed _ _ _ _ _ _ H) as (st & o1 & w & _ & N' & _ & _ & Hh1 & E). rewrite N in N'. injection N' as <-.
  cbv zeta. apply (plain_train nm r2 (set_theta o' (TList [a])) a true x); [reflexivity| | |exact Hp]; rewrite E; destruct nm, w; try reflexivity; cbn; congruence.
Qed.
Lemma t_ncomp nm r o o' res tr : train nm r o = (o', res, tr) -> o_ncomp o' = o_ncomp o \/ (nm = NPlsk /\ (exists k, res = Failed k) /\ o_ncomp o' = s_nx (r_shape r)).
Proof.
  intros H. destruct res as [|k|].
  - left. assert (G : forall nm s o o' ok, check_param nm s o = (o', ok) -> o_ncomp o' = o_ncomp o).
    { clear. intros nm s o o' ok. unfold check_param. destruct (check_theta (nlvl s) (dim nm s o) (o_theta o)) as [t [|]]; [|intros [= <- <-]; reflexivity].
      destruct (spread (nlvl s) (o_noise o)) as [n [|]]; [|intros [= <- <-]; reflexivity]. destruct (check_items (o_het o) (s_levels s) (n_items n)) as [l b]. intros [= <- <-]. reflexivity. }
    unfold train in H. destruct (new_train nm (r_shape r) (r_pre r) (r_out r) o) as [[o1 res] t1] eqn:E. apply new_cases in E. destruct res as [|j|]; [|discriminate|].
    + injection H as <- <-. destruct E as [_ [[_ ->]|[_ C]]]; [reflexivity|exact (G _ _ _ _ _ C)].
    + destruct E as (_ & C & _). apply G in C. destruct (o_eval o1 && o_optim o1); [|discriminate]. destruct (new_train nm (r_shape r) (r_pre2 r) (r_out2 r) (set_eval o1 false)) as [[o2 res2] t2] eqn:E2. injection H as <- -> <-. apply new_cases in E2.
      destruct E2 as [_ [[_ ->]|[_ C2]]]; [exact C|]. apply G in C2. cbn in C2. congruence.
  - destruct (train_failed _ _ _ _ _ _ H) as (st & o1 & w & _ & _ & _ & Hc & _ & ->). destruct nm, w; cbn; try (left; exact Hc). right. split; [reflexivity|]. split; [exists k; reflexivity|reflexivity].
  - left. destruct (train_trained _ _ _ _ _ H) as (o1 & C & _ & _ & _ & _ & _ & b & ->). destruct (check_ok _ _ _ _ C) as (_ & _ & _ & Hc & _). exact Hc.
Qed.
(** a refused noise0 leaves theta0 converted for this number of levels and dimension *)
Lemma t_bad_noise nm r o a : o_theta o = TList [a] -> r_pre r = true -> length (n_items (o_noise o)) <> nlvl (r_shape r) -> length (n_items (o_noise o)) <> 1 ->
  exists o', train nm r o = (o', Rejected, [[]]) /\ forall n r2, snd (fst (train nm r2 (set_noise o' n))) <> Rejected ->
  nlvl (r_shape r2) = nlvl (r_shape r) /\ (nm = NMfk -> s_nx (r_shape r2) = s_nx (r_shape r)).
Proof.
  intros Ht Hp N1 N2. assert (C : check_param nm (r_shape r) o = (set_noise (set_theta o (TMat (dim nm (r_shape r) o) (repeat (repeat a (dim nm (r_shape r) o)) (nlvl (r_shape r))))) (o_noise o), false)).
  { unfold check_param. rewrite Ht, theta_one. unfold spread. destruct (Nat.eqb_spec (length (n_items (o_noise o))) (nlvl (r_shape r))); [contradiction|]. destruct (Nat.eqb_spec (length (n_items (o_noise o))) 1); [contradiction|]. reflexivity. }
  eexists. split; [unfold train, new_train; rewrite Hp, C; reflexivity|]. intros n r2 H. match type of H with context [train nm r2 ?x] => set (o2 := x) in H end.
  destruct (check_param nm (r_shape r2) o2) as [o3 ok] eqn:C2. destruct ok; [|rewrite (rejected _ _ _ _ C2) in H; contradiction]. unfold check_param in C2. unfold o2 in C2 at 2. cbn [set_noise set_theta o_theta] in C2. rewrite theta_mat, repeat_length in C2.
  destruct (Nat.eqb_spec (nlvl (r_shape r)) (nlvl (r_shape r2))) as [E1|]; [|discriminate]. destruct (Nat.eqb_spec (dim nm (r_shape r) o) (dim nm (r_shape r2) o2)) as [E2|]; [|discriminate]. split; [congruence|]. intros ->. cbn in E2. congruence.
Qed.
(** use_het_noise: the number of points per level is frozen *)
Lemma het_items lvs : forall l x, (forall lv, In lv lvs -> snd lv = true /\ 2 <= fst lv) -> length l = length lvs -> (forall i, In i l -> i = Seq false [x]) ->
  check_items true lvs l = (map (fun lv : nat * bool => Seq true (repeat x (fst lv))) lvs, true).
Proof.
  induction lvs as [|lv lvs IH]; intros [|i l] x U L F; try discriminate; [reflexivity|]. cbn [check_items map]. destruct (U lv (or_introl eq_refl)) as [U1 U2]. rewrite (F i (or_introl eq_refl)). unfold check_item. cbn [len length]. rewrite U1.
  destruct (Nat.eqb_spec 1 (fst lv)); [lia|]. cbn [Nat.eqb times_ones nth]. rewrite (IH l x (fun v H => U v (or_intror H))); [reflexivity|cbn in L; lia|intros j H; apply F; right; exact H].
Qed.
Lemma het_again lvs : forall lvs2 x, (forall lv, In lv lvs -> 2 <= fst lv) -> (forall lv, In lv lvs2 -> snd lv = true) -> length lvs2 = length lvs ->
  snd (check_items true lvs2 (map (fun lv : nat * bool => Seq true (repeat x (fst lv))) lvs)) = true -> map fst lvs2 = map fst lvs.
Proof.
  induction lvs as [|lv lvs IH]; intros [|lv2 lvs2] x U U2 L; try discriminate; [reflexivity|]. cbn [map check_items]. unfold check_item. cbn [len]. rewrite repeat_length, (U2 lv2 (or_introl eq_refl)).
  destruct (Nat.eqb_spec (fst lv) (fst lv2)) as [E|E].
  - destruct (check_items true lvs2 (map (fun lv : nat * bool => Seq true (repeat x (fst lv))) lvs)) as [r ok] eqn:C. cbn [snd]. intros ->. cbn in L. rewrite E, (IH lvs2 x); [reflexivity|intros v H; apply U; right; exact H|intros v H; apply U2; right; exact H|lia|rewrite C; reflexivity].
  - pose proof (U lv (or_introl eq_refl)). destruct (Nat.eqb_spec (fst lv) 1); [lia|]. discriminate.
Qed.
Lemma t_het nm r o o' tr x r2 : train nm r o = (o', Trained, tr) -> o_het o = true -> o_noise o = {| n_arr := false; n_items := [Num x] |} ->
  (forall lv, In lv (s_levels (r_shape r)) -> snd lv = true /\ 2 <= fst lv) -> (forall lv, In lv (s_levels (r_shape r2)) -> snd lv = true) -> 2 <= nlvl (r_shape r) ->
  snd (fst (train nm r2 o')) <> Rejected -> map fst (s_levels (r_shape r2)) = map fst (s_levels (r_shape r)).
Proof.
  intros H Hh Hn U U2 N R. destruct (train_trained _ _ _ _ _ H) as (o1 & C & _ & _ & _ & _ & Ev & b & Eb). destruct (check_ok _ _ _ _ C) as ((rw & Ht & Lr) & Ln & _ & Hc & Hh1 & Ho & He).
  assert (En : o_noise o1 = {| n_arr := false; n_items := map (fun lv : nat * bool => Seq true (repeat x (fst lv))) (s_levels (r_shape r)) |}).
  { unfold check_param in C. destruct (check_theta (nlvl (r_shape r)) (dim nm (r_shape r) o) (o_theta o)) as [t [|]]; [|discriminate]. rewrite Hn, Hh in C. unfold spread in C. cbn [n_items length n_arr] in C. destruct (Nat.eqb_spec 1 (nlvl (r_shape r))); [lia|]. cbn [Nat.eqb n_items n_arr] in C.
    rewrite (het_items (s_levels (r_shape r)) (repeat (wrap {| n_arr := false; n_items := [Num x] |}) (nlvl (r_shape r))) x U) in C; [injection C as <-; reflexivity|apply repeat_length|intros i Hi; apply repeat_spec in Hi; exact Hi]. }
  destruct (check_param nm (r_shape r2) o') as [o2 ok] eqn:C2. destruct ok; [|rewrite (rejected _ _ _ _ C2) in R; contradiction]. unfold check_param in C2. rewrite Eb in C2 at 2. cbn [set_eval o_theta] in C2. rewrite Ht, theta_mat, Lr in C2.
  destruct (Nat.eqb_spec (nlvl (r_shape r)) (nlvl (r_shape r2))) as [El|]; [|discriminate]. destruct (Nat.eqb_spec (dim nm (r_shape r) o) (dim nm (r_shape r2) o')); [|discriminate]. cbn [andb] in C2.
  rewrite Eb in C2 at 1. cbn [set_eval o_noise o_het] in C2. rewrite (spread_same _ (o_noise o1)) in C2 by (rewrite Ln; exact El).
  assert (C3 : snd (check_items (o_het o') (s_levels (r_shape r2)) (n_items (o_noise o1))) = true). { destruct (check_items (o_het o') (s_levels (r_shape r2)) (n_items (o_noise o1))) as [l ok]. injection C2 as _ <-. reflexivity. }
  rewrite Eb in C3. cbn [set_eval o_het] in C3. rewrite Hh1, Hh, En in C3. cbn [n_items] in C3. refine (het_again _ _ x _ U2 _ C3); [intros lv Hl; apply U; exact Hl|symmetry; exact El].
Qed.

Lemma t_left nm r o o' k tr : train nm r o = (o', Failed k, tr) -> exists t n, nth_error (last tr []) k = Some (t, n) /\
  o_noise o' = {| n_arr := true; n_items := map Num n |} /\
  (o_theta o' = TVec t \/ (nm = NPlsk /\ exists w, (r_out r k = Some (Some w) \/ r_out2 r k = Some (Some w)) /\ o_theta o' = TVec w)).
Proof.
  assert (G : forall pre out o o' tr, new_train nm (r_shape r) pre out o = (o', Failed k, tr) -> exists t n, nth_error tr k = Some (t, n) /\ o_noise o' = {| n_arr := true; n_items := map Num n |} /\
    (o_theta o' = TVec t \/ (nm = NPlsk /\ exists w, out k = Some (Some w) /\ o_theta o' = TVec w))).
  { clear. intros pre out o o' tr E. apply new_cases in E. destruct E as (_ & o1 & C & Hk & -> & w & Ew & ->). pose proof (starts_length _ _ _ _ C) as L.
    assert (N : nth_error (firstn (S k) (starts o1)) k = Some (nth k (starts o1) ([], []))).
    { rewrite <- L in Hk. clear -Hk. revert k Hk. induction (starts o1) as [|a l IH]; intros k Hk; [cbn in Hk; lia|]. destruct k as [|k]; [reflexivity|]. cbn [firstn nth_error nth]. apply IH. cbn in Hk. lia. }
    destruct (nth k (starts o1) ([], [])) as [t n]. exists t, n. split; [exact N|]. destruct nm, w as [w|]; (split; [reflexivity|]); try (left; reflexivity).
    right. split; [reflexivity|]. exists w. split; [exact Ew|reflexivity]. }
  unfold train. destruct (new_train nm (r_shape r) (r_pre r) (r_out r) o) as [[o1 res] t1] eqn:E. destruct res as [|j|].
  - discriminate.
  - intros [= <- -> <-]. destruct (G _ _ _ _ _ E) as (t & n & A & B & C). exists t, n. split; [exact A|]. split; [exact B|]. destruct C as [C|(C & w & D & F)]; [left; exact C|right; split; [exact C|]; exists w; split; [left; exact D|exact F]].
  - destruct (o_eval o1 && o_optim o1); [|discriminate]. destruct (new_train nm (r_shape r) (r_pre2 r) (r_out2 r) (set_eval o1 false)) as [[o2 res2] t2] eqn:E2. intros [= <- -> <-].
    destruct (G _ _ _ _ _ E2) as (t & n & A & B & C). exists t, n. split; [exact A|]. split; [exact B|]. destruct C as [C|(C & w & D & F)]; [left; exact C|right; split; [exact C|]; exists w; split; [right; exact D|exact F]].
Qed.
