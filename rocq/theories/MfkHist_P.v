From Coq Require Import Reals Arith Bool List Lia.
From Verif Require Import MfkHist_M.
Import ListNotations.
Open Scope list_scope.
Open Scope nat_scope.

Lemma theta_ok n d t t' : check_theta n d t = (t', true) -> exists rows, t' = TMat d rows /\ length rows = n.
Proof.
  destruct t as [l|c rw|l]; cbn [check_theta]; [| |discriminate].
  - destruct (Nat.eqb_spec (length l) d); cbn [negb]; [intros [= <-]; eexists; split; [reflexivity|apply repeat_length]|].
    destruct (Nat.eqb_spec (length l) 1); [intros [= <-]; eexists; split; [reflexivity|apply repeat_length]|].
    destruct (Nat.eqb_spec (length l) n); [|discriminate]. destruct (Nat.eqb_spec d 1) as [->|]; [|discriminate]. intros [= <-]. eexists. split; [reflexivity|]. rewrite map_length. assumption.
  - destruct (Nat.eqb_spec (length rw) n); destruct (Nat.eqb_spec c d); cbn [andb]; intros [= <-]; try discriminate. subst. eexists. split; reflexivity.
Qed.
Lemma theta_mat n d c rw : check_theta n d (TMat c rw) = (TMat c rw, Nat.eqb (length rw) n && Nat.eqb c d). Proof. reflexivity. Qed.
Lemma spread_ok k n n' : spread k n = (n', true) -> length (n_items n') = k.
Proof.
  unfold spread. destruct (Nat.eqb_spec (length (n_items n)) k); [intros [= <-]; assumption|].
  destruct (Nat.eqb_spec (length (n_items n)) 1); [intros [= <-]; apply repeat_length|discriminate].
Qed.
Lemma spread_same k n : length (n_items n) = k -> spread k n = (n, true). Proof. intros <-. unfold spread. rewrite Nat.eqb_refl. reflexivity. Qed.
Lemma item_idem het lv i i' : check_item het lv i = Some i' -> check_item het lv i' = Some i'.
Proof.
  destruct lv as [nt un]. unfold check_item. cbn [fst snd]. intros H.
  destruct (len i) as [n|] eqn:L.
  - destruct het; [|destruct (Nat.eqb_spec n 1); [|discriminate]; injection H as <-; rewrite L; subst n; reflexivity].
    destruct un; [|injection H as <-; rewrite L; reflexivity].
    destruct (Nat.eqb_spec n nt); [injection H as <-; rewrite L; subst n; rewrite Nat.eqb_refl; reflexivity|].
    destruct (Nat.eqb_spec n 1); [|discriminate]. subst n. destruct i as [s|arr l|arr l]; [discriminate| |].
    + cbn [times_ones] in H. destruct arr; [discriminate|]. injection H as <-. cbn [len]. rewrite repeat_length, Nat.eqb_refl. reflexivity.
    + cbn [times_ones] in H. destruct (Nat.eqb_spec (length l) nt) as [E|E].
      * injection H as <-. cbn [len]. destruct (Nat.eqb_spec 1 nt); [congruence|]. cbn [Nat.eqb times_ones]. rewrite E, Nat.eqb_refl. reflexivity.
      * destruct (negb arr && Nat.eqb (length l) 1); [|discriminate]. injection H as <-. cbn [len]. destruct (Nat.eqb_spec 1 nt); [congruence|]. cbn [Nat.eqb times_ones]. rewrite repeat_length, Nat.eqb_refl. reflexivity.
  - destruct (het && negb un) eqn:E; [|discriminate]. injection H as <-. rewrite L. reflexivity.
Qed.
Lemma items_ok het lvs l l' : check_items het lvs l = (l', true) -> length l' = length l /\ check_items het lvs l' = (l', true).
Proof.
  revert l l'. induction lvs as [|lv lvs IH]; intros [|i l] l'; cbn [check_items]; try (intros [= <-]; split; reflexivity).
  destruct (check_item het lv i) as [i'|] eqn:E; [|discriminate]. destruct (check_items het lvs l) as [r ok] eqn:E2. intros [= <- ->].
  destruct (IH l r E2) as [A B]. split; [cbn [length]; rewrite A; reflexivity|]. rewrite (item_idem _ _ _ _ E), B. reflexivity.
Qed.
(** what a successful check leaves *)
Lemma check_ok nm s o o' : check_param nm s o = (o', true) ->
  (exists rw, o_theta o' = TMat (dim nm s o) rw /\ length rw = nlvl s) /\ length (n_items (o_noise o')) = nlvl s /\
  check_items (o_het o) (s_levels s) (n_items (o_noise o')) = (n_items (o_noise o'), true) /\
  o_ncomp o' = o_ncomp o /\ o_het o' = o_het o /\ o_optim o' = o_optim o /\ o_eval o' = o_eval o.
Proof.
  unfold check_param. destruct (check_theta (nlvl s) (dim nm s o) (o_theta o)) as [t ok] eqn:Et. destruct ok; [|discriminate].
  destruct (spread (nlvl s) (o_noise o)) as [n ok] eqn:En. destruct ok; [|discriminate].
  destruct (check_items (o_het o) (s_levels s) (n_items n)) as [l ok] eqn:El. intros [= <- ->]. cbn.
  destruct (items_ok _ _ _ _ El) as [A B]. pose proof (spread_ok _ _ _ En). split; [destruct (theta_ok _ _ _ _ Et) as (rw & -> & L); exists rw; split; [reflexivity|exact L]|].
  split; [congruence|]. split; [exact B|repeat split].
Qed.
Lemma opts_eta o : o = {| o_theta := o_theta o; o_noise := o_noise o; o_ncomp := o_ncomp o; o_het := o_het o; o_optim := o_optim o; o_eval := o_eval o |}. Proof. destruct o; reflexivity. Qed.
Lemma set_noise_same o n : n = o_noise o -> set_noise o n = o. Proof. intros ->. destruct o; reflexivity. Qed.
Lemma set_theta_same o t : t = o_theta o -> set_theta o t = o. Proof. intros ->. destruct o; reflexivity. Qed.
Lemma noise_eta n : {| n_arr := n_arr n; n_items := n_items n |} = n. Proof. destruct n; reflexivity. Qed.
Lemma dim_ext nm s o o' : o_ncomp o' = o_ncomp o -> dim nm s o' = dim nm s o. Proof. intros E. destruct nm; cbn; congruence. Qed.
(** a state that has passed: the check changes nothing and passes exactly for the same levels and dimension *)
Lemma check_again nm s o o' s2 b : check_param nm s o = (o', true) -> nlvl s2 = nlvl s -> dim nm s2 (set_eval o' b) = dim nm s o -> s_levels s2 = s_levels s ->
  check_param nm s2 (set_eval o' b) = (set_eval o' b, true).
Proof.
  intros H En Ed El. destruct (check_ok _ _ _ _ H) as ((rw & Ht & Lr) & Ln & Hi & Hc & Hh & Ho & He).
  unfold check_param. rewrite Ed, En. cbn [set_eval o_theta o_noise o_het]. rewrite Ht, theta_mat, Lr, !Nat.eqb_refl. cbn [andb].
  rewrite (spread_same _ _ Ln), El, Hh, Hi. f_equal. destruct o'; cbn in *. subst. destruct o_noise; reflexivity.
Qed.
Lemma set_eval_same o : set_eval o (o_eval o) = o. Proof. destruct o; reflexivity. Qed.

Lemma loop_trained nm nx saved out todo : forall k o' res tr, loop nm nx saved out k todo saved = (o', res, tr) ->
  match res with
  | Trained => o' = saved /\ tr = todo /\ forall i, i < length todo -> out (k + i) = None
  | Failed j => k <= j /\ j - k < length todo /\ tr = firstn (S (j - k)) todo /\ exists w, out j = Some w /\
      o' = match nm, w with NPlsk, Some w => set_ncomp (set_theta (enter saved (nth (j - k) todo ([], []))) (TVec w)) nx | _, _ => enter saved (nth (j - k) todo ([], [])) end
  | Rejected => False
  end.
Proof.
  induction todo as [|st r IH]; intros k o' res tr; cbn [loop].
  - intros [= <- <- <-]. split; [reflexivity|]. split; [reflexivity|]. cbn. lia.
  - destruct (out k) as [w|] eqn:E.
    + intros [= <- <- <-]. split; [lia|]. replace (k - k) with 0 by lia. split; [cbn; lia|]. split; [destruct r; reflexivity|]. exists w. split; [exact E|]. reflexivity.
    + destruct (loop nm nx saved out (S k) r saved) as [[o1 res1] tr1] eqn:L. intros [= <- <- <-]. specialize (IH (S k) _ _ _ L). destruct res1 as [|j|]; [exact IH| |].
      * destruct IH as (A & B & -> & w & Ew & ->). split; [lia|]. replace (j - k) with (S (j - S k)) by lia. split; [cbn; lia|]. split; [reflexivity|]. exists w. split; [exact Ew|]. reflexivity.
      * destruct IH as (-> & -> & A). split; [reflexivity|]. split; [reflexivity|]. intros [|i] Hi; [rewrite Nat.add_0_r; exact E|]. replace (k + S i) with (S k + i) by lia. apply A. cbn in Hi. lia.
Qed.
(** the starting values a checked state gives *)
Definition starts (o : opts) : list start := combine (rows (o_theta o)) (map flat (n_items (o_noise o))).
Lemma starts_length nm s o o' : check_param nm s o = (o', true) -> length (starts o') = nlvl s.
Proof. intros H. destruct (check_ok _ _ _ _ H) as ((rw & Ht & Lr) & Ln & _). unfold starts. rewrite Ht. cbn [rows]. unfold start. rewrite combine_length, map_length. lia. Qed.

Lemma new_cases nm s pre out o o' res tr : new_train nm s pre out o = (o', res, tr) ->
  match res with
  | Rejected => tr = [] /\ (pre = false /\ o' = o \/ pre = true /\ check_param nm s o = (o', false))
  | Failed j => pre = true /\ exists o1, check_param nm s o = (o1, true) /\ j < nlvl s /\ tr = firstn (S j) (starts o1) /\ exists w, out j = Some w /\
      o' = match nm, w with NPlsk, Some w => set_ncomp (set_theta (enter o1 (nth j (starts o1) ([], []))) (TVec w)) (s_nx s) | _, _ => enter o1 (nth j (starts o1) ([], [])) end
  | Trained => pre = true /\ check_param nm s o = (o', true) /\ tr = starts o' /\ forall i, i < nlvl s -> out i = None
  end.
Proof.
  unfold new_train. destruct pre; [|intros [= <- <- <-]; split; [reflexivity|left; split; reflexivity]].
  destruct (check_param nm s o) as [o1 ok] eqn:E. destruct ok; [|intros [= <- <- <-]; split; [reflexivity|right; split; reflexivity]].
  change (combine _ _) with (starts o1). intros L. apply loop_trained in L. destruct res as [|j|]; [contradiction| |].
  - destruct L as (_ & A & -> & w & Ew & ->). rewrite Nat.sub_0_r in *. split; [reflexivity|]. exists o1. split; [reflexivity|]. rewrite (starts_length _ _ _ _ E) in A. split; [exact A|]. split; [reflexivity|]. exists w. split; [exact Ew|reflexivity].
  - destruct L as (-> & -> & A). split; [reflexivity|]. split; [reflexivity|]. split; [reflexivity|]. rewrite <- (starts_length _ _ _ _ E). exact A.
Qed.

(** ** train *)
Lemma train_trained nm r o o' tr : train nm r o = (o', Trained, tr) -> exists o1, check_param nm (r_shape r) o = (o1, true) /\ r_pre r = true /\
  (forall t, In t tr -> t = starts o') /\ starts o' = starts o1 /\ tr <> [] /\ o_eval o' && o_optim o' = false /\ exists b, o' = set_eval o1 b.
Proof.
  unfold train. destruct (new_train nm (r_shape r) (r_pre r) (r_out r) o) as [[o1 res] t1] eqn:E. apply new_cases in E. destruct res as [|j|]; [discriminate|discriminate|].
  destruct E as (Hp & C & -> & _). destruct (o_eval o1 && o_optim o1) eqn:Ev.
  - destruct (new_train nm (r_shape r) (r_pre2 r) (r_out2 r) (set_eval o1 false)) as [[o2 res2] t2] eqn:E2. intros [= <- -> <-].
    apply new_cases in E2. destruct E2 as (Hp2 & C2 & -> & _).
    assert (Es : check_param nm (r_shape r) (set_eval o1 false) = (set_eval o1 false, true)).
    { apply (check_again nm (r_shape r) o o1 (r_shape r) false C); try reflexivity. apply dim_ext. destruct (check_ok _ _ _ _ C) as (_ & _ & _ & Hc & _). exact Hc. }
    rewrite Es in C2. injection C2 as <-. exists o1. split; [exact C|]. split; [exact Hp|]. split; [intros t [<- |[<- |[]]]; reflexivity|]. split; [reflexivity|]. split; [discriminate|]. split; [reflexivity|]. exists false. reflexivity.
  - intros [= <- <-]. exists o1. split; [exact C|]. split; [exact Hp|]. split; [intros t [<- |[]]; reflexivity|]. split; [reflexivity|]. split; [discriminate|]. split; [exact Ev|]. exists (o_eval o1). rewrite set_eval_same. reflexivity.
Qed.
Lemma train_off nm r o : o_eval o && o_optim o = false -> train nm r o = let '(o1, res, tr) := new_train nm (r_shape r) (r_pre r) (r_out r) o in (o1, res, [tr]).
Proof.
  intros Ev. unfold train. destruct (new_train nm (r_shape r) (r_pre r) (r_out r) o) as [[o1 res] t1] eqn:E. apply new_cases in E. destruct res as [|j|]; [reflexivity|reflexivity|].
  destruct E as (_ & C & _). destruct (check_ok _ _ _ _ C) as (_ & _ & _ & _ & _ & Ho & He). rewrite Ho, He, Ev. reflexivity.
Qed.
Lemma t_retrain nm r o o' tr r' : train nm r o = (o', Trained, tr) -> r_shape r' = r_shape r -> r_pre r' = true -> (forall k, k < nlvl (r_shape r) -> r_out r' k = None) ->
  exists t, In t tr /\ (forall t', In t' tr -> t' = t) /\ train nm r' o' = (o', Trained, [t]).
Proof.
  intros H Es Hp Ho. destruct (train_trained _ _ _ _ _ H) as (o1 & C & _ & Ht & E1 & Hn & Ev & b & Eb).
  assert (C' : check_param nm (r_shape r') o' = (o', true)).
  { rewrite Es, Eb. apply (check_again nm (r_shape r) o o1 (r_shape r) b C); try reflexivity. apply dim_ext. destruct (check_ok _ _ _ _ C) as (_ & _ & _ & Hc & _). exact Hc. }
  exists (starts o'). split; [destruct tr as [|t tr]; [contradiction|]; left; apply Ht; left; reflexivity|]. split; [exact Ht|].
  rewrite (train_off _ _ _ Ev). destruct (new_train nm (r_shape r') (r_pre r') (r_out r') o') as [[o2 res] t2] eqn:E. apply new_cases in E. rewrite Hp, C' in E. destruct res as [|j|].
  - destruct E as [_ [[E _]|[_ E]]]; discriminate.
  - destruct E as (_ & o3 & [= <-] & Hj & _ & w & Ew & _). rewrite Ho in Ew by (rewrite <- Es; exact Hj). discriminate.
  - destruct E as (_ & [= <-] & -> & _). reflexivity.
Qed.
Lemma lock nm r o : (exists l, o_theta o = TVec l) -> exists o' tr, train nm r o = (o', Rejected, tr) /\ exists l, o_theta o' = TVec l.
Proof.
  intros [l Hl]. unfold train, new_train, check_param. rewrite Hl. destruct (r_pre r); cbn [check_theta]; do 2 eexists; (split; [reflexivity|]); exists l; [reflexivity|exact Hl].
Qed.
Lemma t_lock nm l : forall o, (exists v, o_theta o = TVec v) -> (forall t, ~ In (SetTheta t) l) -> forall res, In res (snd (history nm l o)) -> res = Rejected.
Proof.
  induction l as [|e l IH]; intros o Hv Hn res; [intros []|]. destruct e as [r|t|n]; cbn [history].
  - destruct (lock nm r o Hv) as (o' & tr & E & Hv'). rewrite E. specialize (IH o' Hv' (fun t H => Hn t (or_intror H))). destruct (history nm l o') as [o2 rs]. cbn [snd] in *. intros [<- |H]; [reflexivity|apply IH; exact H].
  - exfalso. apply (Hn t). left. reflexivity.
  - apply IH; [exact Hv|]. intros t H. apply (Hn t). right. exact H.
Qed.
Lemma train_failed nm r o o' k tr : train nm r o = (o', Failed k, tr) -> exists st o1 w, In st (concat tr) /\ nth_error (last tr []) k = Some st /\ k < nlvl (r_shape r) /\ o_ncomp o1 = o_ncomp o /\ o_het o1 = o_het o /\
  o' = match nm, w with NPlsk, Some w => set_ncomp (set_theta (enter o1 st) (TVec w)) (s_nx (r_shape r)) | _, _ => enter o1 st end.
Proof.
  assert (G : forall pre out o o' tr, new_train nm (r_shape r) pre out o = (o', Failed k, tr) -> exists st o1 w, In st tr /\ nth_error tr k = Some st /\ k < nlvl (r_shape r) /\ o_ncomp o1 = o_ncomp o /\ o_het o1 = o_het o /\
    o' = match nm, w with NPlsk, Some w => set_ncomp (set_theta (enter o1 st) (TVec w)) (s_nx (r_shape r)) | _, _ => enter o1 st end).
  { clear. intros pre out o o' tr E. apply new_cases in E. destruct E as (_ & o1 & C & Hk & -> & w & _ & ->). destruct (check_ok _ _ _ _ C) as (_ & _ & _ & Hc & Hh & _). pose proof (starts_length _ _ _ _ C) as L.
    assert (N : nth_error (firstn (S k) (starts o1)) k = Some (nth k (starts o1) ([], []))).
    { rewrite <- L in Hk. clear -Hk. revert k Hk. induction (starts o1) as [|a l IH]; intros k Hk; [cbn in Hk; lia|]. destruct k as [|k]; [reflexivity|]. cbn [firstn nth_error nth]. apply IH. cbn in Hk. lia. }
    exists (nth k (starts o1) ([], [])), o1, w. split; [exact (nth_error_In _ _ N)|]. split; [exact N|]. split; [exact Hk|]. split; [exact Hc|]. split; [exact Hh|]. reflexivity. }
  unfold train. destruct (new_train nm (r_shape r) (r_pre r) (r_out r) o) as [[o1 res] t1] eqn:E. destruct res as [|j|].
  - discriminate.
  - intros [= <- -> <-]. destruct (G _ _ _ _ _ E) as (st & o2 & w & A & B & C). exists st, o2, w. split; [cbn; rewrite app_nil_r; exact A|]. split; [exact B|exact C].
  - destruct (o_eval o1 && o_optim o1); [|discriminate]. destruct (new_train nm (r_shape r) (r_pre2 r) (r_out2 r) (set_eval o1 false)) as [[o2 res2] t2] eqn:E2. intros [= <- -> <-].
    destruct (G _ _ _ _ _ E2) as (st & o3 & w & A & B & C & D & D2 & D3). apply new_cases in E. destruct E as (_ & Ck & _). destruct (check_ok _ _ _ _ Ck) as (_ & _ & _ & Hc & Hh & _).
    exists st, o3, w. split; [cbn; rewrite app_nil_r; apply in_or_app; right; exact A|]. split; [exact B|]. split; [exact C|]. cbn [set_eval o_ncomp o_het] in D, D2. split; [congruence|]. split; [congruence|exact D3].
Qed.
Lemma failed_theta nm r o o' k tr : train nm r o = (o', Failed k, tr) -> exists v, o_theta o' = TVec v.
Proof. intros H. destruct (train_failed _ _ _ _ _ _ H) as (st & o1 & w & _ & _ & _ & _ & _ & ->). destruct nm, w; eexists; reflexivity. Qed.
