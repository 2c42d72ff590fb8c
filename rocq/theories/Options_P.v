From Coq Require Import String ZArith Bool Arith Lia List.
From Verif Require Import Options_M Options_S.
Import ListNotations.
Open Scope string_scope.
Open Scope list_scope.

Lemma lookup_insert A k (v : A) m n :
  lookup n (insert k v m) = if String.eqb n k then Some v else lookup n m.
Proof.
  unfold lookup, insert; cbn [find fst snd].
  destruct (String.eqb_spec n k) as [->|Hne]; [reflexivity|].
  assert (H : find (fun p => String.eqb n (fst p)) (filter (fun p => negb (String.eqb k (fst p))) m)
              = find (fun p => String.eqb n (fst p)) m).
  { induction m as [|[a b] m IH]; cbn; [reflexivity|].
    destruct (String.eqb_spec k a) as [->|Hka]; cbn.
    - destruct (String.eqb_spec n a) as [->|]; [congruence|exact IH].
    - destruct (String.eqb_spec n a); [reflexivity|exact IH]. }
  rewrite H; reflexivity.
Qed.

Lemma nth_error_set_nth A i (x : A) l j :
  nth_error (set_nth i x l) j = if Nat.eqb i j then (match nth_error l i with Some _ => Some x | None => None end) else nth_error l j.
Proof.
  unfold set_nth; revert i j; induction l as [|a l IH]; intros i j; cbn.
  - rewrite firstn_nil, skipn_nil; cbn. destruct (Nat.eqb_spec i j); destruct i, j; cbn; reflexivity.
  - destruct i as [|i]; cbn.
    + destruct j; cbn; reflexivity.
    + destruct j as [|j]; cbn; [reflexivity|]. exact (IH i j).
Qed.

Lemma length_set_nth A i (x : A) l : length (set_nth i x l) = length l.
Proof.
  unfold set_nth; revert i; induction l as [|a l IH]; intros i; cbn.
  - rewrite firstn_nil, skipn_nil; reflexivity.
  - destruct i; cbn; [reflexivity|]. f_equal. apply IH.
Qed.

Lemma set_nth_same A i (x : A) l : nth_error l i = Some x -> set_nth i x l = l.
Proof.
  unfold set_nth; revert i; induction l as [|a l IH]; intros i; cbn.
  - destruct i; discriminate.
  - destruct i; cbn; [intros [=->]; reflexivity|]. intros H; f_equal; apply IH, H.
Qed.

(** what a state answers *)
Definition rd (s : state) (i : nat) (n : string) : option value :=
  match nth_error (pool s) i with Some o => lookup n (o_dict o) | None => None end.
Definition dc (s : state) (i : nat) (n : string) : option decl :=
  match nth_error (pool s) i with Some o => lookup n (o_decl o) | None => None end.

Lemma py_eq_same a b : py_eq a b = true <-> same a b.
Proof.
  split.
  - destruct a, b; unfold py_eq; cbn [as_int]; try discriminate; intros H;
      try (apply andb_true_iff in H; destruct H as [H H2]; apply Nat.eqb_eq in H2); try (apply Z.eqb_eq in H); try (apply String.eqb_eq in H); subst;
      repeat match goal with b : bool |- _ => destruct b end; try discriminate; constructor.
  - intros []; try reflexivity. destruct v; cbn; try reflexivity; rewrite ?Z.eqb_refl, ?String.eqb_refl, ?Nat.eqb_refl; try reflexivity.
Qed.
Lemma isinstance_spec v t : isinstance1 v t = true <-> instance v t.
Proof.
  split.
  - destruct v, t; cbn; try discriminate; intros H; try constructor. apply String.eqb_eq in H. subst. constructor.
  - intros []; cbn; try reflexivity. apply String.eqb_refl.
Qed.
Lemma assert_valid_iff d v : assert_valid d v = true <-> admissible d v.
Proof.
  assert (Hm : forall vs, member v vs = true <-> listed v vs).
  { intros vs; unfold member, listed; rewrite existsb_exists; split; intros [w [A B]]; exists w; (split; [exact A|]); apply py_eq_same; exact B. }
  assert (Ht : forall ts, isinstance v ts = true <-> has_type v ts).
  { intros ts; unfold isinstance, has_type; rewrite existsb_exists; split; intros [w [A B]]; exists w; (split; [exact A|]); apply isinstance_spec; exact B. }
  unfold assert_valid, admissible.
  destruct (d_values d), (d_types d); rewrite ?orb_true_iff, ?Hm, ?Ht; tauto.
Qed.

Lemma od_set_spec o n v :
  let '(o', r) := od_set o n v in
  (forall m, lookup m (o_decl o') = lookup m (o_decl o)) /\
  ((r = OOk /\ (forall m, lookup m (o_dict o') = if String.eqb m n then Some v else lookup m (o_dict o)))
   \/ (r = OAssert n /\ o' = o)).
Proof.
  unfold od_set. destruct (lookup n (o_decl o)) as [d|] eqn:Hd.
  - destruct (assert_valid d v) eqn:Hv.
    + split; [reflexivity|]. left; split; [reflexivity|]. intros m; cbn. apply lookup_insert.
    + split; [reflexivity|]. right; auto.
  - split; [reflexivity|]. right; auto.
Qed.

Lemma entry_none n kvs : ~ In n (map fst kvs) -> entry n kvs = None.
Proof.
  induction kvs as [|[m v] kvs IH]; cbn; [reflexivity|]. intros H.
  destruct (String.eqb_spec n m) as [->|]; [tauto|]. apply IH; tauto.
Qed.

Lemma before_notin m kvs n : ~ In n (map fst kvs) -> ~ In n (map fst (before m kvs)).
Proof.
  induction kvs as [|[k v] kvs IH]; cbn; [tauto|]. intros H.
  destruct (String.eqb k m); cbn; [tauto|]. intros [E|E]; [tauto|]. apply IH in E; tauto.
Qed.

Lemma od_update_spec o kvs :
  NoDup (map fst kvs) ->
  let '(o', r) := od_update o kvs in
  (forall m, lookup m (o_decl o') = lookup m (o_decl o)) /\
  ((r = OOk /\ forall m, lookup m (o_dict o') = match entry m kvs with Some v => Some v | None => lookup m (o_dict o) end)
   \/ (exists bad, r = OAssert bad /\ In bad (map fst kvs) /\
        forall m, lookup m (o_dict o') = match entry m (before bad kvs) with Some v => Some v | None => lookup m (o_dict o) end)).
Proof.
  revert o; induction kvs as [|[n v] kvs IH]; intros o Hnd; cbn [od_update].
  - split; [reflexivity|]. left; split; reflexivity.
  - inversion Hnd as [|x xs Hnotin Hnd' Heq]; subst; cbn [fst map] in *.
    pose proof (od_set_spec o n v) as Hs.
    destruct (od_set o n v) as [o1 r1]. destruct Hs as [Hdecl [[-> Hdict]|[-> ->]]].
    + specialize (IH o1 Hnd'). destruct (od_update o1 kvs) as [o2 r2].
      destruct IH as [Hdecl2 [[-> Hd2]|(bad & -> & Hin & Hd2)]].
      * split; [intros m; rewrite Hdecl2; apply Hdecl|]. left; split; [reflexivity|].
        intros m; rewrite Hd2; cbn [entry]; rewrite Hdict.
        destruct (String.eqb_spec m n) as [->|Hne]; [|reflexivity].
        rewrite (entry_none n kvs Hnotin); reflexivity.
      * split; [intros m; rewrite Hdecl2; apply Hdecl|]. right; exists bad.
        split; [reflexivity|]. split; [right; exact Hin|].
        intros m; rewrite Hd2. cbn [before entry].
        destruct (String.eqb_spec n bad) as [->|Hnb]; [tauto|]. cbn [entry].
        destruct (String.eqb_spec m n) as [->|Hne]; rewrite Hdict.
        -- rewrite (entry_none n (before bad kvs) (before_notin _ _ _ Hnotin)), String.eqb_refl; reflexivity.
        -- destruct (String.eqb_spec m n); [contradiction|reflexivity].
    + split; [reflexivity|]. right; exists n. split; [reflexivity|]. split; [left; reflexivity|].
      intros m; cbn [before]. rewrite String.eqb_refl; reflexivity.
Qed.

Lemma od_declare_spec o n dflt d :
  let '(o', r) := od_declare o n dflt d in
  (forall m, lookup m (o_decl o') = if String.eqb m n then Some d else lookup m (o_decl o)) /\
  ((r = OOk /\ (dflt = VNone \/ admissible d dflt) /\
     forall m, lookup m (o_dict o') = if String.eqb m n then Some dflt else lookup m (o_dict o))
   \/ (r = OAssert n /\ forall m, lookup m (o_dict o') = lookup m (o_dict o))).
Proof.
  assert (Hd : forall m, lookup m (insert n d (o_decl o)) = if String.eqb m n then Some d else lookup m (o_decl o))
    by (intros m; apply lookup_insert).
  assert (Hv : forall m, lookup m (insert n dflt (o_dict o)) = if String.eqb m n then Some dflt else lookup m (o_dict o))
    by (intros m; apply lookup_insert).
  assert (Hc : od_declare o n dflt d =
     ({| o_dict := insert n dflt (o_dict o); o_decl := insert n d (o_decl o) |}, OOk) /\ (dflt = VNone \/ admissible d dflt)
     \/ od_declare o n dflt d = ({| o_dict := o_dict o; o_decl := insert n d (o_decl o) |}, OAssert n)).
  { unfold od_declare; cbn [o_dict o_decl]. destruct (assert_valid d dflt) eqn:Ha.
    - left. apply assert_valid_iff in Ha. split; [|right; exact Ha].
      destruct dflt; reflexivity.
    - destruct dflt; [left; split; [reflexivity|left; reflexivity]| right; reflexivity ..]. }
  destruct Hc as [[-> Ha]| ->]; cbn [o_dict o_decl].
  - split; [exact Hd|]. left; auto.
  - split; [exact Hd|]. right; auto.
Qed.

Lemma pool_length_mono s o : length (pool s) <= length (pool (fst (step s o))).
Proof.
  destruct o; cbn [step]; unfold on_obj;
  try (destruct (nth_error (pool s) i) as [x|]; [|cbn; lia]);
  try (match goal with |- context [let '(_, _) := ?f in _] => destruct f as [o' r] end; cbn; rewrite length_set_nth; lia);
  cbn; rewrite ?app_length, ?length_set_nth; cbn; lia.
Qed.

(** one-step effect on what dictionary [i] answers, in terms of the visible outcome *)
Definition rd_after (s : state) (o : op) (r : out) (i : nat) (n : string) : option value :=
  match o, r with
  | Declare j m dflt _, OOk => if hit i j n m then Some dflt else rd s i n
  | SetItem j m v, OOk => if hit i j n m then Some v else rd s i n
  | Update j kvs, OOk => if Nat.eqb i j then match entry n kvs with Some v => Some v | None => rd s i n end else rd s i n
  | Update j kvs, OAssert m => if Nat.eqb i j then match entry n (before m kvs) with Some v => Some v | None => rd s i n end else rd s i n
  | Clone j, ONew k => if Nat.eqb i k then rd s j n else rd s i n
  | _, _ => rd s i n
  end.
Definition dc_after (s : state) (o : op) (r : out) (i : nat) (n : string) : option decl :=
  match o, r with
  | Declare _ _ _ _, ONoObj => dc s i n
  | Declare j m _ d, _ => if hit i j n m then Some d else dc s i n
  | Clone j, ONew k => if Nat.eqb i k then dc s j n else dc s i n
  | _, _ => dc s i n
  end.

Lemma nth_app_new A (l : list A) x j :
  nth_error (l ++ [x]) j = if Nat.eqb j (length l) then Some x else nth_error l j.
Proof.
  destruct (Nat.eqb_spec j (length l)) as [->|Hne].
  - rewrite nth_error_app2, Nat.sub_diag by lia; reflexivity.
  - destruct (Nat.lt_ge_cases j (length l)) as [Hl|Hg].
    + apply nth_error_app1; exact Hl.
    + rewrite nth_error_app2 by lia. rewrite (proj2 (nth_error_None l j)) by lia.
      destruct (j - length l) as [|k] eqn:E; [lia|]. destruct k; reflexivity.
Qed.

Lemma step_rd s o s' r : wf_op o -> step s o = (s', r) ->
  forall i n, rd s' i n = rd_after s o r i n /\ dc s' i n = dc_after s o r i n.
Proof.
  intros Hwf Hstep i n.
  destruct o as [|j m dflt d|j m v|j kvs|j m|j m|j m|j|l x]; cbn [step] in Hstep; unfold on_obj in Hstep.
  - inversion Hstep; subst; cbn [rd_after dc_after]; unfold rd, dc; cbn [pool].
    rewrite nth_app_new. destruct (Nat.eqb_spec i (length (pool s))) as [->|]; [|split; reflexivity].
    rewrite (proj2 (nth_error_None (pool s) (length (pool s)))) by lia. split; reflexivity.
  - destruct (nth_error (pool s) j) as [x|] eqn:Hj; [|inversion Hstep; subst; split; reflexivity].
    pose proof (od_declare_spec x m dflt d) as H. destruct (od_declare x m dflt d) as [x' r'].
    inversion Hstep; subst. cbn [rd_after dc_after]. unfold rd, dc, hit; cbn [pool].
    rewrite nth_error_set_nth, Hj, (Nat.eqb_sym j i).
    destruct H as [Hd [[-> [_ Hv]]|[-> Hv]]]; destruct (Nat.eqb_spec i j) as [->|]; cbn;
      rewrite ?Hv, ?Hd, ?Hj; split; reflexivity.
  - destruct (nth_error (pool s) j) as [x|] eqn:Hj; [|inversion Hstep; subst; split; reflexivity].
    pose proof (od_set_spec x m v) as H. destruct (od_set x m v) as [x' r'].
    inversion Hstep; subst. cbn [rd_after dc_after]. unfold rd, dc, hit; cbn [pool].
    rewrite nth_error_set_nth, Hj, (Nat.eqb_sym j i).
    destruct H as [Hd [[-> Hv]|[-> ->]]]; destruct (Nat.eqb_spec i j) as [->|]; cbn;
      rewrite ?Hv, ?Hd, ?Hj; split; reflexivity.
  - destruct (nth_error (pool s) j) as [x|] eqn:Hj; [|inversion Hstep; subst; split; reflexivity].
    pose proof (od_update_spec x kvs Hwf) as H. destruct (od_update x kvs) as [x' r'].
    inversion Hstep; subst. cbn [rd_after dc_after]. unfold rd, dc, hit; cbn [pool].
    rewrite nth_error_set_nth, Hj, (Nat.eqb_sym j i).
    destruct H as [Hd [[-> Hv]|(bad & -> & _ & Hv)]]; destruct (Nat.eqb_spec i j) as [->|]; cbn;
      rewrite ?Hv, ?Hd, ?Hj; split; reflexivity.
  - destruct (nth_error (pool s) j) as [x|] eqn:Hj; inversion Hstep; subst; [|split; reflexivity].
    unfold rd, dc, rd_after, dc_after; cbn [pool]. rewrite (set_nth_same _ _ _ _ Hj). split; destruct (lookup m (o_dict x)); reflexivity.
  - destruct (nth_error (pool s) j) as [x|] eqn:Hj; inversion Hstep; subst; [|split; reflexivity].
    unfold rd, dc, rd_after, dc_after; cbn [pool]. rewrite (set_nth_same _ _ _ _ Hj). split; reflexivity.
  - destruct (nth_error (pool s) j) as [x|] eqn:Hj; inversion Hstep; subst; [|split; reflexivity].
    unfold rd, dc, rd_after, dc_after; cbn [pool]. rewrite (set_nth_same _ _ _ _ Hj). split; reflexivity.
  - destruct (nth_error (pool s) j) as [x|] eqn:Hj; inversion Hstep; subst; [|split; reflexivity].
    unfold rd, dc, rd_after, dc_after; cbn [pool]. rewrite nth_app_new.
    destruct (Nat.eqb_spec i (length (pool s))) as [->|]; [|split; reflexivity].
    unfold rd, dc; rewrite Hj; split; reflexivity.
  - inversion Hstep; subst; split; reflexivity.
Qed.

(** runs, extended at the end *)
Lemma run_snoc s ops o :
  run s (ops ++ [o]) = let '(s', tr) := run s ops in let '(s'', r) := step s' o in (s'', tr ++ [(o, r)]).
Proof.
  revert s; induction ops as [|a ops IH]; intros s; cbn [run app].
  - destruct (step s o); reflexivity.
  - destruct (step s a) as [s1 r1]. rewrite IH. destruct (run s1 ops) as [s2 tr].
    destruct (step s2 o) as [s3 r3]; reflexivity.
Qed.

Definition vfst (x : option (value * bool)) : option value := option_map fst x.

Lemma refine ops : Forall wf_op ops ->
  let '(s, tr) := run init ops in
  forall i n, rd s i n = vfst (last_write (rev tr) i n) /\ dc s i n = decl_in_force (rev tr) i n.
Proof.
  induction ops as [|o ops IH] using rev_ind; intros Hwf.
  - cbn. intros i n. unfold rd, dc; cbn. destruct i; split; reflexivity.
  - rewrite run_snoc. apply Forall_app in Hwf as [Hwf Ho]. inversion Ho as [|? ? Ho' _]; subst.
    specialize (IH Hwf). destruct (run init ops) as [s tr]. destruct (step s o) as [s' r] eqn:Hs.
    intros i n. rewrite rev_unit. destruct (step_rd s o s' r Ho' Hs i n) as [-> ->].
    assert (Hrd : forall i n, rd s i n = vfst (last_write (rev tr) i n)) by (intros; apply IH).
    assert (Hdc : forall i n, dc s i n = decl_in_force (rev tr) i n) by (intros; apply IH).
    unfold rd_after, dc_after; cbn [last_write decl_in_force].
    split.
    + destruct o, r; try apply Hrd;
      repeat match goal with
      | |- context [if ?b then _ else _] => destruct b
      | |- context [match entry ?a ?b with _ => _ end] => destruct (entry a b)
      end; try reflexivity; apply Hrd.
    + destruct o, r; try apply Hdc;
      repeat match goal with
      | |- context [if ?b then _ else _] => destruct b
      end; try reflexivity; apply Hdc.
Qed.

Lemma step_getitem s i n : i < length (pool s) ->
  step s (GetItem i n) = (s, match rd s i n with Some v => OVal v | None => OKeyErr n end).
Proof.
  intros Hi. cbn [step]. unfold on_obj, rd.
  destruct (nth_error (pool s) i) as [x|] eqn:Hx; [|apply nth_error_None in Hx; lia].
  rewrite (set_nth_same _ _ _ _ Hx). destruct s; reflexivity.
Qed.

Lemma read_back ops s tr i n :
  Forall wf_op ops -> run init ops = (s, tr) -> i < length (pool s) ->
  step s (GetItem i n) = (s, match last_write (rev tr) i n with Some (v, _) => OVal v | None => OKeyErr n end).
Proof.
  intros Hwf Hr Hi. pose proof (refine ops Hwf) as H. rewrite Hr in H.
  rewrite step_getitem by exact Hi. destruct (H i n) as [-> _].
  destruct (last_write (rev tr) i n) as [[v b]|]; reflexivity.
Qed.

Lemma rejected_noop s i n v s' r : step s (SetItem i n v) = (s', r) -> r <> OOk -> s' = s.
Proof.
  cbn [step]; unfold on_obj. destruct (nth_error (pool s) i) as [x|] eqn:Hx; [|intros [=]; congruence].
  unfold od_set. destruct (lookup n (o_decl x)) as [d|].
  - destruct (assert_valid d v); intros [= <- <-]; [congruence|].
    rewrite (set_nth_same _ _ _ _ Hx). destruct s; reflexivity.
  - intros [= <- <-]. rewrite (set_nth_same _ _ _ _ Hx). destruct s; reflexivity.
Qed.

Lemma accept_iff ops s tr i n v :
  Forall wf_op ops -> run init ops = (s, tr) -> i < length (pool s) ->
  (snd (step s (SetItem i n v)) = OOk <-> exists d, decl_in_force (rev tr) i n = Some d /\ admissible d v).
Proof.
  intros Hwf Hr Hi. pose proof (refine ops Hwf) as H. rewrite Hr in H. destruct (H i n) as [_ Hdc].
  rewrite <- Hdc. unfold dc. cbn [step]; unfold on_obj.
  destruct (nth_error (pool s) i) as [x|] eqn:Hx; [|apply nth_error_None in Hx; lia].
  unfold od_set. destruct (lookup n (o_decl x)) as [d|] eqn:Hd.
  - destruct (assert_valid d v) eqn:Hv; cbn.
    + split; [|reflexivity]. intros _. exists d; split; [reflexivity|]. apply assert_valid_iff; exact Hv.
    + split; [discriminate|]. intros (d' & [= <-] & Ha). apply assert_valid_iff in Ha; congruence.
  - cbn. split; [discriminate|]. intros (d' & [=] & _).
Qed.

(** a declared option accepts or rejects an update at the first inadmissible entry *)
Lemma update_effect s i kvs s' r :
  NoDup (map fst kvs) -> i < length (pool s) -> step s (Update i kvs) = (s', r) ->
  (r = OOk /\ forall n, rd s' i n = match entry n kvs with Some v => Some v | None => rd s i n end)
  \/ exists bad, r = OAssert bad /\ In bad (map fst kvs) /\
       forall n, rd s' i n = match entry n (before bad kvs) with Some v => Some v | None => rd s i n end.
Proof.
  intros Hnd Hi. cbn [step]; unfold on_obj. unfold rd.
  destruct (nth_error (pool s) i) as [x|] eqn:Hx; [|apply nth_error_None in Hx; lia].
  pose proof (od_update_spec x kvs Hnd) as H. destruct (od_update x kvs) as [x' r']. intros [= <- <-].
  cbn [pool]. rewrite nth_error_set_nth, Hx, Nat.eqb_refl.
  destruct H as [_ [[-> Hv]|(bad & -> & Hin & Hv)]].
  - left; split; [reflexivity|]; exact Hv.
  - right; exists bad; repeat split; assumption.
Qed.

(** invariant: stored values are admissible *)
Definition sound (tr : trace) (i : nat) (n : string) : Prop :=
  forall v b, last_write tr i n = Some (v, b) ->
    (b = true /\ v = VNone) \/ exists d, decl_in_force tr i n = Some d /\ admissible d v.

Lemma od_update_ok_adm o kvs o' r : od_update o kvs = (o', r) -> NoDup (map fst kvs) ->
  forall n v, entry n (match r with OAssert m => before m kvs | _ => kvs end) = Some v ->
  (r = OOk \/ exists m, r = OAssert m) ->
  exists d, lookup n (o_decl o) = Some d /\ admissible d v.
Proof.
  revert o o' r; induction kvs as [|[n v] kvs IH]; intros o o' r; cbn [od_update].
  - intros [= <- <-] _ m w; cbn; discriminate.
  - destruct (lookup n (o_decl o)) as [d|] eqn:Hd.
    + destruct (assert_valid d v) eqn:Hv.
      * assert (Hset : od_set o n v = ({| o_dict := insert n v (o_dict o); o_decl := o_decl o |}, OOk)).
        { unfold od_set; rewrite Hd, Hv; reflexivity. }
        rewrite Hset. intros Hu Hnd m w He Hr. inversion Hnd as [|? ? Hni Hnd']; subst; cbn [fst map] in *.
        assert (Hrec : forall m w, entry m (match r with OAssert m => before m kvs | _ => kvs end) = Some w ->
                  exists d0, lookup m (o_decl o) = Some d0 /\ admissible d0 w).
        { intros m' w' He'. destruct (IH _ _ _ Hu Hnd' m' w' He' Hr) as (d0 & Hl & Ha). exists d0; split; assumption. }
        destruct Hr as [->|[bad ->]].
        -- cbn [entry] in He. destruct (String.eqb_spec m n) as [->|].
           ++ injection He as <-. exists d; split; [exact Hd|]. apply assert_valid_iff; exact Hv.
           ++ apply Hrec; exact He.
        -- cbn [before] in He. destruct (String.eqb_spec n bad) as [->|]; [discriminate|].
           cbn [entry] in He. destruct (String.eqb_spec m n) as [->|].
           ++ injection He as <-. exists d; split; [exact Hd|]. apply assert_valid_iff; exact Hv.
           ++ apply Hrec; exact He.
      * assert (Hset : od_set o n v = (o, OAssert n)) by (unfold od_set; rewrite Hd, Hv; reflexivity).
        rewrite Hset. intros [= <- <-] _ m w. cbn [before]. rewrite String.eqb_refl. discriminate.
    + assert (Hset : od_set o n v = (o, OAssert n)) by (unfold od_set; rewrite Hd; reflexivity).
      rewrite Hset. intros [= <- <-] _ m w. cbn [before]. rewrite String.eqb_refl. discriminate.
Qed.

Lemma od_update_out o kvs : snd (od_update o kvs) = OOk \/ exists m, snd (od_update o kvs) = OAssert m.
Proof.
  revert o; induction kvs as [|[n v] kvs IH]; intros o; cbn [od_update]; [left; reflexivity|].
  pose proof (od_set_spec o n v) as Hs. destruct (od_set o n v) as [o1 r1].
  destruct Hs as [_ [[-> _]|[-> _]]]; [apply IH|right; exists n; reflexivity].
Qed.

Lemma stored_admissible ops : Forall wf_op ops ->
  let '(s, tr) := run init ops in declares_ok tr -> forall i n, sound (rev tr) i n.
Proof.
  induction ops as [|o ops IH] using rev_ind; intros Hwf.
  - cbn. intros _ i n v b; discriminate.
  - pose proof (refine ops (proj1 (proj1 (Forall_app _ _ _) Hwf))) as Href.
    rewrite run_snoc. apply Forall_app in Hwf as [Hwf Ho]. inversion Ho as [|? ? Ho' _]; subst.
    specialize (IH Hwf). destruct (run init ops) as [s tr]. destruct (step s o) as [s' r] eqn:Hs.
    intros Hok. assert (Hok' : declares_ok tr).
    { intros i n dflt d r0 Hin. apply (Hok i n dflt d). apply in_or_app; left; exact Hin. }
    assert (Hlast : declares_ok [(o, r)]).
    { intros i n dflt d r0 Hin. apply (Hok i n dflt d). apply in_or_app; right; exact Hin. }
    specialize (IH Hok'). intros i n. rewrite rev_unit. unfold sound. intros v b. cbn [last_write decl_in_force].
    assert (Hold : forall i n v b, last_write (rev tr) i n = Some (v, b) ->
        b = true /\ v = VNone \/ exists d, decl_in_force (rev tr) i n = Some d /\ admissible d v) by (intros; eapply IH; eassumption).
    destruct o as [|j m dflt d|j m w|j kvs|j m|j m|j m|j|l x]; try (apply Hold).
    + (* Declare *)
      cbn [step] in Hs; unfold on_obj in Hs.
      destruct (nth_error (pool s) j) as [x|] eqn:Hj; [|inversion Hs; subst; apply Hold].
      pose proof (od_declare_spec x m dflt d) as H. destruct (od_declare x m dflt d) as [x' r'].
      inversion Hs; subst. destruct H as [_ [[-> [Hdef _]]|[-> _]]].
      * destruct (hit i j n m); [|apply Hold]. intros [= <- <-].
        destruct Hdef as [->|Ha]; [left; auto|right; exists d; auto].
      * destruct (Hlast j m dflt d (OAssert m) (or_introl eq_refl)); discriminate.
    + (* SetItem *)
      cbn [step] in Hs; unfold on_obj in Hs.
      destruct (nth_error (pool s) j) as [x|] eqn:Hj; [|inversion Hs; subst; apply Hold].
      unfold od_set in Hs. destruct (lookup m (o_decl x)) as [d|] eqn:Hd; [|inversion Hs; subst; apply Hold].
      destruct (assert_valid d w) eqn:Hv; inversion Hs; subst; [|apply Hold].
      unfold hit. destruct (Nat.eqb_spec i j) as [->|]; [|apply Hold].
      destruct (String.eqb_spec n m) as [->|]; [|apply Hold]. cbn. intros [= <- <-].
      right. exists d. destruct (Href j m) as [_ <-]. unfold dc; rewrite Hj. split; [exact Hd|].
      apply assert_valid_iff; exact Hv.
    + (* Update *)
      cbn [step] in Hs; unfold on_obj in Hs.
      destruct (nth_error (pool s) j) as [x|] eqn:Hj; [|inversion Hs; subst; apply Hold].
      pose proof (od_update_out x kvs) as Hout.
      destruct (od_update x kvs) as [x' r'] eqn:Hu. cbn [snd] in Hout. inversion Hs; subst.
      assert (Hadm : forall n v, entry n (match r with OAssert m => before m kvs | _ => kvs end) = Some v ->
                exists d, decl_in_force (rev tr) j n = Some d /\ admissible d v).
      { intros n0 v0 He. destruct (od_update_ok_adm x kvs x' r Hu Ho' n0 v0 He Hout) as (d & Hd & Ha).
        exists d; split; [|exact Ha]. destruct (Href j n0) as [_ <-]. unfold dc; rewrite Hj; exact Hd. }
      destruct Hout as [->|[bad ->]]; cbn [last_write];
      (destruct (Nat.eqb_spec i j) as [->|]; [|apply Hold]);
      (match goal with |- context [entry n ?k] => destruct (entry n k) as [w|] eqn:He end; [|apply Hold]);
      intros [= <- <-]; right; apply Hadm; exact He.
    + (* Clone *)
      destruct r; try apply Hold. destruct (Nat.eqb i id); apply Hold.
Qed.


Lemma on_obj_frame s j f s' r : on_obj s j f = (s', r) ->
  forall i, i <> j -> nth_error (pool s') i = nth_error (pool s) i.
Proof.
  unfold on_obj. destruct (nth_error (pool s) j) as [x|]; [|intros [= <- <-]; reflexivity].
  destruct (f x) as [x' r']. intros [= <- <-] i Hi. cbn [pool].
  rewrite nth_error_set_nth. destruct (Nat.eqb_spec j i); [congruence|reflexivity].
Qed.

Lemma step_frame s o s' r i : step s o = (s', r) -> i < length (pool s) -> target o <> Some i ->
  nth_error (pool s') i = nth_error (pool s) i.
Proof.
  intros Hs Hi Ht.
  destruct o as [|j m dflt d|j m v|j kvs|j m|j m|j m|j|l x]; cbn [step target] in *;
  try (eapply on_obj_frame; [exact Hs|congruence]).
  - inversion Hs; subst; cbn [pool]. apply nth_error_app1; exact Hi.
  - destruct (nth_error (pool s) j); inversion Hs; subst; cbn [pool]; [apply nth_error_app1; exact Hi|reflexivity].
  - inversion Hs; subst; reflexivity.
Qed.

Lemma run_frame ops : forall s s' tr i, run s ops = (s', tr) -> i < length (pool s) ->
  Forall (fun o => target o <> Some i) ops -> nth_error (pool s') i = nth_error (pool s) i.
Proof.
  induction ops as [|o ops IH]; cbn [run]; intros s s' tr i Hr Hi Hf.
  - inversion Hr; reflexivity.
  - inversion Hf as [|? ? Ho Hf']; subst. destruct (step s o) as [s1 r1] eqn:Hs.
    destruct (run s1 ops) as [s2 tr2] eqn:Hr2. inversion Hr; subst.
    assert (Hl : i < length (pool s1)).
    { pose proof (pool_length_mono s o) as H. rewrite Hs in H; cbn in H; lia. }
    rewrite (IH _ _ _ _ Hr2 Hl Hf'). eapply step_frame; eassumption.
Qed.

Lemma same_obj_same_answers s s' i : nth_error (pool s') i = nth_error (pool s) i ->
  forall o, target o = Some i -> o <> Clone i ->
  snd (step s' o) = snd (step s o).
Proof.
  intros H o Ht Hc. destruct o; cbn [target] in Ht; try discriminate; injection Ht as ->;
  cbn [step]; unfold on_obj; rewrite ?H; try congruence;
  destruct (nth_error (pool s) i) as [x|]; try reflexivity;
  match goal with |- context [let '(_, _) := ?f in _] => destruct f end; reflexivity.
Qed.

Lemma independence s ops s' tr i :
  run s ops = (s', tr) -> i < length (pool s) -> Forall (fun o => target o <> Some i) ops ->
  forall o, target o = Some i -> o <> Clone i -> snd (step s' o) = snd (step s o).
Proof.
  intros Hr Hi Hf. apply same_obj_same_answers. eapply run_frame; eassumption.
Qed.

Lemma clone_same_answers s i s' k : step s (Clone i) = (s', ONew k) ->
  k = length (pool s) /\ (forall n, rd s' k n = rd s i n) /\ (forall n, dc s' k n = dc s i n)
  /\ nth_error (pool s') i = nth_error (pool s) i.
Proof.
  cbn [step]. destruct (nth_error (pool s) i) as [x|] eqn:Hx; [|discriminate].
  intros [= <- <-]. split; [reflexivity|]. unfold rd, dc; cbn [pool].
  rewrite nth_app_new, Nat.eqb_refl, Hx. repeat split.
  rewrite nth_error_app1; [exact Hx|]. apply nth_error_Some; congruence.
Qed.

Lemma stored_admissible' ops s tr i n v b :
  Forall wf_op ops -> run init ops = (s, tr) -> declares_ok tr ->
  last_write (rev tr) i n = Some (v, b) ->
  (b = true /\ v = VNone) \/ exists d, decl_in_force (rev tr) i n = Some d /\ admissible d v.
Proof.
  intros Hwf Hr Hok. pose proof (stored_admissible ops Hwf) as H. rewrite Hr in H. apply (H Hok i n).
Qed.

Lemma get_out s i n : i < length (pool s) ->
  snd (step s (GetItem i n)) = match rd s i n with Some v => OVal v | None => OKeyErr n end.
Proof. intros H; rewrite step_getitem by exact H; reflexivity. Qed.

Lemma update_effect' s i kvs s' r :
  NoDup (map fst kvs) -> i < length (pool s) -> step s (Update i kvs) = (s', r) ->
  (r = OOk /\ forall n, snd (step s' (GetItem i n)) =
     match entry n kvs with Some v => OVal v | None => snd (step s (GetItem i n)) end)
  \/ exists bad, r = OAssert bad /\ In bad (map fst kvs) /\
       forall n, snd (step s' (GetItem i n)) =
         match entry n (before bad kvs) with Some v => OVal v | None => snd (step s (GetItem i n)) end.
Proof.
  intros Hnd Hi Hs. assert (Hl : i < length (pool s')).
  { pose proof (pool_length_mono s (Update i kvs)) as H. rewrite Hs in H; cbn in H; lia. }
  destruct (update_effect s i kvs s' r Hnd Hi Hs) as [[-> H]|(bad & -> & Hin & H)].
  - left; split; [reflexivity|]. intros n. rewrite !get_out, H by assumption. destruct (entry n kvs); reflexivity.
  - right; exists bad; split; [reflexivity|]; split; [exact Hin|].
    intros n. rewrite !get_out, H by assumption. destruct (entry n (before bad kvs)); reflexivity.
Qed.

Lemma failed_redeclaration : exists ops s tr v d,
  Forall wf_op ops /\ run init ops = (s, tr) /\
  snd (step s (GetItem 0 "a")) = OVal v /\ v <> VNone /\
  decl_in_force (rev tr) 0 "a" = Some d /\ ~ admissible d v.
Proof.
  exists [New; Declare 0 "a" (VInt 1) {| d_values := None; d_types := Some [TInt] |};
          Declare 0 "a" (VInt 2) {| d_values := None; d_types := Some [TStr] |}].
  eexists _, _, (VInt 1), {| d_values := None; d_types := Some [TStr] |}.
  split; [repeat constructor|]. split; [reflexivity|]. split; [reflexivity|].
  split; [discriminate|]. split; [reflexivity|].
  cbn. intros (t & [<-|[]] & H). inversion H.
Qed.

Lemma corr_accepts_all ops s tr i name :
  Forall wf_op ops -> run init ops = (s, tr) -> i < length (pool s) ->
  decl_in_force (rev tr) i "corr" = Some krg_corr_decl ->
  snd (step s (SetItem i "corr" (VStr name))) = OOk.
Proof.
  intros Hwf Hr Hi Hd. apply (accept_iff ops s tr i "corr" (VStr name) Hwf Hr Hi).
  exists krg_corr_decl; split; [exact Hd|]. right. exists TStr. split; [left; reflexivity|constructor].
Qed.

Lemma clone_copies s i s' k : step s (Clone i) = (s', ONew k) ->
  k <> i /\ (forall n, snd (step s' (GetItem k n)) = snd (step s (GetItem i n)))
  /\ (forall n v, snd (step s' (SetItem k n v)) = snd (step s (SetItem i n v)))
  /\ (forall n, snd (step s' (GetItem i n)) = snd (step s (GetItem i n))).
Proof.
  cbn [step]. destruct (nth_error (pool s) i) as [x|] eqn:Hx; [|discriminate].
  intros [= <- <-]. assert (Hi : i < length (pool s)) by (apply nth_error_Some; congruence).
  unfold on_obj; cbn [pool]. rewrite !nth_app_new, !Nat.eqb_refl, !Hx.
  destruct (Nat.eqb_spec i (length (pool s))) as [E|_]; [lia|].
  split; [lia|]. repeat split; intros; [unfold od_set; cbn; destruct (lookup n (o_decl x)); [destruct (assert_valid d v)|]; reflexivity].
Qed.

Lemma shallow_clone : exists ops s tr c l x s',
  run init ops = (s, tr) /\
  snd (step s (GetItem 0 "prior")) = OVal (VRef c l) /\
  snd (step s (GetItem 1 "prior")) = OVal (VRef c l) /\
  fst (step s (Mutate l x)) = s' /\ heap s l <> heap s' l.
Proof.
  exists [New; Declare 0 "prior" (VRef "dict" 0) {| d_values := None; d_types := Some [TClass "dict"] |}; Clone 0].
  eexists _, _, "dict", 0, 7%Z, _. split; [reflexivity|]. split; [reflexivity|]. split; [reflexivity|].
  split; [reflexivity|]. cbn. discriminate.
Qed.

Definition demo : list op :=
  [ New; Declare 0 "corr" (VStr "squar_exp") krg_corr_decl;
    Declare 0 "n" VNone {| d_values := None; d_types := Some [TInt] |};
    SetItem 0 "n" (VStr "x"); SetItem 0 "n" (VInt 3); Clone 0;
    Update 1 [("corr", VStr "abs_exp"); ("n", VStr "bad"); ("zz", VInt 1)];
    SetItem 1 "corr" (VStr "anything") ].

Lemma demo_wf : Forall wf_op demo.
Proof.
  unfold demo. repeat constructor; cbn; intuition congruence.
Qed.
Lemma demo_ok : declares_ok (snd (run init demo)).
Proof.
  intros i n dflt d r H. vm_compute in H.
  repeat (destruct H as [H|H]; [inversion H; subst; auto; fail|]). destruct H.
Qed.
Lemma demo_rest :
  1 < length (pool (fst (run init demo))) /\
  last_write (rev (snd (run init demo))) 0 "n" = Some (VInt 3, false) /\
  last_write (rev (snd (run init demo))) 0 "corr" = Some (VStr "squar_exp", true) /\
  last_write (rev (snd (run init demo))) 1 "corr" = Some (VStr "anything", false) /\
  decl_in_force (rev (snd (run init demo))) 1 "corr" = Some krg_corr_decl /\
  Forall (fun o => target o <> Some 0) (skipn 6 demo).
Proof.
  split; [vm_compute; lia|]. repeat (split; [vm_compute; reflexivity|]).
  cbn. repeat constructor; discriminate.
Qed.
