From Coq Require Import ZArith QArith Bool Arith List Lia Permutation.
From Verif Require Import Nested_M.
Import ListNotations.
Open Scope list_scope.
Open Scope nat_scope.

Section P.
Context {pt : Type}.
Variable dist : pt -> pt -> Q.

Lemma mem_In l ind : existsb (Nat.eqb l) ind = true <-> In l ind.
Proof.
  rewrite existsb_exists. split.
  - intros (x & Hx & E). apply Nat.eqb_eq in E. subst. exact Hx.
  - intros H. exists l. split; [exact H|apply Nat.eqb_refl].
Qed.
Lemma mem_false l ind : existsb (Nat.eqb l) ind = false <-> ~ In l ind.
Proof. rewrite <- mem_In. destruct (existsb (Nat.eqb l) ind); split; congruence. Qed.

Lemma insert_perm x l : Permutation (insert x l) (x :: l).
Proof.
  induction l as [|y l IH]; cbn; [apply Permutation_refl|]. destruct (Qle_bool x y); [apply Permutation_refl|].
  eapply Permutation_trans; [apply perm_skip; exact IH|apply perm_swap].
Qed.
Lemma sort_perm l : Permutation (sort l) l.
Proof. induction l as [|x l IH]; cbn; [constructor|]. eapply Permutation_trans; [apply insert_perm|apply perm_skip; exact IH]. Qed.

Lemma first_index_lt k row : In k row -> first_index k row < length row.
Proof.
  induction row as [|x r IH]; intros H; [destruct H|]. cbn. destruct (Qeq_bool x k) eqn:E; [lia|].
  destruct H as [-> |H]; [|apply IH in H; lia]. exfalso.
  assert (Qeq_bool k k = true) by (apply Qeq_bool_iff; reflexivity). congruence.
Qed.

Lemma pick_spec : forall sorted row ind l, (forall k, In k sorted -> In k row) -> pick_from sorted row ind = Some l ->
  l < length row /\ ~ In l ind.
Proof.
  induction sorted as [|k r IH]; intros row ind l Hs H; cbn in H; [discriminate|].
  destruct (existsb (Nat.eqb (first_index k row)) ind) eqn:E.
  - apply IH in H; [exact H|]. intros; apply Hs; right; assumption.
  - injection H as <-. split; [apply first_index_lt, Hs; left; reflexivity|apply mem_false; exact E].
Qed.

Lemma choose_spec : forall hi lo ind r, NoDup ind -> (forall i, In i ind -> i < length lo) -> choose dist hi lo ind = Some r ->
  NoDup r /\ (forall i, In i r -> i < length lo) /\ length r = length ind + length hi.
Proof.
  induction hi as [|h hs IH]; intros lo ind r N B H; cbn in H.
  - injection H as <-. repeat split; auto; cbn; lia.
  - destruct (pick_from (sort (map (dist h) lo)) (map (dist h) lo) ind) as [l|] eqn:E; [|discriminate].
    apply pick_spec in E; [|intros k Hk; eapply Permutation_in; [apply sort_perm|exact Hk]]. destruct E as [E1 E2]. rewrite map_length in E1.
    apply IH in H.
    + destruct H as (A & C & D). repeat split; auto. rewrite app_length in D. cbn in *. lia.
    + eapply Permutation_NoDup; [apply Permutation_cons_append|]. constructor; assumption.
    + intros i Hi. apply in_app_or in Hi. destruct Hi as [Hi|[<-|[]]]; auto.
Qed.

Lemma delete_length : forall (lo : list pt) i ind, NoDup ind -> (forall j, In j ind -> i <= j < i + length lo) ->
  length (delete_from i ind lo) + length ind = length lo.
Proof.
  induction lo as [|x lo IH]; intros i ind N B; cbn [delete_from length] in *.
  - destruct ind as [|j ind]; [reflexivity|]. specialize (B j (or_introl eq_refl)). lia.
  - destruct (existsb (Nat.eqb i) ind) eqn:E.
    + apply mem_In in E. destruct (in_split _ _ E) as (l1 & l2 & ->).
      pose proof (NoDup_remove_1 _ _ _ N) as N1. pose proof (NoDup_remove_2 _ _ _ N) as N2.
      assert (F : forall m (lo' : list pt), i < m -> delete_from m (l1 ++ i :: l2) lo' = delete_from m (l1 ++ l2) lo').
      { intros m lo'. revert m. induction lo' as [|y lo' IH']; intros m Hm; cbn [delete_from]; [reflexivity|].
        assert (existsb (Nat.eqb m) (l1 ++ i :: l2) = existsb (Nat.eqb m) (l1 ++ l2)) as ->.
        { rewrite !existsb_app. cbn. destruct (Nat.eqb_spec m i); [lia|reflexivity]. }
        rewrite IH' by lia. reflexivity. }
      rewrite F by lia. specialize (IH (S i) (l1 ++ l2) N1). rewrite !app_length in *. cbn.
      assert (length (delete_from (S i) (l1 ++ l2) lo) + (length l1 + length l2) = length lo); [|lia].
      apply IH. intros j Hj. specialize (B j). rewrite in_app_iff in B. cbn in B. rewrite in_app_iff in Hj.
      assert (j <> i) by (intros ->; apply N2; rewrite in_app_iff; exact Hj). destruct Hj; [specialize (B (or_introl H0))|specialize (B (or_intror (or_intror H0)))]; lia.
    + apply mem_false in E. cbn. specialize (IH (S i) ind N). rewrite IH; [reflexivity|].
      intros j Hj. specialize (B j Hj). assert (j <> i) by (intros ->; contradiction). lia.
Qed.
Lemma delete_incl : forall (lo : list pt) i ind x, In x (delete_from i ind lo) -> In x lo.
Proof.
  induction lo as [|y lo IH]; intros i ind x H; cbn in *; [exact H|].
  destruct (existsb (Nat.eqb i) ind); [right; eapply IH; exact H|]. destruct H as [-> |H]; [left; reflexivity|right; eapply IH; exact H].
Qed.

(** relation between drawn designs and returned designs *)
Lemma nest_spec : forall does out, nest dist does = Some out ->
  length out = length does /\
  (forall i, i < length does -> length (nth i out []) = length (nth i does [])) /\
  (forall i j, i <= j -> j < length does -> incl (nth j out []) (nth i out [])) /\
  (forall i, S i < length does -> incl (nth i out []) (nth i does [] ++ nth (S i) out [])) /\
  (does <> [] -> last out [] = last does []).
Proof.
  induction does as [|d rest IH]; intros out H; cbn [nest] in H.
  - injection H as <-. repeat split; cbn; intros; try lia; try contradiction.
  - destruct (nest dist rest) as [o|] eqn:E; [|discriminate]. destruct (IH o eq_refl) as (L & S & I & U & La).
    destruct o as [|r rs].
    + destruct rest; [|discriminate]. injection H as <-. split; [reflexivity|]. split; [|split; [|split]]; cbn [length].
      * intros i Hi. assert (i = 0) by lia. subst. reflexivity.
      * intros i j Hij Hj. assert (i = 0 /\ j = 0) as [-> ->] by lia. apply incl_refl.
      * intros; lia.
      * reflexivity.
    + destruct (choose dist r d []) as [ind|] eqn:Ec; [|discriminate]. injection H as <-.
      apply choose_spec in Ec; [|constructor|intros i []]. destruct Ec as (N & B & Li). cbn in Li.
      destruct rest as [|r0 rest0]; [discriminate|].
      split; [cbn in *; lia|]. split; [|split; [|split]].
      * intros [|i] Hi; [|apply (S i); cbn in *; lia]. cbn [nth]. rewrite app_length.
        pose proof (delete_length d 0 ind N ltac:(intros j Hj; specialize (B j Hj); lia)). lia.
      * intros i j Hij Hj. destruct i as [|i].
        -- destruct j as [|j]; [apply incl_refl|]. cbn [nth]. apply incl_appr. change r with (nth 0 (r :: rs) []).
           apply I; cbn in *; lia.
        -- destruct j as [|j]; [lia|]. cbn [nth]. apply I; cbn in *; lia.
      * intros [|i] Hi.
        -- cbn [nth]. intros x Hx. apply in_app_or in Hx. apply in_or_app. destruct Hx as [Hx|Hx]; [left; eapply delete_incl; exact Hx|right; exact Hx].
        -- cbn [nth]. apply (U i). cbn in *; lia.
      * intros _. specialize (La ltac:(discriminate)). cbn [last] in *. exact La.
Qed.

(** distinct distances: the search never runs out of neighbours *)
Lemma first_index_In k row : In k row -> Qeq_bool (nth (first_index k row) row 0%Q) k = true.
Proof.
  induction row as [|x r IH]; intros H; [destruct H|]. cbn. destruct (Qeq_bool x k) eqn:E; [exact E|].
  destruct H as [-> |H]; [|apply IH; exact H].
  assert (Qeq_bool k k = true) by (apply Qeq_bool_iff; reflexivity). congruence.
Qed.
Lemma pick_total row ind : NoDup ind -> (forall i j, i < length row -> j < length row -> (nth i row 0 == nth j row 0)%Q -> i = j) ->
  length ind < length row -> exists l, pick_from (sort row) row ind = Some l.
Proof.
  intros N D L.
  assert (G : forall s, (forall k, In k s -> In k row) -> pick_from s row ind = None -> forall k, In k s -> In (first_index k row) ind).
  { induction s as [|k0 s IH]; intros Hs H k Hk; [destruct Hk|]. cbn in H.
    destruct (existsb (Nat.eqb (first_index k0 row)) ind) eqn:E; [|discriminate].
    destruct Hk as [<-|Hk]; [apply mem_In; exact E|]. apply IH; auto. intros; apply Hs; right; assumption. }
  destruct (pick_from (sort row) row ind) as [l|] eqn:E; [exists l; reflexivity|exfalso].
  assert (A : forall k, In k row -> In (first_index k row) ind).
  { intros k Hk. apply (G (sort row)); auto.
    - intros k' Hk'. eapply Permutation_in; [apply sort_perm|exact Hk'].
    - eapply Permutation_in; [apply Permutation_sym, sort_perm|exact Hk]. }
  assert (incl (seq 0 (length row)) ind).
  { intros i Hi. apply in_seq in Hi. pose proof (nth_In row 0%Q (proj2 Hi)) as Hin. pose proof (A _ Hin) as Hf.
    assert (first_index (nth i row 0%Q) row = i); [|congruence].
    apply D; [apply first_index_lt; exact Hin|lia|]. apply Qeq_bool_iff. apply first_index_In; exact Hin. }
  apply NoDup_incl_length in H; [|apply seq_NoDup]. rewrite seq_length in H. lia.
Qed.
Definition separated (h : pt) (lo : list pt) : Prop :=
  forall i j a b, nth_error lo i = Some a -> nth_error lo j = Some b -> (dist h a == dist h b)%Q -> i = j.
Lemma choose_total : forall hi lo ind, NoDup ind -> (forall i, In i ind -> i < length lo) ->
  (forall h, In h hi -> separated h lo) ->
  length ind + length hi <= length lo -> exists r, choose dist hi lo ind = Some r.
Proof.
  induction hi as [|h hs IH]; intros lo ind N B D L; cbn [choose]; [eexists; reflexivity|].
  cbn in L. destruct (pick_total (map (dist h) lo) ind N) as (l & E).
  - intros i j Hi Hj Q. rewrite map_length in Hi, Hj.
    destruct (nth_error lo i) as [a|] eqn:Ea; [|apply nth_error_None in Ea; lia].
    destruct (nth_error lo j) as [b|] eqn:Eb; [|apply nth_error_None in Eb; lia].
    eapply (D h (or_introl eq_refl)); [exact Ea|exact Eb|].
    rewrite (nth_error_nth (map (dist h) lo) i 0%Q (x := dist h a)) in Q by (apply map_nth_error; exact Ea).
    rewrite (nth_error_nth (map (dist h) lo) j 0%Q (x := dist h b)) in Q by (apply map_nth_error; exact Eb). exact Q.
  - rewrite map_length. lia.
  - rewrite E. apply pick_spec in E; [|intros k Hk; eapply Permutation_in; [apply sort_perm|exact Hk]]. destruct E as [E1 E2]. rewrite map_length in E1.
    apply IH.
    + eapply Permutation_NoDup; [apply Permutation_cons_append|]. constructor; assumption.
    + intros i Hi. apply in_app_or in Hi. destruct Hi as [Hi|[<-|[]]]; auto.
    + intros h' Hh'. apply D. right; exact Hh'.
    + rewrite app_length. cbn. lia.
Qed.
Lemma nest_total : forall does, (forall i, S i < length does -> length (nth (S i) does []) <= length (nth i does [])) ->
  (forall h d, (exists d', In d' does /\ In h d') -> In d does -> separated h d) ->
  exists out, nest dist does = Some out.
Proof.
  induction does as [|d rest IH]; intros S D; cbn [nest]; [eexists; reflexivity|].
  destruct IH as (o & E).
  - intros i Hi. apply (S (Datatypes.S i)). cbn; lia.
  - intros h d0 (d' & A & B) Hd0. apply D; [exists d'; split; [right; exact A|exact B]|right; exact Hd0].
  - rewrite E. destruct o as [|r rs]; [eexists; reflexivity|].
    destruct (nest_spec rest (r :: rs) E) as (L & Sz & I & U & La).
    destruct rest as [|r0 rest0]; [discriminate|].
    destruct (choose_total r d []) as (ind & ->); [constructor|intros i []| | |eexists; reflexivity].
    + intros h Hh. apply D; [|left; reflexivity].
      assert (G : forall i, i < length (r0 :: rest0) -> forall h, In h (nth i (r :: rs) []) -> exists d', In d' (r0 :: rest0) /\ In h d').
      { intros i. remember (length (r0 :: rest0) - i) as m eqn:Hm. revert i Hm. induction m as [|m IHm]; intros i Hm Hi h' Hh'; [lia|].
        destruct (Nat.eq_dec (Datatypes.S i) (length (r0 :: rest0))) as [El|Nl].
        - exists (nth i (r0 :: rest0) []). split; [apply nth_In; exact Hi|].
          specialize (La ltac:(discriminate)).
          assert (LN : forall (l : list (list pt)) i, Datatypes.S i = length l -> nth i l [] = last l []).
          { induction l as [|x l IHl]; intros [|k] Hk; cbn in Hk; try lia; [destruct l; [reflexivity|discriminate]|].
            cbn [nth]. rewrite (IHl k) by lia. destruct l; [discriminate|reflexivity]. }
          rewrite (LN _ _ El). rewrite <- La. rewrite <- (LN (r :: rs) i) by lia. exact Hh'.
        - apply (U i) in Hh'; [|lia]. apply in_app_or in Hh'. destruct Hh' as [Hh'|Hh'].
          + exists (nth i (r0 :: rest0) []). split; [apply nth_In; exact Hi|exact Hh'].
          + apply (IHm (Datatypes.S i)); [lia|lia|exact Hh']. }
      destruct (G 0 ltac:(cbn; lia) h Hh) as (d' & A & B). exists d'. split; [right; exact A|exact B].
    + cbn [length]. pose proof (Sz 0 ltac:(cbn; lia)) as Q. cbn in Q. specialize (S 0 ltac:(cbn; lia)). cbn in S. lia.
Qed.
End P.

Lemma nested_result : forall (pt : Type) (dist : pt -> pt -> Q) lhs nlevel nb out,
  (forall i nt, length (lhs i nt) = nt) -> nested_lhs dist lhs nlevel nb = Some out ->
  length out = nlevel /\
  (forall i, i < nlevel -> length (nth i out []) = 2 ^ (nlevel - 1 - i) * nb) /\
  (forall i j, i <= j -> j < nlevel -> incl (nth j out []) (nth i out [])) /\
  (forall i x, i < nlevel -> In x (nth i out []) -> exists j, i <= j < nlevel /\ In x (lhs j (2 ^ (nlevel - 1 - j) * nb))).
Proof.
  intros pt dist lhs nlevel nb out Hl H. unfold nested_lhs in H. destruct nlevel as [|nl]; [discriminate|].
  set (does := map (fun i => lhs i (2 ^ (S nl - 1 - i) * nb)) (seq 0 (S nl))) in *.
  assert (Ld : length does = S nl) by (unfold does; rewrite map_length, seq_length; reflexivity).
  assert (Nd : forall i, i < S nl -> nth i does [] = lhs i (2 ^ (S nl - 1 - i) * nb)).
  { intros i Hi. unfold does. set (f := fun i => lhs i (2 ^ (S nl - 1 - i) * nb)).
    rewrite nth_indep with (d' := f 0) by (rewrite map_length, seq_length; exact Hi).
    rewrite map_nth, seq_nth by exact Hi. reflexivity. }
  apply nest_spec in H. destruct H as (L & Sz & I & U & La). rewrite Ld in *.
  split; [lia|]. split; [|split; [exact I|]].
  - intros i Hi. rewrite Sz, Nd by exact Hi. apply Hl.
  - intros i. remember (S nl - i) as m eqn:Hm. revert i Hm. induction m as [|m IHm]; intros i Hm x Hi Hx; [lia|].
    destruct (Nat.eq_dec (S i) (S nl)) as [El|Nl].
    + exists i. split; [lia|].
      assert (LN : forall (l : list (list pt)) i, Datatypes.S i = length l -> nth i l [] = last l []).
      { induction l as [|y l IHl]; intros [|k] Hk; cbn in Hk; try lia; [destruct l; [reflexivity|discriminate]|].
        cbn [nth]. rewrite (IHl k) by lia. destruct l; [discriminate|reflexivity]. }
      rewrite <- Nd by exact Hi. rewrite (LN does i) by lia. rewrite <- La by (intros C; rewrite C in Ld; discriminate).
      rewrite <- (LN out i) by lia. exact Hx.
    + apply (U i) in Hx; [|lia]. apply in_app_or in Hx. destruct Hx as [Hx|Hx].
      * exists i. split; [lia|]. rewrite <- Nd by exact Hi. exact Hx.
      * destruct (IHm (S i) ltac:(lia) x ltac:(lia) Hx) as (j & Hj & Hin). exists j. split; [lia|exact Hin].
Qed.
Lemma nested_total : forall (pt : Type) (dist : pt -> pt -> Q) lhs nlevel nb,
  (forall i nt, length (lhs i nt) = nt) -> 1 <= nlevel ->
  (forall i j h, i < nlevel -> j < nlevel -> In h (lhs i (2 ^ (nlevel - 1 - i) * nb)) ->
     forall k l a b, nth_error (lhs j (2 ^ (nlevel - 1 - j) * nb)) k = Some a ->
       nth_error (lhs j (2 ^ (nlevel - 1 - j) * nb)) l = Some b -> (dist h a == dist h b)%Q -> k = l) ->
  exists out, nested_lhs dist lhs nlevel nb = Some out.
Proof.
  intros pt dist lhs nlevel nb Hl H1 D. unfold nested_lhs. destruct nlevel as [|nl]; [lia|].
  assert (Nd : forall i, i < S nl -> nth i (map (fun i => lhs i (2 ^ (S nl - 1 - i) * nb)) (seq 0 (S nl))) [] = lhs i (2 ^ (S nl - 1 - i) * nb)).
  { intros i Hi. set (f := fun i => lhs i (2 ^ (S nl - 1 - i) * nb)).
    rewrite nth_indep with (d' := f 0) by (rewrite map_length, seq_length; exact Hi).
    rewrite map_nth, seq_nth by exact Hi. reflexivity. }
  apply nest_total.
  - rewrite map_length, seq_length. intros i Hi. rewrite !Nd by lia. rewrite !Hl.
    apply Nat.mul_le_mono_r. apply Nat.pow_le_mono_r; lia.
  - intros h d (d' & A & B) C. apply in_map_iff in A. destruct A as (i & <- & Hi). apply in_map_iff in C. destruct C as (j & <- & Hj).
    apply in_seq in Hi, Hj. unfold separated. intros k l a b. apply (D i j h); try lia. exact B.
Qed.
