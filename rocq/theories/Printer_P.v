From Coq Require Import Arith ZArith Bool String List Lia.
From Verif Require Import Printer_M Printer_S.
Import ListNotations.
Open Scope list_scope.
Open Scope nat_scope.
Section P.
Variables (clock : nat -> Z) (fmt : Z -> string).
Notation exec := (exec clock fmt). Notation aborted := (aborted clock fmt). Notation completed := (completed clock fmt).
Lemma maxd c : forall p, max_print_depth (after (exec c p)) = max_print_depth p.
Proof.
  induction c as [s ni|b|str key b IH|b c IH|c1 IH1 c2 IH2| | |c1 IH1 c2 IH2]; intros p; try reflexivity; cbn [Printer_M.exec].
  - cbv zeta. specialize (IH (inside p)). unfold inside in IH. destruct (exec b _) as [[[|] p1] l1]; unfold after in *; cbn [fst snd] in *; [destruct key; exact IH|exact IH].
  - specialize (IH (set_active (active p && b) p)). destruct (exec c _) as [[[|] p1] l1]; exact IH.
  - specialize (IH1 p). destruct (exec c1 p) as [[[|] p1] l1]; [|exact IH1]. specialize (IH2 p1). destruct (exec c2 p1) as [[o p2] l2]. unfold after in *. cbn in *. congruence.
  - specialize (IH1 p). destruct (exec c1 p) as [[[|] p1] l1]; [exact IH1|]. specialize (IH2 p1). destruct (exec c2 p1) as [[o p2] l2]. unfold after in *. cbn in *. congruence.
Qed.
Lemma depth_exact c : forall p, depth (after (exec c p)) = depth p + aborted c p.
Proof.
  induction c as [s ni|b|str key b IH|b c IH|c1 IH1 c2 IH2| | |c1 IH1 c2 IH2]; intros p; try (cbn; lia); cbn [Printer_M.exec Printer_S.aborted].
  - cbv zeta. specialize (IH (inside p)). change (set_depth (S (depth p)) (next_tick p)) with (inside p). destruct (exec b (inside p)) as [[[|] p1] l1]; unfold after, ok in *; cbn [fst snd] in *.
    + unfold inside in IH at 1. cbn in IH. destruct key; cbn; lia.
    + unfold inside in IH at 1. cbn in IH. lia.
  - specialize (IH (set_active (active p && b) p)). destruct (exec c _) as [[[|] p1] l1]; exact IH.
  - specialize (IH1 p). destruct (exec c1 p) as [[[|] p1] l1]; unfold after, ok in *; cbn [fst snd] in *; [|lia]. specialize (IH2 p1). destruct (exec c2 p1) as [[o p2] l2]. cbn [fst snd] in *. lia.
  - specialize (IH1 p). destruct (exec c1 p) as [[[|] p1] l1]; unfold after, ok in *; cbn [fst snd] in *; [lia|]. specialize (IH2 p1). destruct (exec c2 p1) as [[o p2] l2]. cbn [fst snd] in *. lia.
Qed.
Lemma no_try_ok c : forall p, no_try c -> ok (exec c p) = true -> aborted c p = 0.
Proof.
  induction c as [s ni|b|str key b IH|b c IH|c1 IH1 c2 IH2| | |c1 IH1 c2 IH2]; intros p N O; try reflexivity; cbn [Printer_M.exec Printer_S.aborted no_try] in *.
  - cbv zeta in O. change (set_depth (S (depth p)) (next_tick p)) with (inside p) in O. specialize (IH (inside p) N). destruct (exec b (inside p)) as [[[|] p1] l1]; unfold ok in *; cbn [fst snd] in *; [|discriminate]. rewrite IH by reflexivity. reflexivity.
  - specialize (IH (set_active (active p && b) p) N). destruct (exec c _) as [[[|] p1] l1]; unfold ok in *; cbn [fst snd] in *; [apply IH; reflexivity|discriminate].
  - destruct N as [N1 N2]. specialize (IH1 p N1). destruct (exec c1 p) as [[[|] p1] l1]; unfold ok, after in *; cbn [fst snd] in *; [|discriminate]. rewrite IH1 by reflexivity. apply IH2; [exact N2|]. destruct (exec c2 p1) as [[o p2] l2]. exact O.
  - contradiction.
Qed.
Lemma no_try_active c : forall p, no_try c -> no_switch c -> ok (exec c p) = true -> active (after (exec c p)) = active p.
Proof.
  induction c as [s ni|b|str key b IH|b c IH|c1 IH1 c2 IH2| | |c1 IH1 c2 IH2]; intros p N W O; try reflexivity; cbn [Printer_M.exec no_try no_switch] in *.
  - contradiction.
  - cbv zeta in *. change (set_depth (S (depth p)) (next_tick p)) with (inside p) in *. specialize (IH (inside p) N W). destruct (exec b (inside p)) as [[[|] p1] l1]; unfold ok, after in *; cbn [fst snd] in *; [|discriminate]. destruct key; cbn; apply IH; reflexivity.
  - destruct (exec c _) as [[[|] p1] l1]; unfold ok, after in *; cbn [fst snd] in *; [reflexivity|discriminate].
  - destruct N as [N1 N2]. destruct W as [W1 W2]. specialize (IH1 p N1 W1). destruct (exec c1 p) as [[[|] p1] l1]; unfold ok, after in *; cbn [fst snd] in *; [|discriminate]. specialize (IH2 p1 N2 W2). destruct (exec c2 p1) as [[o p2] l2]. cbn [fst snd] in *. rewrite IH2 by exact O. apply IH1. reflexivity.
  - contradiction.
Qed.
(** times *)
Lemma add_find k t l k' : match find (fun x => String.eqb (fst x) k') (add_time k t l) with Some x => snd x | None => [] end =
  match find (fun x => String.eqb (fst x) k') l with Some x => snd x | None => [] end ++ (if String.eqb k k' then [t] else []).
Proof.
  induction l as [|[k0 ts] l IH]; cbn.
  - destruct (String.eqb_spec k k'); reflexivity.
  - destruct (String.eqb_spec k0 k) as [-> | N]; cbn.
    + destruct (String.eqb k k'); cbn; [reflexivity|]. rewrite app_nil_r. reflexivity.
    + destruct (String.eqb_spec k0 k') as [-> | N2]; cbn; [|exact IH]. destruct (String.eqb_spec k k') as [-> |]; [contradiction|]. rewrite app_nil_r. reflexivity.
Qed.
Lemma recorded_add k t k' p : recorded (set_times (add_time k t (times p)) p) k' = recorded p k' ++ (if String.eqb k k' then [t] else []).
Proof.
  unfold recorded, time_of. cbn [times set_times]. pose proof (add_find k t (times p) k') as H. destruct (find _ (add_time k t (times p))); destruct (find _ (times p)); exact H.
Qed.
Lemma times_grow k c : forall p, exists ts, recorded (after (exec c p)) k = recorded p k ++ ts /\ length ts = completed k c p /\ ((forall i j, i <= j -> (clock i <= clock j)%Z) -> Forall (fun t => (0 <= t)%Z) ts).
Proof.
  assert (T0 : forall p, exists ts, recorded p k = recorded p k ++ ts /\ length ts = 0 /\ ((forall i j, i <= j -> (clock i <= clock j)%Z) -> Forall (fun t => (0 <= t)%Z) ts)) by (intros p; exists []; rewrite app_nil_r; repeat split; constructor).
  assert (TK : forall c0 p, tick p <= tick (after (exec c0 p))).
  { clear T0 c. induction c0 as [s ni|b|str key b IH|b c IH|c1 IH1 c2 IH2| | |c1 IH1 c2 IH2]; intros p; cbn [Printer_M.exec]; try (apply le_n).
    - cbv zeta. change (set_depth (S (depth p)) (next_tick p)) with (inside p). specialize (IH (inside p)). destruct (exec b (inside p)) as [[[|] p1] l1]; unfold after in *; cbn [fst snd] in *; cbn in IH; [destruct key; cbn; lia|lia].
    - specialize (IH (set_active (active p && b) p)). destruct (exec c _) as [[[|] p1] l1]; exact IH.
    - specialize (IH1 p). destruct (exec c1 p) as [[[|] p1] l1]; [|exact IH1]. specialize (IH2 p1). destruct (exec c2 p1) as [[o p2] l2]. unfold after in *. cbn in *. lia.
    - specialize (IH1 p). destruct (exec c1 p) as [[[|] p1] l1]; [exact IH1|]. specialize (IH2 p1). destruct (exec c2 p1) as [[o p2] l2]. unfold after in *. cbn in *. lia. }
  induction c as [s ni|b|str key b IH|b c IH|c1 IH1 c2 IH2| | |c1 IH1 c2 IH2]; intros p; cbn [Printer_M.exec Printer_S.completed]; try exact (T0 p).
  - cbv zeta. change (set_depth (S (depth p)) (next_tick p)) with (inside p). specialize (IH (inside p)). pose proof (TK b (inside p)) as TB. destruct IH as (ts & H1 & H2 & H3). change (recorded (inside p) k) with (recorded p k) in H1.
    destruct (exec b (inside p)) as [[[|] p1] l1]; unfold after, ok in *; cbn [fst snd] in *.
    + destruct key as [k'|].
      * exists (ts ++ if String.eqb k' k then [(clock (tick p1) - clock (tick p))%Z] else []).
        match goal with |- recorded (set_times (add_time ?a ?b (times ?q)) ?q) _ = _ /\ _ => rewrite (recorded_add a b k q) end. change (recorded (next_tick (set_depth (depth p1 - 1) p1)) k) with (recorded p1 k). rewrite H1, app_assoc. split; [reflexivity|].
        rewrite app_length, H2. split; [destruct (String.eqb k' k); cbn; lia|]. intros M. apply Forall_app. split; [apply H3; exact M|]. destruct (String.eqb k' k); repeat constructor. cbn in TB. specialize (M (tick p) (tick p1) ltac:(lia)). lia.
      * exists ts. change (recorded (next_tick (set_depth (depth p1 - 1) p1)) k) with (recorded p1 k). split; [exact H1|]. split; [lia|exact H3].
    + exists ts. split; [exact H1|]. split; [lia|exact H3].
  - specialize (IH (set_active (active p && b) p)). destruct (exec c _) as [[[|] p1] l1]; exact IH.
  - specialize (IH1 p). destruct IH1 as (ts & H1 & H2 & H3). destruct (exec c1 p) as [[[|] p1] l1]; unfold after, ok in *; cbn [fst snd] in *.
    + destruct (IH2 p1) as (ts2 & G1 & G2 & G3). destruct (exec c2 p1) as [[o p2] l2]. cbn [fst snd] in *. exists (ts ++ ts2). rewrite G1, H1, app_assoc, app_length. split; [reflexivity|]. split; [lia|]. intros M. apply Forall_app. split; [apply H3|apply G3]; exact M.
    + exists ts. split; [exact H1|]. split; [lia|exact H3].
  - specialize (IH1 p). destruct IH1 as (ts & H1 & H2 & H3). destruct (exec c1 p) as [[[|] p1] l1]; unfold after, ok in *; cbn [fst snd] in *.
    + exists ts. split; [exact H1|]. split; [lia|exact H3].
    + destruct (IH2 p1) as (ts2 & G1 & G2 & G3). destruct (exec c2 p1) as [[o p2] l2]. cbn [fst snd] in *. exists (ts ++ ts2). rewrite G1, H1, app_assoc, app_length. split; [reflexivity|]. split; [lia|]. intros M. apply Forall_app. split; [apply H3|apply G3]; exact M.
Qed.
Lemma last_time str k b p : ok (exec (Timed str (Some k) b) p) = true ->
  exists l, time_of (after (exec (Timed str (Some k) b) p)) k = Some (l ++ [(clock (tick (after (exec b (inside p)))) - clock (tick p))%Z]).
Proof.
  cbn [Printer_M.exec]. cbv zeta. change (set_depth (S (depth p)) (next_tick p)) with (inside p). destruct (exec b (inside p)) as [[[|] p1] l1]; unfold ok, after; cbn [fst snd]; [|discriminate]. intros _.
  exists (recorded p1 k). unfold recorded, time_of. cbn [times set_times next_tick set_depth]. pose proof (add_find k (clock (tick p1) - clock (tick p))%Z (times p1) k) as H. rewrite String.eqb_refl in H.
  destruct (find _ (add_time _ _ _)) as [x|] eqn:F; [|apply (f_equal (@length Z)) in H; rewrite app_length in H; cbn in H; lia]. f_equal. rewrite H. destruct (find _ (times p1)); reflexivity.
Qed.
(** output *)
Lemma quiet c : forall p, no_switch c -> active p = false -> lines (exec c p) = [] /\ active (after (exec c p)) = false.
Proof.
  assert (Q : forall p s ni, active p = false -> call p s ni = []) by (intros p s ni H; unfold call; rewrite H; reflexivity).
  induction c as [s ni|b|str key b IH|b c IH|c1 IH1 c2 IH2| | |c1 IH1 c2 IH2]; intros p W A; cbn [Printer_M.exec no_switch] in *; try (split; [reflexivity|exact A]).
  - split; [apply Q; exact A|exact A].
  - contradiction.
  - cbv zeta. change (set_depth (S (depth p)) (next_tick p)) with (inside p). destruct (IH (inside p) W A) as [H1 H2]. destruct (exec b (inside p)) as [[[|] p1] l1]; unfold lines, after in *; cbn [fst snd] in *.
    + split; [|destruct key; exact H2]. rewrite H1. destruct str as [s|]; [|reflexivity]. rewrite (Q p) by exact A. rewrite Q by exact H2. reflexivity.
    + split; [|exact H2]. rewrite H1. destruct str as [s|]; [|reflexivity]. rewrite (Q p) by exact A. reflexivity.
  - destruct (IH (set_active (active p && b) p) W) as [H1 H2]; [cbn; rewrite A; reflexivity|]. destruct (exec c _) as [[[|] p1] l1]; unfold lines, after in *; cbn [fst snd] in *; split; assumption.
  - destruct W as [W1 W2]. destruct (IH1 p W1 A) as [H1 H2]. destruct (exec c1 p) as [[[|] p1] l1]; unfold lines, after in *; cbn [fst snd] in *; [|split; assumption]. destruct (IH2 p1 W2 H2) as [G1 G2]. destruct (exec c2 p1) as [[o p2] l2]. cbn [fst snd] in *. split; [rewrite H1, G1; reflexivity|exact G2].
  - destruct W as [W1 W2]. destruct (IH1 p W1 A) as [H1 H2]. destruct (exec c1 p) as [[[|] p1] l1]; unfold lines, after in *; cbn [fst snd] in *; [split; assumption|]. destruct (IH2 p1 W2 H2) as [G1 G2]. destruct (exec c2 p1) as [[o p2] l2]. cbn [fst snd] in *. split; [rewrite H1, G1; reflexivity|exact G2].
Qed.
Lemma deep c : forall p, max_print_depth p < depth p -> lines (exec c p) = [].
Proof.
  assert (Q : forall p s ni, max_print_depth p < depth p -> call p s ni = []). { intros p s ni H. unfold call. destruct (Nat.leb_spec (depth p) (max_print_depth p)); [lia|]. rewrite andb_false_r. reflexivity. }
  induction c as [s ni|b|str key b IH|b c IH|c1 IH1 c2 IH2| | |c1 IH1 c2 IH2]; intros p D; cbn [Printer_M.exec]; try reflexivity.
  - apply Q. exact D.
  - cbv zeta. change (set_depth (S (depth p)) (next_tick p)) with (inside p). pose proof (IH (inside p) ltac:(cbn; lia)) as H. pose proof (maxd b (inside p)) as M. pose proof (depth_exact b (inside p)) as X. cbn in M.
    destruct (exec b (inside p)) as [[[|] p1] l1]; unfold lines, after in *; cbn [fst snd] in *; rewrite H; (destruct str as [s|]; [|reflexivity]); rewrite (Q p) by exact D; [|reflexivity]. rewrite Q; [reflexivity|]. unfold inside in X at 1. cbn in *. lia.
  - pose proof (IH (set_active (active p && b) p) D) as H. destruct (exec c _) as [[[|] p1] l1]; exact H.
  - pose proof (IH1 p D) as H. pose proof (maxd c1 p) as M. pose proof (depth_exact c1 p) as X. destruct (exec c1 p) as [[[|] p1] l1]; [|exact H]. unfold lines, after in *; cbn [fst snd] in *. pose proof (IH2 p1 ltac:(lia)) as H2. destruct (exec c2 p1) as [[o p2] l2]. cbn [fst snd] in *. rewrite H, H2. reflexivity.
  - pose proof (IH1 p D) as H. pose proof (maxd c1 p) as M. pose proof (depth_exact c1 p) as X. destruct (exec c1 p) as [[[|] p1] l1]; [exact H|]. unfold lines, after in *; cbn [fst snd] in *. pose proof (IH2 p1 ltac:(lia)) as H2. destruct (exec c2 p1) as [[o p2] l2]. cbn [fst snd] in *. rewrite H, H2. reflexivity.
Qed.
Lemma failing_depth n s k : forall p, ok (exec (failing n s k) p) = true /\ depth (after (exec (failing n s k) p)) = depth p + n /\ max_print_depth (after (exec (failing n s k) p)) = max_print_depth p.
Proof.
  induction n as [|n IH]; intros p; [cbn; repeat split; lia|]. cbn [failing Printer_M.exec]. cbv zeta beta iota. set (q := set_depth (S (depth p)) (next_tick p)). destruct (IH q) as (H1 & H2 & H3). destruct (exec (failing n s k) q) as [[o p2] l2].
  unfold ok, after in *. cbn [fst snd] in *. split; [exact H1|]. split; [rewrite H2; cbn; lia|rewrite H3; reflexivity].
Qed.
End P.
