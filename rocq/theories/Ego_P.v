From Coq Require Import QArith Bool Arith List Lia.
From Verif Require Import Ego_M.
Import ListNotations.
Open Scope list_scope.
Open Scope nat_scope.

(** ** argmin *)
Lemma argmin_from_spec : forall l best bi i, bi < i ->
  let k := argmin_from best bi i l in
  (k = bi /\ (forall j v, nth_error l j = Some v -> best <= v)%Q) \/
  (exists j v, k = i + j /\ nth_error l j = Some v /\ ~ (best <= v)%Q /\ (forall j' v', nth_error l j' = Some v' -> v <= v')%Q /\ (forall j' v', j' < j -> nth_error l j' = Some v' -> ~ (v' <= v)%Q)).
Proof.
  induction l as [|x l IH]; intros best bi i H k; subst k; cbn [argmin_from].
  - left. split; [reflexivity|]. intros [|j] v; discriminate.
  - destruct (Qle_bool best x) eqn:E.
    + apply Qle_bool_iff in E. destruct (IH best bi (S i) ltac:(lia)) as [[-> A]|(j & v & -> & N & L & M & F)].
      * left. split; [reflexivity|]. intros [|j] v Hv; [injection Hv as <-; exact E|exact (A j v Hv)].
      * right. exists (S j), v. split; [lia|]. split; [exact N|]. split; [exact L|]. split.
        -- intros [|j'] v' Hv; [injection Hv as <-|exact (M j' v' Hv)]. apply Qlt_le_weak. apply Qnot_le_lt in L. eapply Qlt_le_trans; eauto.
        -- intros [|j'] v' Hj Hv; [injection Hv as <-|apply (F j' v'); [lia|exact Hv]]. intros Q. apply L. eapply Qle_trans; eauto.
    + assert (E' : ~ (best <= x)%Q) by (intros Q; apply Qle_bool_iff in Q; congruence). right.
      destruct (IH x i (S i) ltac:(lia)) as [[-> A]|(j & v & -> & N & L & M & F)].
      * exists 0, x. split; [lia|]. split; [reflexivity|]. split; [exact E'|]. split; [|intros; lia]. intros [|j] v Hv; [injection Hv as <-; apply Qle_refl|exact (A j v Hv)].
      * exists (S j), v. split; [lia|]. split; [exact N|]. apply Qnot_le_lt in E'. pose proof (Qnot_le_lt _ _ L) as L'. split; [intros Q; apply (Qlt_not_le _ _ (Qlt_trans _ _ _ L' E')); exact Q|]. split.
        -- intros [|j'] v' Hv; [injection Hv as <-; apply Qlt_le_weak; exact L'|exact (M j' v' Hv)].
        -- intros [|j'] v' Hj Hv; [injection Hv as <-; exact L|apply (F j' v'); [lia|exact Hv]].
Qed.
Lemma argmin_spec l k : argmin l = Some k -> exists v, nth_error l k = Some v /\ (forall j v', nth_error l j = Some v' -> v <= v')%Q /\ (forall j v', j < k -> nth_error l j = Some v' -> ~ (v' <= v)%Q).
Proof.
  destruct l as [|x l]; [discriminate|]. cbn [argmin]. intros [= <-]. destruct (argmin_from_spec l x 0 1 ltac:(lia)) as [[-> A]|(j & v & -> & N & L & M & F)].
  - exists x. split; [reflexivity|]. split; [|intros; lia]. intros [|j] v Hv; [injection Hv as <-; apply Qle_refl|exact (A j v Hv)].
  - exists v. split; [exact N|]. split.
    + intros [|j'] v' Hv; [injection Hv as <-; apply Qlt_le_weak, Qnot_le_lt; exact L|exact (M j' v' Hv)].
    + intros [|j'] v' Hj Hv; [injection Hv as <-; exact L|apply (F j' v'); [lia|exact Hv]].
Qed.
Lemma argmin_some l : l <> [] -> exists k, argmin l = Some k. Proof. destruct l; [congruence|]. cbn. eauto. Qed.

(** ** the retry loop *)
Section Find.
Context {Pt : Type}.
Lemma find_loop_spec n_max (runs : nat -> list (option (Pt * Q))) : forall fuel n, n_max + 1 - n <= fuel -> 1 <= n ->
  let '(m, s) := find_loop fuel n n_max runs in
  (s <> [] /\ n <= m <= n_max /\ s = successes (runs m) /\ forall i, n <= i < m -> successes (runs i) = []) \/
  (s = [] /\ (n_max < m)%nat /\ forall i, n <= i <= n_max -> successes (runs i) = []).
Proof.
  induction fuel as [|fuel IH]; intros n F N; cbn [find_loop]; [right; split; [reflexivity|split; [lia|intros; lia]]|].
  destruct (Nat.leb_spec n n_max) as [L|L]; [|right; split; [reflexivity|split; [lia|intros; lia]]].
  destruct (successes (runs n)) as [|a s] eqn:E.
  - specialize (IH (n + 1) ltac:(lia) ltac:(lia)). destruct (find_loop fuel (n + 1) n_max runs) as [m s]. destruct IH as [(A & B & C & D)|(A & B & D)].
    + left. split; [exact A|]. split; [lia|]. split; [exact C|]. intros i Hi. destruct (Nat.eq_dec i n) as [-> |Ne]; [exact E|apply D; lia].
    + right. split; [exact A|]. split; [lia|]. intros i Hi. destruct (Nat.eq_dec i n) as [-> |Ne]; [exact E|apply D; lia].
  - left. split; [discriminate|]. split; [lia|]. split; [rewrite E; reflexivity|]. intros; lia.
Qed.
(** characterisation of _find_best_point *)
Lemma in_successes (l : list (option (Pt * Q))) a : In a (successes l) <-> In (Some a) l.
Proof. induction l as [|[b|] l IH]; cbn; [tauto| |]; [rewrite IH; split; intros [H|H]; auto; [left; congruence|left; congruence]|rewrite IH; split; [auto|intros [H|H]; [discriminate|exact H]]]. Qed.
Lemma find_spec n_max (runs : nat -> list (option (Pt * Q))) x :
  find_best_point n_max runs = Some x <->
  exists n, 1 <= n < n_max /\ (forall i, 1 <= i < n -> successes (runs i) = []) /\
    exists k v, nth_error (successes (runs n)) k = Some (x, v) /\
      (forall j x' v', nth_error (successes (runs n)) j = Some (x', v') -> (v <= v')%Q /\ (j < k -> ~ (v' <= v)%Q)).
Proof.
  unfold find_best_point. pose proof (find_loop_spec n_max runs (n_max + 1) 1 ltac:(lia) ltac:(lia)) as S. destruct (find_loop (n_max + 1) 1 n_max runs) as [m s].
  assert (nth_snd : forall (s : list (Pt * Q)) j, nth_error (map snd s) j = option_map snd (nth_error s j)) by (intros; apply nth_error_map).
  split.
  - destruct (Nat.leb_spec n_max m) as [L|L]; [discriminate|]. destruct S as [(A & B & C & D)|(A & B & _)]; [|lia]. intros E. exists m. split; [lia|]. split; [exact D|]. rewrite <- C.
    destruct (argmin (map snd s)) as [k|] eqn:K; [|discriminate]. destruct (argmin_spec _ _ K) as (v & V & M & F). rewrite nth_snd in V.
    destruct (nth_error s k) as [[x0 v0]|] eqn:N; [|discriminate]. cbn in V, E. injection V as <-. injection E as <-. exists k, v0. split; [exact N|].
    intros j x' v' J. split; [apply (M j)|intros Hj; apply (F j)]; try exact Hj; rewrite nth_snd, J; reflexivity.
  - intros (n & N & D & k & v & K & M). 
    assert (E : m = n /\ s = successes (runs n)).
    { assert (NE : successes (runs n) <> []) by (intros Z; rewrite Z in K; destruct k; discriminate). destruct S as [(A & B & C & D2)|(_ & B & D2)]; [|elim NE; apply D2; lia].
      destruct (Nat.lt_trichotomy m n) as [H|[H|H]]; [|subst; auto|].
      - elim A. rewrite C. apply D. lia.
      - elim NE. apply D2. lia. }
    destruct E as [-> ->]. destruct (Nat.leb_spec n_max n) as [Lq|Lq]; [lia|].
    destruct (argmin_some (map snd (successes (runs n)))) as [k' K']; [destruct (successes (runs n)); [destruct k; discriminate|discriminate]|]. rewrite K'.
    destruct (argmin_spec _ _ K') as (v' & V' & M' & F'). rewrite nth_snd in V'. destruct (nth_error (successes (runs n)) k') as [[x0 v0]|] eqn:N'; [|discriminate]. injection V' as <-. cbn [option_map fst].
    destruct (Nat.lt_trichotomy k k') as [H|[H|H]].
    + exfalso. apply (F' k v H); [rewrite nth_snd, K; reflexivity|]. apply (M k' x0 v0 N').
    + subst k'. rewrite K in N'. injection N' as <- <-. reflexivity.
    + exfalso. destruct (M k' x0 v0 N') as [_ M2]. apply (M2 H). apply (M' k). rewrite nth_snd, K. reflexivity.
Qed.
End Find.

(** ** the main loop *)
Section Main.
Context {Pt : Type}.
Variables (f : Pt -> Q) (fold : option (Pt -> Pt)) (n_max : nat)
  (runs : nat -> nat -> list Pt -> list Q -> nat -> list (option (Pt * Q))) (virtual : nat -> nat -> Pt -> list Pt -> list Q -> Q).
Let g (x : Pt) : Q := f (to_fun fold x).
Lemma enrich_spec : forall m k p xs ys, length ys = length xs ->
  let '(xs', ys') := enrich n_max runs virtual k p m xs ys in
  exists nx ny, xs' = xs ++ nx /\ ys' = ys ++ ny /\ length nx = length ny /\ length nx <= m.
Proof.
  induction m as [|m IH]; intros k p xs ys H; cbn [enrich]; [exists [], []; rewrite !app_nil_r; auto|].
  destruct (find_best_point n_max (runs k p xs ys)) as [x|]; [|exists [], []; rewrite !app_nil_r; cbn; auto with arith].
  specialize (IH k (p + 1) (xs ++ [x]) (ys ++ [virtual k p x xs ys]) ltac:(rewrite !app_length; cbn; lia)).
  destruct (enrich _ _ _ _ _ _ _ _) as [xs' ys']. destruct IH as (nx & ny & -> & -> & A & B). exists (x :: nx), (virtual k p x xs ys :: ny). rewrite <- !app_assoc. cbn. repeat split; lia.
Qed.
Lemma enrich_full : forall m k p xs ys, (forall p xs ys, find_best_point n_max (runs k p xs ys) <> None) ->
  length (fst (enrich n_max runs virtual k p m xs ys)) = length xs + m.
Proof.
  induction m as [|m IH]; intros k p xs ys H; cbn [enrich]; [cbn; lia|].
  destruct (find_best_point n_max (runs k p xs ys)) as [x|] eqn:E; [|elim (H _ _ _ E)]. rewrite IH by exact H. rewrite app_length. cbn. lia.
Qed.
(** an output is either the objective at its point or an initial output of the initial design *)
Definition good (ys0 : list Q) (xs : list Pt) (ys : list Q) : Prop :=
  length ys = length xs /\ forall i x y, nth_error xs i = Some x -> nth_error ys i = Some y -> y = g x \/ nth_error ys0 i = Some y.
Lemma tail_split {A} n (l : list A) : exists h, l = h ++ tail n l /\ (n = 0 -> h = []) /\ (0 < n -> h = firstn (length l - n) l).
Proof. unfold tail. destruct (Nat.eqb_spec n 0) as [-> |N]; [exists []; repeat split; lia|]. exists (firstn (length l - n) l). split; [symmetry; apply firstn_skipn|]. split; [lia|reflexivity]. Qed.
Lemma step_good ys0 n xs ys nx ny : good ys0 xs ys -> length nx = length ny -> length nx <= n ->
  good ys0 (xs ++ nx) (set_tail n (ys ++ ny) (map f (map (to_fun fold) (tail n (xs ++ nx))))).
Proof.
  intros [Le G] E B. rewrite map_map. change (map (fun x => f (to_fun fold x))) with (map g).
  destruct (Nat.eq_dec n 0) as [-> |N].
  - assert (nx = []) by (destruct nx; [reflexivity|cbn in B; lia]). subst nx. unfold set_tail, tail. cbn [Nat.eqb]. rewrite app_nil_r. split; [apply map_length|].
    intros i x y Hx Hy. rewrite nth_error_map, Hx in Hy. injection Hy as <-. left. reflexivity.
  - unfold set_tail, tail. destruct (Nat.eqb_spec n 0); [lia|]. 
    assert (L2 : length (ys ++ ny) = length (xs ++ nx)) by (rewrite !app_length; lia). rewrite L2. set (c := length (xs ++ nx) - n). 
    assert (Hc : c <= length xs) by (unfold c; rewrite app_length; lia).
    assert (Lf : length (firstn c (ys ++ ny)) = c) by (rewrite firstn_length, app_length; lia).
    split; [rewrite app_length, Lf, map_length, skipn_length; unfold c; lia|].
    intros i x y Hx Hy. destruct (Nat.lt_ge_cases i c) as [Hi|Hi].
    + rewrite nth_error_app1 in Hy by lia. rewrite nth_error_app1 in Hx by lia. apply (G i x y Hx).
      assert (Q : nth_error (ys ++ ny) i = Some y) by (rewrite <- (firstn_skipn c (ys ++ ny)), nth_error_app1 by lia; exact Hy). rewrite nth_error_app1 in Q by lia. exact Q.
    + rewrite nth_error_app2 in Hy by lia. rewrite Lf in Hy. rewrite nth_error_map in Hy.
      assert (Q : nth_error (skipn c (xs ++ nx)) (i - c) = Some x) by (rewrite <- (firstn_skipn c (xs ++ nx)) in Hx; rewrite nth_error_app2 in Hx by (rewrite firstn_length; lia); rewrite firstn_length, Nat.min_l in Hx by (rewrite app_length; lia); exact Hx).
      rewrite Q in Hy. injection Hy as <-. left. reflexivity.
Qed.
Lemma iterate_spec np : forall n k xs0 ys0 xs ys, good ys0 xs ys -> length ys0 = length xs0 -> firstn (length xs0) xs = xs0 ->
  let '(xf, yf, cs) := iterate f fold n_max runs virtual np k n xs ys in
  good ys0 xf yf /\ firstn (length xs0) xf = xs0 /\ length xs <= length xf <= length xs + n * np /\ (forall r, In r cs -> exists x, In x xf /\ r = to_fun fold x).
Proof.
  induction n as [|n IH]; intros k xs0 ys0 xs ys G L0 Fx; cbn [iterate]; [split; [exact G|split; [exact Fx|split; [lia|intros r []]]]|].
  pose proof (enrich_spec np k 0 xs ys (proj1 G)) as En. destruct (enrich n_max runs virtual k 0 np xs ys) as [xs1 ys1]. destruct En as (nx & ny & -> & -> & A & B).
  pose proof (step_good ys0 np xs ys nx ny G A B) as G1. set (ys2 := set_tail np (ys ++ ny) _) in *.
  assert (Lx : length xs0 <= length xs) by (apply (f_equal (@length Pt)) in Fx; rewrite firstn_length in Fx; lia).
  assert (F1 : firstn (length xs0) (xs ++ nx) = xs0) by (rewrite firstn_app, Fx; replace (length xs0 - length xs) with 0 by lia; apply app_nil_r).
  specialize (IH (k + 1) xs0 ys0 (xs ++ nx) ys2 G1 L0 F1).
  assert (PX : forall n k xs ys, let '(xf, _, _) := iterate f fold n_max runs virtual np k n xs ys in length ys = length xs -> firstn (length xs) xf = xs).
  { clear. induction n as [|n IH]; intros k xs ys; cbn [iterate]; [intros _; apply firstn_all|].
    destruct (Nat.eq_dec (length ys) (length xs)) as [E|E]; cycle 1.
    { destruct (enrich _ _ _ _ _ _ _ _) as [a b]. destruct (iterate _ _ _ _ _ _ _ _ _ _) as [[c d] e]. congruence. }
    pose proof (enrich_spec np k 0 xs ys E) as En. destruct (enrich n_max runs virtual k 0 np xs ys) as [xs1 ys1]. destruct En as (nx & ny & -> & -> & A & B).
    assert (LE : length (set_tail np (ys ++ ny) (map f (map (to_fun fold) (tail np (xs ++ nx))))) = length (xs ++ nx)).
    { unfold set_tail, tail. destruct (Nat.eqb_spec np 0); [rewrite !map_length; reflexivity|]. rewrite app_length, !map_length, firstn_length, skipn_length, !app_length. lia. }
    specialize (IH (k + 1) (xs ++ nx) (set_tail np (ys ++ ny) (map f (map (to_fun fold) (tail np (xs ++ nx)))))).
    destruct (iterate _ _ _ _ _ _ _ _ _ _) as [[xf yf] cs]. intros _. specialize (IH LE).
    rewrite app_length in IH. apply (f_equal (firstn (length xs))) in IH. rewrite firstn_firstn, Nat.min_l in IH by lia. rewrite IH, firstn_app, Nat.sub_diag, firstn_all. apply app_nil_r. }
  specialize (PX n (k + 1) (xs ++ nx) ys2).
  destruct (iterate f fold n_max runs virtual np (k + 1) n (xs ++ nx) ys2) as [[xf yf] cs].
  destruct IH as (G' & F' & L' & C'). split; [exact G'|]. split; [exact F'|]. rewrite app_length in L'. split; [nia|].
  intros r Hr. apply in_app_or in Hr. destruct Hr as [Hr|Hr]; [|exact (C' r Hr)]. apply in_map_iff in Hr. destruct Hr as (x & <- & Hx). exists x. split; [|reflexivity].
  specialize (PX (proj1 G1)). destruct (tail_split np (xs ++ nx)) as (h & Eh & _). assert (In x (xs ++ nx)) by (rewrite Eh; apply in_or_app; right; exact Hx).
  rewrite <- PX in H. rewrite <- (firstn_skipn (length (xs ++ nx)) xf). apply in_or_app. left. exact H.
Qed.
End Main.

Section Optimize.
Context {Pt : Type}.
Variables (f : Pt -> Q) (fold : option (Pt -> Pt)) (n_max : nat)
  (runs : nat -> nat -> list Pt -> list Q -> nat -> list (option (Pt * Q))) (virtual : nat -> nat -> Pt -> list Pt -> list Q -> Q).
Variables (n_iter np : nat) (xdoe : list Pt).
Lemma nth_zip {A B} (xs : list A) (ys : list B) i y : length ys = length xs -> nth_error ys i = Some y -> exists x, nth_error xs i = Some x.
Proof. intros L H. assert (i < length xs) by (rewrite <- L; apply nth_error_Some; congruence). destruct (nth_error xs i) eqn:E; [eauto|]. apply nth_error_None in E. lia. Qed.
Lemma optimize_spec ydoe r : match ydoe with Some ys => length ys = length xdoe | None => True end ->
  optimize f fold n_max runs virtual n_iter np xdoe ydoe = Some r ->
  length (y_data r) = length (x_data r) /\ firstn (length xdoe) (x_data r) = xdoe /\
  length xdoe <= length (x_data r) <= length xdoe + n_iter * np /\
  (forall i x y, nth_error (x_data r) i = Some x -> nth_error (y_data r) i = Some y -> y = f (to_fun fold x) \/ nth_error (match ydoe with Some ys => ys | None => map f xdoe end) i = Some y) /\
  (exists x, nth_error (x_data r) (ind_best r) = Some x /\ x_opt r = to_fun fold x) /\ nth_error (y_data r) (ind_best r) = Some (y_opt r) /\
  (forall j y, nth_error (y_data r) j = Some y -> (y_opt r <= y)%Q) /\
  (exists c1, calls r = match ydoe with Some _ => [] | None => xdoe end ++ c1 /\ forall x, In x c1 -> exists u, In u (x_data r) /\ x = to_fun fold u).
Proof.
  intros Hy. unfold optimize. set (ys0 := match ydoe with Some ys => ys | None => map f xdoe end). set (c0 := match ydoe with Some _ => [] | None => xdoe end).
  assert (E : (match ydoe with Some ys => (ys, []) | None => (map f xdoe, xdoe) end) = (ys0, c0)) by (unfold ys0, c0; destruct ydoe; reflexivity). rewrite E.
  assert (L0 : length ys0 = length xdoe) by (unfold ys0; destruct ydoe; [exact Hy|apply map_length]).
  assert (G0 : good f fold ys0 xdoe ys0) by (split; [exact L0|]; intros; right; assumption).
  pose proof (iterate_spec f fold n_max runs virtual np n_iter 0 xdoe ys0 xdoe ys0 G0 L0 (firstn_all _)) as S.
  destruct (iterate f fold n_max runs virtual np 0 n_iter xdoe ys0) as [[xs ys] cs]. destruct S as ((Le & G) & Fx & Lb & Cs).
  destruct (argmin ys) as [i|] eqn:A; [|discriminate]. destruct (nth_error xs i) as [x|] eqn:Ex; [|discriminate]. destruct (nth_error ys i) as [y|] eqn:Ey; [|discriminate].
  intros [= <-]. cbn [x_data y_data x_opt y_opt ind_best calls]. destruct (argmin_spec _ _ A) as (v & Ev & M & _). rewrite Ey in Ev. injection Ev as <-.
  split; [exact Le|]. split; [exact Fx|]. split; [exact Lb|]. split; [exact G|]. split; [exists x; auto|]. split; [exact Ey|]. split; [exact M|]. exists cs. auto.
Qed.
Lemma optimize_total ydoe : xdoe <> [] -> match ydoe with Some ys => length ys = length xdoe | None => True end -> exists r, optimize f fold n_max runs virtual n_iter np xdoe ydoe = Some r.
Proof.
  intros NE Hy. unfold optimize. set (ys0 := match ydoe with Some ys => ys | None => map f xdoe end). set (c0 := match ydoe with Some _ => [] | None => xdoe end).
  assert (E : (match ydoe with Some ys => (ys, []) | None => (map f xdoe, xdoe) end) = (ys0, c0)) by (unfold ys0, c0; destruct ydoe; reflexivity). rewrite E.
  assert (L0 : length ys0 = length xdoe) by (unfold ys0; destruct ydoe; [exact Hy|apply map_length]).
  assert (G0 : good f fold ys0 xdoe ys0) by (split; [exact L0|]; intros; right; assumption).
  pose proof (iterate_spec f fold n_max runs virtual np n_iter 0 xdoe ys0 xdoe ys0 G0 L0 (firstn_all _)) as S.
  destruct (iterate f fold n_max runs virtual np 0 n_iter xdoe ys0) as [[xs ys] cs]. destruct S as ((Le & G) & Fx & Lb & Cs).
  destruct (argmin_some ys) as [i A]; [intros ->; cbn in Le; destruct xdoe; [congruence|cbn in Lb; lia]|]. rewrite A. destruct (argmin_spec _ _ A) as (v & Ev & _). rewrite Ev.
  destruct (nth_zip xs ys i v Le Ev) as [x Ex]. rewrite Ex. eauto.
Qed.
Lemma iterate_full : (forall k p xs ys, find_best_point n_max (runs k p xs ys) <> None) -> forall n k xs ys, length ys = length xs ->
  length (fst (fst (iterate f fold n_max runs virtual np k n xs ys))) = length xs + n * np.
Proof.
  intros H. induction n as [|n IH]; intros k xs ys L; cbn [iterate]; [cbn; lia|].
  pose proof (enrich_full n_max runs virtual np k 0 xs ys (fun p xs ys => H k p xs ys)) as Fl. pose proof (enrich_spec n_max runs virtual np k 0 xs ys L) as En.
  destruct (enrich n_max runs virtual k 0 np xs ys) as [xs1 ys1]. cbn [fst] in Fl. destruct En as (nx & ny & -> & -> & A & B).
  match goal with |- context [iterate f fold n_max runs virtual np (k + 1) n ?a ?b] => specialize (IH (k + 1) a b) end.
  destruct (iterate _ _ _ _ _ _ _ _ _ _) as [[xf yf] cs]. cbn [fst] in *. rewrite IH; [nia|].
  unfold set_tail, tail. destruct (Nat.eqb_spec np 0); [rewrite !map_length; reflexivity|]. rewrite app_length, !map_length, firstn_length, skipn_length, !app_length. lia.
Qed.
Lemma optimize_full ydoe r : (forall k p xs ys, find_best_point n_max (runs k p xs ys) <> None) -> match ydoe with Some ys => length ys = length xdoe | None => True end ->
  optimize f fold n_max runs virtual n_iter np xdoe ydoe = Some r -> length (x_data r) = length xdoe + n_iter * np.
Proof.
  intros H Hy. unfold optimize. set (ys0 := match ydoe with Some ys => ys | None => map f xdoe end). set (c0 := match ydoe with Some _ => [] | None => xdoe end).
  assert (E : (match ydoe with Some ys => (ys, []) | None => (map f xdoe, xdoe) end) = (ys0, c0)) by (unfold ys0, c0; destruct ydoe; reflexivity). rewrite E.
  assert (L0 : length ys0 = length xdoe) by (unfold ys0; destruct ydoe; [exact Hy|apply map_length]).
  pose proof (iterate_full H n_iter 0 xdoe ys0 L0) as Q. destruct (iterate _ _ _ _ _ _ _ _ _ _) as [[xs ys] cs]. cbn [fst] in Q.
  destruct (argmin ys); [|discriminate]. destruct (nth_error xs n); [|discriminate]. destruct (nth_error ys n); [|discriminate]. intros [= <-]. exact Q.
Qed.
End Optimize.
Lemma zip_map {A B} (h : A -> B) (xs : list A) (ys : list B) : length ys = length xs -> (forall i x y, nth_error xs i = Some x -> nth_error ys i = Some y -> y = h x) -> ys = map h xs.
Proof.
  revert ys. induction xs as [|x xs IH]; intros [|y ys] L H; try discriminate; [reflexivity|]. cbn. f_equal; [apply (H 0 x y); reflexivity|]. apply IH; [cbn in L; lia|]. intros i a b Ha Hb. exact (H (S i) a b Ha Hb).
Qed.
