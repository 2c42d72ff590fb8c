(** Reduced problems. *)
From Coq Require Import Reals ZArith Arith Lia Lra Bool List FunctionalExtensionality FinFun.
From Coquelicot Require Import Coquelicot.
From Verif Require Import RSum Poly_P Problems_M Problems_S Problems_P Problems_P2 Problems_P3.
Import ListNotations.
Open Scope list_scope.
Open Scope R_scope.
Lemma wrap_some n z : (exists j, wrap n z = Some j) <-> (- Z.of_nat n <= z < Z.of_nat n)%Z.
Proof.
  unfold wrap. destruct (Z.leb_spec 0 z), (Z.ltb_spec z (Z.of_nat n)), (Z.leb_spec (- Z.of_nat n) z), (Z.ltb_spec z 0); cbn [andb]; (split; [intros [j E]; try discriminate E; lia|intros; try lia; eexists; reflexivity]).
Qed.
Lemma wrap_out n z : (z >= Z.of_nat n)%Z -> wrap n z = None.
Proof. intros H. destruct (wrap n z) eqn:E; [|reflexivity]. assert (exists j, wrap n z = Some j) as W by (eexists; exact E). apply wrap_some in W. lia. Qed.
Lemma wrapped_all n dims : forallb (fun z => match wrap n z with Some _ => true | None => false end) dims = true <-> forall z, In z dims -> (- Z.of_nat n <= z < Z.of_nat n)%Z.
Proof.
  rewrite forallb_forall. split; intros H z Hz; specialize (H z Hz).
  - apply wrap_some. destruct (wrap n z); [eexists; reflexivity|discriminate].
  - apply wrap_some in H. destruct H as [j ->]. reflexivity.
Qed.
Lemma exists_iff p d w : (exists q, reduced_problem p d w = Some q) <-> acceptable (ndim p) d.
Proof.
  unfold reduced_problem, acceptable. split.
  - intros [q H]. destruct (dims_of p d) as [dims|] eqn:E; [|discriminate]. destruct (forallb _ dims) eqn:F; [|discriminate]. rewrite wrapped_all in F.
    destruct d as [z|l]; cbn in E.
    + destruct (Z.leb_spec z (Z.of_nat (ndim p))); [assumption|discriminate].
    + destruct l as [|a l]; [discriminate|]. destruct (forallb _ (a :: l)); [|discriminate]. injection E as <-. split; [discriminate|exact F].
  - intros H. assert (exists dims, dims_of p d = Some dims /\ forall z, In z dims -> (- Z.of_nat (ndim p) <= z < Z.of_nat (ndim p))%Z) as (dims & -> & K).
    + destruct d as [z|l]; cbn [dims_of].
      * destruct (Z.leb_spec z (Z.of_nat (ndim p))); [|lia]. eexists. split; [reflexivity|]. intros u Hu. apply in_map_iff in Hu. destruct Hu as (i & <- & Hi). apply in_seq in Hi. lia.
      * destruct H as [N H]. destruct l as [|a l]; [contradiction|]. assert (forallb (fun z => (z <? Z.of_nat (ndim p))%Z) (a :: l) = true) as ->. { apply forallb_forall. intros z Hz. apply Z.ltb_lt. apply H. exact Hz. } eexists. split; [reflexivity|exact H].
    + apply wrapped_all in K. rewrite K. eexists. reflexivity.
Qed.
Lemma dims_of_ok p d dims : dims_of p d = Some dims -> dims = dims_list d.
Proof. destruct d as [z|[|a l]]; cbn [dims_of dims_list]; [destruct (_ <=? _)%Z|discriminate|destruct (forallb _ _)]; congruence. Qed.
(** the assignment loop for dimensions given as naturals *)
Lemma assign_nat n : forall dims s x xp, (forall d, In d dims -> (d < n)%nat) -> exists xq, assign n (map Z.of_nat dims) s x xp = Some xq /\
  (forall j, ~ In j dims -> xq j = xp j) /\ (NoDup dims -> forall i, (i < length dims)%nat -> xq (nth i dims 0%nat) = x (s + i)%nat).
Proof.
  induction dims as [|d dims IH]; intros s x xp H; cbn [map assign].
  - eexists. split; [reflexivity|]. split; [reflexivity|]. intros _ i Hi. cbn in Hi. lia.
  - rewrite wrap_nat by (apply H; left; reflexivity). destruct (IH (S s) x (upd xp d (x s))) as (xq & E & K1 & K2); [intros; apply H; right; assumption|].
    exists xq. split; [exact E|]. split.
    + intros j Hj. rewrite K1 by (intros C; apply Hj; right; exact C). apply upd_neq. intros ->. apply Hj. left. reflexivity.
    + intros ND i Hi. inversion ND as [|? ? N1 N2]; subst. destruct i as [|i]; cbn [nth].
      * rewrite (K1 d N1). rewrite upd_eq. f_equal. lia.
      * cbn in Hi. rewrite (K2 N2 i) by lia. f_equal. lia.
Qed.
Section Reduced.
Variables (p q : problem) (d : dimsarg) (dims : list nat) (w : R).
Hypothesis Hq : reduced_problem p d w = Some q.
Hypothesis Hd : dims_list d = map Z.of_nat dims.
Hypothesis ND : NoDup dims.
Lemma dims_lt : forall j, In j dims -> (j < ndim p)%nat.
Proof.
  clear ND. intros j Hj. unfold reduced_problem in Hq. destruct (dims_of p d) as [ds|] eqn:E; [|discriminate]. apply dims_of_ok in E. destruct (forallb _ ds) eqn:F; [|discriminate]. rewrite wrapped_all in F.
  specialize (F (Z.of_nat j)). rewrite E, Hd in F. specialize (F (in_map Z.of_nat dims j Hj)). lia.
Qed.
Lemma reduced_is : q = {| ndim := length (map Z.of_nat dims);
  lower := fun i => match wrap (ndim p) (nth i (map Z.of_nat dims) 0%Z) with Some j => lower p j | None => 0 end;
  upper := fun i => match wrap (ndim p) (nth i (map Z.of_nat dims) 0%Z) with Some j => upper p j | None => 0 end;
  evaluate := fun x kx =>
    match assign (ndim p) (map Z.of_nat dims) 0 x (fun j => (1 - w) * lower p j + w * upper p j) with
    | None => None
    | Some xp => match kx with
                 | None => evaluate p xp None
                 | Some k => match wrap (length (map Z.of_nat dims)) k with Some i => evaluate p xp (Some (nth i (map Z.of_nat dims) 0%Z)) | None => None end
                 end
    end |}.
Proof.
  clear ND. unfold reduced_problem in Hq. destruct (dims_of p d) as [ds|] eqn:E; [|discriminate]. apply dims_of_ok in E. destruct (forallb _ ds); [|discriminate]. rewrite <- Hd. rewrite <- E. congruence.
Qed.
Lemma nth_map_nat i : (i < length dims)%nat -> nth i (map Z.of_nat dims) 0%Z = Z.of_nat (nth i dims 0%nat).
Proof. intros. change 0%Z with (Z.of_nat 0). apply map_nth. Qed.
Lemma reduced_ndim : ndim q = length dims.
Proof. rewrite reduced_is. cbn [ndim]. apply map_length. Qed.
Lemma reduced_limits i : (i < length dims)%nat -> lower q i = lower p (nth i dims 0%nat) /\ upper q i = upper p (nth i dims 0%nat).
Proof.
  intros Hi. rewrite reduced_is. cbn [lower upper]. rewrite nth_map_nat by exact Hi. rewrite wrap_nat; [split; reflexivity|]. apply dims_lt. apply nth_In. exact Hi.
Qed.
Lemma section_unique x a b : section_of p dims w x a -> section_of p dims w x b -> a = b.
Proof.
  clear Hq Hd ND. intros [A1 A2] [B1 B2]. apply functional_extensionality. intros j. destruct (in_dec Nat.eq_dec j dims) as [I|N]; [|rewrite A2, B2 by exact N; reflexivity].
  destruct (In_nth dims j 0%nat I) as (i & Hi & <-). rewrite A1, B1 by exact Hi. reflexivity.
Qed.
Lemma reduced_eval x : exists xp, section_of p dims w x xp /\ evaluate q x None = evaluate p xp None /\
  (forall i, (i < length dims)%nat -> evaluate q x (Some (Z.of_nat i)) = evaluate p xp (Some (Z.of_nat (nth i dims 0%nat)))) /\
  forall z, (z >= Z.of_nat (length dims))%Z -> evaluate q x (Some z) = None.
Proof.
  destruct (assign_nat (ndim p) dims 0 x (fun j => (1 - w) * lower p j + w * upper p j) dims_lt) as (xp & E & K1 & K2). exists xp. split; [split; [exact (K2 ND)|exact K1]|].
  rewrite reduced_is. cbn [evaluate]. rewrite E. split; [reflexivity|]. rewrite map_length. split.
  - intros i Hi. rewrite wrap_nat by exact Hi. rewrite nth_map_nat by exact Hi. reflexivity.
  - intros z Hz. rewrite wrap_out by exact Hz. reflexivity.
Qed.
Lemma reduced_value x xp : section_of p dims w x xp -> value q x = value p xp.
Proof. intros H. destruct (reduced_eval x) as (xq & S & E & _). rewrite (section_unique x xp xq H S). unfold value. rewrite E. reflexivity. Qed.
Lemma section_upd x xp k t : (k < length dims)%nat -> section_of p dims w x xp -> section_of p dims w (upd x k t) (upd xp (nth k dims 0%nat) t).
Proof.
  intros Hk [H1 H2]. split.
  - intros i Hi. unfold upd. destruct (Nat.eqb_spec (nth i dims 0%nat) (nth k dims 0%nat)) as [E|E], (Nat.eqb_spec i k) as [F|F]; [reflexivity| | |apply H1; exact Hi].
    + exfalso. apply F. apply (proj1 (NoDup_nth dims 0%nat) ND); assumption.
    + exfalso. apply E. rewrite F. reflexivity.
  - intros j Hj. rewrite upd_neq; [apply H2; exact Hj|]. intros ->. apply Hj. apply nth_In. exact Hk.
Qed.
Lemma reduced_derivative x xp k : (k < length dims)%nat -> section_of p dims w x xp -> derivative_correct p xp (nth k dims 0%nat) -> derivative_correct q x k.
Proof.
  intros Hk S (v & E & D). exists v. destruct (reduced_eval x) as (xq & S' & _ & E' & _). rewrite <- (section_unique x xp xq S S') in E'. rewrite (E' k Hk). split; [exact E|].
  unfold is_partial in *. rewrite <- (proj1 S k Hk). apply (is_derive_ext (fun t => value p (upd xp (nth k dims 0%nat) t))); [|exact D].
  intros t. symmetry. apply reduced_value. apply section_upd; assumption.
Qed.
End Reduced.
(** ** the Ndim classes *)
Lemma arange_nat s st n : arange (Z.of_nat s) (Z.of_nat st) n = map Z.of_nat (map (fun i => (s + st * i)%nat) (seq 0 n)).
Proof. unfold arange. rewrite map_map. apply map_ext. intros. lia. Qed.
Lemma arange_nodup s st n : (0 < st)%nat -> NoDup (map (fun i => (s + st * i)%nat) (seq 0 n)).
Proof. intros H. apply Injective_map_NoDup; [|apply seq_NoDup]. intros a b E. nia. Qed.
Lemma arith_nth s st n k : (k < n)%nat -> nth k (arith s st n) 0%nat = (s + st * k)%nat.
Proof.
  intros H. unfold arith. rewrite (nth_indep _ 0%nat ((fun i => (s + st * i)%nat) 0%nat)) by (rewrite map_length, seq_length; exact H). rewrite (map_nth (fun i => (s + st * i)%nat)). rewrite seq_nth by exact H. reflexivity.
Qed.
Lemma arith_length s st n : length (arith s st n) = n. Proof. unfold arith. rewrite map_length, seq_length. reflexivity. Qed.
Lemma ndim_exists p s st n w : (0 < n)%nat -> (s + st * (n - 1) < ndim p)%nat -> exists q, reduced_problem p (DList (arange (Z.of_nat s) (Z.of_nat st) n)) w = Some q.
Proof.
  intros Hn H. apply exists_iff. cbn [acceptable]. rewrite arange_nat. split.
  - destruct n; [lia|]. discriminate.
  - intros z Hz. apply in_map_iff in Hz. destruct Hz as (j & <- & Hj). apply in_map_iff in Hj. destruct Hj as (i & <- & Hi). apply in_seq in Hi. nia.
Qed.
Lemma ndim_slice p q s st n w : (0 < st)%nat -> reduced_problem p (DList (arange (Z.of_nat s) (Z.of_nat st) n)) w = Some q -> is_slice p q s st n w.
Proof.
  intros Hst Hq. assert (Hd : dims_list (DList (arange (Z.of_nat s) (Z.of_nat st) n)) = map Z.of_nat (arith s st n)) by apply arange_nat. pose proof (arange_nodup s st n Hst) as ND. fold (arith s st n) in ND.
  split; [rewrite (reduced_ndim p q _ _ w Hq Hd); apply arith_length|]. split.
  - intros i Hi. rewrite <- (arith_nth s st n i Hi). apply (reduced_limits p q _ _ w Hq Hd). rewrite arith_length. exact Hi.
  - intros x. destruct (reduced_eval p q _ _ w Hq Hd ND x) as (xp & S & E & _). exists xp. split; [exact S|]. split; [unfold value; rewrite E; reflexivity|].
    intros k Hk D. apply (reduced_derivative p q _ _ w Hq Hd ND x xp); [rewrite arith_length; exact Hk|exact S|]. rewrite arith_nth by exact Hk. exact D.
Qed.
Lemma robot_some m : exists p, robot_arm (2 * m) = Some p.
Proof. unfold robot_arm. replace ((2 * m) mod 2)%nat with 0%nat by (rewrite Nat.mul_comm, Nat.mod_mul; lia). eexists. reflexivity. Qed.
Lemma beam_some P E m : exists p, cantilever_beam P E (3 * m) = Some p.
Proof. unfold cantilever_beam. replace ((3 * m) mod 3)%nat with 0%nat by (rewrite Nat.mul_comm, Nat.mod_mul; lia). eexists. reflexivity. Qed.
Lemma ndim_rosenbrock_ok n w : (0 < n)%nat -> exists q, ndim_rosenbrock n w = Some q /\ is_slice (rosenbrock (n + 1)) q 1 1 n w /\ forall x k, (k < n)%nat -> derivative_correct q x k.
Proof.
  intros Hn. unfold ndim_rosenbrock. change 1%Z with (Z.of_nat 1). destruct (ndim_exists (rosenbrock (n + 1)) 1 1 n w) as [q Hq]; [exact Hn|cbn [ndim rosenbrock]; lia|]. exists q. split; [exact Hq|].
  pose proof (ndim_slice _ _ 1 1 n w ltac:(lia) Hq) as SL. split; [exact SL|]. intros x k Hk. destruct SL as (_ & _ & SL). destruct (SL x) as (xp & _ & _ & D). apply D; [exact Hk|]. apply rosenbrock_ok. lia.
Qed.
Lemma ndim_robot_ok n w : (0 < n)%nat -> exists p q, robot_arm (2 * (n + 1)) = Some p /\ ndim_robot_arm n w = Some q /\ is_slice p q 3 2 n w /\
  forall x k, (k < n)%nat -> 0 < value q x -> derivative_correct q x k.
Proof.
  intros Hn. destruct (robot_some (n + 1)) as [p Hp]. unfold ndim_robot_arm. rewrite Hp. change 3%Z with (Z.of_nat 3). change 2%Z with (Z.of_nat 2).
  destruct (ndim_exists p 3 2 n w) as [q Hq]; [exact Hn|rewrite (robot_is _ _ Hp); unfold arm_problem; cbn [ndim]; lia|]. exists p, q. split; [reflexivity|]. split; [exact Hq|].
  pose proof (ndim_slice _ _ 3 2 n w ltac:(lia) Hq) as SL. split; [exact SL|]. intros x k Hk Pos. destruct SL as (_ & _ & SL). destruct (SL x) as (xp & _ & V & D). apply D; [exact Hk|]. apply (robot_ok (n + 1)); [exact Hp|lia|].
  rewrite V, (robot_value (n + 1) p xp Hp) in Pos. destruct (Rlt_dec 0 (arm_x (n + 1) xp ^ 2 + arm_y (n + 1) xp ^ 2)) as [Y|N]; [exact Y|]. rewrite sqrt_neg_0 in Pos; lra.
Qed.
Lemma ndim_beam_ok n w : (0 < n)%nat -> exists p q, cantilever_beam 50000 200000000000 (3 * n) = Some p /\ ndim_cantilever_beam n w = Some q /\ is_slice p q 1 3 n w /\
  forall x k, (k < n)%nat -> 0 <= w <= 1 -> (forall i, (i < n)%nat -> x i <> 0) -> derivative_correct q x k.
Proof.
  intros Hn. destruct (beam_some 50000 200000000000 n) as [p Hp]. unfold ndim_cantilever_beam. rewrite Hp. change 1%Z with (Z.of_nat 1). change 3%Z with (Z.of_nat 3).
  destruct (ndim_exists p 1 3 n w) as [q Hq]; [exact Hn|rewrite (beam_is _ _ _ _ Hp); unfold beam_problem; cbn [ndim]; lia|]. exists p, q. split; [reflexivity|]. split; [exact Hq|].
  pose proof (ndim_slice _ _ 1 3 n w ltac:(lia) Hq) as SL. split; [exact SL|]. intros x k Hk Hw HN. destruct SL as (_ & _ & SL). destruct (SL x) as (xp & (S1 & S2) & _ & D). apply D; [exact Hk|]. apply (beam_ok 50000 200000000000 n); [exact Hp|lia|].
  intros i Hi. split.
  - rewrite S2. 2:{ unfold arith. intros I. apply in_map_iff in I. destruct I as (j & E & _). lia. } rewrite (beam_is _ _ _ _ Hp). unfold beam_problem. cbn [lower upper].
    replace ((3 * i) mod 3)%nat with 0%nat by (rewrite Nat.mul_comm, Nat.mod_mul; lia). cbn [Nat.eqb]. lra.
  - specialize (S1 i). rewrite arith_length in S1. specialize (S1 Hi). rewrite arith_nth in S1 by exact Hi. replace (3 * i + 1)%nat with (1 + 3 * i)%nat by lia. rewrite S1. apply HN. exact Hi.
Qed.
(** ** where the reduction goes wrong *)
Lemma sphere2_dup : exists q, reduced_problem (sphere 2) (DList [0; 0]%Z) (1 / 5) = Some q /\
  evaluate q (fun _ => 1) (Some 0%Z) = Some 2 /\ is_partial (value q) (fun _ => 1) 0 0.
Proof.
  eexists. split; [reflexivity|]. split; [cbn; unfold upd; cbn; f_equal; ring|]. unfold is_partial. match goal with |- is_derive ?f _ _ => apply (is_derive_ext (fun _ => 37)); [|apply Rbf_P.derive_cst] end.
  intros t. cbn. unfold upd. cbn. match goal with |- ?a = ?b => change (@eq R a b) end. change (Pos.to_nat 1) with 1%nat; cbv iota; lra.
Qed.
Lemma rosen2_neg : exists q, reduced_problem (rosenbrock 2) (DList [-1]%Z) (1 / 5) = Some q /\ evaluate q (fun _ => 0) (Some 0%Z) <> Some (- 288) /\ is_partial (value q) (fun _ => 0) 0 (- 288).
Proof.
  eexists. split; [reflexivity|]. split.
  - cbn. unfold upd. cbn. intros E. change (Pos.to_nat 1) with 1%nat in E. cbv iota in E. injection E as E. lra.
  - unfold is_partial. match goal with |- is_derive ?f _ _ => apply (is_derive_ext (fun t => 100 * (t - 144 / 100) ^ 2 + (1 + 12 / 10) ^ 2)) end.
    + intros t. cbn. unfold upd. cbn. match goal with |- ?a = ?b => change (@eq R a b) end. change (Pos.to_nat 1) with 1%nat; cbv iota; lra.
    + auto_derive; [exact I|]. cbn [pow]. lra.
Qed.
