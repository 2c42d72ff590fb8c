(** Theorems C57. *)
From Coq Require Import Arith Bool String List Lia.
From Verif Require Import Silence_M Silence_P.
Import ListNotations.
Open Scope list_scope.
Open Scope nat_scope.
(** However the body ends and whatever it does, sys.stdout is the interpreter's original stream afterwards: the previous
    stream is restored exactly when it was the original one. *)
Theorem C57_restored_iff : forall c w, stdout (snd (exec (Silent c) w)) = stdout w <-> stdout w = Real.
Proof. intros c w. rewrite silent_stdout. split; intros H; symmetry; exact H. Qed.
Print Assumptions C57_restored_iff.
(** A block whose body only prints, raises and catches: nothing it prints reaches a stream other than a fresh os.devnull,
    no other stream gets closed, and an exception of the body is passed on. *)
Theorem C57_single_block : forall c w, plain c -> let r := exec (Silent c) w in
  stdout (snd r) = Real /\ closed (snd r) = Null (nulls w) :: closed w /\ (exists l, written (snd r) = written w ++ map (pair (Null (nulls w))) l) /\ fst r = fst (exec c (enter w)).
Proof. intros c w P. exact (silent_plain c w P). Qed.
Print Assumptions C57_single_block.
(** A redirection in force when a block is entered is lost. *)
Theorem C57_redirection_lost_refuted : forall c w n s, plain c -> stdout w = User n -> ~ In Real (closed w) ->
  exists l, written (snd (exec (Write s) (snd (exec (Silent c) w)))) = l ++ [(Real, s)].
Proof.
  intros c w n s P U O. destruct (silent_plain c w P) as (A & B & _ & _). destruct (exec (Silent c) w) as [ok w1]. cbn [snd] in *. exists (written w1). cbn [exec].
  destruct (is_closed (stdout w1) w1) eqn:C; [|cbn; rewrite A; reflexivity]. apply closed_iff in C. rewrite A, B in C. destruct C as [C|C]; [discriminate|contradiction].
Qed.
Print Assumptions C57_redirection_lost_refuted.
(** Nesting: after the inner block, the outer one prints to the original stream ... *)
Theorem C57_nested_not_silent_refuted : forall c1 c2 w, plain c1 -> no_raise c1 -> plain c2 -> no_raise c2 -> ~ In Real (closed w) -> (forall n, In (Null n) (closed w) -> n < nulls w) ->
  let r := exec (Silent (Seq (Silent c1) c2)) w in
  fst r = true /\ written (snd r) = written w ++ map (pair (Null (S (nulls w)))) (prints c1) ++ map (pair Real) (prints c2) /\ In Real (closed (snd r)).
Proof.
  intros c1 c2 w P1 N1 P2 N2 O F. cbn [exec]. rewrite (plain_prints c1 P1 N1). 2:{ cbn. intros H. apply F in H. lia. } cbn [exit enter stdout closed nulls written].
  rewrite (plain_prints c2 P2 N2). 2:{ cbn. intros [H|H]; [discriminate|contradiction]. } cbn. split; [reflexivity|]. split; [rewrite app_assoc; reflexivity|]. left. reflexivity.
Qed.
Print Assumptions C57_nested_not_silent_refuted.
(** ... and leaving the outer block closes the original stream, for good: every later print to it raises. *)
Theorem C57_nested_closes_stdout_refuted : forall c1 c2 w, plain c2 -> fst (exec c1 (enter (enter w))) = true -> let w' := snd (exec (Silent (Seq (Silent c1) c2)) w) in
  stdout w' = Real /\ (forall s, fst (exec (Write s) w') = false) /\ forall c, In Real (closed (snd (exec c w'))).
Proof.
  intros c1 c2 w P H w'. destruct (nested c1 c2 w P) as [C|C]; [|congruence]. fold w' in C. assert (S : stdout w' = Real) by apply silent_stdout. split; [exact S|]. split.
  - intros s. cbn [exec]. rewrite S. assert (Q : is_closed Real w' = true) by (apply closed_iff; exact C). rewrite Q. reflexivity.
  - intros c. apply closed_mono. exact C.
Qed.
Print Assumptions C57_nested_closes_stdout_refuted.
(** Silence2 silences nothing under Python 3. *)
Theorem C57_silence2_does_not_silence_refuted : forall c w, plain c -> no_raise c -> ~ In (stdout w) (closed w) ->
  let r := exec (Silent2 c) w in written (snd r) = written w ++ map (pair (stdout w)) (prints c) /\ stdout (snd r) = Real.
Proof. intros c w P N O. cbn [exec]. rewrite (plain_prints c P N w O). cbn. split; reflexivity. Qed.
Print Assumptions C57_silence2_does_not_silence_refuted.
Definition w0 : io := {| stdout := Real; closed := []; nulls := 0; written := [] |}.
Example C57_nonvacuous : plain (Seq (Write "a") (Try Raise (Write "b"))) /\ written (snd (exec (Seq (Silent (Seq (Write "a") (Try Raise (Write "b")))) (Write "c")) w0)) = [(Null 0, "a"); (Null 0, "b"); (Real, "c")]%string /\
  exec (Seq (Silent (Seq (Silent (Write "a")) (Write "b"))) (Write "c")) w0 = (false, {| stdout := Real; closed := [Real; Null 1]; nulls := 2; written := [(Null 1, "a"); (Real, "b")]%string |}).
Proof. repeat split. Qed.
