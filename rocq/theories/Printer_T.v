(** Theorems C53. *)
From Coq Require Import Arith ZArith Bool String List Lia.
From Verif Require Import Printer_M Printer_S Printer_P.
Import ListNotations.
Open Scope list_scope.
Open Scope nat_scope.
(** For every program, the depth grows by the number of timed contexts left by an exception. *)
Theorem C53_depth_exact : forall clock fmt c p, depth (after (exec clock fmt c p)) = depth p + aborted clock fmt c p.
Proof. exact depth_exact. Qed.
Print Assumptions C53_depth_exact.
(** So a program that catches nothing and ends normally restores depth and printing ... *)
Theorem C53_balanced : forall clock fmt c p, no_try c -> ok (exec clock fmt c p) = true ->
  depth (after (exec clock fmt c p)) = depth p /\ max_print_depth (after (exec clock fmt c p)) = max_print_depth p /\ (no_switch c -> active (after (exec clock fmt c p)) = active p).
Proof.
  intros clock fmt c p N O. split; [rewrite depth_exact, (no_try_ok clock fmt c p N O); lia|]. split; [apply maxd|]. intros W. exact (no_try_active clock fmt c p N W O).
Qed.
Print Assumptions C53_balanced.
(** ... but a caught exception leaves one level behind per context, and from the hundredth failure on a new printer prints nothing at all. *)
Theorem C53_leak_refuted : forall clock fmt n s k p, ok (exec clock fmt (failing n s k) p) = true /\ depth (after (exec clock fmt (failing n s k) p)) = depth p + n.
Proof. intros clock fmt n s k p. destruct (failing_depth clock fmt n s k p) as (A & B & _). split; assumption. Qed.
Print Assumptions C53_leak_refuted.
Theorem C53_printer_goes_silent_refuted : forall clock fmt n s k c, 100 <= n -> lines (exec clock fmt c (after (exec clock fmt (failing n s k) new_printer))) = [].
Proof. intros clock fmt n s k c H. apply deep. destruct (failing_depth clock fmt n s k new_printer) as (_ & -> & ->). cbn. lia. Qed.
Print Assumptions C53_printer_goes_silent_refuted.
(** Every context with a key that is left normally adds one duration, non-negative on a monotonic clock; no other adds any, and none is lost. *)
Theorem C53_times : forall clock fmt k c p, exists ts, recorded (after (exec clock fmt c p)) k = recorded p k ++ ts /\ length ts = completed clock fmt k c p /\
  ((forall i j, i <= j -> (clock i <= clock j)%Z) -> Forall (fun t => (0 <= t)%Z) ts).
Proof. exact times_grow. Qed.
Print Assumptions C53_times.
Theorem C53_last_time : forall clock fmt str k b p, ok (exec clock fmt (Timed str (Some k) b) p) = true ->
  exists l, time_of (after (exec clock fmt (Timed str (Some k) b) p)) k = Some (l ++ [(clock (tick (after (exec clock fmt b (inside p)))) - clock (tick p))%Z]).
Proof. exact last_time. Qed.
Print Assumptions C53_last_time.
(** An inactive printer prints nothing, whatever contexts are nested, also solver contexts asking for output. *)
Theorem C53_inactive_is_quiet : forall clock fmt c p, no_switch c -> active p = false -> lines (exec clock fmt c p) = [] /\ active (after (exec clock fmt c p)) = false.
Proof. exact quiet. Qed.
Print Assumptions C53_inactive_is_quiet.
Definition ex : cmd := Seq (SetActive true) (Seq (Timed (Some "Training") (Some "t") (Seq (Print "x" false) (Active false (Print "y" false)))) (Seq (Try (Timed None None Raise) Skip) (Print "z" false)))%string.
Example C53_nonvacuous : lines (exec Z.of_nat (fun _ => "T"%string) ex new_printer) =
  ["   Training ..."; "      x"; "   Training - done. Time (sec): T"; "      z"]%string /\ aborted Z.of_nat (fun _ => "T"%string) ex new_printer = 1 /\
  recorded (after (exec Z.of_nat (fun _ => "T"%string) ex new_printer)) "t" = [1%Z] /\ no_try (Timed (Some "a"%string) None (Print "x" false)).
Proof. repeat split. Qed.
