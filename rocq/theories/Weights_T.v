(** C14: the weights of the full factorial design. *)
From Coq Require Import ZArith QArith Bool Arith List Lia.
From Verif Require Import MixInt_M Sampling_M Sampling_S Sampling_P Weights_M Weights_P.
Import ListNotations.
Open Scope list_scope.
Open Scope nat_scope.

(** C14. The weights used are equal by default and otherwise the given ones divided by their sum (one given weight counts for every
    dimension); other numbers of weights are refused. *)
Theorem C14_relative_weights : forall nx w,
  ((exists wn, norm_weights nx w = Ok wn) <-> match w with None => True | Some l => length l = nx \/ length l = 1 end) /\
  forall wn, norm_weights nx w = Ok wn -> length wn = nx /\ forall i, i < nx ->
    match w with
    | None => (nth i wn 0 == 1 / inject_Z (Z.of_nat nx))%Q
    | Some l => (nth i wn 0 == nth (if Nat.eqb (length l) nx then i else 0) l 0 / fold_right Qplus 0 l)%Q
    end.
Proof. exact (fun nx w => conj (norm_accepted nx w) (fun wn H => conj (norm_weights_length nx w wn H) (norm_values nx w wn H))). Qed.
Print Assumptions C14_relative_weights.
(** C14. Integer weights (a list or an array) make every call raise ... *)
Theorem C14_integer_weights_refuted : forall fuel arr l clip lims nt, fst (call fuel (WInts arr l) clip lims nt) = TypeError.
Proof. reflexivity. Qed.
Print Assumptions C14_integer_weights_refuted.
(** ... an array of floats is the caller's: the first call overwrites it with the relative weights, a list is left alone ... *)
Theorem C14_weights_array_overwritten : forall fuel arr l clip lims nt, ~ (fold_right Qplus 0 l == 0)%Q ->
  exists l', snd (call fuel (WFloats arr l) clip lims nt) = WFloats arr l' /\
    (arr = false -> l' = l) /\ (arr = true -> length l' = length l /\ (fold_right Qplus 0 l' == 1)%Q /\ forall i, (nth i l' 0 * fold_right Qplus 0 l == nth i l 0)%Q).
Proof.
  intros fuel arr l clip lims nt H. destruct arr; cbn [call snd]; eexists; (split; [reflexivity|]); (split; [intros E; try discriminate E; try reflexivity|intros E; try discriminate E]).
  split; [apply map_length|]. split; [apply normed_sum; exact H|]. intros i. destruct (Nat.ltb_spec i (length l)) as [L|L].
  - rewrite (nth_indep _ 0%Q (0 / Qsum l)%Q) by (rewrite map_length; exact L). rewrite (map_nth (fun v => (v / Qsum l)%Q)). unfold Qsum. field. exact H.
  - rewrite !nth_overflow by (try rewrite map_length; exact L). ring.
Qed.
Print Assumptions C14_weights_array_overwritten.
(** ... but no history of calls changes what a call returns. *)
Theorem C14_calls_independent : forall fuel arr l cs, ~ (fold_right Qplus 0 l == 0)%Q ->
  fst (calls fuel (WFloats arr l) cs) = map (fun '(clip, lims, nt) => fst (call fuel (WFloats arr l) clip lims nt)) cs.
Proof. intros fuel arr l cs H. rewrite (calls_as_first fuel cs arr l H). apply map_ext. intros [[clip lims] nt]. reflexivity. Qed.
Print Assumptions C14_calls_independent.
Example C14_weights_nonvacuous : ~ (fold_right Qplus 0 [1; 3] == 0)%Q /\
  fst (calls 10 (WFloats true [1; 3]%Q) [(false, [(0, 1); (0, 1)]%Q, 3); (false, [(0, 1); (0, 1)]%Q, 3)]) <> [] /\
  snd (call 10 (WFloats true [1; 3]%Q) false [(0, 1); (0, 1)]%Q 3) <> WFloats true [1; 3]%Q.
Proof. split; [intros H; discriminate|]. split; [discriminate|]. cbn. intros H. discriminate. Qed.
