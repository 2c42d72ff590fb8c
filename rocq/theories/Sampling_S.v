(** Specification vocabulary for sampling. *)
From Coq Require Import ZArith QArith Bool Arith List.
Import ListNotations.
Open Scope list_scope.
Open Scope nat_scope.

(** two points differ in some coordinate *)
Definition differ (r r' : list Q) : Prop := exists k, k < length r /\ k < length r' /\ ~ (nth k r 0 == nth k r' 0)%Q.
Definition inside (lim : Q * Q) (v : Q) : Prop := (fst lim <= v /\ v <= snd lim)%Q.
(** [v] is the image of [u] under the affine map sending 0 to lower and 1 to upper *)
Definition affine_image (lim : Q * Q) (u v : Q) : Prop := (v == (1 - u) * fst lim + u * snd lim)%Q.
(** level [i] of [n] equally spaced levels of [lo, up] *)
Definition level_value (lim : Q * Q) (n : nat) (v : Q) : Prop :=
  exists i, i < n /\
    (v == if Nat.eqb n 1 then fst lim
          else fst lim + inject_Z (Z.of_nat i) / inject_Z (Z.of_nat (n - 1)) * (snd lim - fst lim))%Q.
Definition prod (l : list nat) : nat := fold_right Nat.mul 1 l.
(** one more level in exactly one dimension *)
Definition one_more (a b : list nat) : Prop :=
  exists l r n, a = l ++ n :: r /\ b = l ++ S n :: r.
(** the weights are usable: numpy divides by their sum *)
Definition usable (w : option (list Q)) : Prop :=
  match w with Some l => ~ (fold_right Qplus 0 l == 0)%Q | None => True end.
(** dimension [k] has the largest deficit: relative weight minus relative share of levels *)
Definition most_needed (w : list Q) (num : list nat) (k : nat) : Prop :=
  let share i := (inject_Z (Z.of_nat (nth i num 0%nat)) / inject_Z (Z.of_nat (fold_right Nat.add 0%nat num)))%Q in
  k < length num /\ forall j, j < length num -> (nth j w 0 - share j <= nth k w 0 - share k)%Q.
(** [b] is [a] with one more level in dimension [k] *)
Definition more_at (k : nat) (a b : list nat) : Prop :=
  length b = length a /\ forall j, nth j b 0 = if Nat.eqb j k then S (nth j a 0) else nth j a 0.
