(** Properties C12-C14: scaling of samples, full factorial designs. *)
From Coq Require Import ZArith QArith Bool Arith List Lia.
From Verif Require Import MixInt_M MixInt_S Sampling_M Sampling_S Sampling_P.
Import ListNotations.
Open Scope list_scope.
Open Scope nat_scope.

(** C12. Scaling keeps number and order of rows and sends each coordinate through the affine map
    0 -> lower, 1 -> upper of its dimension. *)
Theorem C12_scaling_affine : forall lims rows, Forall (fun r => length r = length lims) rows ->
  exists out, scale lims rows = Ok out /\ Forall2 (Forall3 affine_image lims) rows out.
Proof. exact scale_spec. Qed.
Print Assumptions C12_scaling_affine.

(** C12. The affine map is increasing and injective for lower < upper ... *)
Theorem C12_scaling_increasing : forall lim u u' v v', (fst lim < snd lim)%Q ->
  affine_image lim u v -> affine_image lim u' v' ->
  ((u < u')%Q <-> (v < v')%Q) /\ ((u == u')%Q <-> (v == v')%Q).
Proof. exact affine_mono. Qed.
Print Assumptions C12_scaling_increasing.

(** C12. ... so for any generator of unit-cube points the samples stay inside the bounds. *)
Theorem C12_random_in_bounds : forall rand lims nt, Forall (fun l => fst l <= snd l)%Q lims ->
  length (rand nt (length lims)) = nt ->
  Forall (fun r => length r = length lims /\ Forall (fun v => 0 <= v <= 1)%Q r) (rand nt (length lims)) ->
  exists out, random_sampling rand lims nt = Ok out /\ length out = nt /\ Forall (Forall2 inside lims) out.
Proof. exact random_inside. Qed.
Print Assumptions C12_random_in_bounds.

(** C13. Full factorial: for usable weights, at least one dimension and proper bounds the call
    ends and returns exactly nt (with clip: the number of grid points) pairwise different points,
    inside the bounds and on the grid of equally spaced levels. *)
Theorem C13_full_factorial : forall w clip lims nt wn, usable w -> norm_weights (length lims) w = Ok wn ->
  1 <= length lims -> Forall (fun l => fst l < snd l)%Q lims ->
  exists num out,
    (forall fuel, nt <= fuel -> level_loop fuel wn nt (repeat 1 (length lims)) = Some (Ok num)) /\
    (forall fuel, nt <= fuel -> full_factorial fuel w clip lims nt = Some (Ok out)) /\
    length out = (if clip then prod num else nt) /\ ForallOrdPairs differ out /\
    Forall (Forall2 inside lims) out /\ Forall (Forall3 level_value lims num) out.
Proof. exact ff_spec. Qed.
Print Assumptions C13_full_factorial.

(** C13. With clip no grid point is missing. *)
Theorem C13_clip_complete : forall w lims nt out num fuel wn, usable w -> norm_weights (length lims) w = Ok wn ->
  1 <= length lims -> nt <= fuel ->
  level_loop fuel wn nt (repeat 1 (length lims)) = Some (Ok num) ->
  full_factorial fuel w true lims nt = Some (Ok out) ->
  forall p, Forall3 level_value lims num p -> exists r, In r out /\ Forall2 Qeq r p.
Proof. exact ff_complete. Qed.
Print Assumptions C13_clip_complete.

(** C14. The level search ends within nt increments with at least nt combinations, and without
    the last increment there were fewer than nt. *)
Theorem C14_levels_terminate : forall w nt nx wn, usable w -> norm_weights nx w = Ok wn -> 1 <= nx ->
  exists num, (forall fuel, nt <= fuel -> level_loop fuel wn nt (repeat 1 nx) = Some (Ok num)) /\
    length num = nx /\ Forall (fun n => 1 <= n) num /\ nt <= prod num /\
    (num = repeat 1 nx \/ exists p, one_more p num /\ prod p < nt).
Proof. exact levels_terminate. Qed.
Print Assumptions C14_levels_terminate.

(** C14. It is greedy: whatever is preserved by adding a level in a most needed dimension while
    fewer than nt combinations exist holds at the end. *)
Theorem C14_levels_greedy : forall w nt nx wn num fuel, usable w -> norm_weights nx w = Ok wn ->
  level_loop fuel wn nt (repeat 1 nx) = Some (Ok num) ->
  forall I : list nat -> Prop, I (repeat 1 nx) ->
  (forall a b k, length a = nx -> I a -> prod a < nt -> most_needed wn a k -> more_at k a b -> I b) -> I num.
Proof. exact levels_greedy'. Qed.
Print Assumptions C14_levels_greedy.

(** C14. With default (equal) weights two dimensions differ by at most one level. *)
Theorem C14_equal_weights_balanced : forall nt nx num fuel wn, 1 <= nx -> norm_weights nx None = Ok wn ->
  nt <= fuel -> level_loop fuel wn nt (repeat 1 nx) = Some (Ok num) ->
  forall i j, i < nx -> j < nx -> nth i num 0 <= nth j num 0 + 1.
Proof. exact ff_balanced. Qed.
Print Assumptions C14_equal_weights_balanced.

(** Non-vacuity: two dimensions, explicit and default weights, five of six grid points kept. *)
Example C12_C14_nonvacuous :
  usable (Some [1; 3]%Q) /\ usable None /\
  (exists wn, norm_weights 2 (Some [1; 3]%Q) = Ok wn /\ map Qred wn = [1 # 4; 3 # 4]%Q /\
     level_loop 10 wn 10 (repeat 1 2) = Some (Ok [2; 5])) /\
  (exists wn, norm_weights 2 None = Ok wn /\ level_loop 5 wn 5 (repeat 1 2) = Some (Ok [3; 2])) /\
  (exists out, full_factorial 5 None false [(0, 1); (-1, 1)]%Q 5 = Some (Ok out) /\
     map (map Qred) out = [[0; -1]; [0; 1]; [1 # 2; -1]; [1 # 2; 1]; [1; -1]]%Q).
Proof.
  split; [intros H; discriminate|]. split; [exact I|].
  split; [eexists; split; [reflexivity|]; split; vm_compute; reflexivity|].
  split; [eexists; split; [reflexivity|]; vm_compute; reflexivity|].
  eexists; split; [vm_compute; reflexivity|vm_compute; reflexivity].
Qed.
