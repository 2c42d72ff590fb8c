(** C106: what train() does to the options of the multi-fidelity models, for every history of calls.
    [train nm r o]: the options afterwards, the result ([Rejected]: refused before any level is fitted; [Failed k]: an
    exception while fitting level k; [Trained]), and for each stage (two with optim_var) the values of theta0 and noise0
    each fitted level starts from. *)
From Coq Require Import Reals Arith Bool List Lia.
From Verif Require Import MfkHist_M MfkHist_P MfkHist_P2.
Import ListNotations.
Open Scope list_scope.
Open Scope nat_scope.

(** C106. After a training that succeeded, training again on data of the same shape is accepted, every level starts from the same
    theta0 and noise0, and the options stay the same. *)
Theorem C106_retrain : forall nm r o o' tr r', train nm r o = (o', Trained, tr) -> r_shape r' = r_shape r -> r_pre r' = true ->
  (forall k, k < nlvl (r_shape r) -> r_out r' k = None) ->
  exists t, In t tr /\ (forall t', In t' tr -> t' = t) /\ train nm r' o' = (o', Trained, [t]).
Proof. exact t_retrain. Qed.
Print Assumptions C106_retrain.
(** It is accepted for no other number of levels and, for MFK, no other number of inputs, although a fresh model is ... *)
Theorem C106_other_shape : forall nm r o o' tr r2, train nm r o = (o', Trained, tr) -> o_het o = false -> r_pre r2 = true ->
  (snd (fst (train nm r2 o')) <> Rejected <-> nlvl (r_shape r2) = nlvl (r_shape r) /\ (nm = NMfk -> s_nx (r_shape r2) = s_nx (r_shape r))).
Proof. exact t_other_shape. Qed.
Print Assumptions C106_other_shape.
Theorem C106_fresh : forall nm r o a ar s, o_theta o = TList [a] -> o_noise o = {| n_arr := ar; n_items := [Num s] |} -> o_het o = false -> r_pre r = true ->
  (nlvl (r_shape r) = 1 -> snd (fst (train nm r o)) = Rejected) /\
  (2 <= nlvl (r_shape r) -> concat (snd (train nm r o)) <> [] /\ forall st, In st (concat (snd (train nm r o))) -> st = (repeat a (dim nm (r_shape r) o), [s])).
Proof. exact plain_train. Qed.
Print Assumptions C106_fresh.
(** ... and with use_het_noise (one noise0, inputs whose entries are all different) for no other numbers of points. *)
Theorem C106_heteroscedastic : forall nm r o o' tr s r2, train nm r o = (o', Trained, tr) -> o_het o = true -> o_noise o = {| n_arr := false; n_items := [Num s] |} ->
  (forall lv, In lv (s_levels (r_shape r)) -> snd lv = true /\ 2 <= fst lv) -> (forall lv, In lv (s_levels (r_shape r2)) -> snd lv = true) -> 2 <= nlvl (r_shape r) ->
  snd (fst (train nm r2 o')) <> Rejected -> map fst (s_levels (r_shape r2)) = map fst (s_levels (r_shape r)).
Proof. exact t_het. Qed.
Print Assumptions C106_heteroscedastic.
(** After an exception while a level was fitted every later train() is refused, whatever the data and noise0, until theta0 is written. *)
Theorem C106_failure_blocks_training : forall nm r o o' k tr, train nm r o = (o', Failed k, tr) ->
  forall l, (forall t, ~ In (SetTheta t) l) -> forall res, In res (snd (history nm l o')) -> res = Rejected.
Proof. intros nm r o o' k tr H l. exact (t_lock nm l o' (failed_theta _ _ _ _ _ _ H)). Qed.
Print Assumptions C106_failure_blocks_training.
(** Writing theta0 is then enough for two or more levels, but all of them start from the noise0 of the level that failed. *)
Theorem C106_after_failure : forall nm r o o' k tr t s a r2, train nm r o = (o', Failed k, tr) -> nth_error (last tr []) k = Some (t, [s]) -> o_het o = false -> r_pre r2 = true ->
  let o2 := set_theta o' (TList [a]) in
  (nlvl (r_shape r2) = 1 -> snd (fst (train nm r2 o2)) = Rejected) /\
  (2 <= nlvl (r_shape r2) -> concat (snd (train nm r2 o2)) <> [] /\ forall st, In st (concat (snd (train nm r2 o2))) -> st = (repeat a (dim nm (r_shape r2) o'), [s])).
Proof. exact t_recover. Qed.
Print Assumptions C106_after_failure.
(** theta0 and noise0 are then those of the level that failed (theta0 for MFKPLSK possibly the start of its second phase). *)
Theorem C106_left_behind : forall nm r o o' k tr, train nm r o = (o', Failed k, tr) -> exists t n, nth_error (last tr []) k = Some (t, n) /\
  o_noise o' = {| n_arr := true; n_items := map Num n |} /\
  (o_theta o' = TVec t \/ (nm = NPlsk /\ exists w, (r_out r k = Some (Some w) \/ r_out2 r k = Some (Some w)) /\ o_theta o' = TVec w)).
Proof. exact t_left. Qed.
Print Assumptions C106_left_behind.
(** n_comp stays what it was except when MFKPLSK fails: it may then have become the number of inputs. *)
Theorem C106_components : forall nm r o o' res tr, train nm r o = (o', res, tr) ->
  o_ncomp o' = o_ncomp o \/ (nm = NPlsk /\ (exists k, res = Failed k) /\ o_ncomp o' = s_nx (r_shape r)).
Proof. exact t_ncomp. Qed.
Print Assumptions C106_components.
Definition ex_shape : shape := {| s_nx := 2; s_levels := [(5, false); (4, false)] |}.
Definition ex_fails (k : nat) : run := {| r_shape := ex_shape; r_pre := true; r_out := (fun i => if Nat.eqb i k then Some (Some [1%R; 2%R]) else None); r_pre2 := true; r_out2 := (fun _ => None) |}.
Definition ex_opts : opts := {| o_theta := TList [1%R]; o_noise := {| n_arr := false; n_items := [Seq false [0%R]; Seq false [3%R]] |}; o_ncomp := 1; o_het := false; o_optim := true; o_eval := true |}.
Theorem C106_components_refuted : exists o' tr, train NPlsk (ex_fails 1) ex_opts = (o', Failed 1, tr) /\ o_ncomp ex_opts = 1 /\ o_ncomp o' = 2 /\ o_theta o' = TVec [1%R; 2%R].
Proof. do 2 eexists. split; [reflexivity|]. split; [reflexivity|]. split; reflexivity. Qed.
Print Assumptions C106_components_refuted.
(** A call refused for the structure of the data changes nothing; one refused for noise0 has already changed theta0: even with another
    noise0 only this number of levels and (for MFK) inputs can be used. *)
Theorem C106_rejected_data : forall nm r o, r_pre r = false -> train nm r o = (o, Rejected, [[]]).
Proof. intros nm r o H. unfold train, new_train. rewrite H. reflexivity. Qed.
Print Assumptions C106_rejected_data.
Theorem C106_rejected_noise : forall nm r o a, o_theta o = TList [a] -> r_pre r = true -> length (n_items (o_noise o)) <> nlvl (r_shape r) -> length (n_items (o_noise o)) <> 1 ->
  exists o', train nm r o = (o', Rejected, [[]]) /\ forall n r2, snd (fst (train nm r2 (set_noise o' n))) <> Rejected ->
  nlvl (r_shape r2) = nlvl (r_shape r) /\ (nm = NMfk -> s_nx (r_shape r2) = s_nx (r_shape r)).
Proof. exact t_bad_noise. Qed.
Print Assumptions C106_rejected_noise.
Example C106_nonvacuous : (exists o' t, train NMfk (ex_fails 2) ex_opts = (o', Trained, [t; t]) /\ t = [([1%R; 1%R], [0%R]); ([1%R; 1%R], [3%R])] /\ o_eval o' = false) /\
  (exists o' tr, train NMfk (ex_fails 1) ex_opts = (o', Failed 1, tr) /\ nth_error (last tr []) 1 = Some ([1%R; 1%R], [3%R]) /\ snd (history NMfk [Train (ex_fails 2); SetNoise (o_noise ex_opts); Train (ex_fails 2); SetTheta (TList [1%R]); Train (ex_fails 2)] o') = [Rejected; Rejected; Trained]) /\
  (exists o' tr, train NMfk {| r_shape := {| s_nx := 1; s_levels := [(5, true); (4, true)] |}; r_pre := true; r_out := (fun _ => None); r_pre2 := true; r_out2 := (fun _ => None) |}
     {| o_theta := TList [1%R]; o_noise := {| n_arr := false; n_items := [Num 0%R] |}; o_ncomp := 1; o_het := true; o_optim := false; o_eval := true |} = (o', Trained, tr)).
Proof.
  split; [do 2 eexists; split; [reflexivity|]; split; reflexivity|]. split; [do 2 eexists; split; [reflexivity|]; split; reflexivity|]. do 2 eexists. reflexivity.
Qed.
