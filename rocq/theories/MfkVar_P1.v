(** C105: the shape of a training run. *)
From Coq Require Import Reals Arith Bool List Lia Lra FunctionalExtensionality.
From Verif Require Import RSum Mat Tri_M Kernels_M Krg_M Mfk_M Mfk_S Het_M MfkVar_M.
Import ListNotations.
Open Scope list_scope.
Open Scope R_scope.

Section V.
Variables (nx : nat) (po rho : poly) (qr : nat -> nat -> mat -> mat * mat) (rcond : nat -> mat -> R) (condF : nat -> nat -> mat -> R).
Variables (nugget : R) (het : bool) (search : bool -> list obs -> nat -> kspec * R).
Notation iteration := (iteration nx po rho qr rcond condF nugget het).
Notation iterations := (iterations nx po rho qr rcond condF nugget het).
Notation fit := (fit nx po rho qr rcond condF nugget het search).
Notation train ov := (train nx po rho qr rcond condF nugget het ov search).
Notation data_of := (data_of het search).
Notation datas := (datas het search).
Notation datas_from := (datas_from het search).
Lemma from_len ev l todo : forall k, length (datas_from ev l k todo) = length todo.
Proof. induction todo as [|o r IH]; intros k; [reflexivity|]. cbn. rewrite IH. reflexivity. Qed.
Lemma datas_len ev l : length (datas ev l) = length l. Proof. apply from_len. Qed.
Lemma from_nth ev l todo : forall k j o, nth_error todo j = Some o -> nth_error (datas_from ev l k todo) j = Some (data_of ev l (k + j) o).
Proof.
  induction todo as [|a r IH]; intros k [|j] o H; cbn in H; try discriminate.
  - injection H as ->. cbn. rewrite Nat.add_0_r. reflexivity.
  - cbn. rewrite (IH (S k) j o H). f_equal. f_equal. lia.
Qed.
Lemma datas_nth ev l k o : nth_error l k = Some o -> nth_error (datas ev l) k = Some (data_of ev l k o).
Proof. intros H. apply (from_nth ev l l 0 k o H). Qed.
Lemma combine_nth_error {A B} (a : list A) (b : list B) k x y : nth_error a k = Some x -> nth_error b k = Some y -> nth_error (combine a b) k = Some (x, y).
Proof. revert b k. induction a as [|u a IH]; intros [|v b] [|k] H1 H2; cbn in *; try discriminate; [congruence|]. apply IH; assumption. Qed.
Lemma iter_split ev all todo : forall done lvls, iterations ev all done todo = Some lvls ->
  exists new, lvls = done ++ new /\ length new = length todo /\ forall k d o, nth_error todo k = Some (d, o) -> exists lv, nth_error new k = Some lv /\ iteration ev all (done ++ firstn k new) d o = Some lv.
Proof.
  induction todo as [|[d o] todo IH]; intros done lvls E; cbn [MfkVar_M.iterations] in E.
  - injection E as <-. exists []. rewrite app_nil_r. split; [reflexivity|]. split; [reflexivity|]. intros [|k] d o H; discriminate.
  - destruct (iteration ev all done d o) as [lv|] eqn:El; [|discriminate]. apply IH in E. destruct E as (new & -> & L & H). exists (lv :: new). rewrite <- app_assoc. split; [reflexivity|]. split; [cbn; congruence|].
    intros [|k] d' o' He; cbn in He.
    + injection He as <- <-. exists lv. split; [reflexivity|]. cbn [firstn]. rewrite app_nil_r. exact El.
    + destruct (H k d' o' He) as (l & Hl & Ht). exists l. split; [exact Hl|]. cbn [firstn]. rewrite <- app_assoc in Ht. exact Ht.
Qed.
Lemma fit_nth ev l lvls : fit ev l = Some lvls -> length lvls = length l /\ forall k o, nth_error l k = Some o ->
  exists lv, nth_error lvls k = Some lv /\ iteration ev (datas ev l) (firstn k lvls) (data_of ev l k o) o = Some lv.
Proof.
  intros E. unfold MfkVar_M.fit in E. destruct (forallb _ l); [|discriminate]. apply iter_split in E. destruct E as (new & -> & L & H). cbn [app]. rewrite combine_length, datas_len, Nat.min_id in L.
  split; [exact L|]. intros k o Ho. apply (H k (data_of ev l k o) o). apply combine_nth_error; [apply datas_nth; exact Ho|exact Ho].
Qed.
Lemma fit_check ev l lvls : fit ev l = Some lvls -> forall o, In o l -> check_noise0 nx het o = true.
Proof. intros E. unfold MfkVar_M.fit in E. destruct (forallb _ l) eqn:F; [|discriminate]. apply forallb_forall. exact F. Qed.
(** without merging, an iteration is a level of Mfk_M *)
Lemma iter_plain ev all done d o lv : ev && het = false -> iteration ev all done d o = Some lv -> train_level nx po rho qr rcond condF (if ev then 0 else nugget) all done d = Some lv.
Proof.
  intros Z E. unfold MfkVar_M.iteration in E. cbv zeta in E. rewrite Z in E. destruct ev; [exact E|]. destruct (bcast _ _); [exact E|discriminate].
Qed.
Lemma iters_plain ev all todo : ev && het = false -> forall done lvls, iterations ev all done todo = Some lvls -> train_levels nx po rho qr rcond condF (if ev then 0 else nugget) all done (map fst todo) = Some lvls.
Proof.
  intros Z. induction todo as [|[d o] r IH]; intros done lvls E; [exact E|]. cbn [MfkVar_M.iterations] in E. destruct (iteration ev all done d o) as [lv|] eqn:El; [|discriminate].
  cbn [map fst train_levels]. rewrite (iter_plain _ _ _ _ _ _ Z El). apply IH. exact E.
Qed.
Lemma map_combine {A B} (a : list A) (b : list B) : length a = length b -> map fst (combine a b) = a.
Proof. revert b. induction a as [|x a IH]; intros [|y b] H; cbn in *; try discriminate; [reflexivity|]. rewrite IH by congruence. reflexivity. Qed.
Lemma fit_plain ev l lvls : ev && het = false -> fit ev l = Some lvls -> mfk_train nx po rho qr rcond condF (if ev then 0 else nugget) (datas ev l) = Some lvls.
Proof.
  intros Z E. unfold MfkVar_M.fit in E. destruct (forallb _ l); [|discriminate]. apply (iters_plain ev (datas ev l) _ Z) in E. rewrite map_combine in E by apply datas_len. exact E.
Qed.
(** ... and conversely, unless the noise cannot be broadcast *)
Definition nz_ok (ev : bool) (o : obs) : Prop := ev = true \/ bcast (o_nt o) (o_noise0 o) <> None.
Lemma iter_back ev all done d o lv : ev && het = false -> d_nt d = o_nt o -> nz_ok ev o -> train_level nx po rho qr rcond condF (if ev then 0 else nugget) all done d = Some lv -> iteration ev all done d o = Some lv.
Proof.
  intros Z En Nz E. unfold MfkVar_M.iteration. cbv zeta. rewrite Z. destruct ev; [exact E|]. rewrite En. destruct Nz as [|Nz]; [discriminate|]. destruct (bcast (o_nt o) (o_noise0 o)); [|contradiction]. rewrite <- En. exact E.
Qed.
Lemma iters_back ev all l : ev && het = false -> forall todo k done lvls, (forall o, In o todo -> nz_ok ev o) -> train_levels nx po rho qr rcond condF (if ev then 0 else nugget) all done (datas_from ev l k todo) = Some lvls ->
  iterations ev all done (combine (datas_from ev l k todo) todo) = Some lvls.
Proof.
  intros Z. induction todo as [|o r IH]; intros k done lvls Nz E; [exact E|]. cbn [MfkVar_M.datas_from combine MfkVar_M.iterations train_levels] in *.
  destruct (train_level nx po rho qr rcond condF (if ev then 0 else nugget) all done (data_of ev l k o)) as [lv|] eqn:El; [|discriminate].
  rewrite (iter_back ev all done (data_of ev l k o) o lv Z eq_refl (Nz o (or_introl eq_refl)) El). apply IH; [|exact E]. intros o' Ho'. apply Nz. right. exact Ho'.
Qed.
Lemma fit_back ev l lvls : ev && het = false -> (forall o, In o l -> check_noise0 nx het o = true) -> (forall o, In o l -> nz_ok ev o) ->
  mfk_train nx po rho qr rcond condF (if ev then 0 else nugget) (datas ev l) = Some lvls -> fit ev l = Some lvls.
Proof.
  intros Z C Nz E. unfold MfkVar_M.fit. rewrite (proj2 (forallb_forall _ _) C). apply iters_back; assumption.
Qed.
Lemma bcast_eq n l v : bcast n l = Some v -> forall i, (i < n)%nat -> v i = nth (if Nat.eqb (length l) 1 then 0 else i)%nat l 0.
Proof. unfold bcast. destruct (Nat.eqb (length l) 1); [intros [= <-] i _; reflexivity|]. destruct (Nat.eqb (length l) n); [intros [= <-] i _; reflexivity|discriminate]. Qed.
Lemma fit_noise l lvls k o : fit false l = Some lvls -> nth_error l k = Some o -> exists v, bcast (o_nt o) (o_noise0 o) = Some v /\ d_noise (data_of false l k o) = v.
Proof.
  intros E H. destruct (fit_nth false l lvls E) as [_ F]. destruct (F k o H) as (lv & _ & I). unfold MfkVar_M.iteration in I. cbv zeta in I. change (d_nt (data_of false l k o)) with (o_nt o) in I. cbn [andb] in I.
  unfold MfkVar_M.data_of in *. cbn [andb d_noise d_nt] in *. destruct (bcast (o_nt o) (o_noise0 o)) as [v|]; [|discriminate]. exists v. split; reflexivity.
Qed.
(** replacing the values *)
Lemma repl_len all lvls todo : forall k, length (replaced nx po rho all lvls k todo) = length todo.
Proof. induction todo as [|o r IH]; intros k; [reflexivity|]. cbn. rewrite IH. reflexivity. Qed.
Lemma repl_nth all lvls todo : forall k j o, nth_error todo j = Some o ->
  nth_error (replaced nx po rho all lvls k todo) j = Some (with_y o (fun i => lpred nx po rho all lvls (S (k + j)) (o_X o i))).
Proof.
  induction todo as [|a r IH]; intros k [|j] o H; cbn in H; try discriminate.
  - injection H as ->. cbn. rewrite Nat.add_0_r. reflexivity.
  - cbn [replaced nth_error]. rewrite (IH (S k) j o H). do 3 f_equal. apply functional_extensionality. intros i. f_equal. lia.
Qed.
(** ** what train() does *)
Lemma train_idem ov st : train ov (fst (train ov st)) = train ov st.
Proof.
  unfold MfkVar_M.train. destruct (fit (s_eval st) (s_obs st)) as [lvls|] eqn:E; [|cbn [fst]; rewrite E; reflexivity].
  destruct (s_eval st && ov) eqn:Z; cbn [fst]; [|rewrite E, Z; reflexivity]. cbn [s_eval s_obs andb].
  destruct (fit false (replaced nx po rho (datas (s_eval st) (s_obs st)) lvls 0 (s_obs st))); reflexivity.
Qed.
Lemma train_off ov st : s_eval st && ov = false -> fst (train ov st) = st /\ forall all lvls, snd (train ov st) = Some (all, lvls) -> all = datas (s_eval st) (s_obs st) /\ fit (s_eval st) (s_obs st) = Some lvls.
Proof.
  intros Z. unfold MfkVar_M.train. rewrite Z. destruct (fit _ _) as [l|]; cbn [fst snd]; (split; [reflexivity|]); [intros all lvls [= <- <-]; split; reflexivity|discriminate].
Qed.
Lemma train_on ov st : s_eval st && ov = true -> forall all lvls, snd (train ov st) = Some (all, lvls) ->
  exists lvls1, fit true (s_obs st) = Some lvls1 /\ let l2 := replaced nx po rho (datas true (s_obs st)) lvls1 0 (s_obs st) in
    fst (train ov st) = {| s_obs := l2; s_eval := false |} /\ all = datas false l2 /\ fit false l2 = Some lvls.
Proof.
  intros Z all lvls. unfold MfkVar_M.train. rewrite Z. apply andb_true_iff in Z. destruct Z as [Ze Zo]. rewrite Ze. destruct (fit true (s_obs st)) as [l1|]; [|discriminate]. cbn [fst snd].
  destruct (fit false _) as [l2|] eqn:E2; [|discriminate]. intros [= <- <-]. exists l1. split; [reflexivity|]. split; [reflexivity|]. split; [reflexivity|exact E2].
Qed.
Lemma train_fails ov st : s_eval st && ov = true -> snd (train ov st) = None -> fst (train ov st) = st \/ exists lvls1, fit true (s_obs st) = Some lvls1 /\
  fst (train ov st) = {| s_obs := replaced nx po rho (datas true (s_obs st)) lvls1 0 (s_obs st); s_eval := false |}.
Proof.
  intros Z. unfold MfkVar_M.train. rewrite Z. apply andb_true_iff in Z. destruct Z as [Ze Zo]. rewrite Ze. destruct (fit true (s_obs st)) as [l1|]; [|left; reflexivity]. intros _. right. exists l1. split; reflexivity.
Qed.
End V.
