(** Scaled predictions: what numpy broadcasting makes of the Jacobian. *)
From Coq Require Import Reals Arith Lia Lra Bool List.
From Coquelicot Require Import Coquelicot.
From Verif Require Import RSum Rbf_P Poly_P Problems_P Problems_P2 Genn_M Genn_S Genn_P1.
Import ListNotations.
Open Scope list_scope.
Open Scope R_scope.
Lemma flat2 a b k e : (k < a)%nat -> (e < b)%nat -> unflat [b; a] (flat [a; b] [k; e] 0) = [e; k].
Proof.
  intros Hk He. cbn [flat unflat]. replace ((0 * a + k) * b + e)%nat with (e + k * b)%nat by lia. rewrite Nat.mod_add, Nat.div_add by lia. rewrite (Nat.mod_small e b), (Nat.div_small e b) by exact He. cbn [Nat.add]. rewrite Nat.mod_small by exact Hk. reflexivity.
Qed.
Lemma flat3 a b c k j e : (k < a)%nat -> (j < b)%nat -> (e < c)%nat -> unflat [c; b; a] (flat [a; b; c] [k; j; e] 0) = [e; j; k].
Proof.
  intros Hk Hj He. cbn [flat unflat]. replace (((0 * a + k) * b + j) * c + e)%nat with (e + (j + k * b) * c)%nat by lia. rewrite Nat.mod_add, Nat.div_add by lia. rewrite (Nat.mod_small e c), (Nat.div_small e c) by exact He. cbn [Nat.add].
  rewrite Nat.mod_add, Nat.div_add by lia. rewrite (Nat.mod_small j b), (Nat.div_small j b) by exact Hj. cbn [Nat.add]. rewrite Nat.mod_small by exact Hk. reflexivity.
Qed.
Lemma flat21 a b k j : (k < a)%nat -> (j < b)%nat -> unflat [b; a] (flat [a; b; 1%nat] [k; j; 0%nat] 0) = [j; k].
Proof.
  intros Hk Hj. replace (flat [a; b; 1%nat] [k; j; 0%nat] 0) with (flat [a; b] [k; j] 0) by (cbn [flat]; lia). apply flat2; assumption.
Qed.
Lemma evaluate_ok ls s nx ny rows m X : rows = nx -> exists Y, evaluate ls s nx ny rows m X = Some Y /\ shape Y = [ny; m] /\ forall k e, (k < ny)%nat -> (e < m)%nat -> data Y [k; e] = scaled ls s (col X e) k.
Proof.
  intros ->. unfold evaluate. rewrite Nat.eqb_refl. cbn [negb]. unfold broadcast, of2, of1. cbn [shape rev app bshape obind]. rewrite !Nat.eqb_refl.
  assert (HV : forall k e, fst (L_model_forward ls (normed s X)) k e * sigma_y s k + mu_y s k = scaled ls s (col X e) k) by (intros; rewrite forward_net; reflexivity).
  destruct (Nat.eqb_spec m 1) as [E|E]; cbn [bshape option_map obind shape rev app]; rewrite ?Nat.eqb_refl; cbn [option_map obind shape rev app].
  - subst m. rewrite Nat.eqb_refl. cbn [option_map obind shape rev app]. unfold reshape. cbn [shape]. rewrite Nat.eqb_refl. eexists. split; [reflexivity|]. split; [reflexivity|]. intros k e Hk He. cbn [data].
    change (rev [ny; 1%nat]) with [1%nat; ny]. rewrite flat2 by assumption. cbn [rev app bindex Nat.eqb nth]. rewrite <- HV. assert (e = 0%nat) as -> by lia. destruct (Nat.eqb_spec ny 1); [assert (k = 0%nat) as -> by lia|]; reflexivity.
  - destruct (Nat.eqb_spec m 1); [contradiction|]. rewrite ?Nat.eqb_refl. cbn [option_map obind shape rev app]. unfold reshape. cbn [shape]. rewrite Nat.eqb_refl. eexists. split; [reflexivity|]. split; [reflexivity|]. intros k e Hk He. cbn [data].
    change (rev [ny; m]) with [m; ny]. rewrite flat2 by assumption. cbn [rev app bindex Nat.eqb nth]. destruct (Nat.eqb_spec m 1); [contradiction|]. rewrite <- HV. destruct (Nat.eqb_spec ny 1); [assert (k = 0%nat) as -> by lia|]; reflexivity.
Qed.
Ltac bs := repeat (cbn [bshape option_map obind shape rev app]; rewrite ?Nat.eqb_refl; cbn [bshape option_map obind shape rev app];
  match goal with |- context [Nat.eqb ?a ?b] => lazymatch goal with |- context [reshape] => fail | _ => destruct (Nat.eqb_spec a b); [try lia|try lia] end end).
Section Grad.
Variables (ls : list layer) (s : scaling) (nx ny m : nat) (X : arr).
Let J := fst (L_grads_forward ls (normed s X)).
(** several points (or none) *)
Lemma first_many : m <> 1%nat -> broadcast Rmult (jac ny nx m J) (of1 ny (sigma_y s)) =
  (if Nat.eqb nx ny || Nat.eqb ny 1 || Nat.eqb nx 1 then Some {| shape := [ny; if Nat.eqb nx 1 then ny else nx; m];
      data := fun ix => data (jac ny nx m J) (rev (bindex [m; nx; ny] (rev ix))) * data (of1 ny (sigma_y s)) (rev (bindex [1%nat; ny] (rev ix))) |} else None).
Proof.
  intros Hm. unfold broadcast, jac, of1. destruct (Nat.eqb_spec m 1) as [E|E]; [contradiction|]. cbn [shape rev app bshape]. destruct (Nat.eqb_spec m 1) as [E'|_]; [contradiction|]. cbn [Nat.eqb option_map].
  destruct (Nat.eqb_spec nx ny) as [E1|E1]; cbn [option_map orb].
  - cbn [rev app]. destruct (Nat.eqb_spec nx 1); [replace ny with nx by exact E1|]; reflexivity.
  - destruct (Nat.eqb_spec nx 1) as [E2|E2]; [rewrite Bool.orb_true_r; cbn [option_map rev app]; reflexivity|]. destruct (Nat.eqb_spec ny 1) as [E3|E3]; reflexivity.
Qed.
Lemma gradient_many_one : m <> 1%nat -> ny = 1%nat -> (0 < nx)%nat -> exists G, gradient ls s nx ny nx m X = Some G /\ shape G = [ny; nx; m] /\ forall k j e, (k < ny)%nat -> (j < nx)%nat -> (e < m)%nat -> data G [k; j; e] = J j k e * sigma_y s k / sigma_x s j.
Proof.
  intros Hm Hy Hx. unfold gradient. rewrite Nat.eqb_refl. cbn [negb]. fold J. rewrite first_many by exact Hm. subst ny. rewrite Nat.eqb_refl, Bool.orb_true_r. cbn [orb obind].
  replace (if Nat.eqb nx 1 then 1%nat else nx) with nx by (destruct (Nat.eqb_spec nx 1); congruence).
  unfold broadcast. cbn [shape of1 rev app bshape]. destruct (Nat.eqb_spec m 1) as [E|_]; [contradiction|]. cbn [Nat.eqb]. rewrite Nat.eqb_refl. cbn [option_map obind rev app]. unfold reshape. cbn [shape]. rewrite Nat.eqb_refl. eexists. split; [reflexivity|]. split; [reflexivity|].
  intros k j e Hk Hj He. cbn [data]. change (rev [1%nat; nx; m]) with [m; nx; 1%nat]. rewrite flat3 by assumption. assert (k = 0%nat) as -> by lia. unfold jac, of1. destruct (Nat.eqb_spec m 1) as [E|_]; [contradiction|]. cbn [data rev app bindex Nat.eqb nth].
  destruct (Nat.eqb_spec m 1) as [E|_]; [contradiction|]. destruct (Nat.eqb_spec nx 1) as [E2|E2]; [assert (j = 0%nat) as -> by lia|]; reflexivity.
Qed.
Lemma gradient_many_square : m <> 1%nat -> nx = ny -> (2 <= ny)%nat -> exists G, gradient ls s nx ny nx m X = Some G /\ forall k j e, (k < ny)%nat -> (j < nx)%nat -> (e < m)%nat -> data G [k; j; e] = J j k e * sigma_y s j / sigma_x s j.
Proof.
  intros Hm Hy Hx. unfold gradient. rewrite Nat.eqb_refl. cbn [negb]. fold J. rewrite first_many by exact Hm. rewrite <- Hy in *. rewrite Nat.eqb_refl. cbn [orb obind].
  replace (if Nat.eqb nx 1 then nx else nx) with nx by (destruct (Nat.eqb nx 1); reflexivity).
  unfold broadcast. cbn [shape of1 rev app bshape]. destruct (Nat.eqb_spec m 1) as [E|_]; [contradiction|]. cbn [Nat.eqb]. rewrite Nat.eqb_refl. cbn [option_map obind rev app]. unfold reshape. cbn [shape]. rewrite Nat.eqb_refl. eexists. split; [reflexivity|].
  intros k j e Hk Hj He. cbn [data]. change (rev [nx; nx; m]) with [m; nx; nx]. rewrite flat3 by assumption. unfold jac, of1. destruct (Nat.eqb_spec m 1) as [E|_]; [contradiction|]. cbn [data rev app bindex Nat.eqb nth].
  destruct (Nat.eqb_spec m 1) as [E|_]; [contradiction|]. destruct (Nat.eqb_spec nx 1) as [E2|E2]; [lia|]. reflexivity.
Qed.
Lemma gradient_many_fails : m <> 1%nat -> (0 < m)%nat -> (2 <= ny)%nat -> nx <> ny -> (0 < nx)%nat -> gradient ls s nx ny nx m X = None.
Proof.
  intros Hm H0 Hy Hn Hx. unfold gradient. rewrite Nat.eqb_refl. cbn [negb]. fold J. rewrite first_many by exact Hm. destruct (Nat.eqb_spec nx ny); [contradiction|]. destruct (Nat.eqb_spec ny 1); [lia|]. cbn [orb]. destruct (Nat.eqb_spec nx 1) as [E|E]; [|reflexivity]. cbn [obind].
  unfold broadcast. cbn [shape of1 rev app bshape]. destruct (Nat.eqb_spec m 1); [contradiction|]. cbn [Nat.eqb]. destruct (Nat.eqb_spec ny nx); [congruence|]. destruct (Nat.eqb_spec ny 1); [lia|]. destruct (Nat.eqb_spec nx 1); [|contradiction]. cbn [option_map obind rev app]. unfold reshape. cbn [shape].
  destruct (Nat.eqb_spec (size [ny; ny; m]) (size [ny; nx; m])) as [E3|_]; [|reflexivity]. cbn in E3. subst nx. exfalso. nia.
Qed.
(** one point *)
Lemma first_single : m = 1%nat -> broadcast Rmult (jac ny nx m J) (of1 ny (sigma_y s)) =
  Some {| shape := [ny; nx]; data := fun ix => data (jac ny nx m J) (rev (bindex [nx; ny] (rev ix))) * data (of1 ny (sigma_y s)) (rev (bindex [1%nat; ny] (rev ix))) |}.
Proof.
  intros ->. unfold broadcast, jac, of1. cbn [Nat.eqb shape rev app bshape]. rewrite Nat.eqb_refl. cbn [option_map]. destruct (Nat.eqb_spec nx 1) as [E|E]; cbn [option_map]; [subst nx|]; reflexivity.
Qed.
Lemma gradient_single_one : m = 1%nat -> nx = 1%nat -> exists G, gradient ls s nx ny nx m X = Some G /\ shape G = [ny; nx; m] /\ forall k j e, (k < ny)%nat -> (j < nx)%nat -> (e < m)%nat -> data G [k; j; e] = J j k e * sigma_y s k / sigma_x s j.
Proof.
  intros Hm Hx. unfold gradient. rewrite Nat.eqb_refl. cbn [negb]. fold J. rewrite first_single by exact Hm. cbn [obind]. rewrite Hx, Hm. unfold broadcast. cbn [shape of1 rev app bshape Nat.eqb].
  assert (EB : forall o : option (list nat), (if Nat.eqb ny 1 then option_map (cons ny) (Some []) else if Nat.eqb ny 1 then option_map (cons 1%nat) (Some []) else option_map (cons ny) (Some [])) = Some [ny]) by (intros _; destruct (Nat.eqb ny 1); reflexivity).
  rewrite (EB None). cbn [option_map obind rev app]. unfold reshape. cbn [shape]. replace (Nat.eqb (size [ny; 1%nat]) (size [ny; 1%nat; 1%nat])) with true by (symmetry; apply Nat.eqb_eq; cbn; lia). eexists. split; [reflexivity|]. split; [reflexivity|].
  intros k j e Hk Hj He. cbn [data]. assert (j = 0%nat) as -> by lia. assert (e = 0%nat) as -> by lia. change (rev [ny; 1%nat]) with [1%nat; ny]. rewrite flat21 by (try assumption; lia). unfold jac, of1. cbn [Nat.eqb data rev app bindex nth].
  destruct (Nat.eqb_spec ny 1) as [E2|E2]; [assert (k = 0%nat) as -> by lia|]; reflexivity.
Qed.
Lemma gradient_single_square : m = 1%nat -> nx = ny -> (2 <= ny)%nat -> exists G, gradient ls s nx ny nx m X = Some G /\ forall k j, (k < ny)%nat -> (j < nx)%nat -> data G [k; j; 0%nat] = J j k 0%nat * sigma_y s k / sigma_x s k.
Proof.
  intros Hm Hy Hx. unfold gradient. rewrite Nat.eqb_refl. cbn [negb]. fold J. rewrite first_single by exact Hm. cbn [obind]. rewrite <- Hy in *. rewrite Hm. unfold broadcast. cbn [shape of1 rev app bshape].
  destruct (Nat.eqb_spec nx 1) as [E|E]; [lia|]. cbn [Nat.eqb]. rewrite Nat.eqb_refl. cbn [option_map obind rev app]. unfold reshape. cbn [shape]. replace (Nat.eqb (size [nx; nx]) (size [nx; nx; 1%nat])) with true by (symmetry; apply Nat.eqb_eq; cbn; lia). eexists. split; [reflexivity|].
  intros k j Hk Hj. cbn [data]. change (rev [nx; nx]) with [nx; nx]. rewrite flat21 by assumption. unfold jac, of1. cbn [Nat.eqb data rev app bindex nth]. destruct (Nat.eqb_spec nx 1) as [E2|E2]; [lia|]. reflexivity.
Qed.
Lemma gradient_single_fails : m = 1%nat -> (2 <= nx)%nat -> nx <> ny -> (0 < ny)%nat -> gradient ls s nx ny nx m X = None.
Proof.
  intros Hm Hx Hn Hy. unfold gradient. rewrite Nat.eqb_refl. cbn [negb]. fold J. rewrite first_single by exact Hm. cbn [obind]. rewrite Hm. unfold broadcast. cbn [shape of1 rev app bshape].
  destruct (Nat.eqb_spec nx 1) as [E|E]; [lia|]. cbn [Nat.eqb]. destruct (Nat.eqb_spec ny nx); [congruence|]. destruct (Nat.eqb_spec ny 1) as [E2|E2]; [|reflexivity]. cbn [option_map obind rev app]. unfold reshape. cbn [shape].
  destruct (Nat.eqb_spec (size [nx; nx]) (size [ny; nx; 1%nat])) as [E3|_]; [|reflexivity]. cbn in E3. exfalso. nia.
Qed.
Lemma comp_gen (f h : R -> R) t d dh : is_derive f (h t) d -> is_derive h t dh -> is_derive (fun u => f (h u)) t (d * dh).
Proof.
  intros Hf Hh. pose proof (is_derive_comp f h t d dh Hf Hh) as C. unfold scal in C; cbn in C; unfold mult in C; cbn in C. rewrite Rmult_comm. exact C.
Qed.
Lemma scaled_partial k j e : fits nx ls ny -> (k < ny)%nat -> (j < nx)%nat -> sigma_x s j <> 0 -> is_partial (fun x => scaled ls s x k) (col X e) j (J j k e * sigma_y s k / sigma_x s j).
Proof.
  intros F Hk Hj HS. pose proof (jacobian ls nx ny (normed s X) j k e F Hj Hk) as D. unfold is_partial in *. unfold scaled.
  apply (is_derive_ext (fun t => sigma_y s k * net ls (upd (col (normed s X) e) j ((t - mu_x s j) / sigma_x s j)) k + mu_y s k)).
  - intros t. match goal with |- ?a = ?b => change (@eq R a b) end. rewrite (Rmult_comm (sigma_y s k)). do 2 f_equal. f_equal. apply FunctionalExtensionality.functional_extensionality. intros i. unfold upd, col, normed. destruct (Nat.eqb_spec i j) as [-> |]; reflexivity.
  - replace (J j k e * sigma_y s k / sigma_x s j) with (sigma_y s k * (J j k e * / sigma_x s j) + 0) by (field; exact HS).
    apply (is_derive_plus (K := R_AbsRing) (V := R_NormedModule)); [|apply derive_cst]. apply is_derive_scal. apply (comp_gen (fun u => net ls (upd (col (normed s X) e) j u) k) (fun t => (t - mu_x s j) / sigma_x s j)); [exact D|].
    auto_derive; [exact I|]. unfold Rdiv. ring.
Qed.
End Grad.
