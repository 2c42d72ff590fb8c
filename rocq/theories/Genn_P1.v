(** Activations, the forward pass and the Jacobian. *)
From Coq Require Import Reals Arith Lia Lra Bool List.
From Coquelicot Require Import Coquelicot.
From Verif Require Import RSum Rbf_P Poly_P Problems_P Problems_P2 Genn_M Genn_S.
Import ListNotations.
Open Scope list_scope.
Open Scope R_scope.
Lemma eval_phi g z : a_eval g z = phi g z.
Proof.
  destruct g; cbn; [unfold Rdiv; ring| |reflexivity]. unfold tanh, sinh, cosh. pose proof (exp_pos z). pose proof (exp_pos (- z)). field. lra.
Qed.
Lemma eval_derive g z : is_derive (a_eval g) z (a_first g z).
Proof.
  destruct g.
  - unfold a_eval, a_first, a_eval. auto_derive; [pose proof (exp_pos (- z)); lra|]. generalize (exp_pos (- z)). generalize (exp (- z)). intros u Hu. field. lra.
  - unfold a_eval, a_first, a_eval. pose proof (exp_pos z). pose proof (exp_pos (- z)). auto_derive; [lra|]. revert H H0. generalize (exp z) (exp (- z)). intros u v Hu Hv. field. lra.
  - apply (is_derive_id (K := R_AbsRing)).
Qed.
Lemma first_derive g z : is_derive (a_first g) z (a_second g z).
Proof.
  destruct g.
  - pose proof (eval_derive Sigmoid z) as D. apply (is_derive_ext (fun t => a_eval Sigmoid t * (1 - a_eval Sigmoid t))); [reflexivity|].
    pose proof (derive_mul (a_eval Sigmoid) (fun t => 1 - a_eval Sigmoid t) z (a_first Sigmoid z) (- a_first Sigmoid z) D) as M.
    assert (D2 : is_derive (fun t => 1 - a_eval Sigmoid t) z (- a_first Sigmoid z)). { replace (- a_first Sigmoid z) with (0 - a_first Sigmoid z) by ring. apply (is_derive_minus (K := R_AbsRing) (V := R_NormedModule)); [apply derive_cst|exact D]. }
    specialize (M D2). match type of M with is_derive _ _ ?d => replace (a_second Sigmoid z) with d; [exact M|] end. cbn [a_second]. unfold a_first. ring.
  - pose proof (eval_derive Tanh z) as D. pose proof (derive_mul _ _ z _ _ D D) as M. apply (is_derive_ext (fun t => 1 - a_eval Tanh t * a_eval Tanh t)).
    + intros t. cbn [a_first]. match goal with |- ?a = ?b => change (@eq R a b) end. ring.
    + match goal with |- is_derive _ _ ?d => replace d with (0 - (a_first Tanh z * a_eval Tanh z + a_eval Tanh z * a_first Tanh z)) end.
      * apply (is_derive_minus (K := R_AbsRing) (V := R_NormedModule)); [apply derive_cst|exact M].
      * cbn [a_second]. ring.
  - apply derive_cst.
Qed.
Lemma second_exact g z : is_derive (phi g) z (a_first g z) /\ Derive (phi g) z = a_first g z /\ is_derive (Derive (phi g)) z (a_second g z).
Proof.
  assert (D : forall u, is_derive (phi g) u (a_first g u)). { intros u. apply (is_derive_ext (a_eval g)); [intros; apply eval_phi|apply eval_derive]. }
  split; [apply D|]. split; [apply is_derive_unique; apply D|]. apply (is_derive_ext (a_first g)); [intros t; symmetry; apply is_derive_unique; apply D|apply first_derive].
Qed.
(** forward pass *)
Lemma forward_cons l r A : L_model_forward (l :: r) A = (fst (L_model_forward r (fun i e => a_eval (act l) (linear l A i e))), (A, linear l A) :: snd (L_model_forward r (fun i e => a_eval (act l) (linear l A i e)))).
Proof. cbn [L_model_forward]. destruct (L_model_forward r _); reflexivity. Qed.
Lemma grads_cons l r A A' : let B := (fun i e => a_eval (act l) (linear l A i e)) in let B' := (fun j i e => a_first (act l) (linear l A i e) * linear' l A' j i e) in
  grads_loop (l :: r) A A' = (fst (grads_loop r B B'), (linear' l A', A') :: snd (grads_loop r B B')).
Proof. cbn [grads_loop]. destruct (grads_loop r _ _); reflexivity. Qed.
Lemma net_ext ls : forall nx ny x y, fits nx ls ny -> (forall i, (i < nx)%nat -> x i = y i) -> forall k, (k < ny)%nat -> net ls x k = net ls y k.
Proof.
  induction ls as [|l r IH]; intros nx ny x y F H k Hk; cbn [net fits] in *.
  - apply H. lia.
  - destruct F as [F1 F2]. apply (IH (n_out l) ny); [exact F2| |exact Hk]. intros i Hi. f_equal. f_equal. apply rsum_ext. intros q Hq. rewrite H by lia. reflexivity.
Qed.
Lemma forward_net ls : forall A k e, fst (L_model_forward ls A) k e = net ls (col A e) k.
Proof.
  induction ls as [|l r IH]; intros A k e; [reflexivity|]. rewrite forward_cons. cbn [fst net]. rewrite IH. unfold col. f_equal.
  apply FunctionalExtensionality.functional_extensionality. intros i. rewrite eval_phi. reflexivity.
Qed.
(** along any curve of states, the loop of L_grads_forward carries the derivative *)
Lemma net_derive ls : forall nx ny (x : R -> vec) (t0 : R) (A : arr) (A' : arr3) j e, fits nx ls ny -> (forall i, A i e = x t0 i) -> (forall i, (i < nx)%nat -> is_derive (fun t => x t i) t0 (A' j i e)) ->
  forall k, (k < ny)%nat -> is_derive (fun t => net ls (x t) k) t0 (fst (grads_loop ls A A') j k e).
Proof.
  induction ls as [|l r IH]; intros nx ny x t0 A A' j e F HA HD k Hk; cbn [fits] in F.
  - cbn [net grads_loop fst]. apply HD. lia.
  - destruct F as [F1 F2]. rewrite grads_cons. cbn [fst net]. apply (IH (n_out l) ny (fun t i => phi (act l) (rsum (n_in l) (fun q => weight l i q * x t q) + bias l i))); [exact F2| | |exact Hk].
    + intros i. rewrite <- eval_phi. unfold linear. f_equal. f_equal. apply rsum_ext. intros q _. rewrite HA. reflexivity.
    + intros i Hi. assert (DZ : is_derive (fun t => rsum (n_in l) (fun q => weight l i q * x t q) + bias l i) t0 (linear' l A' j i e)).
      { replace (linear' l A' j i e) with (rsum (n_in l) (fun q => weight l i q * A' j q e) + 0) by (unfold linear'; ring).
        apply (is_derive_plus (K := R_AbsRing) (V := R_NormedModule)); [|apply derive_cst]. apply (is_derive_rsum (n_in l) (fun q t => weight l i q * x t q)). intros q Hq. apply is_derive_scal. apply HD. lia. }
      pose proof (trig_derive (a_eval (act l)) (a_first (act l)) _ t0 _ (eval_derive (act l)) DZ) as C. cbv beta in C.
      replace (linear l A i e) with (rsum (n_in l) (fun q => weight l i q * x t0 q) + bias l i).
      * apply (is_derive_ext (fun t => a_eval (act l) (rsum (n_in l) (fun q => weight l i q * x t q) + bias l i))); [intros; apply eval_phi|exact C].
      * unfold linear. f_equal. apply rsum_ext. intros q _. rewrite HA. reflexivity.
Qed.
Lemma jacobian ls nx ny X j k e : fits nx ls ny -> (j < nx)%nat -> (k < ny)%nat -> is_partial (fun x => net ls x k) (col X e) j (fst (L_grads_forward ls X) j k e).
Proof.
  intros F Hj Hk. unfold is_partial, L_grads_forward. apply (net_derive ls nx ny (fun t => upd (col X e) j t)); [exact F| | |exact Hk].
  - intros i. rewrite upd_same. reflexivity.
  - intros i Hi. unfold eye. apply derive_x.
Qed.
