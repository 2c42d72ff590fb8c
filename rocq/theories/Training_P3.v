From Coq Require Import String ZArith Bool Arith List Lia.
From Verif Require Import Training_M Training_S Training_P.
Import ListNotations.
Open Scope list_scope.
Section S.
Context {A : Type}.
Variable sup_td : bool.
Lemma sizes_step (s : state A) past o : Rel s past -> dims s = sizes_of past -> let '(s', r) := step sup_td s o in dims s' = sizes_of ((o, r) :: past).
Proof.
  intros HR HD. pose proof HR as (Hinv & Harg & Hval & Hder).
  assert (Hskip : forall r, r <> Done -> dims s = sizes_of ((o, r) :: past)) by (intros r H; rewrite HD; destruct o, r; try reflexivity; congruence).
  destruct o as [a|l i v|lx ly n|ly n|lx ly k n|ly k n]; cbn [step].
  - cbn. exact HD.
  - destruct (arg s l) as [a|]; [|apply Hskip; discriminate]. destruct (set_flat i v (data a)); [|apply Hskip; discriminate]. exact HD.
  - destruct (arg s lx) as [x|] eqn:Hx; [|apply Hskip; discriminate]. destruct (arg s ly) as [y|] eqn:Hy; [|apply Hskip; discriminate].
    unfold set_values. destruct (ensure_2d x) as [x2|] eqn:Ex; [|apply Hskip; discriminate]. destruct (ensure_2d y) as [y2|] eqn:Ey; [|apply Hskip; discriminate].
    destruct (negb (rows x2 =? rows y2)); [apply Hskip; discriminate|].
    assert (Tx : table past lx = Some x2) by (eapply ensure_table; [rewrite <- Harg; exact Hx|exact Ex]).
    assert (Ty : table past ly = Some y2) by (eapply ensure_table; [rewrite <- Harg; exact Hy|exact Ey]).
    cbn. rewrite Tx, Ty. reflexivity.
  - destruct (arg s ly) as [y|]; [|apply Hskip; discriminate]. unfold update_values. destruct (ensure_2d y) as [y2|]; [|apply Hskip; discriminate].
    destruct (find_entry (points s) (n, 0%Z)) as [[a b]|]; [|apply Hskip; discriminate]. destruct (heap s a) as [x|]; [|apply Hskip; discriminate].
    destruct (negb (rows x =? rows y2)); [apply Hskip; discriminate|]. exact HD.
  - destruct (arg s lx) as [x|]; [|apply Hskip; discriminate]. destruct (arg s ly) as [y|]; [|apply Hskip; discriminate].
    unfold set_derivs. destruct (negb sup_td); [apply Hskip; discriminate|]. destruct (ensure_2d x) as [x2|]; [|apply Hskip; discriminate]. destruct (ensure_2d y) as [y2|]; [|apply Hskip; discriminate].
    destruct (negb (rows x2 =? rows y2)); [apply Hskip; discriminate|]. exact HD.
  - destruct (arg s ly) as [y|]; [|apply Hskip; discriminate]. unfold update_derivs. destruct (negb sup_td); [apply Hskip; discriminate|]. destruct (ensure_2d y) as [y2|]; [|apply Hskip; discriminate].
    destruct (find_entry (points s) (n, k)) as [[a b]|]; [|apply Hskip; discriminate]. destruct (heap s a) as [x|]; [|apply Hskip; discriminate].
    destruct (negb (rows x =? rows y2)); [apply Hskip; discriminate|]. destruct (find_entry (points s) (n, (k + 1)%Z)) as [[a1 b1]|]; [|apply Hskip; discriminate]. exact HD.
Qed.
Lemma sizes_run ops (s : state A) tr : Forall nonneg_kx ops -> run sup_td init ops = (s, tr) -> dims s = sizes_of (rev tr).
Proof.
  revert s tr; induction ops as [|o ops IH] using rev_ind; intros s tr Hf.
  - cbn. intros [= <- <-]. reflexivity.
  - rewrite run_snoc. apply Forall_app in Hf as [Hf Ho]. inversion Ho as [|? ? Ho' _]; subst.
    destruct (run sup_td init ops) as [s1 tr1] eqn:E. specialize (IH s1 tr1 Hf eq_refl).
    pose proof (sizes_step s1 (rev tr1) o (rel_run sup_td ops s1 tr1 Hf E) IH) as H.
    destruct (step sup_td s1 o) as [s2 r2]. intros [= <- <-]. rewrite rev_unit; exact H.
Qed.
End S.
