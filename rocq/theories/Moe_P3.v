(** Every matrix has a spectral norm: the contract assumed of numpy.linalg.norm is satisfiable. *)
From Coq Require Import Reals Arith Lra Lia Psatz.
From Verif Require Import RSum Mat Moe_M Moe_S Moe_P2.
Open Scope R_scope.
Definition bound (n : nat) (M : mat) (d : R) : Prop := 0 <= d /\ forall x : vec, dot n (mv n M x) (mv n M x) <= d ^ 2 * dot n x x.
Definition lower (n : nat) (M : mat) (t : R) : Prop := forall d, bound n M d -> t <= d.
Definition frob (n : nat) (M : mat) : R := sqrt (rsum n (fun i => dot n (M i) (M i))).
Lemma frob_bound n M : bound n M (frob n M).
Proof.
  assert (P : 0 <= rsum n (fun i => dot n (M i) (M i))) by (apply rsum_nonneg; intros; apply dot_self_nonneg).
  split; [apply sqrt_pos|]. intros x. unfold frob. rewrite pow2_sqrt by exact P. rewrite <- rsum_scal_r. unfold dot at 1. apply rsum_le. intros i _.
  pose proof (cauchy n (M i) x). unfold mv. fold (dot n (M i) x). nra.
Qed.
Lemma lower_bounded n M : bound n M (frob n M) -> Raxioms.bound (lower n M).
Proof. intros F. exists (frob n M). intros t T. exact (T _ F). Qed.
Lemma lower_inhabited n M : exists t, lower n M t. Proof. exists 0. intros d [D _]. exact D. Qed.
Definition specnorm (n : nat) (M : mat) : R := proj1_sig (completeness (lower n M) (lower_bounded n M (frob_bound n M)) (lower_inhabited n M)).
Lemma specnorm_spec n M : is_spectral_norm n M (specnorm n M).
Proof.
  unfold specnorm. destruct (completeness _ _ _) as [c [U L]]. cbn [proj1_sig].
  assert (C0 : 0 <= c) by (apply U; intros d [D _]; exact D). split; [exact C0|]. split.
  - intros x. destruct (Rle_dec (dot n (mv n M x) (mv n M x)) (c ^ 2 * dot n x x)) as [H|H]; [exact H|exfalso]. apply Rnot_le_lt in H.
    assert (P : 0 < dot n x x). { destruct (nonzero_dec n x) as [(i & Hi & Nz)|Z]; [exact (dot_self_pos n x i Hi Nz)|exfalso]. rewrite (dot_zero_r n x x Z) in H. rewrite (dot_zero_r n _ (mv n M x)) in H; [lra|]. intros i _. apply mv_zero. exact Z. }
    set (t := sqrt (dot n (mv n M x) (mv n M x) / dot n x x)).
    assert (Q : 0 <= dot n (mv n M x) (mv n M x) / dot n x x) by (apply Rmult_le_pos; [apply dot_self_nonneg|left; apply Rinv_0_lt_compat; exact P]).
    assert (T2 : t ^ 2 * dot n x x = dot n (mv n M x) (mv n M x)) by (unfold t; rewrite pow2_sqrt by exact Q; field; lra).
    assert (T0 : 0 <= t) by apply sqrt_pos. assert (T : t <= c).
    { apply U. intros d [D B]. specialize (B x). rewrite <- T2 in B. apply Rmult_le_reg_r in B; [|exact P]. nra. }
    rewrite <- T2 in H. apply Rmult_lt_reg_r in H; [|exact P]. nra.
  - intros d D B. apply L. intros t T. apply T. split; assumption.
Qed.
