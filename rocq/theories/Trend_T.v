(** C87: the trend functions of the Kriging models span exactly the polynomials of the declared degree, with as few functions as possible for generic data. *)
From Coq Require Import Reals Arith Bool List Lia Lra.
From Verif Require Import RSum Mat Krg_M Krg_P3.
Import ListNotations.
Open Scope list_scope.
Open Scope R_scope.
(** polynomials of degree at most 0, 1, 2 in nx variables *)
Definition polynomial (po : poly) (nx : nat) (f : vec -> R) : Prop :=
  match po with
  | PConstant => exists c, forall x, f x = c
  | PLinear => exists c b, forall x, f x = c + rsum nx (fun i => b i * x i)
  | PQuadratic => exists c b (Q : mat), forall x, f x = c + rsum nx (fun i => b i * x i) + rsum nx (fun i => rsum nx (fun j => Q i j * x i * x j))
  end.
(** monomials *)
Inductive mono := M1 | MX (i : nat) | MXX (i j : nat).
Definition meval (x : vec) (m : mono) : R := match m with M1 => 1 | MX i => x i | MXX i j => x i * x j end.
Definition pairs (nx : nat) : list mono := flat_map (fun k => map (fun j => MXX k j) (seq k (nx - k))) (seq 0 nx).
Definition monos (po : poly) (nx : nat) : list mono := match po with PConstant => [M1] | PLinear => M1 :: map MX (seq 0 nx) | PQuadratic => (M1 :: map MX (seq 0 nx)) ++ pairs nx end.
Lemma regr_monos po nx x : regr po nx x = map (meval x) (monos po nx).
Proof.
  destruct po; [reflexivity|cbn; rewrite map_map; reflexivity|]. unfold regr, monos, pairs. rewrite map_app. cbn [map meval]. rewrite map_map.
  change (map (fun x0 => meval x (MX x0)) (seq 0 nx)) with (map x (seq 0 nx)). generalize (1 :: map x (seq 0 nx)). generalize (seq 0 nx). induction l as [|k l IH]; intros f; cbn [fold_left flat_map]; [rewrite app_nil_r; reflexivity|].
  rewrite IH, map_app, map_map, <- app_assoc. reflexivity.
Qed.
Fixpoint lsum (l : list R) : R := match l with [] => 0 | a :: r => a + lsum r end.
Lemma lsum_app a b : lsum (a ++ b) = lsum a + lsum b. Proof. induction a; cbn; [ring|rewrite IHa; ring]. Qed.
Lemma lsum_seq (f : nat -> R) n s : lsum (map f (seq s n)) = rsum n (fun i => f (s + i)%nat).
Proof. revert s. induction n as [|n IH]; intros s; [reflexivity|]. rewrite rsum_S_l. cbn [seq map lsum]. rewrite IH, Nat.add_0_r. f_equal. apply rsum_ext. intros. f_equal. lia. Qed.
Lemma lsum_flat (f : mono -> R) (g : nat -> list mono) l : lsum (map f (flat_map g l)) = lsum (map (fun k => lsum (map f (g k))) l).
Proof. induction l as [|k l IH]; cbn; [reflexivity|]. rewrite map_app, lsum_app, IH. reflexivity. Qed.
Lemma dot_lsum (x : vec) (w : vec) ms : forall s, rsum (length ms) (fun j => w (s + j)%nat * nth j (map (meval x) ms) 0) = lsum (map (fun p => w (fst p) * meval x (snd p)) (combine (seq s (length ms)) ms)).
Proof.
  induction ms as [|m ms IH]; intros s; [reflexivity|]. cbn [length]. rewrite rsum_S_l. cbn [seq combine map lsum fst snd nth]. rewrite Nat.add_0_r. f_equal. rewrite <- IH. apply rsum_ext. intros i _. f_equal. f_equal. lia.
Qed.
Definition has_degree (po : poly) (nx : nat) (m : mono) : Prop :=
  match m with M1 => True | MX i => po <> PConstant /\ (i < nx)%nat | MXX i j => po = PQuadratic /\ (i < nx)%nat /\ (j < nx)%nat end.
Lemma monos_degree po nx m : In m (monos po nx) -> has_degree po nx m.
Proof.
  destruct po; cbn [monos].
  - intros [<-|[]]. exact I.
  - intros [<-|H]; [exact I|]. apply in_map_iff in H. destruct H as (i & <- & Hi). apply in_seq in Hi. split; [discriminate|lia].
  - intros H. apply in_app_or in H. destruct H as [[<-|H]|H]; [exact I| |].
    + apply in_map_iff in H. destruct H as (i & <- & Hi). apply in_seq in Hi. split; [discriminate|lia].
    + unfold pairs in H. apply in_flat_map in H. destruct H as (k & Hk & H). apply in_map_iff in H. destruct H as (j & <- & Hj). apply in_seq in Hk. apply in_seq in Hj. cbn. repeat split; lia.
Qed.
Lemma pick nx (f : nat -> R) i (c : R) : (i < nx)%nat -> rsum nx (fun k => (if Nat.eqb k i then c else 0) * f k) = c * f i.
Proof. intros H. rewrite (rsum_ext nx _ (fun k => if Nat.eqb k i then c * f i else 0)); [apply (rsum_single nx (fun _ => c * f i) i H)|]. intros k _. destruct (Nat.eqb_spec k i) as [-> |]; ring. Qed.
Lemma poly_term po nx m c : has_degree po nx m -> polynomial po nx (fun x => c * meval x m).
Proof.
  intros H. destruct m as [|i|i j]; cbn [has_degree meval] in *.
  - destruct po; cbn [polynomial].
    + exists c. intros. ring.
    + exists c, (fun _ => 0). intros. rewrite rsum_zero by (intros; ring). ring.
    + exists c, (fun _ => 0), (fun _ _ => 0). intros. rewrite rsum_zero by (intros; ring). rewrite rsum_zero by (intros; apply rsum_zero; intros; ring). ring.
  - destruct H as [H1 H2]. destruct po; [contradiction| |]; cbn [polynomial].
    + exists 0, (fun k => if Nat.eqb k i then c else 0). intros. rewrite pick by exact H2. ring.
    + exists 0, (fun k => if Nat.eqb k i then c else 0), (fun _ _ => 0). intros. rewrite pick by exact H2. rewrite rsum_zero by (intros; apply rsum_zero; intros; ring). ring.
  - destruct H as (-> & Hi & Hj). exists 0, (fun _ => 0), (fun a b => if Nat.eqb a i then if Nat.eqb b j then c else 0 else 0). intros x. rewrite rsum_zero by (intros; ring).
    rewrite (rsum_ext nx (fun a => rsum nx _) (fun a => (if Nat.eqb a i then c * x j else 0) * x a)).
    + rewrite (pick nx x i (c * x j) Hi). ring.
    + intros a Ha. destruct (Nat.eqb a i).
      * rewrite (rsum_ext nx _ (fun b => (if Nat.eqb b j then c * x a else 0) * x b)) by (intros b _; destruct (Nat.eqb b j); ring). rewrite pick by exact Hj. ring.
      * rewrite rsum_zero by (intros; ring). ring.
Qed.
Lemma poly_plus po nx f g : polynomial po nx f -> polynomial po nx g -> polynomial po nx (fun x => f x + g x).
Proof.
  destruct po; cbn [polynomial].
  - intros (c & H) (d & G). exists (c + d). intros. rewrite H, G. reflexivity.
  - intros (c & b & H) (d & e & G). exists (c + d), (fun i => b i + e i). intros. rewrite H, G. rewrite (rsum_ext nx (fun i => (b i + e i) * x i) (fun i => b i * x i + e i * x i)) by (intros; ring). rewrite rsum_plus. ring.
  - intros (c & b & Q & H) (d & e & P & G). exists (c + d), (fun i => b i + e i), (fun i j => Q i j + P i j). intros. rewrite H, G. rewrite (rsum_ext nx (fun i => (b i + e i) * x i) (fun i => b i * x i + e i * x i)) by (intros; ring). rewrite rsum_plus.
    rewrite (rsum_ext nx (fun i => rsum nx (fun j => (Q i j + P i j) * x i * x j)) (fun i => rsum nx (fun j => Q i j * x i * x j) + rsum nx (fun j => P i j * x i * x j))) by (intros; rewrite <- rsum_plus; apply rsum_ext; intros; ring). rewrite rsum_plus. ring.
Qed.
Lemma poly_zero po nx : polynomial po nx (fun _ => 0).
Proof. pose proof (poly_term po nx M1 0 I) as H. destruct po; cbn [polynomial meval] in *; [destruct H as (c & H); exists c|destruct H as (c & b & H); exists c, b|destruct H as (c & b & Q & H); exists c, b, Q]; intros x; specialize (H x); lra. Qed.
Lemma combination_poly po nx w : polynomial po nx (fun x => rsum (n_regr po nx) (fun j => w j * fvec po nx x j)).
Proof.
  assert (K : forall ms s, (forall m, In m ms -> has_degree po nx m) -> polynomial po nx (fun x => lsum (map (fun p => w (fst p) * meval x (snd p)) (combine (seq s (length ms)) ms)))).
  { induction ms as [|m ms IH]; intros s H; cbn [length seq combine map lsum fst snd]; [apply poly_zero|]. apply (poly_plus po nx (fun x => w s * meval x m)); [apply poly_term; apply H; left; reflexivity|]. apply IH. intros; apply H; right; assumption. }
  specialize (K (monos po nx) 0%nat (monos_degree po nx)). assert (E : forall x, rsum (n_regr po nx) (fun j => w j * fvec po nx x j) = lsum (map (fun p => w (fst p) * meval x (snd p)) (combine (seq 0 (length (monos po nx))) (monos po nx)))).
  { intros x. rewrite <- dot_lsum. assert (L : n_regr po nx = length (monos po nx)) by (rewrite <- (regr_length po nx x), regr_monos; apply map_length). rewrite L. apply rsum_ext. intros j _. unfold fvec. rewrite regr_monos. reflexivity. }
  destruct po; cbn [polynomial] in *; [destruct K as (c & K); exists c|destruct K as (c & b & K); exists c, b|destruct K as (c & b & Q & K); exists c, b, Q]; intros x; rewrite E; apply K.
Qed.
(** coefficients of a given polynomial *)
Definition coef (c : R) (b : vec) (Q : mat) (m : mono) : R := match m with M1 => c | MX i => b i | MXX i j => if Nat.eqb i j then Q i i else Q i j + Q j i end.
Lemma as_combination po nx (co : mono -> R) x : rsum (n_regr po nx) (fun j => nth j (map co (monos po nx)) 0 * fvec po nx x j) = lsum (map (fun m => co m * meval x m) (monos po nx)).
Proof.
  assert (L : n_regr po nx = length (monos po nx)) by (rewrite <- (regr_length po nx x), regr_monos; apply map_length). rewrite L. unfold fvec. rewrite regr_monos. generalize (monos po nx). induction l as [|m l IH]; [reflexivity|]. cbn [length]. rewrite rsum_S_l. cbn [map lsum nth]. f_equal. exact IH.
Qed.
Lemma triangle n (f : nat -> nat -> R) : rsum n (fun i => rsum n (fun j => f i j)) = rsum n (fun k => rsum (n - k) (fun d => if Nat.eqb d 0 then f k k else f k (k + d)%nat + f (k + d)%nat k)).
Proof.
  induction n as [|n IH]; [reflexivity|]. cbn [rsum]. replace (S n - n)%nat with 1%nat by lia. cbn [rsum Nat.eqb]. rewrite rsum_plus, IH.
  rewrite (rsum_ext n (fun k => rsum (S n - k) (fun d => if Nat.eqb d 0 then f k k else f k (k + d)%nat + f (k + d)%nat k)) (fun k => rsum (n - k) (fun d => if Nat.eqb d 0 then f k k else f k (k + d)%nat + f (k + d)%nat k) + (f k n + f n k))).
  - rewrite rsum_plus, (rsum_plus n (fun k => f k n)). cbn [rsum]. rewrite ?Nat.add_0_r. set (S1 := rsum n (fun k => rsum (n - k) _)). change (rsum n (f n)) with (rsum n (fun j => f n j)). ring.
  - intros k Hk. replace (S n - k)%nat with (S (n - k)) by lia. cbn [rsum]. destruct (Nat.eqb_spec (n - k) 0); [lia|]. replace (k + (n - k))%nat with n by lia. reflexivity.
Qed.
Lemma poly_combination po nx f : polynomial po nx f -> exists w, forall x, f x = rsum (n_regr po nx) (fun j => w j * fvec po nx x j).
Proof.
  destruct po; cbn [polynomial].
  - intros (c & H). exists (fun _ => c). intros x. rewrite H. cbn. unfold fvec. cbn. ring.
  - intros (c & b & H). exists (fun j => nth j (map (coef c b (fun _ _ => 0)) (monos PLinear nx)) 0). intros x. rewrite as_combination, H. cbn [monos map lsum coef meval]. rewrite map_map. cbn [coef meval]. rewrite (lsum_seq (fun i => b i * x i)). ring_simplify. f_equal.
  - intros (c & b & Q & H). exists (fun j => nth j (map (coef c b Q) (monos PQuadratic nx)) 0). intros x. rewrite as_combination, H. unfold monos. rewrite map_app, lsum_app. cbn [map lsum coef meval]. rewrite map_map. cbn [coef meval]. rewrite (lsum_seq (fun i => b i * x i)).
    unfold pairs. rewrite lsum_flat. rewrite (triangle nx (fun i j => Q i j * x i * x j)). rewrite (lsum_seq (fun k => lsum (map (fun m => coef c b Q m * meval x m) (map (fun j => MXX k j) (seq k (nx - k)))))). cbn [Nat.add].
    rewrite (rsum_ext nx (fun i => lsum _) (fun k => rsum (nx - k) (fun d => if Nat.eqb d 0 then Q k k * x k * x k else Q k (k + d)%nat * x k * x (k + d)%nat + Q (k + d)%nat k * x (k + d)%nat * x k))).
    + f_equal. rewrite Rmult_1_r. reflexivity.
    + intros k Hk. rewrite map_map. cbn [coef meval]. rewrite (lsum_seq (fun j => (if Nat.eqb k j then Q k k else Q k j + Q j k) * (x k * x j))). apply rsum_ext. intros d Hd. destruct (Nat.eqb_spec d 0) as [-> |N].
      * rewrite Nat.add_0_r, Nat.eqb_refl. ring.
      * destruct (Nat.eqb_spec k (k + d)); [lia|]. ring.
Qed.
Theorem C87_trend_span : forall po nx f, polynomial po nx f <-> exists w, forall x, f x = rsum (n_regr po nx) (fun j => w j * fvec po nx x j).
Proof.
  intros po nx f. split; [apply poly_combination|]. intros (w & H). pose proof (combination_poly po nx w) as K. destruct po; cbn [polynomial] in *; [destruct K as (c & K); exists c|destruct K as (c & b & K); exists c, b|destruct K as (c & b & Q & K); exists c, b, Q]; intros x; rewrite H; apply K.
Qed.
Print Assumptions C87_trend_span.
(** every monomial is there once: as many functions as there are monomials, and the first is the constant *)
Theorem C87_trend_count : forall po nx x, length (regr po nx x) = n_regr po nx /\ fvec po nx x 0 = 1 /\
  (2 * n_regr PQuadratic nx = (nx + 1) * (nx + 2))%nat /\ n_regr PLinear nx = (nx + 1)%nat /\ n_regr PConstant nx = 1%nat.
Proof.
  intros po nx x. split; [apply regr_length|]. split; [apply fvec_0|]. split; [|split; cbn; lia]. unfold n_regr. assert (D : (2 * (nx * (nx + 1) / 2) = nx * (nx + 1))%nat).
  { pose proof (Nat.div_mod (nx * (nx + 1)) 2 ltac:(lia)) as H. assert (((nx * (nx + 1)) mod 2 = 0)%nat); [|lia]. destruct (Nat.Even_or_Odd nx) as [[k ->]|[k ->]].
    - replace (2 * k * (2 * k + 1))%nat with (k * (2 * k + 1) * 2)%nat by ring. apply Nat.mod_mul. lia.
    - replace ((2 * k + 1) * (2 * k + 1 + 1))%nat with ((2 * k + 1) * (k + 1) * 2)%nat by ring. apply Nat.mod_mul. lia. }
  lia.
Qed.
Print Assumptions C87_trend_count.
Example C87_nonvacuous : exists w, forall x : vec, 3 * x 0%nat * x 1%nat - x 1%nat ^ 2 + 2 = rsum (n_regr PQuadratic 2) (fun j => w j * fvec PQuadratic 2 x j).
Proof.
  apply C87_trend_span. exists 2, (fun _ => 0), (fun i j => if Nat.eqb i 0 && Nat.eqb j 1 then 3 else if Nat.eqb i 1 && Nat.eqb j 1 then -1 else 0). intros x. cbn. ring.
Qed.
