(** a concrete self-delimiting pickle for dictionaries of strings, to show the contract of C52 can be met *)
From Coq Require Import Arith Bool String Ascii List Lia.
From Verif Require Import Cache_M Cache_S Cache_P.
Import ListNotations.
Open Scope list_scope.
Open Scope nat_scope.
Fixpoint enc (s : string) : string := match s with EmptyString => "0" | String c r => String "1" (String c (enc r)) end.
Fixpoint dec (s : string) : option (string * string) :=
  match s with
  | String b r => if Ascii.eqb b "0" then Some (EmptyString, r)
                  else match r with String c r' => match dec r' with Some (x, t) => Some (String c x, t) | None => None end | _ => None end
  | _ => None
  end.
Lemma dec_enc s t : dec (enc s ++ t) = Some (s, t).
Proof. induction s as [|c s IH]; [reflexivity|]. cbn. rewrite IH. reflexivity. Qed.
Fixpoint dumpd (d : dict string) : string := match d with [] => "0" | (k, v) :: r => String "1" (enc k ++ enc v ++ dumpd r) end.
Fixpoint decd (n : nat) (s : string) : option (dict string * string) :=
  match n with
  | 0 => None
  | S n => match s with
           | String b r => if Ascii.eqb b "0" then Some ([], r)
                           else match dec r with Some (k, r1) => match dec r1 with Some (v, r2) => match decd n r2 with Some (d, t) => Some ((k, v) :: d, t) | None => None end | None => None end | None => None end
           | _ => None
           end
  end.
Definition loadd (s : string) : option (dict string) := match decd (S (String.length s)) s with Some (d, EmptyString) => Some d | _ => None end.
Lemma app_assoc3 (a b c : string) : ((a ++ b) ++ c = a ++ b ++ c)%string.
Proof. induction a as [|x a IH]; cbn; [reflexivity|]. rewrite IH. reflexivity. Qed.
Lemma app_nil (a : string) : (a ++ "" = a)%string.
Proof. induction a as [|x a IH]; cbn; [reflexivity|]. rewrite IH. reflexivity. Qed.
Lemma decd_dump d : forall n t, length d < n -> decd n (dumpd d ++ t) = Some (d, t).
Proof.
  induction d as [|[k v] d IH]; intros [|n] t H; cbn [length] in H; try lia; [reflexivity|]. cbn [dumpd append decd Ascii.eqb].
  change (Ascii.eqb "1" "0") with false. cbv iota. rewrite !app_assoc3, dec_enc, dec_enc, IH by lia. reflexivity.
Qed.
Lemma dec_ext s x r : dec s = Some (x, r) -> forall q, dec (s ++ q) = Some (x, (r ++ q)%string).
Proof.
  revert x r. assert (H : forall n s, String.length s <= n -> forall x r, dec s = Some (x, r) -> forall q, dec (s ++ q) = Some (x, (r ++ q)%string)).
  { induction n as [|n IH]; intros [|b s'] L x r H q; cbn in L; try discriminate; try lia. cbn in H. destruct (Ascii.eqb b "0") eqn:Eb.
    - injection H as <- <-. cbn. rewrite Eb. reflexivity.
    - destruct s' as [|c r']; [discriminate|]. destruct (dec r') as [[x' t']|] eqn:D; [|discriminate]. injection H as <- <-. cbn. rewrite Eb. cbn in L. rewrite (IH r' ltac:(lia) x' t' D q). reflexivity. }
  intros x r Hs q. apply (H (String.length s) s (le_n _) x r Hs).
Qed.
Lemma decd_ext n : forall s d r, decd n s = Some (d, r) -> forall q m, n <= m -> decd m (s ++ q) = Some (d, (r ++ q)%string).
Proof.
  induction n as [|n IH]; intros s d r H q [|m] L; try discriminate; try lia. destruct s as [|b s']; [discriminate|]. cbn [decd append] in *. destruct (Ascii.eqb b "0").
  - injection H as <- <-. reflexivity.
  - destruct (dec s') as [[k r1]|] eqn:D1; [|discriminate]. destruct (dec r1) as [[v r2]|] eqn:D2; [|discriminate]. destruct (decd n r2) as [[d' t]|] eqn:D3; [|discriminate]. injection H as <- <-.
    rewrite (dec_ext _ _ _ D1 q), (dec_ext _ _ _ D2 q), (IH _ _ _ D3 q m ltac:(lia)). reflexivity.
Qed.
Lemma dump_long d : length d < String.length (dumpd d).
Proof. induction d as [|[k v] d IH]; cbn; [lia|]. rewrite !append_length. lia. Qed.
Lemma pre_post s : forall n, exists q, s = (substring 0 n s ++ q)%string /\ (n < String.length s -> q <> EmptyString).
Proof.
  induction s as [|c s IH]; intros [|n]; cbn.
  - exists EmptyString. split; [reflexivity|lia].
  - exists EmptyString. split; [reflexivity|lia].
  - exists (String c s). split; [reflexivity|discriminate].
  - destruct (IH n) as (q & Hq & N). exists q. split; [rewrite <- Hq; reflexivity|]. intros H. apply N. lia.
Qed.
Lemma pickle_ok : pickle_contract string dumpd loadd.
Proof.
  split.
  - intros d. unfold loadd. rewrite <- (app_nil (dumpd d)) at 2. rewrite decd_dump by (pose proof (dump_long d); lia). reflexivity.
  - intros d n L. unfold loadd. destruct (pre_post (dumpd d) n) as (q & Hq & N). specialize (N L). set (p := substring 0 n (dumpd d)) in *.
    destruct (decd (S (String.length p)) p) as [[d' [|c r]]|] eqn:D; try reflexivity. exfalso.
    pose proof (decd_ext _ _ _ _ D q (S (String.length p) + length d) ltac:(lia)) as X. rewrite <- Hq in X. rewrite <- (app_nil (dumpd d)), decd_dump in X by lia. cbn in X. injection X as _ X. congruence.
Qed.
