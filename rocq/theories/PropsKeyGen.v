(** C56: the key generators of the test programs. *)
From Coq Require Import List Arith NArith ZArith Lia Permutation SpecFloat.
From Verif Require Import Base KeyGen KeyGenProofs.
Import ListNotations.

(** Permutation(count, start) holds each of the numbers asked for once, whatever
    is drawn, and every order is possible. *)
Theorem C56_permutation : forall count start rnd, 0 < count -> (forall i, i < count -> rnd i < count) ->
  exists l, generate count start rnd = Ok l /\ length l = count /\ NoDup l /\ forall x, In x l <-> start <= x < start + count.
Proof.
  intros count start rnd Hc Hr. destruct (generate_ok count start rnd Hc Hr) as (l & E & HP). exists l. split; [exact E|]. split; [rewrite <- (Permutation_length HP); apply seq_length|].
  split; [eapply Permutation_NoDup; [exact HP|apply seq_NoDup]|]. intros x. rewrite <- in_seq. split; apply Permutation_in; [apply Permutation_sym|]; exact HP.
Qed.
Print Assumptions C56_permutation.
Theorem C56_permutation_any : forall count start l, 0 < count -> length l = count -> NoDup l -> (forall x, In x l -> start <= x < start + count) ->
  exists rnd, (forall i, i < count -> rnd i < count) /\ generate count start rnd = Ok l.
Proof.
  intros count start l Hc Hl Hn Hi. apply generate_any; auto. apply NoDup_Permutation_bis; [exact Hn|rewrite seq_length; lia|]. intros x H. apply in_seq. auto.
Qed.
Print Assumptions C56_permutation_any.
Example C56_permutation_example : generate 5 10 (fun i => nth i [3; 3; 0; 4; 1] 0) = Ok [12; 11; 13; 14; 10].
Proof. reflexivity. Qed.

(** SimpleInt64Random<lower, upper> gives numbers from lower to upper - 1. *)
Theorem C56_simple : forall lower upper value salt, (lower < upper)%N -> (upper < 2 ^ 64)%N ->
  exists r, simple_random lower upper value salt = Ok r /\ (lower <= r < upper)%N.
Proof. exact simple_in_range. Qed.
Print Assumptions C56_simple.
(** The range used by the benchmarks. *)
Example C56_simple_example : simple_random 0 (30 * 1024 * 1024) 7 3 = Ok 30211895%N.
Proof. vm_compute. reflexivity. Qed.

(** Zipfian with theta = -1 counts up from the seed and wraps around at n. *)
Theorem C56_zipf_up : forall n seed z k, zinit n Up seed = Ok z -> fst (zgets k z) = map (fun i => ((seed + N.of_nat i) mod n)%N) (seq 0 k).
Proof.
  intros n seed z k E. destruct (zinit_ok _ _ _ _ E) as (Hn & E1 & E2 & E3 & _ & E4). destruct z as [n' th s]. cbn [z_n z_theta z_state] in *. subst n' th. rewrite up_gets; auto. rewrite E4 by auto. apply map_ext. intros i. apply N.add_mod_idemp_l. lia.
Qed.
Print Assumptions C56_zipf_up.
Example C56_zipf_up_example : exists z, zinit 5 Up 13 = Ok z /\ fst (zgets 4 z) = [3; 4; 0; 1]%N.
Proof. eexists. split; reflexivity. Qed.
(** All numbers are below n, except that theta = 0 may give n itself.  Missing:
    0 < theta < 1, rounding, and the claim for theta = 0, which is false. *)
Theorem C56_zipf_range_partial : forall n th seed z k v, zinit n th seed = Ok z -> In v (fst (zgets k z)) -> (v <= n)%N /\ (th <> Uniform -> v < n)%N.
Proof.
  intros n th seed z k v E H. destruct (zinit_ok _ _ _ _ E) as (Hn & E1 & E2 & E3 & _ & _). rewrite <- E1, <- E2. eapply zgets_le; eauto; rewrite ?E1; auto. rewrite E2. auto.
Qed.
Print Assumptions C56_zipf_range_partial.
(** For theta = 0 this seed gives the number n at once, for every n. *)
Definition bad_seed : N := 142368275371844.
Theorem C56_zipf_refuted : forall n, (0 < n)%N -> exists z, zinit n Uniform bad_seed = Ok z /\ fst (zget z) = n.
Proof.
  intros n Hn. unfold zinit. destruct (N.eqb_spec n 0); [lia|]. eexists. split; [reflexivity|]. unfold zget. cbn [z_n z_theta z_state fst].
  replace (rand48 bad_seed) with (2 ^ 48 - 1)%N by (vm_compute; reflexivity). apply N.div_mul. discriminate.
Qed.
Print Assumptions C56_zipf_refuted.
(** The same with the doubles of the code (IEEE binary64): the number of keys of
    the benchmarks. *)
Definition dbl (n : N) : spec_float := binary_normalize 53 1024 (Z.of_N n) 0 false.
Definition to_uint (x : spec_float) : option N :=
  match x with S754_zero _ => Some 0%N | S754_finite false m e => Some (Z.to_N (Z.shiftl (Zpos m) e)) | _ => None end.
Definition uniform_double (n s : N) : option N := to_uint (SFmul 53 1024 (dbl n) (SFdiv 53 1024 (dbl s) (dbl (2 ^ 48 - 1)))).
Example C56_zipf_double : uniform_double (30 * 1024 * 1024) (rand48 bad_seed) = Some (30 * 1024 * 1024)%N /\ uniform_double (30 * 1024 * 1024) (rand48 1) = Some 2817%N.
Proof. vm_compute. split; reflexivity. Qed.
(** After ChangeN to a smaller number, theta = -1 gives a number that is too
    large. *)
Theorem C56_change_refuted : forall n seed, (0 < n)%N -> (n <= seed)%N -> (seed < 2 ^ 48)%N -> exists z, zinit (N.succ seed) Up seed = Ok z /\ (n <= fst (zget (change_n z n)))%N.
Proof.
  intros n seed Hn Hs Hb. unfold zinit. destruct (N.eqb_spec (N.succ seed) 0); [lia|]. destruct (N.leb_spec (2 ^ 48) seed); [lia|]. eexists. split; [reflexivity|]. unfold zget, change_n. cbn [z_n z_theta z_state fst]. rewrite N.mod_small; lia.
Qed.
Print Assumptions C56_change_refuted.
Example C56_change_example : exists z, zinit 100 Up 99 = Ok z /\ fst (zget (change_n z 10)) = 99%N.
Proof. eexists. split; reflexivity. Qed.
