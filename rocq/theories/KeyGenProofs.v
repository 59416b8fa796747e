(** Proofs about the key generators (C56). *)
From Coq Require Import List Arith NArith Lia Permutation FinFun.
From Verif Require Import Base KeyGen.
Import ListNotations.

Lemma simple_in_range l u v s : (l < u)%N -> (u < 2 ^ 64)%N -> exists r, simple_random l u v s = Ok r /\ (l <= r < u)%N.
Proof.
  intros H1 H2. unfold simple_random, W64. assert (E : ((u + 2 ^ 64 - l) mod 2 ^ 64 = u - l)%N).
  { replace (u + 2 ^ 64 - l)%N with (u - l + 1 * 2 ^ 64)%N by lia. rewrite N.mod_add by discriminate. apply N.mod_small. lia. }
  rewrite E. destruct (N.eqb_spec (u - l) 0); [lia|]. eexists. split; [reflexivity|].
  pose proof (N.mod_lt (hash64 v s) (u - l) n). set (h := (hash64 v s mod (u - l))%N) in *. rewrite N.mod_small by lia. lia.
Qed.

Lemma put_length {A} (l : list A) : forall i a, length (put l i a) = length l.
Proof. induction l as [|x l IH]; intros [|i] a; simpl; auto. Qed.
Lemma put_nth {A} (l : list A) : forall i a j, i < length l -> nth_error (put l i a) j = if j =? i then Some a else nth_error l j.
Proof.
  induction l as [|x l IH]; simpl; intros i a j H; [lia|]. destruct i as [|i], j as [|j]; simpl; auto. apply IH. lia.
Qed.
Lemma put_app {A} (d : list A) : forall x y r, put (d ++ y :: r) (length d) x = d ++ x :: r.
Proof. induction d as [|z d IH]; simpl; intros; [auto|]. rewrite IH. auto. Qed.
Lemma nth_app {A} (d : list A) : forall y r, nth_error (d ++ y :: r) (length d) = Some y.
Proof. induction d as [|z d IH]; simpl; intros; auto. Qed.
Definition tr (i j k : nat) : nat := if k =? j then i else if k =? i then j else k.
Lemma tr_inj i j : Injective (tr i j).
Proof. intros a b. unfold tr. destruct (Nat.eqb_spec a j), (Nat.eqb_spec b j), (Nat.eqb_spec a i), (Nat.eqb_spec b i); lia. Qed.
Lemma swap_ok {A} (l : list A) i j : i < length l -> j < length l -> exists l', swap l i j = Ok l' /\ Permutation l l'.
Proof.
  intros Hi Hj. unfold swap. destruct (nth_error l i) as [a|] eqn:Ea; [|apply nth_error_None in Ea; lia]. destruct (nth_error l j) as [b|] eqn:Eb; [|apply nth_error_None in Eb; lia].
  eexists. split; [reflexivity|]. apply Permutation_nth_error. split; [rewrite !put_length; auto|]. exists (tr i j). split; [apply tr_inj|]. intros k. rewrite put_nth by (rewrite put_length; auto). unfold tr.
  destruct (Nat.eqb_spec k j); [auto|]. rewrite put_nth by auto. destruct (Nat.eqb_spec k i); auto.
Qed.
Lemma shuffle_ok {A} rs : forall (l : list A) i, i + length rs <= length l -> (forall r, In r rs -> r < length l) -> exists l', shuffle l i rs = Ok l' /\ Permutation l l'.
Proof.
  induction rs as [|r rs IH]; simpl; intros l i Hi Hr; [eauto|]. destruct (swap_ok l i r) as (l1 & E & HP); [lia|apply Hr; auto|]. rewrite E. simpl.
  destruct (IH l1 (S i)) as (l2 & E2 & HP2); [rewrite <- (Permutation_length HP); lia|intros; rewrite <- (Permutation_length HP); auto|]. exists l2. split; auto. etransitivity; eauto.
Qed.
Lemma generate_ok count start rnd : 0 < count -> (forall i, i < count -> rnd i < count) -> exists l, generate count start rnd = Ok l /\ Permutation (seq start count) l.
Proof.
  intros Hc Hr. unfold generate. destruct (Nat.eqb_spec count 0); [lia|]. apply shuffle_ok; rewrite ?map_length, ?seq_length; [lia|]. intros r H. apply in_map_iff in H as (i & <- & H). apply in_seq in H. apply Hr. lia.
Qed.
(** Every order can come out. *)
Lemma shuffle_any {A} (t : list A) : forall d r, Permutation t r -> exists rs, length rs = length r /\ (forall x, In x rs -> x < length d + length r) /\ shuffle (d ++ r) (length d) rs = Ok (d ++ t).
Proof.
  induction t as [|x t IH]; intros d r HP.
  - apply Permutation_nil in HP. subst. exists []. simpl. split; auto. split; auto. intros _ [].
  - destruct (in_split x r) as (r1 & r2 & ->); [eapply Permutation_in; [exact HP|left; auto]|]. pose proof (Permutation_cons_app_inv _ _ HP) as HP'.
    assert (G : forall r', swap (d ++ r1 ++ x :: r2) (length d) (length d + length r1) = Ok (d ++ x :: r') -> Permutation t r' ->
      exists rs, length rs = length (r1 ++ x :: r2) /\ (forall y, In y rs -> y < length d + length (r1 ++ x :: r2)) /\ shuffle (d ++ r1 ++ x :: r2) (length d) rs = Ok (d ++ x :: t)).
    { intros r' E H. destruct (IH (d ++ [x]) r' H) as (rs & E1 & E2 & E3). pose proof (Permutation_length HP') as L1. pose proof (Permutation_length H) as L2. rewrite app_length in *. exists (length d + length r1 :: rs). simpl length in *. split; [lia|]. split.
      - intros y [<-|Hy]; [lia|]. apply E2 in Hy. lia.
      - cbn [shuffle]. rewrite E. cbn [bind]. rewrite <- !app_assoc in E3. simpl in E3. rewrite Nat.add_1_r in E3. exact E3. }
    destruct r1 as [|y r1].
    + apply (G r2); auto. simpl. rewrite Nat.add_0_r. unfold swap. rewrite nth_app. rewrite !put_app. auto.
    + apply (G (r1 ++ y :: r2)); [|etransitivity; [exact HP'|apply Permutation_middle]]. unfold swap. cbn [app]. rewrite nth_app.
      replace (d ++ y :: r1 ++ x :: r2) with ((d ++ y :: r1) ++ x :: r2) at 1 by (rewrite <- app_assoc; auto).
      replace (length d + length (y :: r1)) with (length (d ++ y :: r1)) by (rewrite app_length; auto). rewrite nth_app, put_app.
      replace (length (d ++ y :: r1)) with (length (d ++ x :: r1)) by (rewrite !app_length; auto).
      replace (d ++ x :: r1 ++ x :: r2) with ((d ++ x :: r1) ++ x :: r2) by (rewrite <- app_assoc; auto). rewrite put_app, <- app_assoc. auto.
Qed.
Lemma generate_any count start t : 0 < count -> Permutation t (seq start count) -> exists rnd, (forall i, i < count -> rnd i < count) /\ generate count start rnd = Ok t.
Proof.
  intros Hc HP. destruct (shuffle_any t [] (seq start count) HP) as (rs & E1 & E2 & E3). simpl in *. rewrite seq_length in *. exists (fun i => nth i rs 0). split.
  - intros i Hi. apply E2, nth_In. lia.
  - unfold generate. destruct (Nat.eqb_spec count 0); [lia|]. rewrite <- E3. f_equal. clear - E1. subst count. apply nth_ext with 0 0; [rewrite map_length, seq_length; auto|].
    intros n H. rewrite map_length, seq_length in H. rewrite (nth_indep _ 0 (nth 0 rs 0)) by (rewrite map_length, seq_length; auto). rewrite (map_nth (fun i => nth i rs 0)). rewrite seq_nth; auto.
Qed.

(** Zipfian. *)
Lemma up_get n s : (0 < n)%N -> (s < n)%N -> zget {| z_n := n; z_theta := Up; z_state := s |} = (s, {| z_n := n; z_theta := Up; z_state := ((s + 1) mod n)%N |}).
Proof.
  intros Hn Hs. unfold zget. cbn [z_theta z_state z_n]. f_equal. f_equal. destruct (N.leb_spec n (N.succ s)).
  - replace (s + 1)%N with (1 * n)%N by lia. symmetry. apply N.mod_mul. lia.
  - rewrite N.mod_small; lia.
Qed.
Lemma up_gets k : forall n s, (0 < n)%N -> (s < n)%N ->
  fst (zgets k {| z_n := n; z_theta := Up; z_state := s |}) = map (fun i => ((s + N.of_nat i) mod n)%N) (seq 0 k).
Proof.
  induction k as [|k IH]; intros n s Hn Hs; [reflexivity|]. cbn [zgets]. rewrite up_get by auto. assert (H : ((s + 1) mod n < n)%N) by (apply N.mod_lt; lia). specialize (IH n _ Hn H).
  destruct (zgets k _) as [l z]. cbn [fst] in *. rewrite IH. cbn [seq map]. f_equal; [rewrite N.mod_small; lia|]. rewrite <- seq_shift, map_map. apply map_ext. intros i. rewrite N.add_mod_idemp_l by lia. f_equal. lia.
Qed.
Lemma uniform_get n s : (0 < n)%N -> ((n * s / (2 ^ 48 - 1) < n) <-> s < 2 ^ 48 - 1)%N.
Proof.
  intros Hn. split; intros H.
  - destruct (N.lt_ge_cases s (2 ^ 48 - 1)) as [|Hs]; auto. exfalso. assert (n <= n * s / (2 ^ 48 - 1))%N; [|lia]. apply N.div_le_lower_bound; [discriminate|]. rewrite N.mul_comm. apply N.mul_le_mono_l. auto.
  - apply N.div_lt_upper_bound; [discriminate|]. rewrite (N.mul_comm _ n). apply N.mul_lt_mono_pos_l; auto.
Qed.
Lemma rand48_lt s : (rand48 s < 2 ^ 48)%N.
Proof. apply N.mod_lt. discriminate. Qed.
Lemma zget_le z : (0 < z_n z)%N -> (z_theta z = Up -> z_state z < z_n z)%N ->
  (fst (zget z) <= z_n z)%N /\ (z_theta z <> Uniform -> fst (zget z) < z_n z)%N /\
  z_n (snd (zget z)) = z_n z /\ z_theta (snd (zget z)) = z_theta z /\ (z_theta z = Up -> z_state (snd (zget z)) < z_n z)%N.
Proof.
  destruct z as [n [] s]; cbn [z_n z_theta z_state]; intros Hn Hu.
  - specialize (Hu eq_refl). rewrite up_get by auto. cbn [fst snd z_n z_theta z_state]. repeat split; auto; [lia|]. intros _. apply N.mod_lt. lia.
  - unfold zget. cbn [z_n z_theta z_state fst snd]. repeat split; auto; try congruence. pose proof (rand48_lt s) as H. apply N.div_le_upper_bound; [discriminate|]. rewrite (N.mul_comm _ n). apply N.mul_le_mono_l.
    change (2 ^ 48)%N with (N.succ (2 ^ 48 - 1)) in H. apply N.lt_succ_r in H. exact H.
  - unfold zget. cbn [z_n z_theta z_state fst snd]. repeat split; auto; try congruence; lia.
Qed.
Lemma zgets_le k : forall z, (0 < z_n z)%N -> (z_theta z = Up -> z_state z < z_n z)%N -> forall v, In v (fst (zgets k z)) -> (v <= z_n z)%N /\ (z_theta z <> Uniform -> v < z_n z)%N.
Proof.
  induction k as [|k IH]; intros z Hn Hu v H; [destruct H|]. cbn [zgets] in H. destruct (zget_le z Hn Hu) as (A1 & A2 & A3 & A4 & A5). destruct (zget z) as [v0 z1]. cbn [fst snd] in *.
  specialize (IH z1). rewrite A3, A4 in IH. specialize (IH Hn A5). destruct (zgets k z1) as [l z2]. cbn [fst] in *. destruct H as [<-|H]; auto.
Qed.
Lemma zinit_ok n th seed z : zinit n th seed = Ok z -> (0 < n)%N /\ z_n z = n /\ z_theta z = th /\ (th = Up -> z_state z < n)%N /\ (th <> Up -> z_state z = seed) /\ (th = Up -> z_state z = (seed mod n)%N).
Proof.
  unfold zinit. destruct (N.eqb_spec n 0); [discriminate|]. destruct (N.leb _ seed); [discriminate|]. intros E. injection E as <-. cbn [z_n z_theta z_state]. split; [lia|]. split; auto. split; auto.
  split; [intros ->; apply N.mod_lt; auto|]. split; [destruct th; congruence|]. intros ->. auto.
Qed.
