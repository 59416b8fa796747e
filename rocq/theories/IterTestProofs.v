(** The iterator tests pass (C60, C61). *)
From Coq Require Import List Arith ZArith NArith Lia Bool Sorted.
From Verif Require Import Base Leaf LeafSpec LeafProofs Inner Tree TreeSpec TreeLin SeqOps SeqRun SeqFuel Iter IterSpec IterKeys IterProofs IterBack FillSpec Fill IterTest.
Import ListNotations.

Section IterTestProofs.
Context (vh : Z -> N) (ph : Z * Z -> N).
Local Notation longI := (longParams vh ph).
#[local] Hint Extern 0 Params => exact (longParams vh ph) : typeclass_instances.

(** The pairs (lo, lo), ..., (lo + n - 1, lo + n - 1). *)
Fixpoint twins (n : nat) (lo : Z) : list (K * V) := match n with 0 => [] | S n => (lo, lo) :: twins n (lo + 1)%Z end.
(** A set of pairs that consists of these. *)
Definition twin_set (A : pairs) (lo hi : Z) : Prop := forall x v : Z, A x v <-> x = v /\ (lo <= x < hi)%Z.
Lemma twins_unique n : forall lo outs, ascending outs -> NoDup outs -> (forall x v : Z, In (x, v) outs <-> x = v /\ (lo <= x < lo + Z.of_nat n)%Z) -> outs = twins n lo.
Proof.
  induction n as [|n IH]; intros lo outs Ha Hn Hi.
  - destruct outs as [|[x v] outs]; [reflexivity|]. specialize (proj1 (Hi x v) (or_introl eq_refl)). lia.
  - assert (H0 : In (lo, lo) outs) by (apply Hi; lia). destruct outs as [|[x v] outs]; [destruct H0|].
    inversion Ha as [|? ? Ha1 Ha2]; subst. inversion Hn as [|? ? Hn1 Hn2]; subst.
    pose proof (proj1 (Hi x v) (or_introl eq_refl)) as [-> Hx].
    assert (v = lo). { destruct H0 as [H0|H0]; [congruence|]. rewrite Forall_forall in Ha2. apply Ha2 in H0. cbn [klt longParams longP fst] in H0. apply Z.ltb_ge in H0. lia. }
    subst v. cbn [twins]. f_equal. apply IH; auto. intros y w. split.
    + intros H. assert (H' : In (y, w) ((lo, lo) :: outs)) by (right; exact H). apply Hi in H' as [-> H']. split; [reflexivity|]. destruct (Z.eq_dec w lo) as [->|Hne]; [contradiction|lia].
    + intros [-> H]. destruct (proj2 (Hi w w)) as [E|E]; [lia|injection E as E _; lia|exact E].
Qed.
Lemma twins_listing A n k outs : twin_set A 0 (Z.of_nat n) -> (0 <= k <= Z.of_nat n)%Z -> listing A (Some k) outs -> outs = twins (n - Z.to_nat k) k.
Proof.
  intros Ht Hk (H1 & H2 & H3). apply twins_unique; auto. intros x v. rewrite H3, (Ht x v). cbn [from above klt longParams longP]. rewrite Z.ltb_ge. lia.
Qed.
Lemma twins_all A n outs : twin_set A 0 (Z.of_nat n) -> listing A None outs -> outs = twins n 0.
Proof. intros Ht (H1 & H2 & H3). apply twins_unique; auto. intros x v. rewrite H3, (Ht x v). cbn [from above]. intuition lia. Qed.

(** * Filling *)
Lemma fill_run n : forall i l m, calmrun l m -> (forall o, In o (map fst l) -> no_delete o) -> (0 <= i)%Z -> twin_set (contents m) 0 i ->
  exists f0 l' m', (forall f2, f0 <= f2 -> irun m f2 (fill vh ph n i) = (m', Ok tt)) /\ calmrun l' m' /\ (forall o, In o (map fst l') -> no_delete o) /\ twin_set (contents m') 0 (i + Z.of_nat n).
Proof.
  induction n as [|n IH]; intros i l m Hq Hd Hi Ht.
  - exists 0, l, m. split; [reflexivity|]. split; [exact Hq|]. split; [exact Hd|]. rewrite Z.add_0_r. exact Ht.
  - destruct (seq_set l m (@OpIns longI i i) Hq I I) as (f0 & m1 & r & Hf & He).
    assert (Hq1 : calmrun ((@OpIns longI i i, r) :: l) m1) by exact (C_call l m f0 (@OpIns longI i i) m1 r Hq I I (Hf f0 (le_n _))).
    assert (Ht1 : twin_set (contents m1) 0 (i + 1)).
    { destruct r as [[|]| | |]; simpl in He; try tauto.
      - destruct He as [_ He]. intros x v. rewrite (He x v), (Ht x v). lia.
      - destruct He as [He _]. apply Ht in He. lia. }
    destruct (IH (i + 1)%Z _ _ Hq1) as (f1 & l' & m' & Hr & Hq' & Hd' & Ht'); [|lia|exact Ht1|].
    { intros o [<-|Ho]; [exact I|auto]. }
    exists (max f0 f1), l', m'. split; [|split; [exact Hq'|split; [exact Hd'|replace (i + Z.of_nat (S n))%Z with (i + 1 + Z.of_nat n)%Z by lia; exact Ht']]].
    intros f2 H. cbn [fill irun]. rewrite Hf by lia. apply Hr. lia.
Qed.

(** * Forward *)
Lemma both_same (k : Z) : both vh ph (k, k) k = true.
Proof. unfold both. cbn [fst snd]. rewrite !Z.eqb_refl. reflexivity. Qed.
Lemma forward_walk f f2 : forall n m it m' c it' i, irun m f2 (walk n f it) = (m', Ok (twins c i, it')) -> is_end it' = true ->
  irun m f2 (forward_loop vh ph (S n) f it i) = (m', Ok (Some (i + Z.of_nat c)%Z)).
Proof.
  induction n as [|n IH]; intros m it m' c it' i E He.
  - simpl in E. injection E as <- E <-. destruct c; [|discriminate]. cbn [forward_loop]. rewrite He. cbn [irun]. rewrite Z.add_0_r. reflexivity.
  - cbn [walk] in E. remember (S n) as n1. cbn [forward_loop]. destruct (is_end it) eqn:Ei.
    { cbn [irun] in *. injection E as <- E <-. destruct c; [|discriminate]. rewrite Z.add_0_r. reflexivity. }
    rewrite irun_bind in E. rewrite irun_bind. destruct (deref it) as [x|e]; cbn [ilift irun] in *; [|discriminate]. rewrite irun_bind in E.
    destruct (irun m f2 (next f it)) as [m1 [it1|e]] eqn:En; [|discriminate]. rewrite irun_bind in E. destruct (irun m1 f2 (walk n f it1)) as [m2 [[o2 i2]|e]] eqn:Ew; [|discriminate].
    cbn [irun fst snd] in E. injection E as -> E ->. destruct c as [|c]; [discriminate|]. cbn [twins] in E. injection E as -> ->. rewrite both_same, irun_bind, En.
    subst n1. rewrite (IH _ _ _ _ _ _ Ew He). do 3 f_equal. lia.
Qed.
Lemma next_walk f f2 m it m' x it' n : irun m f2 (walk (S (S n)) f it) = (m', Ok ([x], it')) -> is_end it' = true ->
  deref it = Ok x /\ exists it1, irun m f2 (next f it) = (m', Ok it1) /\ is_end it1 = true.
Proof.
  intros E He. remember (S n) as n1. cbn [walk] in E. destruct (is_end it); [discriminate|]. rewrite irun_bind in E. destruct (deref it) as [y|e]; cbn [ilift irun] in E; [|discriminate].
  rewrite irun_bind in E. destruct (irun m f2 (next f it)) as [m1 [it1|e]]; [|discriminate]. rewrite irun_bind in E. destruct (irun m1 f2 (walk n1 f it1)) as [m2 [[o2 i2]|e]] eqn:Ew; [|discriminate].
  cbn [irun fst snd] in E. injection E as -> -> -> ->. split; [reflexivity|]. exists it1. subst n1. cbn [walk] in Ew. destruct (is_end it1) eqn:E1; [cbn [irun] in Ew; injection Ew as -> ->; auto|].
  exfalso. rewrite irun_bind in Ew. destruct (deref it1) as [y|e]; cbn [ilift irun] in Ew; [|discriminate]. rewrite irun_bind in Ew. destruct (irun m1 f2 (next f it1)) as [m3 [it3|e]]; [|discriminate].
  rewrite irun_bind in Ew. destruct (irun m3 f2 (walk n f it3)) as [m4 [[o4 i4]|e]]; discriminate.
Qed.
Lemma twin_same A B lo hi : same A B -> twin_set A lo hi -> twin_set B lo hi.
Proof. intros Hs Ht x v. rewrite <- (Hs x v). apply Ht. Qed.

Lemma forward_ok l m key_num : calmrun l m -> (forall o, In o (map fst l) -> no_delete o) -> 1 <= key_num -> twin_set (contents m) 0 (Z.of_nat key_num) ->
  exists N f0 l' m', (forall n f f2, N <= n -> f0 <= f -> f0 <= f2 -> irun m f2 (forward_test vh ph n f (Z.of_nat key_num)) = (m', Ok true)) /\ calmrun l' m' /\ same (contents m) (contents m').
Proof.
  intros Hq Hd H1 Ht. set (S0 := allkeys m). set (A := contents m) in *.
  (* Begin() and the loop *)
  destruct (begin_run l m Hq) as (it & Hb & Hx & Hlo & Hpos & Hh).
  assert (Hu : is_end it = true \/ exists x, deref it = Ok x) by exact (begin_readable_alone l m 0 it m (calmrun_seqrun _ _ Hq) Hd (Hb 0)).
  destruct (begin_scan l m Hq) as (it0 & Hb0 & Hr). assert (it0 = it) as -> by (pose proof (Hb 0) as X; rewrite Hb0 in X; congruence).
  destruct (Hr Hu) as (_ & N1 & f1 & m1 & outs & it1 & Hw & He & _ & Hl). apply (twins_all A key_num) in Hl; [|exact Ht]. subst outs.
  assert (St : settled it).
  { intros Ea. destruct Hu as [Hu|[x Hu]].
    - unfold is_end in Hu. destruct (i_high it); [discriminate|auto].
    - destruct (deref_rest it x (exact_good _ _ Hx) Hu) as [_ Hp]. apply Nat.eqb_eq in Ea. lia. }
  destruct (walk_tot S0 A (S (hleft S0 it)) m it (quiet_start l m Hq) Hx St Hh) as (N1' & f1' & m1' & outs' & it1' & Hw' & _ & Q1 & _); [lia|].
  assert (m1' = m1) as ->.
  { specialize (Hw (max N1 N1') (max f1 f1') (max f1 f1') ltac:(lia) ltac:(lia) ltac:(lia)). specialize (Hw' (max N1 N1') (max f1 f1') (max f1 f1') ltac:(lia) ltac:(lia) ltac:(lia)).
    rewrite irun_bind, Hb, Hw' in Hw. congruence. }
  (* Begin(key_num - 1) and ++ *)
  set (k := (Z.of_nat key_num - 1)%Z). destruct (lower_tot S0 A (S (left S0 k)) m1 k Q1) as (f2 & m2 & it2 & Hf2 & Q2 & Hx2 & Ah2 & St2 & Hc2 & Hh2 & Hb2); [lia|].
  destruct (walk_tot S0 A (S (hleft S0 it2)) m2 it2 Q2 Hx2 St2 Hh2) as (N3 & f3 & m3 & outs3 & it3 & Hw3 & He3 & Q3 & _); [lia|].
  assert (Eo : outs3 = [(k, k)]).
  { destruct Q1 as ((l1 & Hq1) & _ & Hs1). destruct (scan_exact_key l1 m1 k Hq1) as (N4 & f4 & m4 & outs4 & it4 & Hw4 & _ & _ & Hl4).
    specialize (Hw4 (max N3 N4) (max f2 (max f3 f4)) (max f2 (max f3 f4)) ltac:(lia) ltac:(lia) ltac:(lia)). rewrite irun_bind, Hf2 in Hw4 by lia. rewrite Hw3 in Hw4 by lia. injection Hw4 as _ -> _.
    apply (twins_listing _ key_num) in Hl4; [|eapply twin_same; eauto|lia]. rewrite Hl4. replace (key_num - Z.to_nat k) with 1 by lia. reflexivity. }
  subst outs3.
  (* Begin(key_num + 1) *)
  set (k' := (Z.of_nat key_num + 1)%Z). destruct (lower_tot S0 A (S (left S0 k')) m3 k' Q3) as (f5 & m5 & it5 & Hf5 & Q5 & Hx5 & Ah5 & St5 & Hc5 & _); [lia|].
  assert (He5 : is_end it5 = true).
  { destruct (first_from_covers _ _ _ Hx5 Ah5 St5 Hc5) as [[H _]|(_ & x & v & _ & Hv & Hk & _)]; [exact H|]. exfalso. apply Ht in Hv. cbn [from above klt longParams longP] in Hk. apply Z.ltb_ge in Hk. unfold k' in Hk. lia. }
  destruct Q5 as ((l5 & Hq5) & _ & Hs5). exists (S (max N1 (S (S N3)))), (max (max f1 f2) (max f3 f5)), l5, m5. split; [|auto].
  intros n f g Hn Hf Hg. destruct n as [|n]; [lia|]. unfold forward_test. rewrite irun_bind, Hb. rewrite irun_bind.
  specialize (Hw n f g ltac:(lia) ltac:(lia) ltac:(lia)). rewrite irun_bind, Hb in Hw. rewrite (forward_walk _ _ _ _ _ _ _ _ _ Hw He). rewrite Z.add_0_l, Z.eqb_refl. cbn [negb].
  fold k. fold k'. rewrite irun_bind, Hf2 by lia. rewrite irun_bind.
  destruct (next_walk f g m2 it2 m3 (k, k) it3 N3 (Hw3 (S (S N3)) f g ltac:(lia) ltac:(lia) ltac:(lia)) He3) as (Hd2 & it2' & Hn2 & He2). rewrite Hn2, He2. cbn [negb]. rewrite irun_bind, Hd2. cbn [ilift irun fst].
  rewrite Z.eqb_refl. cbn [negb]. rewrite irun_bind, Hf5 by lia. cbn [irun]. rewrite He5. reflexivity.
Qed.

(** * Backward *)
Lemma irun_seqrun {A} (c : icode A) f : forall l m m' a, seqrun l m -> irun m f c = (m', Ok a) -> exists l', seqrun l' m'.
Proof.
  induction c as [a0|e|o k IH]; intros l m m' a Hq E; cbn [irun] in E; [injection E as <- <-; eauto|discriminate|].
  destruct (prun m (code f o)) as [m1 [r|e]] eqn:Ep; [|discriminate]. exact (IH r _ _ _ _ (Q_call _ _ _ _ _ _ Hq Ep) E).
Qed.
Lemma fresh_same A B it : same A B -> fresh A it -> fresh B it.
Proof. intros Hs (P1 & P2 & P3). split; [exact P1|split; [exact P2|]]. intros x v. rewrite <- (Hs x v). apply P3. Qed.
Lemma behind_same A B it x v : same A B -> (behind A it x v <-> behind B it x v).
Proof. intros Hs. unfold behind. rewrite (Hs x v). reflexivity. Qed.
Lemma backward_ok f f2 : forall n l m it key m' b, seqrun l m -> fresh (contents m) it -> in_page it -> (0 <= key)%Z -> deref it = Ok (key, key) ->
  (forall x v : Z, behind (contents m) it x v <-> x = v /\ (0 <= x < key)%Z) -> irun m f2 (backward_loop vh ph n f it key) = (m', Ok b) -> b = true.
Proof.
  induction n as [|n IH]; intros l m it key m' b Hq Hf Hp Hk Hd Hb E; [discriminate|]. cbn [backward_loop] in E. rewrite irun_bind, Hd in E. cbn [ilift irun] in E. rewrite both_same in E.
  destruct (is_begin it) eqn:Eb.
  - cbn [irun] in E. injection E as <- <-. cbn [andb]. apply Z.eqb_eq. destruct (Z.eq_dec key 0) as [|Hne]; [assumption|]. exfalso.
    destruct (proj2 (Hb 0%Z 0%Z)) as [H|[_ H]]; [lia| |]; unfold is_begin in Eb; destruct (i_low it); try discriminate.
    + apply Nat.eqb_eq in Eb. rewrite Eb in H. destruct H.
    + apply H. exact I.
  - rewrite irun_bind in E. destruct (irun m f2 (prev f it)) as [m1 [it1|e]] eqn:Ep; [|discriminate].
    destruct (prev_run f f2 l m it m1 it1 Hq Hf Hp Ep) as (Hs & Hf1 & Hst & Hp1). destruct (irun_seqrun _ _ _ _ _ _ Hq Ep) as (l1 & Hq1).
    destruct Hst as [[Hr _]|(x & v & Hd1 & Hxv & Hmax & Hb1)].
    + destruct n as [|n]; [discriminate|]. cbn [backward_loop] in E. rewrite irun_bind in E. unfold is_rend in Hr. unfold deref in E. destruct (i_low it1); [discriminate|]. apply Nat.eqb_eq in Hr. rewrite Hr in E. discriminate.
    + apply Hb in Hxv. destruct Hxv as [-> Hx].
      assert (v = key - 1)%Z. { specialize (Hmax (key - 1)%Z (key - 1)%Z). rewrite Hb in Hmax. specialize (Hmax ltac:(lia)). cbn [klt longParams longP] in Hmax. apply Z.ltb_ge in Hmax. lia. }
      subst v. apply (IH l1 m1 it1 (key - 1)%Z m' b Hq1); auto.
      * eapply fresh_same; eauto.
      * apply Hp1. unfold is_rend. unfold deref in Hd1. destruct (i_pos it1); [discriminate|]. destruct (i_low it1); reflexivity.
      * lia.
      * intros y w. rewrite <- (behind_same _ _ it1 y w Hs). split.
        -- intros H. assert (H' : behind (contents m) it y w) by (apply Hb1; left; exact H). apply Hb in H' as [-> H']. split; [reflexivity|]. destruct (Z.eq_dec w (key - 1)) as [->|Hne]; [|lia]. exfalso.
           unfold deref in Hd1. destruct (i_pos it1) as [|p] eqn:E1; [discriminate|]. destruct (nth_error (i_items it1) p) as [z|] eqn:Ez; [|discriminate]. injection Hd1 as ->.
           destruct Hf1 as (_ & Pn & Pi). destruct H as [H|[_ H]]; rewrite ?E1 in H.
           ++ replace (S p - 1) with p in H by lia. apply In_nth_error in H as [i Hi]. assert (Hip : i < p) by (assert (i < length (firstn p (i_items it1))) by (apply nth_error_Some; congruence); rewrite firstn_length in *; lia).
              rewrite firstn_nth in Hi by auto. pose proof (proj1 (NoDup_nth_error (i_items it1)) Pn i p) as Hn. assert (i = p) by (apply Hn; [apply nth_error_Some; rewrite Hi; discriminate|rewrite Hi, Ez; reflexivity]). lia.
           ++ apply H. apply (Pi (key - 1)%Z (key - 1)%Z). eapply nth_error_In; eauto.
        -- intros [-> H]. assert (H' : behind (contents m) it w w) by (apply Hb; lia). apply Hb1 in H' as [H'|H']; [exact H'|]. injection H' as H' _. lia.
Qed.
Lemma behind_pos A it k : fresh A it -> deref it = Ok (k, k) -> (forall x v : Z, A x v -> x = v) -> forall x v : Z, behind A it x v <-> A x v /\ (x < k)%Z.
Proof.
  intros (Pa & Pn & Pi) Hd Ht x v. unfold deref in Hd. unfold behind. destruct (i_pos it) as [|p] eqn:E1; [discriminate|]. destruct (nth_error (i_items it) p) as [z|] eqn:Ez; [|discriminate]. injection Hd as ->.
  replace (S p - 1) with p by lia. pose proof (proj1 (Pi k k) (nth_error_In _ _ Ez)) as (Ka & Kb & Kc). split.
  - intros [H|[H1 H2]].
    + apply In_nth_error in H as [i Hi]. assert (Hip : i < p) by (assert (i < length (firstn p (i_items it))) by (apply nth_error_Some; rewrite Hi; discriminate); rewrite firstn_length in *; lia).
      rewrite firstn_nth in Hi by auto. pose proof (proj1 (Pi x v) (nth_error_In _ _ Hi)) as (_ & _ & Hx). split; [exact Hx|].
      pose proof (asc_nth _ i p (x, v) (k, k) Pa) as Hl. specialize (Hl ltac:(lia) Hi Ez). cbn [fst klt longParams longP] in Hl. apply Z.ltb_ge in Hl.
      destruct (Z.eq_dec x k) as [->|Hne]; [|lia]. exfalso. apply Ht in Hx. subst v. assert (i = p) by (apply (proj1 (NoDup_nth_error (i_items it)) Pn); [apply nth_error_Some; rewrite Hi; discriminate|rewrite Hi, Ez; reflexivity]). lia.
    + split; [exact H1|]. destruct (i_low it) as [lo|]; cbn [above klt longParams longP] in *; [|exfalso; apply H2; exact I]. apply Z.ltb_ge in Ka. destruct (Z.ltb x lo) eqn:E; [apply Z.ltb_lt in E; lia|exfalso; auto].
  - intros [H1 H2]. destruct (i_low it) as [lo|] eqn:El; [destruct (Z.ltb x lo) eqn:E; [right; split; [exact H1|cbn [above klt longParams longP]; rewrite E; discriminate]|]|].
    all: left; assert (Hin : In (x, v) (i_items it)) by (apply Pi; split; [first [exact E|exact I]|split; [|exact H1]]; destruct (i_high it) as [[h n]|]; cbn [below klt longParams longP] in *; [apply Z.ltb_lt in Kb; apply Z.ltb_lt; lia|exact I]).
    all: apply In_nth_error in Hin as [i Hi]; destruct (Nat.lt_ge_cases i p) as [Hip|Hip]; [apply (nth_error_In _ i); rewrite firstn_nth by auto; exact Hi|exfalso].
    all: pose proof (asc_nth _ p i (k, k) (x, v) Pa ltac:(lia) Ez Hi) as Hl; cbn [fst klt longParams longP] in Hl; apply Z.ltb_ge in Hl; lia.
Qed.
Lemma backward_test_ok l m key_num : calmrun l m -> 2 <= key_num -> twin_set (contents m) 0 (Z.of_nat key_num) ->
  exists f0, forall n f f2 m' b, f0 <= f -> f0 <= f2 -> irun m f2 (backward_test vh ph n f (Z.of_nat key_num)) = (m', Ok b) -> b = true.
Proof.
  intros Hq H2 Ht. set (S0 := allkeys m). set (A := contents m) in *. set (k := (Z.of_nat key_num - 1)%Z).
  destruct (lower_tot S0 A (S (left S0 k)) m k (quiet_start l m Hq)) as (f0 & m1 & it & Hf & ((l1 & Hq1) & _ & Hs1) & Hx & Ah & St & Hc & _); [lia|].
  assert (Hk : is_end it = false /\ deref it = Ok (k, k)).
  { destruct (first_from_covers _ _ _ Hx Ah St Hc) as [[_ H]|(He & x & v & Hd & Hv & Hk & Hmin)].
    - exfalso. apply (H k k); [apply Ht; lia|]. cbn [from above klt longParams longP]. apply Z.ltb_irrefl.
    - split; [exact He|]. apply Ht in Hv as [-> Hv]. cbn [from above klt longParams longP] in Hk. apply Z.ltb_ge in Hk. replace k with v by lia. exact Hd. }
  destruct Hk as [He Hd]. assert (Hfr : fresh A it) by apply Hx. assert (Hb : forall x v : Z, behind A it x v <-> x = v /\ (0 <= x < k)%Z).
  { intros x v. rewrite (behind_pos A it k Hfr Hd) by (intros y w Hy; apply Ht in Hy; tauto). rewrite (Ht x v). lia. }
  exists f0. intros n f f2 m' b H1 H3 E. unfold backward_test in E. fold k in E. rewrite irun_bind, Hf in E by lia. rewrite He in E.
  assert (Eb : is_begin it = false).
  { destruct (is_begin it) eqn:Eb; [|reflexivity]. exfalso. destruct (proj2 (Hb 0%Z 0%Z)) as [H|[_ H]]; [lia| |]; unfold is_begin in Eb; destruct (i_low it); try discriminate.
    + apply Nat.eqb_eq in Eb. rewrite Eb in H. destruct H.
    + apply H. exact I. }
  rewrite Eb in E. cbn [orb] in E. apply (backward_ok f f2 n l1 m1 it k m' b (calmrun_seqrun _ _ Hq1)); auto.
  - eapply fresh_same; eauto.
  - unfold in_page. unfold deref in Hd. destruct (i_pos it) as [|p]; [discriminate|]. destruct (nth_error (i_items it) p) eqn:Ez; [|discriminate]. assert (p < length (i_items it)) by (apply nth_error_Some; rewrite Ez; discriminate). lia.
  - lia.
  - intros x v. rewrite <- (behind_same _ _ it x v Hs1). apply Hb.
Qed.

(** * The programs *)
Lemma empty_twins : twin_set (contents minit) 0 0.
Proof. intros x v. split; [|lia]. intros H. exfalso. exact (TreeInv.contents_init _ _ H). Qed.
Lemma forward_program_ok key_num : 1 <= key_num -> exists N f0 l' m',
  (forall n f f2, N <= n -> f0 <= f -> f0 <= f2 -> irun minit f2 (forward_program vh ph n f key_num) = (m', Ok true)) /\ calmrun l' m' /\ twin_set (contents m') 0 (Z.of_nat key_num).
Proof.
  intros H1. destruct (fill_run key_num 0 [] minit C_init (fun o (H : In o []) => False_ind _ H) ltac:(lia) empty_twins) as (f1 & l1 & m1 & Hf & Hq1 & Hd1 & Ht1). rewrite Z.add_0_l in Ht1.
  destruct (forward_ok l1 m1 key_num Hq1 Hd1 H1 Ht1) as (N & f0 & l2 & m2 & Hw & Hq2 & Hs). exists N, (max f0 f1), l2, m2. split; [|split; [exact Hq2|eapply twin_same; eauto]].
  intros n f f2 Hn H2 H3. unfold forward_program. rewrite irun_bind, Hf by lia. apply Hw; lia.
Qed.
Lemma iterator_program_ok key_num : 2 <= key_num -> exists N f0, forall n f f2 m' b, N <= n -> f0 <= f -> f0 <= f2 ->
  irun minit f2 (iterator_program vh ph n f key_num) = (m', Ok b) -> b = true.
Proof.
  intros H2. destruct (forward_program_ok key_num ltac:(lia)) as (N & f0 & l & m & Hw & Hq & Ht). destruct (backward_test_ok l m key_num Hq H2 Ht) as (f1 & Hb).
  exists N, (max f0 f1). intros n f f2 m' b Hn H3 H4 E. unfold iterator_program in E. rewrite irun_bind, Hw in E by lia. eapply Hb; [| |exact E]; lia.
Qed.
End IterTestProofs.
