(** Theorems C62: the random insert test and the insert phase of the basic
    tests on an empty index. *)
From Coq Require Import List Arith ZArith NArith Lia Bool.
From Verif Require Import Base Leaf Tree TreeSpec TreeRun BalanceSpec PrivateSpec MomentSpec Moment MomentPlay FillSpec IterTest InsertTestSpec InsertTest IterPlay.
Import ListNotations.

(** C62.  As long as threads only insert pairs of [U], the counter of successful
    Inserts never exceeds the number of these pairs; and when it has reached
    it (the loop condition of RandomInsertTest, 354), exactly these pairs are
    stored, although other threads may still be inside Insert. *)
Theorem C62_counter : forall {P : Params} U tr ss s, exec tr ss s -> only_inserts U tr ->
  successes tr <= length U /\ (length U <= successes tr -> forall k v, contents (sm s) k v <-> In (k, v) U).
Proof. intros P. exact random_insert. Qed.
Print Assumptions C62_counter.

(** C62.  Every GetValue called after that returns exactly the values of its key,
    whichever threads are still running. *)
Theorem C62_read_back : forall {P : Params} U tr ss s0 tr' ss' s t k l,
  exec tr ss s0 -> later s0 tr' ss' s -> only_inserts U (tr' ++ tr) -> length U <= successes tr ->
  call_in tr' t (OpGet k) (RVals l) -> NoDup l /\ forall v, In v l <-> In (k, v) U.
Proof. intros P. exact random_get. Qed.
Print Assumptions C62_read_back.

Lemma one_value {A} (l : list A) (x : A) : NoDup l -> (forall v, In v l <-> v = x) -> l = [x].
Proof.
  intros Hn Hv. destruct l as [|a [|b l]].
  - destruct (proj2 (Hv x) eq_refl).
  - f_equal. apply Hv. left. reflexivity.
  - exfalso. assert (a = x) by (apply Hv; left; reflexivity). assert (b = x) by (apply Hv; right; left; reflexivity). subst. inversion Hn as [|? ? H _]. apply H. left. reflexivity.
Qed.
Lemma random_pairs_in n (x v : Z) : In (x, v) (random_pairs n) <-> x = v /\ (0 <= x < Z.of_nat n)%Z.
Proof.
  unfold random_pairs. rewrite in_map_iff. split.
  - intros (i & E & Hi). apply in_seq in Hi. injection E as <- <-. lia.
  - intros [-> H]. exists (Z.to_nat v). rewrite Z2Nat.id by lia. split; [reflexivity|]. apply in_seq. lia.
Qed.
(** C62.  RandomInsertTest followed by RandomInsertVerify, any number of keys and
    threads, any hash functions: the assertions of RandomInsertVerify hold
    for every key of the range. *)
Theorem C62_random_insert_verify : forall vh ph n, let P := longParams vh ph in forall tr ss s0 tr' ss' s t (i : Z) l,
  exec tr ss s0 -> later s0 tr' ss' s -> only_inserts (random_pairs n) (tr' ++ tr) -> n <= successes tr ->
  (0 <= i < Z.of_nat n)%Z -> call_in tr' t (@OpGet P i) (@RVals P l) -> verified i l.
Proof.
  intros vh ph n P tr ss s0 tr' ss' s t i l Hx Hl Ho Hn Hi Hc.
  destruct (@random_get P (random_pairs n) tr ss s0 tr' ss' s t i l Hx Hl Ho) as [Hd Hv]; [unfold random_pairs; rewrite map_length, seq_length; exact Hn|exact Hc|].
  rewrite (one_value l i Hd); [split; reflexivity|]. intros v. pose proof (random_pairs_in n i v) as Hp. pose proof (Hv v) as Hw. split; [intros H; apply Hw, Hp in H; symmetry; apply H|intros ->; apply Hw, Hp; split; [reflexivity|exact Hi]].
Qed.
Print Assumptions C62_random_insert_verify.

(** C62.  Insert phases in general, without Delete: if the Inserts of the values
    [vs] under a key have returned and no other value is ever inserted under
    this key, every GetValue of the key called after that returns exactly
    [vs], whatever happens to other keys meanwhile. *)
Theorem C62_insert_get : forall {P : Params} tr ss s0 tr' ss' s t k l,
  exec tr ss s0 -> later s0 tr' ss' s -> never_deletes (tr' ++ tr) -> call_in tr' t (OpGet k) (RVals l) ->
  forall vs, (forall v, In v vs -> inserted k v tr) -> (forall v, asked k v (tr' ++ tr) -> In v vs) ->
  NoDup l /\ forall v, In v l <-> In v vs.
Proof. intros P. exact insert_get. Qed.
Print Assumptions C62_insert_get.

(** C62.  InsertTest1 or InsertTest2 on an empty index, then InsertGetValueTest:
    its assertion (basic_test.cpp 111) holds. *)
Theorem C62_insert_get_value_test : forall vh ph, let P := longParams vh ph in forall tr ss s0 tr' ss' s t (i : Z) l,
  exec tr ss s0 -> later s0 tr' ss' s -> never_deletes (tr' ++ tr) ->
  (forall v : Z, (i < v <= i + 4)%Z -> @inserted P i v tr) -> (forall v : Z, @asked P i v (tr' ++ tr) -> (i < v <= i + 4)%Z) ->
  call_in tr' t (@OpGet P i) (@RVals P l) -> length l = 4.
Proof.
  intros vh ph P tr ss s0 tr' ss' s t i l Hx Hl Hd H1 H2 Hc.
  set (vs := [i + 1; i + 2; i + 3; i + 4]%Z). assert (Hin : forall v, In v vs <-> (i < v <= i + 4)%Z) by (intros v; unfold vs; simpl; lia).
  destruct (@insert_get P tr ss s0 tr' ss' s t i l Hx Hl Hd Hc vs) as [Hn Hv]; [intros v H; apply H1, Hin, H|intros v H; apply Hin, H2, H|].
  assert (Nv : NoDup vs) by (unfold vs; repeat constructor; simpl; lia).
  apply Nat.le_antisymm.
  - change 4 with (length vs). apply (NoDup_incl_length Hn). intros v H. apply Hv. exact H.
  - change 4 with (length vs). apply (NoDup_incl_length Nv). intros v H. apply Hv. exact H.
Qed.
Print Assumptions C62_insert_get_value_test.

(** * Concrete executions *)
Definition ph0 (_ : Z * Z) : N := 0%N.
Definition vh0 (_ : Z) : N := 0%N.
#[local] Instance exP : Params := longParams vh0 ph0.
Local Notation Ins i v := (@OpIns exP i v).
Local Notation Get i := (@OpGet exP i).

(** 130 keys, so that the page is split; two threads insert the same keys, one
    of them is interrupted inside each of its calls. *)
Definition random_race : list cmd :=
  flat_map (fun i => let z := Z.of_nat i in [CCall 1 (Ins z z) 40; CStep 1 2] ++ whole 0 (Ins z z) ++ [CStep 1 400; CRet 1]) (seq 0 130) ++
  [CCall 1 (Ins 7 7)%Z 40; CStep 1 2].
Definition random_read : list cmd := [CCall 2 (Get 129)%Z 40; CStep 2 1; CStep 1 400; CRet 1; CStep 2 400; CRet 2].
Definition s_race : sys := c_s (play random_race).
Definition insertsb (n : nat) (tr : list event) : bool :=
  forallb (fun e => match e with
    | ECall _ (OpIns k v) => Z.eqb k v && Z.leb 0 k && Z.ltb k (Z.of_nat n)
    | ECall _ (OpDel _ _) | ECall _ (OpCond _ _ _) => false
    | _ => true end) tr.
Lemma insertsb_ok n tr : insertsb n tr = true -> only_inserts (random_pairs n) tr.
Proof.
  unfold insertsb. rewrite forallb_forall. intros H t o Ho. apply H in Ho. destruct o; simpl; auto; try discriminate.
  rewrite !andb_true_iff, Z.eqb_eq, Z.leb_le, Z.ltb_lt in Ho. apply random_pairs_in. lia.
Qed.
Lemma random_from (c0 : conf) (s0 : sys) (c : conf) : exec (c_tr c0) (c_ss c0) s0 -> later s0 (c_tr c) (c_ss c) (c_s c) -> running s0 2 = None ->
  insertsb 130 (c_tr c ++ c_tr c0) && (130 <=? successes (c_tr c0)) && match running s0 1 with Some _ => true | None => false end = true ->
  match returns 2 (c_tr c) with [(OpGet k, RVals l)] => Z.eqb k 129 | _ => false end = true ->
  exists tr ss s0 tr' ss' s t l, exec tr ss s0 /\ later s0 tr' ss' s /\ only_inserts (random_pairs 130) (tr' ++ tr) /\ 130 <= successes tr /\
    (exists x, running s0 1 = Some x) /\ call_in tr' t (Get 129%Z) (@RVals exP l) /\ verified 129 l.
Proof.
  intros Hx Hl H2 H E. rewrite !andb_true_iff in H. destruct H as [[Ha Hb] Hr]. apply insertsb_ok in Ha. apply Nat.leb_le in Hb.
  pose proof (returns_calls _ _ _ _ _ Hl H2) as Hc. destruct (returns 2 (c_tr c)) as [|[[| | |k| | |] [| |l|]] [|]]; try discriminate. apply Z.eqb_eq in E. subst k.
  destruct (Hc _ _ (or_introl eq_refl)) as [t Ht]. exists (c_tr c0), (c_ss c0), s0, (c_tr c), (c_ss c), (c_s c), t, l.
  split; [exact Hx|]. split; [exact Hl|]. split; [exact Ha|]. split; [exact Hb|]. split; [destruct (running s0 1) as [x|]; [eauto|discriminate]|]. split; [exact Ht|].
  apply (C62_random_insert_verify vh0 ph0 130 (c_tr c0) (c_ss c0) s0 (c_tr c) (c_ss c) (c_s c) t 129 l Hx Hl Ha Hb); [lia|exact Ht].
Qed.
Example C62_random_example : exists tr ss s0 tr' ss' s t l, exec tr ss s0 /\ later s0 tr' ss' s /\ only_inserts (random_pairs 130) (tr' ++ tr) /\ 130 <= successes tr /\
    (exists x, running s0 1 = Some x) /\ call_in tr' t (Get 129%Z) (@RVals exP l) /\ verified 129 l.
Proof.
  apply (random_from (play random_race) s_race (play_on s_race random_read)).
  - exact (play_exec random_race).
  - exact (play_later s_race random_read).
  - vm_compute. reflexivity.
  - vm_compute. reflexivity.
  - vm_compute. reflexivity.
Qed.

(** InsertTest2 with two threads and 40 keys each: 320 pairs, several pages;
    the thread that reads overlaps the last Inserts of the other keys. *)
Definition four (i : Z) : list op := [Ins i (i + 1); Ins i (i + 2); Ins i (i + 3); Ins i (i + 4)]%Z.
Definition basic_race : list cmd :=
  flat_map (fun i => let z := Z.of_nat (2 * i) in
    flat_map (fun x => [CCall 0 (fst x) 40; CStep 0 2] ++ whole 1 (snd x) ++ [CStep 0 400; CRet 0]) (combine (four z) (four (z + 1)))) (seq 0 40).
Definition basic_read : list cmd := [CCall 2 (Get 33)%Z 40; CStep 2 1] ++ whole 0 (Ins 1000 1001)%Z ++ [CStep 2 400; CRet 2].
Definition s_basic : sys := c_s (play basic_race).
Definition basicb (i : Z) (tr' tr : list event) : bool :=
  forallb (fun v => existsb (fun e => match e with ERet _ (OpIns k w) _ => Z.eqb k i && Z.eqb w (i + v) | _ => false end) tr) [1; 2; 3; 4]%Z &&
  forallb (fun e => match e with
    | ECall _ (OpIns k v) => negb (Z.eqb k i) || (Z.ltb i v && Z.leb v (i + 4))
    | ECall _ (OpDel _ _) | ECall _ (OpCond _ _ _) => false
    | _ => true end) (tr' ++ tr).
Lemma basicb_ok i tr' tr : basicb i tr' tr = true ->
  never_deletes (tr' ++ tr) /\ (forall v : Z, (i < v <= i + 4)%Z -> @inserted exP i v tr) /\ (forall v : Z, @asked exP i v (tr' ++ tr) -> (i < v <= i + 4)%Z).
Proof.
  unfold basicb. rewrite andb_true_iff, !forallb_forall. intros [H1 H2]. split; [|split].
  - intros t o Ho. apply H2 in Ho. destruct o; simpl; auto; discriminate.
  - intros v Hv. assert (Hi : In (v - i)%Z [1; 2; 3; 4]%Z) by (simpl; lia). apply H1 in Hi. apply existsb_exists in Hi as (e & He & Hb).
    destruct e as [t o|t|t o r]; try discriminate. destruct o as [k w| | | | | |]; try discriminate. rewrite andb_true_iff, !Z.eqb_eq in Hb. destruct Hb as [-> Hb].
    replace (i + (v - i))%Z with v in Hb by lia. subst w. exists t, r. exact He.
  - intros v (t & o & Ho & Ht). apply H2 in Ho. destruct o; try discriminate. injection Ht as -> ->. rewrite Z.eqb_refl in Ho. cbn [negb orb] in Ho. rewrite andb_true_iff, Z.ltb_lt, Z.leb_le in Ho. lia.
Qed.
Lemma basic_from (c0 : conf) (s0 : sys) (c : conf) : exec (c_tr c0) (c_ss c0) s0 -> later s0 (c_tr c) (c_ss c) (c_s c) -> running s0 2 = None ->
  basicb 33 (c_tr c) (c_tr c0) = true ->
  match returns 2 (c_tr c) with [(OpGet k, RVals l)] => Z.eqb k 33 | _ => false end = true ->
  exists tr ss s0 tr' ss' s t l, exec tr ss s0 /\ later s0 tr' ss' s /\ never_deletes (tr' ++ tr) /\
    (forall v : Z, (33 < v <= 37)%Z -> @inserted exP 33%Z v tr) /\ call_in tr' t (Get 33%Z) (@RVals exP l) /\ length l = 4.
Proof.
  intros Hx Hl H2 H E. apply basicb_ok in H. destruct H as (Ha & Hb & Hr).
  pose proof (returns_calls _ _ _ _ _ Hl H2) as Hc. destruct (returns 2 (c_tr c)) as [|[[| | |k| | |] [| |l|]] [|]]; try discriminate. apply Z.eqb_eq in E. subst k.
  destruct (Hc _ _ (or_introl eq_refl)) as [t Ht]. exists (c_tr c0), (c_ss c0), s0, (c_tr c), (c_ss c), (c_s c), t, l.
  split; [exact Hx|]. split; [exact Hl|]. split; [exact Ha|]. split; [exact Hb|]. split; [exact Ht|].
  exact (C62_insert_get_value_test vh0 ph0 (c_tr c0) (c_ss c0) s0 (c_tr c) (c_ss c) (c_s c) t 33 l Hx Hl Ha Hb Hr Ht).
Qed.
Example C62_basic_example : exists tr ss s0 tr' ss' s t l, exec tr ss s0 /\ later s0 tr' ss' s /\ never_deletes (tr' ++ tr) /\
    (forall v : Z, (33 < v <= 37)%Z -> @inserted exP 33%Z v tr) /\ call_in tr' t (Get 33%Z) (@RVals exP l) /\ length l = 4.
Proof.
  apply (basic_from (play basic_race) s_basic (play_on s_basic basic_read)).
  - exact (play_exec basic_race).
  - exact (play_later s_basic basic_read).
  - vm_compute. reflexivity.
  - vm_compute. reflexivity.
  - vm_compute. reflexivity.
Qed.
