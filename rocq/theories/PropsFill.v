(** The index while nothing is deleted from it (C03, C15, C58, C59). *)
From Coq Require Import List Arith Bool Lia.
From Verif Require Import Base Inst Leaf LeafSpec Inner Tree TreeSpec TreeLin TreeRun SeqRun SeqPlay Iter IterSpec IterMoment IterBack IterPlay MomentSpec Moment MomentPlay.
From Verif Require Import BalanceSpec PrivateSpec Private FillSpec Fill PropsTree PropsScan PropsMoment PropsPrivate.
Import ListNotations.

(** C03.  GetValue is exact, too, in all executions in which Delete is never
    called: any number of threads, any schedule, with splits at any time. *)
Theorem C03_no_deletes : forall {P : Params} tr ss s,
  exec tr ss s -> never_deletes tr -> linearizable true tr (sm s).
Proof. intros P tr ss s Hx Hd. apply (linearizable_ok true tr ss s Hx). intros _. exact (fed_clean _ _ _ Hx Hd). Qed.
Print Assumptions C03_no_deletes.

(** C03, the moment: the values are those stored at one moment of the call. *)
Theorem C03_no_deletes_moment : forall {P : Params} tr ss s0 tr' ss' s t k l,
  exec tr ss s0 -> later s0 tr' ss' s -> never_deletes (tr' ++ tr) -> call_in tr' t (OpGet k) (RVals l) ->
  exists s1, In s1 ss' /\ NoDup l /\ forall v, In v l <-> contents (sm s1) k v.
Proof.
  intros P tr ss s0 tr' ss' s t k l Hx Hl Hd Hc. destruct (C03_get_moment_partial _ _ _ _ _ _ _ _ _ Hx Hl Hc) as (s1 & Hi & H).
  exists s1. split; [exact Hi|]. apply H. apply (TreeLin.clean_exact (sm s1) (OpGet k)). exact (fed_clean_later _ _ _ _ _ _ Hx Hl Hd _ Hi).
Qed.
Print Assumptions C03_no_deletes_moment.

(** C58.  GetValue by the only thread that updates a key returns exactly its
    own values, if nobody calls Delete. *)
Theorem C58_get_no_deletes : forall {P : Params} tr ss s t k,
  exec tr ss s -> never_deletes tr -> keeper t k (visible tr) ->
  forall l1 vs l2, visible tr = l1 ++ VRet t (OpGet k) (RVals vs) :: l2 ->
    NoDup vs /\ forall v, In v vs <-> own k v l2 = true.
Proof.
  intros P tr ss s t k Hx Hd Hp. destruct (C03_no_deletes _ _ _ Hx Hd) as (atr & A & st & Ha & Ev & _).
  rewrite <- Ev in *. apply (aexec_get t k _ _ Ha Hp).
Qed.
Print Assumptions C58_get_no_deletes.

(** C15.  With any other threads, as long as Delete was never called: an
    iterator returned by Begin() is at the end or can be read. *)
Theorem C15_begin_readable : forall {P : Params} tr ss s log it,
  exec tr ss s -> never_deletes tr -> answered tr log -> follows begin_first log it ->
  is_end it = true \/ exists x, deref it = Ok x.
Proof. intros P. exact begin_readable. Qed.
Print Assumptions C15_begin_readable.

(** C15.  After any calls other than Delete by any threads, as long as only
    readers go on: Begin() stands on the first stored pair, and advancing to
    IsEnd() returns every stored pair once, ascending. *)
Theorem C15_no_deletes_threads : forall {P : Params} tr ss s0 tr' ss' s,
  exec tr ss s0 -> never_deletes tr -> later s0 tr' ss' s -> readers_only s0 tr' ->
  (forall log it, calls_in tr' log -> follows begin_first log it -> first_from (contents (sm s0)) None it) /\
  (forall f n log outs it, calls_in tr' log -> follows (ibind begin_first (walk n f)) log (outs, it) ->
     is_end it = true -> listing (contents (sm s0)) None outs).
Proof.
  intros P tr ss s0 tr' ss' s Hx Hd Hl Hr. destruct (C15_scan_threads_partial _ _ _ _ _ _ Hx Hl Hr) as [H1 H2]. split; [|exact H2].
  intros log it Hc H. apply (H1 log it Hc H). destruct (exec_later _ _ _ Hx _ _ _ Hl) as (ss2 & Hx2).
  exact (begin_readable _ _ _ _ _ Hx2 (readers_never _ _ _ Hr Hd) (calls_answered tr tr' log Hc) H).
Qed.
Print Assumptions C15_no_deletes_threads.

(** C15, one thread, total: after any calls of Insert (and GetValue and
    ConditionalInsert as in C02), Begin() returns and stands on the first
    stored pair, and advancing returns every pair once and comes to an end. *)
Theorem C15_no_deletes : forall {P : Params} l m, calmrun l m -> (forall o, In o (map fst l) -> no_delete o) ->
  exists it, (forall f, irun m f begin_first = (m, Ok it)) /\ first_from (contents m) None it /\
    exists n0 fuel0 m' outs it',
      (forall n f f2, n0 <= n -> fuel0 <= f -> fuel0 <= f2 -> irun m f2 (ibind begin_first (walk n f)) = (m', Ok (outs, it'))) /\
      is_end it' = true /\ same (contents m) (contents m') /\ listing (contents m) None outs.
Proof.
  intros P l m Hq Hn. destruct (C15_scan_partial l m Hq) as (it & Hi & H). exists it. split; [exact Hi|]. apply H.
  exact (begin_readable_alone l m 0 it m (calmrun_seqrun _ _ Hq) Hn (Hi 0)).
Qed.
Print Assumptions C15_no_deletes.

(** C59.  As long as Delete was never called, every leaf page but the leftmost
    has more than LEAF_SIZE_LOWER pairs, and no page but the last is empty. *)
Theorem C59_fill : forall {P : Params} tr ss s i c,
  exec tr ss s -> never_deletes tr -> reach (sm s) i -> node_of (sm s) i = Some (NLeaf c) ->
  forall items, pairs_of (contents (sm s)) (llow c) (lhigh c) items ->
    (llow c = None \/ LEAF_SIZE_LOWER < length items) /\ (lhigh c = None \/ items <> []).
Proof. intros P. exact fed_size. Qed.
Print Assumptions C59_fill.

(** C59.  No page is merged with another one. *)
Theorem C59_no_merge : forall {P : Params} tr ss s i c,
  exec tr ss s -> never_deletes tr -> reach (sm s) i -> node_of (sm s) i = Some (NLeaf c) -> no_merge c.
Proof. intros P. exact fed_merge. Qed.
Print Assumptions C59_no_merge.

(** C59.  The pages iterators get are as full. *)
Theorem C59_pages : forall {P : Params} tr ss s t o low items high,
  exec tr ss s -> never_deletes tr -> In (ERet t o (RPage low items high)) tr ->
  (low = None \/ LEAF_SIZE_LOWER < length items) /\ (high = None \/ items <> []).
Proof. intros P. exact fed_returned. Qed.
Print Assumptions C59_pages.

(** C59, space: [n] leaf pages hold at least (LEAF_SIZE_LOWER + 1) * (n - 1)
    pairs. *)
Theorem C59_space : forall {P : Params} tr ss s ids all,
  exec tr ss s -> never_deletes tr -> leaves (sm s) ids -> pairs_of (contents (sm s)) None None all ->
  S LEAF_SIZE_LOWER * (length ids - 1) <= length all.
Proof. intros P. exact fed_space. Qed.
Print Assumptions C59_space.

(** * Concrete executions *)
#[local] Existing Instance natP.
Definition no_deleteb (e : @event natP) : bool := match e with ECall _ (OpDel _ _) => false | _ => true end.
Lemma no_deleteb_ok tr : forallb no_deleteb tr = true -> never_deletes tr.
Proof. intros H t o X. rewrite forallb_forall in H. apply H in X. destruct o; simpl in *; auto; discriminate. Qed.
(** The leaf pages, from left to right. *)
Fixpoint row (n : nat) (m : @mem natP) (i : nat) : list nat :=
  match n with
  | 0 => []
  | S n => i :: match node_of m i with Some (NLeaf c) => match lhigh c with Some (_, j) => row n m j | None => [] end | _ => [] end
  end.
Lemma row_reach n m : forall i, reach m i -> forall j, In j (row n m i) -> reach m j.
Proof.
  induction n as [|n IH]; intros i Hi j; [intros []|]. cbn [row]. intros [<-|H]; [exact Hi|].
  destruct (node_of m i) as [[c|c]|] eqn:E; try destruct H. destruct (lhigh c) as [[h j']|] eqn:Eh; [|destruct H]. apply (IH j'); [|exact H]. eapply R_next; eauto.
Qed.
Fixpoint distinct (l : list nat) : bool := match l with [] => true | a :: l => negb (existsb (Nat.eqb a) l) && distinct l end.
Lemma distinct_ok l : distinct l = true -> NoDup l.
Proof.
  induction l as [|a l IH]; simpl; [constructor|]. rewrite andb_true_iff, negb_true_iff. intros [H1 H2]. constructor; auto.
  intros H. assert (X : existsb (Nat.eqb a) l = true) by (apply existsb_exists; exists a; split; [exact H|apply Nat.eqb_refl]). congruence.
Qed.

(** The 129th Insert of thread 0 has just posted the split of the page when
    threads 1 and 2 read and insert in it; thread 3 is the only one to use key
    50, and thread 4 takes the pages for an iterator. *)
Definition growing : list cmd :=
  PropsTree.ins 1 49 ++ whole 3 (OpIns 50 7) ++ PropsTree.ins 51 78 ++
  [CCall 0 (OpIns 129 1) 40; CStep 0 6; CCall 1 (OpGet 100) 40; CStep 1 1] ++ whole 2 (OpIns 100 2) ++ whole 3 (OpIns 50 8) ++
  [CStep 1 400; CRet 1; CStep 0 400; CRet 0] ++ whole 3 (OpGet 50) ++ whole 4 OpFirst ++ whole 4 (OpPage 100) ++ [CCall 0 (OpIns 130 1) 40; CStep 0 1].
Example growing_runs : let c := play growing in
  forallb no_deleteb (c_tr c) && forallb (keyed 3 50) (visible (c_tr c)) &&
  (length (row 9 (sm (c_s c)) FIRST_LEAF) =? 2) && distinct (row 9 (sm (c_s c)) FIRST_LEAF) &&
  existsb (fun e => match e with ERet 1 (OpGet k) (RVals l) => (k =? 100) && (1 <=? length l) | _ => false end) (c_tr c) &&
  existsb (fun e => match e with ERet 3 (OpGet k) (RVals l) => (k =? 50) && (length l =? 2) | _ => false end) (c_tr c) &&
  existsb (fun e => match e with ERet 4 (OpPage k) (RPage (Some _) items None) => (k =? 100) && (33 <=? length items) | _ => false end) (c_tr c) &&
  match running (c_s c) 0 with Some (OpIns k _, _) => k =? 130 | _ => false end = true.
Proof. vm_compute. reflexivity. Qed.
Example C03_no_deletes_example : let c := play growing in
  cexec c /\ never_deletes (c_tr c) /\ linearizable true (c_tr c) (sm (c_s c)) /\ keeper 3 50 (visible (c_tr c)) /\
  (exists l, In (ERet 1 (OpGet 100) (RVals l)) (c_tr c) /\ 1 <= length l) /\
  exists ids, leaves (sm (c_s c)) ids /\ length ids = 2 /\ In FIRST_LEAF ids.
Proof.
  pose proof growing_runs as H. cbv zeta in *. assert (Hx : cexec (play growing)) by apply play_exec.
  revert H Hx. generalize (play growing). intros c H Hx. rewrite !andb_true_iff in H. destruct H as (((((((H1 & H2) & H3) & H4) & H5) & _) & _) & _).
  apply no_deleteb_ok in H1. apply keyed_ok in H2. split; [exact Hx|]. split; [exact H1|]. split; [exact (C03_no_deletes _ _ _ Hx H1)|]. split; [exact H2|]. split.
  - apply existsb_exists in H5 as (e & H5 & H). destruct e as [t o|t|t o r]; try discriminate. destruct t as [|[|t]]; try discriminate. destruct o as [k v|k v|k v pr|k|k|k|]; try discriminate.
    destruct r as [b|b b'|l|low items high]; try discriminate. apply andb_true_iff in H as [H H']. apply Nat.eqb_eq in H. subst k. exists l. split; [exact H5|apply Nat.leb_le, H'].
  - exists (row 9 (sm (c_s c)) FIRST_LEAF). split; [split; [apply distinct_ok, H4|apply row_reach, R_first]|]. split; [apply Nat.eqb_eq, H3|left; reflexivity].
Qed.

(** One thread: 140 Inserts, two of them ConditionalInserts. *)
Definition stocked : list op := PropsScan.ins 1 70 ++ [OpCond 71 1 (fun _ => false)] ++ PropsScan.ins 72 68 ++ [OpCond 140 1 (fun _ => false); OpFirst].
Example C15_no_deletes_example : exists l m tr ss s ids all, calmrun l m /\ (forall o, In o (map fst l) -> no_delete o) /\
  exec tr ss s /\ never_deletes tr /\ sm s = m /\ leaves m ids /\ length ids = 2 /\ pairs_of (contents m) None None all /\ 33 <= length all /\
  exists it, (forall f, irun m f begin_first = (m, Ok it)) /\ deref it = Ok (1, 1).
Proof.
  assert (E : match run_calm 60 stocked [] minit with
              | Some (l, m) => forallb (fun x => match fst x with OpDel _ _ => false | _ => true end) l && (length (row 9 m FIRST_LEAF) =? 2) && distinct (row 9 m FIRST_LEAF) = true /\
                  match iro m 0 begin_first with Some (Ok it) => deref it = Ok (1, 1) | _ => False end
              | None => False end) by (vm_compute; auto).
  destruct (run_calm 60 stocked [] minit) as [[l m]|] eqn:Er; [|destruct E]. destruct E as [E E2]. rewrite !andb_true_iff in E. destruct E as ((E1 & E3) & E4).
  assert (Hq : calmrun l m) by (apply (run_calm_ok 60 stocked [] minit); [constructor|exact Er]). clear Er.
  assert (Hn : forall o, In o (map fst l) -> no_delete o).
  { intros o Ho. apply in_map_iff in Ho as ([o' r] & <- & Ho). rewrite forallb_forall in E1. apply E1 in Ho. cbn [fst] in *. destruct o'; simpl; auto; discriminate. }
  destruct (C15_no_deletes l m Hq Hn) as (it & Hi & _ & n0 & f0 & m' & outs & it' & _ & _ & _ & (_ & Hd & Ho)).
  destruct (seqrun_exec l m (calmrun_seqrun _ _ Hq)) as (tr & ss & s & Hx & Hv & Em & _).
  assert (Ht : never_deletes tr).
  { intros t o X. apply Hn. assert (Y : In (VCall t o) (visible tr)) by (apply in_flat_map; exists (ECall t o); split; [exact X|left; reflexivity]).
    rewrite Hv in Y. apply in_flat_map in Y as ([o' r'] & Y & [Z|[Z|[]]]); try discriminate. injection Z as _ <-. exact (in_map fst _ _ Y). }
  assert (Hl : leaves m (row 9 m FIRST_LEAF)) by (split; [apply distinct_ok, E4|apply row_reach, R_first]). apply Nat.eqb_eq in E3.
  assert (Ha : pairs_of (contents m) None None outs). { split; [exact Hd|]. intros k v. rewrite Ho. simpl. tauto. }
  exists l, m, tr, ss, s, (row 9 m FIRST_LEAF), outs. split; [exact Hq|]. split; [exact Hn|]. split; [exact Hx|]. split; [exact Ht|]. split; [exact Em|]. split; [exact Hl|]. split; [exact E3|]. split; [exact Ha|].
  split. { subst m. pose proof (C59_space _ _ _ _ _ Hx Ht Hl Ha) as H. rewrite E3 in H. exact H. }
  exists it. split; [exact Hi|]. destruct (iro m 0 begin_first) as [[it0|]|] eqn:Ei; try (exfalso; exact E2). apply iro_ok in Ei. rewrite Hi in Ei. injection Ei as <-. exact E2.
Qed.
(** Thread 2 was stopped in the middle of a page split, as in C16_example. *)
Lemma grown_from (c0 : conf) (s0 : sys) (c : conf) : exec (c_tr c0) (c_ss c0) s0 -> later s0 (c_tr c) (c_ss c) (c_s c) ->
  forallb no_deleteb (c_tr c0) = true -> (forall t, run_reader s0 t = true) -> forallb reader (ops_of (c_tr c)) = true -> running s0 0 = None ->
  PropsMoment.fed (ibind begin_first (walk 200 5)) 0 (c_tr c) (fun a => map fst (fst a) = seq 1 128 /\ is_end (snd a) = true) ->
  exists tr ss s0 tr' ss' s, exec tr ss s0 /\ never_deletes tr /\ later s0 tr' ss' s /\ readers_only s0 tr' /\
  exists log outs it, calls_in tr' log /\ follows (ibind begin_first (walk 200 5)) log (outs, it) /\ map fst outs = seq 1 128 /\ is_end it = true.
Proof.
  intros Hx Hl F R1 R2 H0 G. exists (c_tr c0), (c_ss c0), s0, (c_tr c), (c_ss c), (c_s c).
  split; [exact Hx|]. split; [apply no_deleteb_ok, F|]. split; [exact Hl|]. split; [apply readers_ok; auto|].
  destruct (fed_ok _ _ _ _ _ _ _ Hl H0 G) as (log & [outs it] & A & B & C). exists log, outs, it. auto.
Qed.
Example C15_no_deletes_threads_example : exists tr ss s0 tr' ss' s, exec tr ss s0 /\ never_deletes tr /\ later s0 tr' ss' s /\ readers_only s0 tr' /\
  exists log outs it, calls_in tr' log /\ follows (ibind begin_first (walk 200 5)) log (outs, it) /\ map fst outs = seq 1 128 /\ is_end it = true.
Proof.
  apply (grown_from (play left_over) s_left (play_on s_left scan_left)).
  - exact (play_exec left_over).
  - exact (play_later s_left scan_left).
  - vm_compute. reflexivity.
  - exact left_readers.
  - vm_compute. reflexivity.
  - vm_compute. reflexivity.
  - vm_compute. auto.
Qed.
