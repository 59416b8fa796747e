(** Executions without Delete: room in the pages, comparing iterators, index
    scans (C05, C43, C49). *)
From Coq Require Import List Arith Bool Lia ZArith.
From Verif Require Import Base Inst Leaf LeafSpec Inner Tree TreeSpec TreeRun SeqRun SeqPlay SeqOps Iter IterSpec IterCmp IterBack IterPlay RoomSpec Index IndexSpec.
From Verif Require Import FillSpec Fill Fill2 PropsTree PropsScan PropsRoom PropsIndex PropsFill.
Import ListNotations.

(** C05 (and C08).  As long as Delete was never called, no rebuilding of a page
    writes beyond it: any threads, any schedule, ConditionalInsert included. *)
Theorem C05_no_overrun_no_deletes : forall {P : Params} tr ss s t o e,
  exec tr ss s -> never_deletes tr -> running s t = Some (o, Err e) -> e <> EOverrun.
Proof. intros P tr ss s t o e Hx Hd. apply (C05_no_overrun_partial _ _ _ _ _ _ Hx), never_fresh, Hd. Qed.
Print Assumptions C05_no_overrun_no_deletes.
(** C05.  And every page can be rebuilt, exactly. *)
Theorem C05_pages_no_deletes : forall {P : Params} tr ss s i c,
  exec tr ss s -> never_deletes tr ->
  reach (sm s) i -> node_of (sm s) i = Some (NLeaf c) -> is_remove (NLeaf c) = false ->
  exists items,
    lconsolidate c = Ok (LBase (llow c) items (lhigh c)) /\
    lcount c = Z.of_nat (length items) /\ ascending items /\ NoDup items /\
    forall k v, In (k, v) items <-> in_range c k /\ contents (sm s) k v.
Proof. intros P tr ss s i c Hx Hd. apply (C05_pages_exact_partial _ _ _ _ _ Hx), never_fresh, Hd. Qed.
Print Assumptions C05_pages_no_deletes.

(** C43.  As long as Delete was never called: every iterator but the reverse end
    stands on a key or at the end, and comparing two of them compares that. *)
Theorem C43_compare_no_deletes : forall {P : Params} tr ss s a b,
  exec tr ss s -> never_deletes tr -> obtained tr a -> obtained tr b -> is_rend a = false -> is_rend b = false ->
  exists p q x y, stands a p /\ stands b q /\
    iter_lt a b = Ok x /\ (x = true <-> before p q) /\ iter_eq a b = Ok y /\ (y = true <-> p = q).
Proof.
  intros P tr ss s a b Hx Hd Ha Hb Ra Rb. apply (compare_ok _ _ _ _ _ Hx Ha Hb); eapply obtained_readable; eauto.
Qed.
Print Assumptions C43_compare_no_deletes.
(** C43.  Such an iterator can be read unless it is at the end. *)
Theorem C43_read_no_deletes : forall {P : Params} tr ss s it,
  exec tr ss s -> never_deletes tr -> obtained tr it -> is_rend it = false -> is_end it = false -> exists x, deref it = Ok x.
Proof.
  intros P tr ss s it Hx Hd Ho Hr He. destruct (obtained_stands _ _ _ _ Hx Hd Ho Hr) as ([k|] & Hs); simpl in Hs; [|congruence]. destruct Hs as (_ & v & E). eauto.
Qed.
Print Assumptions C43_read_no_deletes.

(** C49, by one thread that never called DeleteEntry: scans of all keys return,
    and their result is complete and exact. *)
Lemma begins_no_deletes {P : Params} l m : calmrun l m -> (forall o, In o (map fst l) -> no_delete o) -> begins m.
Proof.
  intros Hq Hn. destruct (begin_scan l m Hq) as (it & Hi & _). exists it. split; [exact Hi|]. exact (begin_readable_alone l m 0 it m (calmrun_seqrun _ _ Hq) Hn (Hi 0)).
Qed.
Theorem C49_scan_all_no_deletes : forall {P : Params} l m, calmrun l m -> (forall o, In o (map fst l) -> no_delete o) ->
  exists n0 fuel0 res, (forall n f f2, n0 <= n -> fuel0 <= f -> fuel0 <= f2 -> exists m', irun m f2 (scan_all n f) = (m', Ok res) /\ same (contents m) (contents m')) /\
    found (contents m) (fun _ => true) res.
Proof. intros P l m Hq Hn. apply (C49_scan_all_partial l m Hq), (begins_no_deletes l m Hq Hn). Qed.
Print Assumptions C49_scan_all_no_deletes.
Theorem C49_scan_ptr_no_deletes : forall {P : Params} l m q, calmrun l m -> (forall o, In o (map fst l) -> no_delete o) -> bounded q ->
  exists n0 fuel0 res, (forall n f f2, n0 <= n -> fuel0 <= f -> fuel0 <= f2 -> exists m', irun m f2 (scan_ptr n f q) = (m', Ok res) /\ same (contents m) (contents m')) /\
    found (contents m) (c_ok q) res.
Proof. intros P l m q Hq Hn Hb. apply (C49_scan_ptr_partial l m q Hq Hb). intros _. exact (begins_no_deletes l m Hq Hn). Qed.
Print Assumptions C49_scan_ptr_no_deletes.
Theorem C49_scan_no_deletes : forall {P : Params} l m q, calmrun l m -> (forall o, In o (map fst l) -> no_delete o) -> bounded q -> (c_lead q = true -> c_eq q = true -> calm m) ->
  exists n0 fuel0 res, (forall n f f2, n0 <= n -> fuel0 <= f -> fuel0 <= f2 -> exists m', irun m f2 (scan n f q) = (m', Ok res) /\ same (contents m) (contents m')) /\
    found (contents m) (c_ok q) res.
Proof. intros P l m q Hq Hn Hb Hc. apply (C49_scan_partial l m q Hq Hb Hc). intros _. exact (begins_no_deletes l m Hq Hn). Qed.
Print Assumptions C49_scan_no_deletes.

(** * Concrete executions *)
#[local] Existing Instance natP.
(** Threads 4 and 5 in the execution of C03_no_deletes_example: iterators on 1
    and on 100, while thread 0 is in the middle of a call. *)
Definition grown_it : list cmd := growing ++ whole 5 (OpPage 100).
Definition iters_seen (c : conf) : Prop :=
  forallb no_deleteb (c_tr c) = true /\
  match feed begin_first (firstn 1 (map snd (returns 4 (c_tr c)))), feed (lower 1 100) (map snd (returns 5 (c_tr c))) with
  | Some (l1, a), Some (l2, b) => l1 = firstn 1 (returns 4 (c_tr c)) /\ l2 = returns 5 (c_tr c) /\
      is_rend a = false /\ is_rend b = false /\ deref a = Ok (1, 1) /\ deref b = Ok (100, 1) /\ i_low a <> i_low b
  | _, _ => False
  end.
Example grown_it_seen : iters_seen (play grown_it).
Proof.
  unfold iters_seen. split; [vm_compute; reflexivity|].
  vm_compute. repeat (split; [reflexivity|]). discriminate.
Qed.
Lemma iters_from c : cexec c -> iters_seen c -> exists a b, never_deletes (c_tr c) /\ obtained (c_tr c) a /\ obtained (c_tr c) b /\
  is_rend a = false /\ is_rend b = false /\ deref a = Ok (1, 1) /\ deref b = Ok (100, 1) /\ i_low a <> i_low b.
Proof.
  intros Hx [H1 H2]. destruct (feed begin_first _) as [[l1 a]|] eqn:E1; [|destruct H2]. destruct (feed (@lower natP 1 100) _) as [[l2 b]|] eqn:E2; [|destruct H2].
  destruct H2 as (-> & -> & R1 & R2 & D1 & D2 & Hl). apply feed_ok in E1, E2. exists a, b. split; [apply no_deleteb_ok, H1|].
  split. { eapply O_begin; [|exact E1]. intros o r X. apply (returns_answered 4 (c_tr c)). destruct (returns 4 (c_tr c)); [destruct X|]. destruct X as [X|[]]. left. exact X. }
  split. { eapply O_key; [apply (returns_answered 5)|exact E2]. }
  auto 10.
Qed.
Example C43_no_deletes_example : exists tr ss s a b, exec tr ss s /\ never_deletes tr /\ obtained tr a /\ obtained tr b /\ is_rend a = false /\ is_rend b = false /\
  deref a = Ok (1, 1) /\ deref b = Ok (100, 1) /\ i_low a <> i_low b.
Proof.
  destruct (iters_from _ (play_exec grown_it) grown_it_seen) as (a & b & H). exists (c_tr (play grown_it)), (c_ss (play grown_it)), (c_s (play grown_it)), a, b. split; [exact (play_exec grown_it)|exact H].
Qed.
(** ConditionalInserts of several threads, without Delete; [lost] of PropsRoom
    ends with a failed call. *)
Example C05_no_deletes_example : exists tr ss s, exec tr ss s /\ never_deletes tr /\ running s 1 = Some (OpGet 2000, Err EUninit) /\
  exists c, node_of (sm s) FIRST_LEAF = Some (NLeaf c) /\ is_remove (NLeaf c) = false.
Proof.
  exists (c_tr (play lost)), (c_ss (play lost)), (c_s (play lost)). split; [exact (play_exec lost)|]. split; [apply no_deleteb_ok; vm_compute; reflexivity|]. split; [vm_compute; reflexivity|].
  assert (E : match node_of (sm (c_s (play lost))) FIRST_LEAF with Some (NLeaf c) => is_remove (NLeaf c) = false | _ => False end) by (vm_compute; reflexivity).
  destruct (node_of (sm (c_s (play lost))) FIRST_LEAF) as [[c|c]|]; try (destruct E; fail). exists c. auto.
Qed.
(** A scan of all keys of two pages. *)
Definition filling : list op := PropsScan.ins 1 139 ++ [OpCond 140 1 (fun _ => false); OpFirst].
Example C49_no_deletes_example : exists l m, calmrun l m /\ (forall o, In o (map fst l) -> no_delete o) /\ contents m 140 1 /\ bounded (range 98 103) /\
  irun m 60 (scan_all 200 60) = (m, Ok (repeat 1 140)).
Proof.
  assert (E : match run_calm 60 filling [] minit with
              | Some (l, m) => forallb (fun x => match fst x with OpDel _ _ => false | _ => true end) l = true /\
                  is_page (ro m (code 60 (OpPage 140))) (140, 1) = true /\ iro m 60 (scan_all 200 60) = Some (Ok (repeat 1 140))
              | None => False end) by (vm_compute; auto).
  destruct (run_calm 60 filling [] minit) as [[l m]|] eqn:Er; [|destruct E]. destruct E as (E1 & E2 & E3).
  assert (Hq : calmrun l m) by (apply (run_calm_ok 60 filling [] minit); [constructor|exact Er]). clear Er.
  exists l, m. split; [exact Hq|]. split.
  { intros o Ho. apply in_map_iff in Ho as ([o' r] & <- & Ho). rewrite forallb_forall in E1. apply E1 in Ho. cbn [fst] in *. destruct o'; simpl; auto; discriminate. }
  split; [eapply page_contents; [apply calmrun_seqrun; exact Hq|exact E2]|]. split; [apply range_bounded|]. apply iro_ok. exact E3.
Qed.
