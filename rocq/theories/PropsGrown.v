(** A single-threaded history in which the splits of an inner page are put off
    again and again (C02, C55). *)
From Coq Require Import List Arith Bool NArith.
From Verif Require Import Base Leaf LeafSpec Inner InnerSpec Tree TreeSpec TreeRun TreeFast Stuck SeqRun FastSeq.
Import ListNotations.
#[local] Existing Instance binP.

Definition ins (k : N) (n : nat) : list op := map (fun v => OpIns k (N.of_nat v)) (seq 1 n).
Definition del (k : N) (n : nat) : list op := map (fun v => OpDel k (N.of_nat v)) (seq 1 n).
(** Forty values for each of [n] ascending keys: a leaf page per key. *)
Definition asc (a n : nat) : list op := flat_map (fun i => ins (1000 * N.of_nat i) 40) (seq a n).
(** The page of [R = 1000 * (129 + 2j)] and its left neighbour, of
    [1000 * (128 + 2j)], become small; the last call removes both, merges the
    left one into its own left neighbour, which is then split; on its next
    attempt it rebuilds the parent page, whose middle child is the removed page
    of R: the split of the parent page is put off. *)
Definition put_off (j : nat) : list op :=
  let r := (1000 * (129 + 2 * N.of_nat j))%N in del (r - 1000) 8 ++ del r 8 ++ [OpDel r 99%N].
(** Five new children: one on the left, four on the right of that place. *)
Definition five (j : nat) : list op := ins (70003 + N.of_nat j) 40 ++ asc (194 + 4 * j) 4.
Definition grow : list op :=
  ins 10000000 100 ++ asc 1 193 ++ ins 70001 40 ++ ins 70002 40 ++ ins 127001 24 ++ ins 127002 32 ++ put_off 0 ++
  flat_map (fun j => five (j - 1) ++ put_off j) (seq 1 95).
(** Afterwards the page is split, its left half split again, and the calls go
    on in the right half. *)
Definition leave : list op := asc 574 6 ++ ins 580000 8.

(** After [g] page [i] is wide; after [g] and [e] the pair [(k, v)] is stored and
    GetValue of [k] fails. *)
Definition grown_case (g e : list op) (n i : nat) (ky k : K) (v : V) : bool :=
  match frun 40 g finit with
  | None => false
  | Some f => wideb f n 0 i ky &&
      match frun 40 e f with
      | None => false
      | Some f' => fstored 200 f' FIRST_LEAF k v && failsb f' 40 (OpGet k)
      end
  end.
Lemma grown_checked : grown_case grow leave (3 * 128) 131 65000%N 98000%N 1%N = true.
Proof. vm_cast_no_check (eq_refl true). Qed.
Definition insdel {P : Params} (o : op) : Prop := match o with OpIns _ _ | OpDel _ _ => True | _ => False end.
Lemma ins_insdel k n : Forall insdel (ins k n).
Proof. apply Forall_forall. intros o H. apply in_map_iff in H as (v & <- & _). exact I. Qed.
Lemma del_insdel k n : Forall insdel (del k n).
Proof. apply Forall_forall. intros o H. apply in_map_iff in H as (v & <- & _). exact I. Qed.
Lemma flat_insdel (f : nat -> list op) l : (forall i, Forall insdel (f i)) -> Forall insdel (flat_map f l).
Proof. intros H. induction l as [|i l IH]; [constructor|]. apply Forall_app; split; auto. Qed.
Lemma asc_insdel a n : Forall insdel (asc a n).
Proof. apply flat_insdel. intros i. apply ins_insdel. Qed.
Lemma put_off_insdel j : Forall insdel (put_off j).
Proof. unfold put_off. apply Forall_app; split; [apply del_insdel|]. apply Forall_app; split; [apply del_insdel|repeat constructor]. Qed.
Lemma five_insdel j : Forall insdel (five j).
Proof. unfold five. apply Forall_app; split; [apply ins_insdel|apply asc_insdel]. Qed.
Lemma grow_insdel : Forall insdel grow.
Proof.
  unfold grow. apply Forall_app; split; [apply ins_insdel|]. apply Forall_app; split; [apply asc_insdel|]. do 4 (apply Forall_app; split; [apply ins_insdel|]).
  apply Forall_app; split; [apply put_off_insdel|]. apply (flat_insdel (fun j => five (j - 1) ++ put_off j)). intros j. apply Forall_app; split; [apply five_insdel|apply put_off_insdel].
Qed.
Lemma leave_insdel : Forall insdel leave.
Proof. unfold leave. apply Forall_app; split; [apply asc_insdel|apply ins_insdel]. Qed.
Lemma hist_insdel (l : list (op * resp)) a : map fst l = a -> Forall insdel a -> Forall (fun x => insdel (fst x)) l.
Proof. intros <-. apply Forall_map. Qed.

(** The two states, from any runs that pass the checks. *)
Lemma grown_run g e n i ky k v : Forall insdel g -> Forall insdel e ->
  grown_case g e n i ky k v = true ->
  (exists l m c0 c ss, seqrun l m /\ Forall (fun x => insdel (fst x)) l /\
    node_of m (root m) = Some (NInner c0) /\ seps c0 ky i /\ node_of m i = Some (NInner c) /\
    NoDup (map fst ss) /\ n <= length ss /\ forall s j, In (s, j) ss -> seps c s j) /\
  exists l m m', seqrun l m /\ Forall (fun x => insdel (fst x)) l /\ contents m k v /\
    forall fuel, 40 <= fuel -> prun m (code fuel (OpGet k)) = (m', Er EUninit).
Proof.
  intros Hg He H. unfold grown_case in H. destruct (frun 40 g finit) as [f|] eqn:Eg; [|discriminate]. apply andb_true_iff in H as [Hw H].
  destruct (frun 40 e f) as [f'|] eqn:Ee; [|discriminate]. apply andb_true_iff in H as [Hs Hf].
  destruct (frun_ok 40 g [] finit minit f Q_init rep_init Eg) as (l & m & Hq & Hr & Hl).
  destruct (frun_ok 40 e l f m f' Hq Hr Ee) as (l' & m' & Hq' & Hr' & Hl').
  assert (Hi : Forall (fun x => insdel (fst x)) l).
  { eapply hist_insdel; [exact Hl|]. apply Forall_app; split; [apply Forall_rev, Hg|constructor]. }
  split.
  - destruct (wideb_ok f m n 0 i ky Hr Hw) as (c0 & c & ss & X). exists l, m, c0, c, ss. split; [exact Hq|]. split; [exact Hi|exact X].
  - destruct (failsb_ok f' m' 40 (OpGet k) Hr' Hf) as (m2 & E). exists l', m', m2. split; [exact Hq'|]. split; [|split; [|exact E]].
    + eapply hist_insdel; [exact Hl'|]. apply Forall_app; split; [apply Forall_rev, He|]. apply Forall_map. exact Hi.
    + eapply fstored_ok; [exact Hr'|apply R_first|exact Hs].
Qed.

(** C02 is false without the restriction on the states in which GetValue is
    called ([calm], C02_sequential_set_partial): after some calls of Insert and
    Delete of a single thread, GetValue of a stored key fails, with every large
    enough bound on the retries, because it reads the parent snapshot that
    read-optimised traversal never writes. *)
Theorem C02_sequential_set_refuted : exists (P : Params) l m m' k v,
  seqrun l m /\ Forall (fun x => insdel (fst x)) l /\ contents m k v /\
  forall fuel, 40 <= fuel -> prun m (code fuel (OpGet k)) = (m', Er EUninit).
Proof.
  destruct (proj2 (grown_run grow leave (3 * 128) 131 65000%N 98000%N 1%N grow_insdel leave_insdel grown_checked)) as (l & m & m' & X).
  exists binP, l, m, m', 98000%N, 1%N. exact X.
Qed.
Print Assumptions C02_sequential_set_refuted.

(** C55 is false: after some calls of Insert and Delete of a single thread, a
    page named by the root's page has more than three times as many separators
    as the size at which an inner page is to be split. *)
Theorem C55_fanout_refuted : exists (P : Params) l m c0 c k i ss,
  seqrun l m /\ Forall (fun x => insdel (fst x)) l /\
  node_of m (root m) = Some (NInner c0) /\ seps c0 k i /\ node_of m i = Some (NInner c) /\
  NoDup (map fst ss) /\ 3 * INNER_SIZE_UPPER <= length ss /\ forall s j, In (s, j) ss -> seps c s j.
Proof.
  destruct (proj1 (grown_run grow leave (3 * 128) 131 65000%N 98000%N 1%N grow_insdel leave_insdel grown_checked)) as (l & m & c0 & c & ss & X).
  exists binP, l, m, c0, c, 65000%N, 131, ss. exact X.
Qed.
Print Assumptions C55_fanout_refuted.
