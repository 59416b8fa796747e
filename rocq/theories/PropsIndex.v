(** The Peloton index on top of the tree (C47, C48, C49). *)
From Coq Require Import List Arith Lia Bool Sorted.
From Verif Require Import Base Inst Leaf LeafSpec Inner Tree TreeSpec TreeLin TreeRun SeqTrav SeqFuel SeqOps SeqRun SeqPlay Iter IterSpec IterProofs IterBack IterPlay Index IndexSpec IndexProofs PropsTree PropsScan.
Import ListNotations.

Section C47.
Context {P : Params}.
Lemma running_called tr ss (s : sys) : exec tr ss s -> forall t o p, running s t = Some (o, p) -> In (ECall t o) tr.
Proof.
  induction 1 as [|tr ss s e s' Hx IH Hs]; intros t o p Hr; [discriminate|]. inversion Hs as [? u o1 fuel Hi|? u o1 p1 Hi Hn1 Hn2|? u o1 r1 Hi]; subst; simpl in Hr; unfold tset in Hr; destruct (t =? u) eqn:E;
    try (right; eapply IH; eauto; fail); apply Nat.eqb_eq in E; subst u.
  - injection Hr as <- _. left. auto.
  - injection Hr as <- _. right. eapply IH; eauto.
  - discriminate.
Qed.
(** C47.  In every execution in which pairs are added by ConditionalInsert with
    a predicate that every value satisfies, with any number of threads, no key
    ever has two values. *)
Theorem C47_unique : forall tr ss (s : sys), exec tr ss s -> (forall t o, In (ECall t o) tr -> primary o) -> unique (contents (sm s)).
Proof.
  induction 1 as [|tr ss s e s' Hx IH Hs]; intros Hp.
  - intros k v w Hv. destruct (TreeInv.contents_init _ _ Hv).
  - specialize (IH (fun t o Hi => Hp t o (or_intror Hi))). destruct e as [t o|t|t o r]; try (inversion Hs; subst; exact IH).
    assert (Hr : exists o p, running s t = Some (o, p)) by (inversion Hs; subst; eauto). destruct Hr as (o & p & Hr).
    destruct (C35_restructuring_invisible _ _ _ _ _ _ _ Hx Hr Hs) as [Hsame|(r & _ & He)].
    + intros k v w Hv Hw. apply Hsame in Hv, Hw. eapply IH; eauto.
    + specialize (He false). pose proof (Hp t o (or_intror (running_called _ _ _ Hx _ _ _ Hr))) as Ho. destruct o as [k1 v1|k1 v1|k1 v1 pred|k1|k1|k1|]; simpl in Ho; try contradiction.
      * destruct r as [[|]| | |]; try contradiction; destruct He as [_ He]; intros k v w Hv Hw; apply He in Hv, Hw; first [exact (IH k v w Hv Hw)|exact (IH k v w (proj1 Hv) (proj1 Hw))].
      * destruct r as [|[|] [|]| |]; simpl in He; try contradiction.
        2,3: destruct He as [_ He]; intros k v w Hv Hw; apply He in Hv, Hw; exact (IH k v w Hv Hw).
        destruct He as (_ & Hno & He). intros k v w Hv Hw. apply He in Hv, Hw. destruct Hv as [Hv|[-> ->]], Hw as [Hw|[E ->]]; subst; auto.
        -- eapply IH; eauto.
        -- apply Hno in Hv. rewrite Ho in Hv. discriminate.
        -- apply Hno in Hw. rewrite Ho in Hw. discriminate.
      * destruct r; try contradiction. destruct He as [_ He]. intros k v w Hv Hw. apply He in Hv, Hw. eapply IH; eauto.
      * destruct r; try contradiction. destruct He as (_ & _ & _ & He). intros k v w Hv Hw. apply He in Hv, Hw. eapply IH; eauto.
      * destruct r; try contradiction. destruct He as (_ & _ & He). intros k v w Hv Hw. apply He in Hv, Hw. eapply IH; eauto.
      * destruct r; try contradiction. destruct He as (_ & _ & He). intros k v w Hv Hw. apply He in Hv, Hw. eapply IH; eauto.
Qed.

(** C48.  CondInsertEntry: what it returns, by one thread.  In the third case
    it does not return. *)
Theorem C48_cond_insert_partial : forall l m k v (pred : V -> bool), calmrun l m -> ~ In (OpDel k v) (map fst l) ->
  exists fuel0 m' r, (forall f, fuel0 <= f -> irun m f (cond_insert_entry k v pred) = (m', r)) /\
    ((r = Ok false /\ (exists x, contents m k x /\ pred x = true) /\ same (contents m) (contents m')) \/
     (r = Ok true /\ ~ contents m k v /\ (forall x, contents m k x -> pred x = false) /\ forall k' v', contents m' k' v' <-> contents m k' v' \/ (k' = k /\ v' = v)) \/
     (r = Er EAssert /\ contents m k v)).
Proof.
  intros l m k v pred Hq Hn. destruct (seq_set l m (OpCond k v pred) Hq I Hn) as (f0 & m' & r & Hr & He). destruct r as [|b sat| |]; try contradiction.
  exists f0, m', (if Bool.eqb b (negb sat) then Ok b else Er EAssert). split; [intros f Hf; unfold cond_insert_entry; cbn [irun]; rewrite Hr by auto; destruct b, sat; reflexivity|].
  destruct b, sat; simpl in *; try contradiction; auto 10. destruct He. auto.
Qed.

(** C49.  Scan into ItemPointers: it returns, the stored set is unchanged, and
    the result is complete and exact.  A point query (GetValue) needs a calm
    state, see C02; a scan without a bound on the leading column needs a usable
    Begin(), see C15. *)
Theorem C49_scan_partial : forall l m q, calmrun l m -> bounded q -> (c_lead q = true -> c_eq q = true -> calm m) -> (c_lead q = false -> begins m) ->
  exists n0 fuel0 res, (forall n f f2, n0 <= n -> fuel0 <= f -> fuel0 <= f2 -> exists m', irun m f2 (scan n f q) = (m', Ok res) /\ same (contents m) (contents m')) /\
    found (contents m) (c_ok q) res.
Proof.
  intros l m q Hq [Hb1 Hb2] Hc Hu. unfold scan. destruct (c_lead q); [destruct (c_eq q)|].
  - destruct (point l m (c_low q) (c_ok q) Hq (Hc eq_refl eq_refl) (Hb2 eq_refl)) as (f0 & res & Hr & Hf). exists 0, f0, res. split; auto.
  - apply (lower_scan l); auto; discriminate.
  - apply (first_scan l); auto.
Qed.
(** Scan into pointers: no point query, but an early exit. *)
Theorem C49_scan_ptr_partial : forall l m q, calmrun l m -> bounded q -> (c_lead q = false -> begins m) ->
  exists n0 fuel0 res, (forall n f f2, n0 <= n -> fuel0 <= f -> fuel0 <= f2 -> exists m', irun m f2 (scan_ptr n f q) = (m', Ok res) /\ same (contents m) (contents m')) /\
    found (contents m) (c_ok q) res.
Proof.
  intros l m q Hq [Hb1 Hb2] Hu. unfold scan_ptr. destruct (c_lead q); [apply (lower_scan l)|apply (first_scan l)]; auto.
Qed.
(** ScanAllKeys. *)
Theorem C49_scan_all_partial : forall l m, calmrun l m -> begins m ->
  exists n0 fuel0 res, (forall n f f2, n0 <= n -> fuel0 <= f -> fuel0 <= f2 -> exists m', irun m f2 (scan_all n f) = (m', Ok res) /\ same (contents m) (contents m')) /\
    found (contents m) (fun _ => true) res.
Proof. intros l m Hq Hu. apply (first_scan l); auto. Qed.
(** Scan of mvcc-dev-scale is exact if no matching key is smaller than what
    happens to be in [index_key]. *)
Theorem C49_scan_mvcc_partial : forall l m junk q, calmrun l m -> bounded q -> (c_eq q = true -> calm m) -> (c_eq q = false -> forall x, c_ok q x = true -> klt x junk = false) ->
  exists n0 fuel0 res, (forall n f f2, n0 <= n -> fuel0 <= f -> fuel0 <= f2 -> exists m', irun m f2 (scan_mvcc junk n f q) = (m', Ok res) /\ same (contents m) (contents m')) /\
    found (contents m) (c_ok q) res.
Proof.
  intros l m junk q Hq [Hb1 Hb2] Hc Hj. unfold scan_mvcc. destruct (c_eq q).
  - destruct (point l m (c_low q) (c_ok q) Hq (Hc eq_refl) (Hb2 eq_refl)) as (f0 & res & Hr & Hf). exists 0, f0, res. split; auto.
  - apply (lower_scan l); auto; discriminate.
Qed.
(** With other threads: whatever scan by iterators returns, it is the values of
    different pairs that match, in key order. *)
Theorem C49_scan_concurrent : forall tr ss (s : sys) n f k ok stop log res, exec tr ss s -> answered tr log ->
  follows (ibind (lower f k) (collect n f ok stop)) log res \/ follows (ibind begin_first (collect n f ok stop)) log res ->
  exists outs, ascending outs /\ NoDup outs /\ (forall x v, In (x, v) outs -> ok x = true) /\ res = map snd outs.
Proof.
  intros tr ss s n f k ok stop log res Hx Ha Hf.
  assert (H : exists outs, ascending outs /\ NoDup outs /\ res = map snd (keep ok outs)).
  { destruct Hf as [Hf|Hf]; apply follows_bind in Hf as (l1 & l2 & it & -> & F1 & F2); destruct (collect_follows _ _ _ _ _ _ _ F2) as (n' & outs & it' & Hw & ->); exists outs.
    - destruct (scan_key _ _ _ f n' k (l1 ++ l2) outs it' Hx Ha) as (A & B & _); [eapply follows_join; eauto|auto].
    - destruct (scan_first _ _ _ f n' (l1 ++ l2) outs it' Hx Ha) as (A & B); [eapply follows_join; eauto|auto]. }
  destruct H as (outs & A & B & ->). exists (keep ok outs). split; [apply asc_filter, A|]. split; [apply NoDup_filter, B|]. split; auto. intros x v Hi. apply filter_In in Hi. apply Hi.
Qed.
End C47.
Print Assumptions C47_unique.
Print Assumptions C48_cond_insert_partial.
Print Assumptions C49_scan_partial.
Print Assumptions C49_scan_ptr_partial.
Print Assumptions C49_scan_all_partial.
Print Assumptions C49_scan_mvcc_partial.
Print Assumptions C49_scan_concurrent.

(** * Counterexamples and examples *)
#[local] Existing Instance natP.
Definition one : list op := [OpIns 1 1].
(** C48 is false: a pair that is stored already, with a predicate that no
    stored value satisfies, fails the assertion of CondInsertEntry. *)
Theorem C48_refuted : exists (l : list (op * resp)) m k v pred, calmrun l m /\ contents m k v /\ (forall x, contents m k x -> pred x = false) /\
  exists f0, forall f, f0 <= f -> irun m f (cond_insert_entry k v pred) = (m, Er EAssert).
Proof.
  assert (E : match run_calm 20 one [] minit with
              | Some (l, m) => is_page (ro m (code 60 (OpPage 1))) (1, 1) = true /\ ro m (code 20 (@OpCond natP 1 1 (fun _ => false))) = Some (Ok (RCond false false))
              | None => False end) by (vm_compute; auto).
  destruct (run_calm 20 one [] minit) as [[l m]|] eqn:Er; [|destruct E]. destruct E as [E1 E2].
  assert (Hq : calmrun l m) by (apply (run_calm_ok 20 one [] minit); [constructor|exact Er]).
  exists l, m, 1, 1, (fun _ : @V natP => false). split; [exact Hq|]. split; [eapply page_contents; [apply calmrun_seqrun; exact Hq|exact E1]|]. split; [auto|].
  exists 20. intros f Hf. apply ro_ok in E2. unfold cond_insert_entry. cbn [irun]. rewrite (code_more 20 f _ _ _ _ Hf E2). reflexivity.
Qed.
Print Assumptions C48_refuted.
(** The Scan of mvcc-dev-scale misses what is below the garbage in [index_key]. *)
Definition all_keys : @query natP := @Build_query natP false 0 false (fun _ => true).
Theorem C49_mvcc_refuted : exists l m (junk : nat), calmrun l m /\ bounded all_keys /\ contents m 1 1 /\
  exists f0, forall n f f2, 1 <= n -> f0 <= f -> f0 <= f2 -> irun m f2 (scan_mvcc junk n f all_keys) = (m, Ok []).
Proof.
  assert (E : match run_calm 20 one [] minit with
              | Some (l, m) => is_page (ro m (code 60 (OpPage 1))) (1, 1) = true /\ ro m (code 20 (@OpPage natP 5)) = Some (Ok (RPage None [(1, 1)] None))
              | None => False end) by (vm_compute; auto).
  destruct (run_calm 20 one [] minit) as [[l m]|] eqn:Er; [|destruct E]. destruct E as [E1 E2].
  assert (Hq : calmrun l m) by (apply (run_calm_ok 20 one [] minit); [constructor|exact Er]).
  exists l, m, 5. split; [exact Hq|]. split; [split; discriminate|]. split; [eapply page_contents; [apply calmrun_seqrun; exact Hq|exact E1]|].
  exists 20. intros n f f2 Hn Hf Hf2. apply ro_ok in E2. unfold scan_mvcc. cbn [c_eq all_keys]. destruct f as [|f]; [lia|]. rewrite irun_bind. cbn [lower irun]. rewrite (code_more 20 f2 _ _ _ _ Hf2 E2).
  cbn [lower_bound irun]. destruct n as [|n]; [lia|]. reflexivity.
Qed.
Print Assumptions C49_mvcc_refuted.
(** ScanAllKeys reads outside the page buffer when the first page is empty
    (see C15). *)
Theorem C49_scan_all_refuted : exists l m, calmrun l m /\ (exists x v, contents m x v) /\ forall n f f2, 1 <= n -> irun m f2 (scan_all n f) = (m, Er ERange).
Proof.
  destruct C15_refuted as (l & m & it & Hq & Hc & Hb & He & Hd & _). exists l, m. split; auto. split; auto. intros n f f2 Hn. unfold scan_all. rewrite irun_bind, Hb. destruct n as [|n]; [lia|]. cbn [collect]. rewrite He, irun_bind, Hd. reflexivity.
Qed.
Print Assumptions C49_scan_all_refuted.

(** A state with several pages, and scans of it. *)
Definition stock : list op := map (fun i => OpIns i (200 + i)) (seq 1 150) ++ [OpIns 100 7; OpDel 101 301; OpPage 100].
Definition range (lo hi : nat) : @query natP := @Build_query natP true lo false (fun x => (lo <=? x) && (x <? hi)).
Definition exactly (k : nat) : @query natP := @Build_query natP true k true (fun x => x =? k).
Lemma range_bounded lo hi : bounded (range lo hi).
Proof. split; [|discriminate]. intros _ x Hx. cbn in Hx. apply andb_true_iff in Hx as [Hx _]. apply Nat.leb_le in Hx. apply Nat.ltb_ge. exact Hx. Qed.
Lemma exactly_bounded k : bounded (exactly k).
Proof. split; [intros _ x Hx; apply Nat.eqb_eq in Hx; subst; apply Nat.ltb_irrefl|intros _ x; apply Nat.eqb_eq]. Qed.
Example C49_example : exists l m, calmrun l m /\ calm m /\ begins m /\ bounded (range 98 103) /\ bounded (exactly 100) /\
  irun m 40 (scan 100 40 (range 98 103)) = (m, Ok [298; 299; 300; 7; 302]) /\
  irun m 40 (scan_ptr 100 40 (exactly 100)) = (m, Ok [300; 7]).
Proof.
  assert (E : match run_calm 40 stock [] minit with
              | Some (l, m) => calm_b m = true /\
                  match iro m 40 begin_first with Some (Ok it) => deref it = Ok (1, 201) | _ => False end /\
                  iro m 40 (scan 100 40 (range 98 103)) = Some (Ok [298; 299; 300; 7; 302]) /\
                  iro m 40 (scan_ptr 100 40 (exactly 100)) = Some (Ok [300; 7])
              | None => False end) by (vm_compute; auto).
  destruct (run_calm 40 stock [] minit) as [[l m]|] eqn:Er; [|destruct E]. destruct E as (E1 & E2 & E3 & E4).
  assert (Hq : calmrun l m) by (apply (run_calm_ok 40 stock [] minit); [constructor|exact Er]). exists l, m. split; [exact Hq|]. split; [destruct (calmrun_ready _ _ Hq) as (lev & H & R); apply calm_b_ok; [apply R|exact E1]|].
  split.
  { destruct (begin_scan l m Hq) as (it & Hb & _). exists it. split; [exact Hb|]. destruct (iro m 40 begin_first) as [[it'|]|] eqn:Ei; try contradiction. apply iro_ok in Ei. rewrite Hb in Ei. injection Ei as ->. right. exists (1, 201). exact E2. }
  split; [apply range_bounded|]. split; [apply exactly_bounded|].
  split; apply iro_ok; assumption.
Qed.
(** A primary key index: the insertion of thread 1, which had read the page
    before, is refused. *)
Definition once (v : nat) : op := @OpCond natP 5 v (fun _ => true).
Definition race : list cmd := [CCall 1 (once 2) 20; CStep 1 3; CCall 0 (once 1) 20; CStep 0 50; CRet 0; CStep 1 50; CRet 1; CCall 2 (OpPage 5) 20; CStep 2 50; CRet 2].
Example C47_example : exists tr ss (s : sys), exec tr ss s /\ (forall t o, In (ECall t o) tr -> primary o) /\
  In (ERet 0 (once 1) (RCond true false)) tr /\ In (ERet 1 (once 2) (RCond false true)) tr /\ In (ERet 2 (OpPage 5) (RPage None [(5, 1)] None)) tr.
Proof.
  exists (c_tr (play race)), (c_ss (play race)), (c_s (play race)). split; [apply play_exec|].
  let x := eval vm_compute in (c_tr (play race)) in replace (c_tr (play race)) with x by (vm_compute; reflexivity).
  split; [intros t o Hi; simpl in Hi; repeat (destruct Hi as [Hi|Hi]; [try discriminate; injection Hi as <- <-; simpl; auto|]); contradiction|].
  simpl. auto 25.
Qed.
