(** Theorems C63, C64: GetValue never returns what is not stored; the
    verification passes after the delete phases of the tests; GetValue while
    nobody updates the index. *)
From Coq Require Import List Arith ZArith NArith Lia Bool.
From Verif Require Import Base Inst Leaf LeafSpec Tree TreeSpec TreeRun BalanceSpec PrivateSpec MomentSpec Moment MomentPlay IterTest InsertTestSpec InsertTest Phantom IterPlay PropsTree PropsBalance PropsInsertTest Balance.
Import ListNotations.

(** C63.  In every execution (data updates above pending merges included) the
    values returned by GetValue were all stored at one moment between the call
    and the return, and none is returned twice. *)
Theorem C63_only_stored : forall {P : Params} tr ss s0 tr' ss' s t k l,
  exec tr ss s0 -> later s0 tr' ss' s -> call_in tr' t (OpGet k) (RVals l) ->
  exists s1, In s1 ss' /\ NoDup l /\ forall v, In v l -> contents (sm s1) k v.
Proof. intros P. exact get_only_stored. Qed.
Print Assumptions C63_only_stored.

(** C63.  A key without values to which nobody inserts is reported as absent. *)
Theorem C63_absent : forall {P : Params} tr ss s0 tr' ss' s t k l,
  exec tr ss s0 -> later s0 tr' ss' s -> (forall v, ~ contents (sm s0) k v) ->
  (forall v, ~ called s0 tr' (OpIns k v)) -> (forall v pr, ~ called s0 tr' (OpCond k v pr)) ->
  call_in tr' t (OpGet k) (RVals l) -> l = [].
Proof. intros P. exact absent_get. Qed.
Print Assumptions C63_absent.

(** C63.  Delete phases in general: if every value ever put in a call under the
    key is deleted (successfully or not, by any threads) after the last Insert
    under the key has ended, GetValue called after these Deletes returns
    nothing, whatever happens to other keys meanwhile. *)
Theorem C63_delete_get : forall {P : Params} tr ss s0 tr' ss' s1 tr'' ss'' s t k l,
  exec tr ss s0 -> later s0 tr' ss' s1 -> later s1 tr'' ss'' s ->
  (forall v, ~ called s0 (tr'' ++ tr') (OpIns k v)) -> (forall v pr, ~ called s0 (tr'' ++ tr') (OpCond k v pr)) ->
  (forall v, asked k v tr -> exists u r, call_in tr' u (OpDel k v) r) ->
  call_in tr'' t (OpGet k) (RVals l) -> l = [].
Proof.
  intros P tr ss s0 tr' ss' s1 tr'' ss'' s t k l Hx L1 L2 H1 H2 Hd. apply (delete_get _ _ _ _ _ _ _ _ _ _ _ _ Hx L1 L2 H1 H2).
  intros v Hv. apply Hd. eapply stored_asked; eauto.
Qed.
Print Assumptions C63_delete_get.

(** C63.  DeleteTest1 or DeleteTest2, then DeleteGetValueTest: its assertion
    (basic_test.cpp 98) holds. *)
Theorem C63_delete_get_value_test : forall vh ph, let P := longParams vh ph in forall tr ss s0 tr' ss' s1 tr'' ss'' s t (i : Z) l,
  exec tr ss s0 -> later s0 tr' ss' s1 -> later s1 tr'' ss'' s ->
  (forall v : Z, @asked P i v tr -> (i < v <= i + 4)%Z) ->
  (forall v : Z, (i < v <= i + 4)%Z -> exists u r, call_in tr' u (@OpDel P i v) r) ->
  (forall v : Z, ~ called s0 (tr'' ++ tr') (@OpIns P i v)) -> (forall (v : Z) pr, ~ called s0 (tr'' ++ tr') (@OpCond P i v pr)) ->
  call_in tr'' t (@OpGet P i) (@RVals P l) -> length l = 0.
Proof.
  intros vh ph P tr ss s0 tr' ss' s1 tr'' ss'' s t i l Hx L1 L2 Ha Hd H1 H2 Hc.
  rewrite (@C63_delete_get P tr ss s0 tr' ss' s1 tr'' ss'' s t i l Hx L1 L2 H1 H2); [reflexivity| |exact Hc].
  intros v Hv. apply Hd, Ha, Hv.
Qed.
Print Assumptions C63_delete_get_value_test.

(** C63.  MixedTest1, then MixedGetValueTest: every GetValue returns nothing, so
    value_count stays 0 (mixed_test.cpp 64). *)
Theorem C63_mixed_get_value_test : forall {P : Params} tr ss s0 tr' ss' s t k l,
  exec tr ss s0 -> quiet s0 -> later s0 tr' ss' s -> readers_only s0 tr' ->
  (forall k v, tries k v (visible tr) <= 1) ->
  (forall k v, 1 <= tries k v (visible tr) -> In (k, v) (dels (visible tr))) ->
  call_in tr' t (OpGet k) (RVals l) -> l = [].
Proof.
  intros P tr ss s0 tr' ss' s t k l Hx Hq Hl Hr H1 H2. apply (absent_get _ _ _ _ _ _ _ _ _ Hx Hl).
  - intros v. apply (C57_mixed_test _ _ _ Hx Hq H1 H2).
  - intros v C. apply Hr in C. exact C.
  - intros v pr C. apply Hr in C. exact C.
Qed.
Print Assumptions C63_mixed_get_value_test.

(** C64.  As long as nobody updates the index, GetValue returns only values
    stored under the key, each once; and all of them if the page of the key has
    no update above an unconsolidated merge.  The full statement (without this
    condition) is false, see [C64_at_rest_refuted]. *)
Theorem C64_at_rest_partial : forall {P : Params} tr ss s0 tr' ss' s t k l,
  exec tr ss s0 -> later s0 tr' ss' s -> readers_only s0 tr' -> call_in tr' t (OpGet k) (RVals l) ->
  NoDup l /\ (forall v, In v l -> contents (sm s0) k v) /\
  ((forall s1, In s1 ss' -> page_clean (sm s1) k) -> forall v, contents (sm s0) k v -> In v l).
Proof.
  intros P tr ss s0 tr' ss' s t k l Hx Hl Hr Hc. destruct (moment_at _ _ _ _ _ _ _ _ _ Hx Hl Hc) as (s1 & s2 & M & He).
  assert (Hi : In s1 ss') by (destruct M as [[_ M]|(a & b & ->)]; [exact M|apply in_or_app; right; right; left; auto]).
  pose proof (readers_same _ _ _ _ _ _ Hx Hl Hr s1 Hi) as Hs. destruct (He false) as [[_ [Hn Hv]] _]; [discriminate|].
  split; [exact Hn|]. split; [intros v H; apply Hs, Hv, H|]. intros Hp v C.
  destruct (He true (fun _ => Hp s1 Hi)) as [[G _] _]. apply G; [reflexivity|]. apply Hs, C.
Qed.
Print Assumptions C64_at_rest_partial.

(** * Concrete executions *)
(** While thread 0 is merging the page and thread 1 has inserted above the
    merge (the situation in which GetValue can miss values, C58_get_refuted),
    thread 3 reads key 20; a value is deleted after its first step. *)
Definition above_merge : list cmd :=
  ins 1 136 ++ del 97 40 ++ [CCall 0 (@OpDel natP 65 1) 40; CStep 0 15] ++ whole 1 (@OpIns natP 20 2).
Definition read_20 : list cmd := [CCall 3 (@OpGet natP 20) 40; CStep 3 1] ++ whole 2 (@OpDel natP 20 1) ++ [CStep 3 400; CRet 3].
Definition s_above : sys := c_s (play above_merge).
Lemma above_from (c0 : conf) (s0 : sys) (c : conf) : exec (c_tr c0) (c_ss c0) s0 -> later s0 (c_tr c) (c_ss c) (c_s c) -> running s0 3 = None ->
  returns 3 (c_tr c) = [(@OpGet natP 20, @RVals natP [2])] ->
  exists tr ss s0 tr' ss' s1 s t, exec tr ss s0 /\ later s0 tr' ss' s /\
  call_in tr' t (@OpGet natP 20) (@RVals natP [2]) /\ In s1 ss' /\ @contents natP (sm s1) 20 2.
Proof.
  intros Hx Hl H3 E. pose proof (returns_calls _ _ _ _ _ Hl H3) as Hc. rewrite E in Hc. destruct (Hc _ _ (or_introl eq_refl)) as [t Ht].
  destruct (@C63_only_stored natP _ _ _ _ _ _ _ _ _ Hx Hl Ht) as (s1 & Hi & _ & Hv).
  exists (c_tr c0), (c_ss c0), s0, (c_tr c), (c_ss c), s1, (c_s c), t.
  split; [exact Hx|]. split; [exact Hl|]. split; [exact Ht|]. split; [exact Hi|]. apply Hv. left. reflexivity.
Qed.
Example C63_only_stored_example : exists tr ss s0 tr' ss' s1 s t, exec tr ss s0 /\ later s0 tr' ss' s /\
  call_in tr' t (@OpGet natP 20) (@RVals natP [2]) /\ In s1 ss' /\ @contents natP (sm s1) 20 2.
Proof.
  apply (above_from (play above_merge) s_above (play_on s_above read_20)).
  - exact (play_exec above_merge).
  - exact (play_later s_above read_20).
  - vm_compute. reflexivity.
  - vm_compute. reflexivity.
Qed.

(** C03_get_moment_partial: while key 66 is missed in this way, key 200, which
    belongs to another page, is read exactly. *)
Lemma inb_true {P : Params} (c : lchain) (k : K) : in_range c k -> Stuck.inb c k = true.
Proof.
  unfold in_range, Stuck.inb, above, below. intros [H1 H2]. apply andb_true_iff. split; [destruct (llow c); [rewrite H1|]; reflexivity|].
  destruct (lhigh c) as [[x n]|]; [exact H2|reflexivity].
Qed.
Definition page_cleanb (m : mem) (k : nat) : bool :=
  forallb (fun i => match node_of m i with Some (NLeaf c) => negb (@Stuck.inb natP c k) || cleanb c | _ => true end) (seq 0 (nid m)).
Lemma page_cleanb_ok m (k : nat) : TreeInv.mbound m -> page_cleanb m k = true -> @page_clean natP m k.
Proof.
  intros Hb H i c _ E Hr. unfold page_cleanb in H. rewrite forallb_forall in H.
  destruct (TreeInv.node_of_get m i (NLeaf c)) as (G & _). destruct (G E) as (p & Ep). apply TreeInv.get_tab in Ep.
  destruct (TreeInv.b_tab m Hb _ _ (proj1 Ep)) as (Hi & _).
  specialize (H i). rewrite E, (@inb_true natP c k Hr) in H. apply cleanb_ok. apply H, in_seq. lia.
Qed.
Definition two_pages : list cmd :=
  ins 1 300 ++ del 97 32 ++ [CCall 0 (@OpDel natP 65 1) 40; CStep 0 15] ++ whole 1 (@OpIns natP 20 2).
Definition s_two : sys := c_s (play two_pages).
Definition read_two : list cmd := [CCall 2 (@OpGet natP 200) 40; CStep 2 1] ++ whole 3 (@OpGet natP 66) ++ [CStep 2 400; CRet 2].
Lemma two_from (c0 : @conf natP) (s0 : sys) (c : conf) : exec (c_tr c0) (c_ss c0) s0 -> later s0 (c_tr c) (c_ss c) (c_s c) ->
  running s0 2 = None -> running s0 3 = None -> stored 20 (sm s0) FIRST_LEAF 66 1 = true ->
  forallb (fun s => page_cleanb (sm s) 200) (c_ss c) = true ->
  returns 2 (c_tr c) = [(@OpGet natP 200, @RVals natP [1])] -> returns 3 (c_tr c) = [(@OpGet natP 66, @RVals natP [])] ->
  exists tr ss s0 tr' ss' s t u, exec tr ss s0 /\ later s0 tr' ss' s /\ (forall s1, In s1 ss' -> @page_clean natP (sm s1) 200) /\
    call_in tr' t (@OpGet natP 200) (@RVals natP [1]) /\ @contents natP (sm s0) 66 1 /\ call_in tr' u (@OpGet natP 66) (@RVals natP []).
Proof.
  intros Hx Hl H2 H3 Hs Hp E2 E3. pose proof (returns_calls _ _ _ _ 2 Hl H2) as C2. rewrite E2 in C2. destruct (C2 _ _ (or_introl eq_refl)) as [t Ht].
  pose proof (returns_calls _ _ _ _ 3 Hl H3) as C3. rewrite E3 in C3. destruct (C3 _ _ (or_introl eq_refl)) as [u Hu].
  exists (c_tr c0), (c_ss c0), s0, (c_tr c), (c_ss c), (c_s c), t, u. split; [exact Hx|]. split; [exact Hl|]. split; [|split; [exact Ht|split; [|exact Hu]]].
  - intros s1 Hi. rewrite forallb_forall in Hp. destruct (later_from _ _ _ _ Hl s1 Hi) as (a & b & ss1 & ss2 & _ & L & _). destruct (exec_later _ _ _ Hx _ _ _ L) as (ss3 & Hx3).
    destruct (TreeLin.exec_wok _ _ _ Hx3) as (w & E & Hw). apply page_cleanb_ok; [rewrite <- E; apply Hw|apply Hp, Hi].
  - apply (@stored_ok natP 20 (sm s0) 66 1 FIRST_LEAF); [constructor|exact Hs].
Qed.
Example C03_page_example : exists tr ss s0 tr' ss' s t u, exec tr ss s0 /\ later s0 tr' ss' s /\ (forall s1, In s1 ss' -> @page_clean natP (sm s1) 200) /\
    call_in tr' t (@OpGet natP 200) (@RVals natP [1]) /\ @contents natP (sm s0) 66 1 /\ call_in tr' u (@OpGet natP 66) (@RVals natP []).
Proof.
  apply (two_from (play two_pages) s_two (play_on s_two read_two)).
  - exact (play_exec two_pages).
  - exact (play_later s_two read_two).
  - vm_compute. reflexivity.
  - vm_compute. reflexivity.
  - vm_compute. reflexivity.
  - vm_compute. reflexivity.
  - vm_compute. reflexivity.
  - vm_compute. reflexivity.
Qed.

(** MixedTest1, then readers only. *)
Definition mixed_read : list cmd := [CCall 3 (@OpGet natP 2) 40; CStep 3 1] ++ whole 2 (@OpGet natP 4) ++ [CStep 3 400; CRet 3].
Definition readsb {P : Params} (tr : list event) : bool :=
  forallb (fun e => match e with ECall _ (OpIns _ _) | ECall _ (OpDel _ _) | ECall _ (OpCond _ _ _) => false | _ => true end) tr.
Lemma readsb_ok {P : Params} s0 tr : quiet s0 -> readsb tr = true -> readers_only s0 tr.
Proof.
  unfold readsb. rewrite forallb_forall. intros Hq H o [(t & p & C)|[t C]]; [rewrite Hq in C; discriminate|]. apply H in C. destruct o; simpl; auto; discriminate.
Qed.
(** The run of C57_mixed_example, then two readers at once. *)
Lemma mixed_from (c0 : @conf natP) (s0 : sys) (c : conf) : exec (c_tr c0) (c_ss c0) s0 -> quiet s0 -> later s0 (c_tr c) (c_ss c) (c_s c) ->
  three (visible (c_tr c0)) = true -> readsb (c_tr c) = true ->
  match returns 3 (c_tr c) with [(OpGet k, RVals l)] => Nat.eqb k 2 | _ => false end = true ->
  exists tr ss s0 tr' ss' s t l, @exec natP tr ss s0 /\ quiet s0 /\ later s0 tr' ss' s /\ readers_only s0 tr' /\
  (forall k v, tries k v (visible tr) <= 1) /\ (forall k v, 1 <= tries k v (visible tr) -> In (k, v) (dels (visible tr))) /\
  call_in tr' t (@OpGet natP 2) (@RVals natP l) /\ l = [].
Proof.
  intros Hx Hq Hl H3 Hr E. apply three_ok in H3. destruct H3 as (H1 & H2). pose proof (readsb_ok _ _ Hq Hr) as Ho.
  pose proof (returns_calls _ _ _ _ 3 Hl (Hq 3)) as Hc. destruct (returns 3 (c_tr c)) as [|[[| | |k| | |] [| |l|]] [|]]; try discriminate. apply Nat.eqb_eq in E. subst k.
  destruct (Hc _ _ (or_introl eq_refl)) as [t Ht]. exists (c_tr c0), (c_ss c0), s0, (c_tr c), (c_ss c), (c_s c), t, l.
  split; [exact Hx|]. split; [exact Hq|]. split; [exact Hl|]. split; [exact Ho|]. split; [exact H1|]. split; [exact H2|]. split; [exact Ht|].
  exact (C63_mixed_get_value_test _ _ _ _ _ _ _ _ _ Hx Hq Hl Ho H1 H2 Ht).
Qed.
Definition s_mixed : @sys natP := c_s (play mixed).
Example C63_mixed_example : exists tr ss s0 tr' ss' s t l, @exec natP tr ss s0 /\ quiet s0 /\ later s0 tr' ss' s /\ readers_only s0 tr' /\
  (forall k v, tries k v (visible tr) <= 1) /\ (forall k v, 1 <= tries k v (visible tr) -> In (k, v) (dels (visible tr))) /\
  call_in tr' t (@OpGet natP 2) (@RVals natP l) /\ l = [].
Proof.
  assert (Hx : exec (c_tr (play mixed)) (c_ss (play mixed)) s_mixed) by exact (play_exec mixed).
  apply (mixed_from (play mixed) s_mixed (play_on s_mixed mixed_read)).
  - exact Hx.
  - apply (quietb_ok _ _ _ Hx). vm_compute. reflexivity.
  - exact (play_later s_mixed mixed_read).
  - vm_compute. reflexivity.
  - vm_compute. reflexivity.
  - vm_compute. reflexivity.
Qed.

(** C64 is false: all threads have finished, and one value is missed.  If the thread that posts
    the merge delta cannot replace the page because another thread has inserted
    into it, the update stays above the merge; afterwards, with no call
    running, GetValue of a stored pair returns nothing, and Insert of the pair
    returns false. *)
Definition at_rest : list cmd := two_pages ++ [CStep 0 400; CRet 0].
Definition s_rest : @sys natP := c_s (play at_rest).
Definition read_rest : list cmd := whole 2 (@OpGet natP 66) ++ whole 3 (@OpGet natP 66).
Definition s_read : @sys natP := c_s (play_on s_rest read_rest).
Lemma rest_from (c0 : @conf natP) (s0 : sys) (c1 : conf) (s1 : sys) (c2 : conf) : exec (c_tr c0) (c_ss c0) s0 -> quiet s0 -> later s0 (c_tr c1) (c_ss c1) s1 ->
  later s1 (c_tr c2) (c_ss c2) (c_s c2) -> quiet s1 -> stored 20 (sm s0) FIRST_LEAF 66 1 = true -> readsb (c_tr c1) = true ->
  returns 3 (c_tr c1) = [(@OpGet natP 66, @RVals natP [])] -> returns 1 (c_tr c2) = [(@OpIns natP 66 1, RBool false)] ->
  exists tr ss s0 tr1 ss1 s1 tr2 ss2 s2 t u k v, @exec natP tr ss s0 /\ quiet s0 /\ contents (sm s0) k v /\
    later s0 tr1 ss1 s1 /\ readers_only s0 tr1 /\ call_in tr1 t (OpGet k) (RVals []) /\
    later s1 tr2 ss2 s2 /\ quiet s1 /\ call_in tr2 u (OpIns k v) (RBool false).
Proof.
  intros Hx Hq L1 L2 Hq1 Hs Hr E1 E2. pose proof (returns_calls _ _ _ _ 3 L1 (Hq 3)) as C1. rewrite E1 in C1. destruct (C1 _ _ (or_introl eq_refl)) as [t Ht].
  pose proof (returns_calls _ _ _ _ 1 L2 (Hq1 1)) as C2. rewrite E2 in C2. destruct (C2 _ _ (or_introl eq_refl)) as [u Hu].
  exists (c_tr c0), (c_ss c0), s0, (c_tr c1), (c_ss c1), s1, (c_tr c2), (c_ss c2), (c_s c2), t, u, 66, 1.
  split; [exact Hx|]. split; [exact Hq|]. split; [apply (@stored_ok natP 20 (sm s0) 66 1 FIRST_LEAF); [constructor|exact Hs]|].
  split; [exact L1|]. split; [apply readsb_ok; assumption|]. split; [exact Ht|]. split; [exact L2|]. split; [exact Hq1|exact Hu].
Qed.
Theorem C64_at_rest_refuted : exists tr ss s0 tr1 ss1 s1 tr2 ss2 s2 t u k v, @exec natP tr ss s0 /\ quiet s0 /\ contents (sm s0) k v /\
    later s0 tr1 ss1 s1 /\ readers_only s0 tr1 /\ call_in tr1 t (OpGet k) (RVals []) /\
    later s1 tr2 ss2 s2 /\ quiet s1 /\ call_in tr2 u (OpIns k v) (RBool false).
Proof.
  assert (Hx : exec (c_tr (play at_rest)) (c_ss (play at_rest)) s_rest) by exact (play_exec at_rest).
  assert (L1 : later s_rest (c_tr (play_on s_rest read_rest)) (c_ss (play_on s_rest read_rest)) s_read) by exact (play_later s_rest read_rest).
  assert (Hx1 : exists ss, exec (c_tr (play_on s_rest read_rest) ++ c_tr (play at_rest)) ss s_read) by exact (exec_later _ _ _ Hx _ _ _ L1).
  destruct Hx1 as [ssx Hx1].
  apply (rest_from (play at_rest) s_rest (play_on s_rest read_rest) s_read (play_on s_read (whole 1 (@OpIns natP 66 1)))).
  - exact Hx.
  - apply (quietb_ok _ _ _ Hx). vm_compute. reflexivity.
  - exact L1.
  - exact (play_later s_read (whole 1 (@OpIns natP 66 1))).
  - apply (quietb_ok _ _ _ Hx1). vm_compute. reflexivity.
  - vm_compute. reflexivity.
  - vm_compute. reflexivity.
  - vm_compute. reflexivity.
  - vm_compute. reflexivity.
Qed.
Print Assumptions C64_at_rest_refuted.

(** C64_at_rest_partial: in the same state key 200 is read exactly. *)
Definition read_200 : list cmd := [CCall 2 (@OpGet natP 200) 40; CStep 2 1] ++ whole 3 (@OpGet natP 66) ++ [CStep 2 400; CRet 2].
Lemma rest_200 (c0 : @conf natP) (s0 : sys) (c : conf) : exec (c_tr c0) (c_ss c0) s0 -> quiet s0 -> later s0 (c_tr c) (c_ss c) (c_s c) ->
  readsb (c_tr c) = true -> forallb (fun s => page_cleanb (sm s) 200) (c_ss c) = true -> returns 2 (c_tr c) = [(@OpGet natP 200, @RVals natP [1])] ->
  exists tr ss s0 tr' ss' s t, @exec natP tr ss s0 /\ quiet s0 /\ later s0 tr' ss' s /\ readers_only s0 tr' /\
    (forall s1, In s1 ss' -> @page_clean natP (sm s1) 200) /\ call_in tr' t (@OpGet natP 200) (@RVals natP [1]) /\ @contents natP (sm s0) 200 1.
Proof.
  intros Hx Hq Hl Hr Hp E. pose proof (returns_calls _ _ _ _ 2 Hl (Hq 2)) as C. rewrite E in C. destruct (C _ _ (or_introl eq_refl)) as [t Ht].
  pose proof (readsb_ok _ _ Hq Hr) as Ho. exists (c_tr c0), (c_ss c0), s0, (c_tr c), (c_ss c), (c_s c), t.
  split; [exact Hx|]. split; [exact Hq|]. split; [exact Hl|]. split; [exact Ho|]. split; [|split; [exact Ht|]].
  - intros s1 Hi. rewrite forallb_forall in Hp. destruct (later_from _ _ _ _ Hl s1 Hi) as (a & b & ss1 & ss2 & _ & L & _). destruct (exec_later _ _ _ Hx _ _ _ L) as (ss3 & Hx3).
    destruct (TreeLin.exec_wok _ _ _ Hx3) as (w & E' & Hw). apply page_cleanb_ok; [rewrite <- E'; apply Hw|apply Hp, Hi].
  - apply (@C64_at_rest_partial natP _ _ _ _ _ _ _ _ _ Hx Hl Ho Ht). left. reflexivity.
Qed.
Example C64_at_rest_example : exists tr ss s0 tr' ss' s t, @exec natP tr ss s0 /\ quiet s0 /\ later s0 tr' ss' s /\ readers_only s0 tr' /\
    (forall s1, In s1 ss' -> @page_clean natP (sm s1) 200) /\ call_in tr' t (@OpGet natP 200) (@RVals natP [1]) /\ @contents natP (sm s0) 200 1.
Proof.
  assert (Hx : exec (c_tr (play at_rest)) (c_ss (play at_rest)) s_rest) by exact (play_exec at_rest).
  apply (rest_200 (play at_rest) s_rest (play_on s_rest read_200)).
  - exact Hx.
  - apply (quietb_ok _ _ _ Hx). vm_compute. reflexivity.
  - exact (play_later s_rest read_200).
  - vm_compute. reflexivity.
  - vm_compute. reflexivity.
  - vm_compute. reflexivity.
Qed.

(** C64.  In the same state GetValue of another stored pair searches between
    two positions in the wrong order, that is, outside of the page. *)
Definition read_30 : list cmd := [CCall 2 (@OpGet natP 30) 40; CStep 2 100].
Lemma rest_30 (c0 : @conf natP) (s0 : sys) (c : conf) : exec (c_tr c0) (c_ss c0) s0 -> quiet s0 -> later s0 (c_tr c) (c_ss c) (c_s c) ->
  readsb (c_tr c) = true -> stored 20 (sm s0) FIRST_LEAF 30 1 = true -> running (c_s c) 2 = Some (@OpGet natP 30, Err ERange) ->
  exists tr ss s0 tr' ss' s t k v, @exec natP tr ss s0 /\ quiet s0 /\ contents (sm s0) k v /\ later s0 tr' ss' s /\ readers_only s0 tr' /\
    running s t = Some (OpGet k, Err ERange).
Proof.
  intros Hx Hq Hl Hr Hs E. exists (c_tr c0), (c_ss c0), s0, (c_tr c), (c_ss c), (c_s c), 2, 30, 1.
  split; [exact Hx|]. split; [exact Hq|]. split; [apply (@stored_ok natP 20 (sm s0) 30 1 FIRST_LEAF); [constructor|exact Hs]|].
  split; [exact Hl|]. split; [apply readsb_ok; assumption|exact E].
Qed.
Theorem C64_out_of_range_refuted : exists tr ss s0 tr' ss' s t k v, @exec natP tr ss s0 /\ quiet s0 /\ contents (sm s0) k v /\ later s0 tr' ss' s /\ readers_only s0 tr' /\
    running s t = Some (OpGet k, Err ERange).
Proof.
  assert (Hx : exec (c_tr (play at_rest)) (c_ss (play at_rest)) s_rest) by exact (play_exec at_rest).
  apply (rest_30 (play at_rest) s_rest (play_on s_rest read_30)).
  - exact Hx.
  - apply (quietb_ok _ _ _ Hx). vm_compute. reflexivity.
  - exact (play_later s_rest read_30).
  - vm_compute. reflexivity.
  - vm_compute. reflexivity.
  - vm_compute. reflexivity.
Qed.
Print Assumptions C64_out_of_range_refuted.

(** DeleteTest2 with two threads after the InsertTest2 of C62_basic_example;
    pages are merged; the reader overlaps an Insert of another key. *)
#[local] Existing Instance exP.
Local Notation Del i v := (@OpDel exP i v).
Definition four_off (i : Z) : list op := [Del i (i + 1); Del i (i + 2); Del i (i + 3); Del i (i + 4)]%Z.
Definition delete_race : list cmd :=
  flat_map (fun i => let z := Z.of_nat (2 * i) in
    flat_map (fun x => [CCall 0 (fst x) 40; CStep 0 2] ++ whole 1 (snd x) ++ [CStep 0 400; CRet 0]) (combine (four_off z) (four_off (z + 1)))) (seq 0 40).
Definition s_del : sys := c_s (play_on s_basic delete_race).
Definition del_read : list cmd := [CCall 2 (@OpGet exP 33)%Z 40; CStep 2 1] ++ whole 0 (@OpIns exP 1000 1001)%Z ++ [CStep 2 400; CRet 2].
(** The conditions about key [i] on the three parts. *)
Definition keyb (i : Z) (tr : list event) : bool :=
  forallb (fun e => match e with ECall _ (OpIns k v) | ECall _ (OpDel k v) | ECall _ (OpCond k v _) => negb (Z.eqb k i) || (Z.ltb i v && Z.leb v (i + 4)) | _ => true end) tr.
Definition offb (i : Z) (tr : list event) : bool :=
  forallb (fun e => match e with ECall _ (OpIns k _) | ECall _ (OpCond k _ _) => negb (Z.eqb k i) | _ => true end) tr.
Definition hasb (i : Z) (l : list (op * resp)) : bool :=
  forallb (fun v => existsb (fun x => match fst x with OpDel k w => Z.eqb k i && Z.eqb w (i + v) | _ => false end) l) [1; 2; 3; 4]%Z.
Lemma keyb_ok i tr : keyb i tr = true -> forall v : Z, @asked exP i v tr -> (i < v <= i + 4)%Z.
Proof.
  unfold keyb. rewrite forallb_forall. intros H v (t & o & Ho & E). apply H in Ho.
  destruct o; try discriminate; injection E as -> ->; rewrite Z.eqb_refl in Ho; cbn [negb orb] in Ho; rewrite andb_true_iff, Z.ltb_lt, Z.leb_le in Ho; lia.
Qed.
Lemma offb_ok i tr s0 : quiet s0 -> offb i tr = true -> (forall v : Z, ~ called s0 tr (@OpIns exP i v)) /\ (forall (v : Z) pr, ~ called s0 tr (@OpCond exP i v pr)).
Proof.
  unfold offb. rewrite forallb_forall. intros Hq H. split; [intros v [(t & p & C)|[t C]]|intros v pr [(t & p & C)|[t C]]];
    try (rewrite Hq in C; discriminate); apply H in C; rewrite Z.eqb_refl in C; discriminate.
Qed.
Lemma hasb_ok i l tr : calls_in tr l -> hasb i l = true -> forall v : Z, (i < v <= i + 4)%Z -> exists u r, call_in tr u (@OpDel exP i v) r.
Proof.
  unfold hasb. rewrite forallb_forall. intros Hc H v Hv. assert (Hi : In (v - i)%Z [1; 2; 3; 4]%Z) by (simpl; lia). apply H in Hi.
  apply existsb_exists in Hi as ([o r] & Hx & Hb). cbn [fst] in Hb. destruct o as [|k w| | | | |]; try discriminate. rewrite andb_true_iff, !Z.eqb_eq in Hb. destruct Hb as [-> Hb].
  replace (i + (v - i))%Z with v in Hb by lia. subst w. destruct (Hc _ _ Hx) as [u Hu]. exists u, r. exact Hu.
Qed.
Lemma delete_from (c0 c1 c2 : conf) (s0 s1 : sys) : exec (c_tr c0) (c_ss c0) s0 -> quiet s0 -> later s0 (c_tr c1) (c_ss c1) s1 -> later s1 (c_tr c2) (c_ss c2) (c_s c2) ->
  running s1 2 = None -> keyb 33 (c_tr c0) && offb 33 (c_tr c2 ++ c_tr c1) && hasb 33 (returns 1 (c_tr c1)) = true ->
  match returns 2 (c_tr c2) with [(OpGet k, RVals l)] => Z.eqb k 33 | _ => false end = true ->
  exists tr ss s0 tr' ss' s1 tr'' ss'' s t l, exec tr ss s0 /\ later s0 tr' ss' s1 /\ later s1 tr'' ss'' s /\
    (forall v : Z, @asked exP 33%Z v tr -> (33 < v <= 33 + 4)%Z) /\ (forall v : Z, (33 < v <= 33 + 4)%Z -> exists u r, call_in tr' u (Del 33%Z v) r) /\
    (forall v : Z, ~ called s0 (tr'' ++ tr') (@OpIns exP 33%Z v)) /\ (forall (v : Z) pr, ~ called s0 (tr'' ++ tr') (@OpCond exP 33%Z v pr)) /\
    call_in tr'' t (@OpGet exP 33%Z) (@RVals exP l) /\ length l = 0.
Proof.
  intros Hx Hq L1 L2 H2 H E. rewrite !andb_true_iff in H. destruct H as [[Ha Ho] Hh]. pose proof (keyb_ok _ _ Ha) as Hk. destruct (offb_ok _ _ _ Hq Ho) as [O1 O2].
  pose proof (hasb_ok _ _ _ (returns_calls _ _ _ _ 1 L1 (Hq 1)) Hh) as Hd.
  pose proof (returns_calls _ _ _ _ _ L2 H2) as Hc. destruct (returns 2 (c_tr c2)) as [|[[| | |k| | |] [| |l|]] [|]]; try discriminate. apply Z.eqb_eq in E. subst k.
  destruct (Hc _ _ (or_introl eq_refl)) as [t Ht]. exists (c_tr c0), (c_ss c0), s0, (c_tr c1), (c_ss c1), s1, (c_tr c2), (c_ss c2), (c_s c2), t, l.
  split; [exact Hx|]. split; [exact L1|]. split; [exact L2|]. split; [exact Hk|]. split; [exact Hd|]. split; [exact O1|]. split; [exact O2|]. split; [exact Ht|].
  exact (C63_delete_get_value_test vh0 ph0 _ _ _ _ _ _ _ _ _ t 33%Z l Hx L1 L2 Hk Hd O1 O2 Ht).
Qed.
Example C63_delete_example : exists tr ss s0 tr' ss' s1 tr'' ss'' s t l, exec tr ss s0 /\ later s0 tr' ss' s1 /\ later s1 tr'' ss'' s /\
    (forall v : Z, @asked exP 33%Z v tr -> (33 < v <= 33 + 4)%Z) /\ (forall v : Z, (33 < v <= 33 + 4)%Z -> exists u r, call_in tr' u (Del 33%Z v) r) /\
    (forall v : Z, ~ called s0 (tr'' ++ tr') (@OpIns exP 33%Z v)) /\ (forall (v : Z) pr, ~ called s0 (tr'' ++ tr') (@OpCond exP 33%Z v pr)) /\
    call_in tr'' t (@OpGet exP 33%Z) (@RVals exP l) /\ length l = 0.
Proof.
  assert (Hx : exec (c_tr (play basic_race)) (c_ss (play basic_race)) s_basic) by exact (play_exec basic_race).
  apply (delete_from (play basic_race) (play_on s_basic delete_race) (play_on s_del del_read) s_basic s_del).
  - exact Hx.
  - apply (quietb_ok _ _ _ Hx). vm_compute. reflexivity.
  - exact (play_later s_basic delete_race).
  - exact (play_later s_del del_read).
  - vm_compute. reflexivity.
  - vm_compute. reflexivity.
  - vm_compute. reflexivity.
Qed.
