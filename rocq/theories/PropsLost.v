(** A split that is never finished: calls that never return (C42), calls that
    use a released page (C54), and a page that ~BwTree does not free (C36). *)
From Coq Require Import List Arith Lia Bool NArith.
From Verif Require Import Base Leaf LeafSpec Inner Tree TreeSpec TreeFast ProgressSpec Progress PropsStale Stuck LinkSpec FateSpec ReleaseSpec ReleaseLift Free FreeSpec FreeFast.
Import ListNotations.

#[local] Existing Instance binP.
(** A tree with two inner pages P1 (keys below 4097) and P2 under the root.
    Thread 1 begins an Insert of 4050, has read P1, and is suspended before it
    reads the leaf page x, whose keys are 4033 to 4096.  Thread 0 deletes keys
    of P2 until P2 is merged into P1, and then keys of the leaf page right of x
    until that page is merged into x.  It inserts again until x has 128 pairs,
    and begins one more Insert, which splits x at 4097 and is suspended before it
    tells the parent.  Thread 1 goes on: it finds x split, but 4097 is not below
    the high key that P1 had when thread 1 read it, so it takes the separator to
    be there already and ignores the split (FinishPartialSMO 6193-6218); it
    inserts its pair above the split node.  Thread 0 goes on and finds an insert
    node on top of x.  Both calls return.  Then thread 0 deletes keys of x until
    x is merged into its left neighbour and taken out of P1, where the key range
    of the new right half still leads to x. *)
Definition lost : list fcmd :=
  fins 1 (84 * 100) ++ [FCall true (OpIns 4050%N 2%N) 40; FStep true 3] ++ fdel (42 * 100) 2440 ++ fdel 4097 44 ++ fins 4097 44 ++
  [FCall false (OpIns 4097%N 3%N) 40; FStep false 7; FStep true 400; FRet true; FStep false 400; FRet false] ++ fdel 4033 40.

(** No call is in progress, [(k, v)] is stored, no call of [k] returns. *)
Definition all_stuck (s : fsys) (k : K) (v : V) (f0 f1 n : nat) : bool :=
  match g_run s true, g_run s false with None, None => true | _, _ => false end &&
  fstored n (g_mem s) FIRST_LEAF k v && fvain (g_mem s) (fun f => attempt kge inavigate f k) f0 && fvain (g_mem s) (attempt_ro k) f1.
(** Page [i], whose entry is [q], has been taken out, by the node [d]. *)
Definition cutb (s : fsys) (d : N) (i : nat) (q : N) : bool :=
  match hget (f_heap (g_mem s)) d with Some (NInner (IDel (_, j) _ _ _ _)) => j =? i | _ => false end &&
  match pget (f_tab (g_mem s)) i with Some q' => N.eqb q' q | None => false end.
Lemma cutb_ok s d i q : cutb s d i q = true -> forall m, rep (g_mem s) m -> cut m i /\ tab m i = Some q.
Proof.
  intros H m [H1 _ H2 _ _]. unfold cutb in H. apply andb_true_iff in H as [A B]. rewrite H1 in A. rewrite H2 in B. split.
  - destruct (heap m d) as [[|[| |[kk j]| | | |]]|] eqn:E; try discriminate. apply Nat.eqb_eq in A. subst j. exists d. eexists. split; [exact E|reflexivity].
  - destruct (tab m i) as [q'|]; [|discriminate]. apply N.eqb_eq in B. congruence.
Qed.
(** After [n] steps of a call of [o] thread 0 is about to load page [i]. *)
Definition called_at (s : fsys) (o : op) (n : nat) : fsys := fold_left fdo [FCall false o 40; FStep false n] s.
Definition loadsb (s : fsys) (o : op) (n i : nat) (q : N) (k : K) (v : V) : bool :=
  let s' := called_at s o n in
  match g_run s' false with Some (_, PLoad j _) => j =? i | _ => false end &&
  match g_run s' true with None => true | _ => false end &&
  match pget (f_tab (g_mem s')) i with Some q' => N.eqb q' q | None => false end &&
  fstored 200 (g_mem s') FIRST_LEAF k v.
Definition lost_case (s : fsys) : bool :=
  all_stuck s 4100%N 1%N 3 3 200 && cutb s 13089 65 13087 && leavesb (g_mem s) 300 200 4100%N 1%N &&
  forallb (fun o => loadsb s o 3 65 13087 4100%N 1%N) [OpGet 4100%N; OpIns 4100%N 2%N; OpDel 4100%N 1%N; OpPage 4100%N].
Lemma lost_checked : lost_case (fplay lost) = true.
Proof. vm_compute. reflexivity. Qed.

Lemma lost_parts s : lost_case s = true -> all_stuck s 4100%N 1%N 3 3 200 = true /\ cutb s 13089 65 13087 = true /\ leavesb (g_mem s) 300 200 4100%N 1%N = true /\
  forall o, In o [OpGet 4100%N; OpIns 4100%N 2%N; OpDel 4100%N 1%N; OpPage 4100%N] -> loadsb s o 3 65 13087 4100%N 1%N = true.
Proof.
  unfold lost_case. intros H. apply andb_true_iff in H as [H L]. apply andb_true_iff in H as [H F]. apply andb_true_iff in H as [H C]. split; [exact H|]. split; [exact C|]. split; [exact F|]. rewrite forallb_forall in L. exact L.
Qed.
Lemma all_stuck_ok s k v f0 f1 n : freaches s -> all_stuck s k v f0 f1 n = true ->
  exists tr ss (s : sys) k v, exec tr ss s /\ (forall u, running s u = None) /\ contents (sm s) k v /\
    forall t, ~ returns_alone s t (OpGet k) /\ forall w, ~ returns_alone s t (OpIns k w) /\ ~ returns_alone s t (OpDel k w).
Proof.
  intros (tr & ss & s' & Hx & Hr & Hg & Hz) H. unfold all_stuck in H. apply andb_true_iff in H as [H H4]. apply andb_true_iff in H as [H H3]. apply andb_true_iff in H as [H1 H2].
  rewrite (fvain_ok _ _ _ _ Hr) in H3. rewrite (fvain_ok _ _ _ _ Hr) in H4. exists tr, ss, s', k, v. split; [exact Hx|]. split.
  { rewrite (Hg true), (Hg false) in H1. cbn [tid] in H1. intros [|[|u]]; [| |apply Hz; lia]; destruct (running s' 1), (running s' 0); auto; discriminate. }
  split; [eapply fstored_ok; [exact Hr|apply R_first|exact H2]|].
  intros t. split; [apply never_returns, (get_vain _ _ _ H4)|]. intros w. split; apply never_returns; [apply (insert_vain _ _ _ _ H3)|apply (delete_vain _ _ _ _ H3)].
Qed.
(** C42 is false for a second reason: no call is in progress, and no call of a
    stored key returns any more, not even a GetValue. *)
Theorem C42_lost_refuted : exists tr ss (s : sys) k v,
  exec tr ss s /\ (forall u, running s u = None) /\ contents (sm s) k v /\
  forall t, ~ returns_alone s t (OpGet k) /\ forall w, ~ returns_alone s t (OpIns k w) /\ ~ returns_alone s t (OpDel k w).
Proof. exact (all_stuck_ok (fplay lost) 4100%N 1%N 3 3 200 (fplay_ok lost) (proj1 (lost_parts (fplay lost) lost_checked))). Qed.
Print Assumptions C42_lost_refuted.

Lemma use_ok s o n i d q k v : fw 2 1024 (began 2 1024) s -> g_run s true = None -> g_run s false = None -> cutb s d i q = true -> loadsb s o n i q k v = true ->
  exists w p h, wrun 2 1024 (fun _ => True) w /\ running (w_s w) 0 = Some (o, p) /\ (forall u, u <> 0 -> running (w_s w) u = None) /\
    contents (sm (w_s w)) k v /\ In h (w_held w 0) /\ released w h.
Proof.
  intros Hs H1 H0 Hc Hl. pose proof (renewed 2 1024 (le_n 2) s i q Hs H1 H0 (cutb_ok _ _ _ _ Hc)) as Hg.
  pose proof (fold_lift 2 1024 _ (gone_step 2 1024 q) (le_n 2) [FCall false o 40; FStep false n] s Hg) as Hg'. change (fold_left fdo [FCall false o 40; FStep false n] s) with (called_at s o n) in Hg'.
  assert (Ho : exists p, g_run (called_at s o n) false = Some (o, p)).
  { unfold called_at. cbn [fold_left]. assert (Ec : fdo s (FCall false o 40) = {| g_mem := g_mem s; g_run := put (g_run s) false (Some (o, code 40 o)) |}) by (cbn [fdo]; rewrite H0; reflexivity). rewrite Ec.
    cbn [fdo g_run put slot]. eexists. reflexivity. }
  unfold loadsb in Hl. cbv zeta in Hl. apply andb_true_iff in Hl as [Hl L4]. apply andb_true_iff in Hl as [Hl L3]. apply andb_true_iff in Hl as [L1 L2].
  destruct Ho as [p Ep]. rewrite Ep in L1. destruct p as [r|er|j kk|j old nn kk|j old nn kk|kk|old nn kk|nn kk]; try discriminate. apply Nat.eqb_eq in L1. subst j.
  destruct (loads 2 1024 (le_n 2) _ false o i kk q Hg' Ep) as (w & p & A & B & C & D & E & F).
  { intros m [_ _ H2 _ _]. rewrite H2 in L3. destruct (tab m i) as [q'|]; [|discriminate]. apply N.eqb_eq in L3. congruence. }
  exists w, p, q. split; [exact A|]. split; [exact B|]. split.
  { intros u Hu. rewrite C by exact Hu. destruct u as [|[|u]]; auto; [congruence|]. destruct (g_run (called_at s o n) true); [discriminate|reflexivity]. }
  split; [eapply fstored_ok; [exact D|apply R_first|exact L4]|]. split; auto.
Qed.
Definition uses_released (k : K) (v : V) (o : op) : Prop :=
  exists (w : wst) p h, wrun 2 1024 (fun _ => True) w /\ running (w_s w) 0 = Some (o, p) /\ (forall u, u <> 0 -> running (w_s w) u = None) /\
    contents (sm (w_s w)) k v /\ In h (w_held w 0) /\ released w h.
Lemma lost_uses s : fw 2 1024 (began 2 1024) s -> lost_case s = true ->
  forall o, In o [OpGet 4100%N; OpIns 4100%N 2%N; OpDel 4100%N 1%N; OpPage 4100%N] -> uses_released 4100%N 1%N o.
Proof.
  intros Hw Hc o Ho. destruct (lost_parts s Hc) as (H & C & _ & L). specialize (L o Ho). unfold all_stuck in H. apply andb_true_iff in H as [H _]. apply andb_true_iff in H as [H _]. apply andb_true_iff in H as [H _].
  apply (use_ok s o 3 65 13089 13087 4100%N 1%N); auto; destruct (g_run s true), (g_run s false); auto; discriminate.
Qed.
(** C54 is false for operations that search forward, too: after the calls above
    and UpdateThreadLocal, a GetValue, Insert or Delete of the stored key, or
    Begin of it, running alone, loads the released page x. *)
Theorem C54_forward_refuted : exists k v v', forall o, In o [OpGet k; OpIns k v'; OpDel k v; OpPage k] ->
  exists (w : wst) p h, wrun 2 1024 (fun _ => True) w /\ running (w_s w) 0 = Some (o, p) /\ (forall u, u <> 0 -> running (w_s w) u = None) /\
    contents (sm (w_s w)) k v /\ In h (w_held w 0) /\ released w h.
Proof. exists 4100%N, 1%N, 2%N. exact (lost_uses (fplay lost) (fw_play 2 1024 (le_n 2) lost) lost_checked). Qed.
Print Assumptions C54_forward_refuted.

Lemma leak_ok s k v f0 f1 n fuel n' : freaches s -> all_stuck s k v f0 f1 n = true -> leavesb (g_mem s) fuel n' k v = true ->
  exists tr ss (s : sys) k v j c fuel0, exec tr ss s /\ (forall u, running s u = None) /\
    reach (sm s) j /\ live_pages (sm s) j = Some (NLeaf c) /\ in_range c k /\ lmem c k v /\
    forall fuel, fuel0 <= fuel -> exists t l, destroy fuel (sm s) = Ok (t, l) /\ t j <> None /\ forall p, ~ In (j, p) (dtors l) /\ ~ In (j, p) (frees l).
Proof.
  intros (tr & ss & s' & Hx & Hr & Hg & Hz) H L. unfold all_stuck in H. apply andb_true_iff in H as [H _]. apply andb_true_iff in H as [H _]. apply andb_true_iff in H as [H1 _].
  destruct (leavesb_ok _ _ _ _ _ _ Hr L) as (j & c & fuel0 & A & B & C & D & E). exists tr, ss, s', k, v, j, c, fuel0. split; [exact Hx|]. split; [|auto].
  rewrite (Hg true), (Hg false) in H1. cbn [tid] in H1. intros [|[|u]]; [| |apply Hz; lia]; destruct (running s' 1), (running s' 0); auto; discriminate.
Qed.
(** C36 is false for states left by several threads: no call is in progress, and
    destroying the index (with any large enough recursion bound) neither destroys
    nor releases a page that is linked from the other leaf pages and holds stored
    pairs: no parent names it, and destruction does not follow the links between
    leaf pages. *)
Theorem C36_shutdown_refuted : exists tr ss (s : sys) k v j c fuel0,
  exec tr ss s /\ (forall u, running s u = None) /\
  reach (sm s) j /\ live_pages (sm s) j = Some (NLeaf c) /\ in_range c k /\ lmem c k v /\
  forall fuel, fuel0 <= fuel -> exists t l, destroy fuel (sm s) = Ok (t, l) /\ t j <> None /\ forall p, ~ In (j, p) (dtors l) /\ ~ In (j, p) (frees l).
Proof.
  exact (leak_ok (fplay lost) 4100%N 1%N 3 3 200 300 200 (fplay_ok lost) (proj1 (lost_parts (fplay lost) lost_checked))
    (proj1 (proj2 (proj2 (lost_parts (fplay lost) lost_checked))))).
Qed.
Print Assumptions C36_shutdown_refuted.
