(** Removed pages (C45) and nodes handed to reclamation (C46). *)
From Coq Require Import NArith List Arith Lia Bool.
From Verif Require Import Base Leaf Inner Tree TreeSpec TreeRun Inst PropsTree SeqRun PropsSeq PropsProgress MarkerSpec Marker PropsMarker GarbageSpec Garbage.
Import ListNotations.

Section C45.
Context {P : Params}.
(** * C45 *)
(** A removed page is never changed again: its entry keeps pointing to the same
    remove node, whatever the threads do. *)
Theorem C45_removed_stays : forall tr ss (s s' : sys) i, exec tr ss s -> removed (sm s) i -> after s s' -> get (sm s') i = get (sm s) i.
Proof.
  intros tr ss s s' i Hx Hr Ha. induction Ha as [|s s1 e s2 Ha IH Hs]; auto. rewrite <- IH by auto. destruct (exec_after _ _ _ _ Hx Ha) as (tr1 & ss1 & X1).
  destruct (exec_minv _ _ _ X1) as [D H]. assert (Hr1 : removed (sm s1) i) by (unfold removed in *; rewrite IH; auto). destruct Hr1 as (p & n & Hg & Hn). rewrite Hg. clear IH.
  unfold get in Hg. destruct (tab (sm s1) i) as [x|] eqn:Et; [|discriminate]. destruct (heap (sm s1) x) as [y|] eqn:Eh; [|discriminate]. injection Hg as -> ->.
  assert (E2 : heap (sm s2) p = Some n) by (eapply heap_step; eauto).
  destruct (entry_step _ _ _ _ _ _ H Hs Et) as [E|[(t & r & -> & Hu & _)|(n' & Hn' & Hl & _)]].
  - unfold get. rewrite E, E2. auto.
  - exfalso. destruct (C44_unblock_succeeds _ _ _ _ _ _ _ X1 Hu) as [_ [c Hc]]. rewrite Eh in Hc. injection Hc as ->. discriminate.
  - exfalso. rewrite Eh in Hn'. injection Hn' as <-. destruct Hl. congruence.
Qed.
(** A removed page is not blocked, and what a blocked page is restored to is not
    a removed page. *)
Theorem C45_removed_not_blocked : forall tr ss (s : sys) i p q, exec tr ss s -> removed (sm s) i -> ~ blocked (sm s) i p q.
Proof.
  intros tr ss s i p q Hx (p' & n & Hg & Hn) [Ht [c Hc]]. unfold get in Hg. rewrite Ht, Hc in Hg. injection Hg as _ <-. discriminate.
Qed.

(** * C46 *)
(** Here without removed pages; PropsLinks.v has the theorems with them. *)
(** Nothing is handed over twice. *)
Theorem C46_once_partial : forall (s : sys) L, lived s L -> NoDup (given L).
Proof. intros s L H. destruct (lived_ginv _ _ H) as [S G]. apply (g_once _ _ _ G). Qed.
(** Every node belongs to exactly one chain: that of one page, or one that has
    been handed over.  (No leak, and no node in two handed chains.) *)
Theorem C46_one_chain_partial : forall (s : sys) L x n, lived s L -> heap (sm s) x = Some n ->
  exists g, head s L g /\ chain L g x /\ forall g', head s L g' -> chain L g' x -> g' = g.
Proof.
  intros s L x n Hl Hx. destruct (lived_ginv _ _ Hl) as [S G]. apply (one_head _ _ S); auto. destruct (lived_exec _ _ Hl) as (tr & ss & X). destruct (exec_minv _ _ _ X) as [D H].
  pose proof (proj2 (mi_heap _ _ H _ _ Hx)). intros E. apply (g_new _ _ _ G) in E. lia.
Qed.
(** A node of a chain that has been handed over is in no page: not in the chain
    an entry of the mapping table points to, nor in the one a blocked page goes
    back to. *)
Theorem C46_unreachable_partial : forall (s : sys) L g x, lived s L -> In g (given L) -> chain L g x ->
  forall i h, tab (sm s) i = Some h \/ (exists p, blocked (sm s) i p h) -> ~ chain L h x.
Proof.
  intros s L g x Hl Hg Hc i h Hh Hc'. destruct (lived_ginv _ _ Hl) as [S G].
  assert (E : h = g).
  { assert (Hx : S x <> New).
    { inversion Hc; subst; [intros E; apply (g_given _ _ _ G) in Hg; congruence|]. match goal with H : In (_, x) _ |- _ => apply (g_under _ _ _ G) in H; congruence end. }
    destruct (one_head _ _ S x G Hx) as (g0 & _ & _ & Hu). rewrite (Hu g), (Hu h); auto; [|right; right; auto]. destruct Hh as [Hh|[p Hh]]; [left; eauto|right; left; eauto]. }
  subst h. apply (g_given _ _ _ G) in Hg. destruct Hh as [Hh|Hh]; [apply (g_cur _ _ _ G) in Hh|apply (g_held _ _ _ G) in Hh]; congruence.
Qed.
(** Two pages have no node in common. *)
Theorem C46_pages_disjoint : forall (s : sys) L i j a b x, lived s L -> tab (sm s) i = Some a -> tab (sm s) j = Some b ->
  chain L a x -> chain L b x -> i = j.
Proof.
  intros s L i j a b x Hl Ha Hb Ca Cb. destruct (lived_ginv _ _ Hl) as [S G]. apply (g_cur _ _ _ G) in Ha as Sa. apply (g_cur _ _ _ G) in Hb as Sb.
  assert (Hx : S x <> New).
  { inversion Ca; subst; [congruence|]. match goal with H : In (_, x) _ |- _ => apply (g_under _ _ _ G) in H; congruence end. }
  destruct (one_head _ _ S x G Hx) as (g0 & _ & _ & Hu). rewrite <- (Hu a) in Hu; auto; [|left; eauto]. assert (E : b = a) by (apply Hu; auto; left; eauto). subst b. congruence.
Qed.
(** The chain of the log is the chain in memory: each node is the child of the
    one before.  Reclamation, which does not go below remove nodes and markers,
    meets neither on its way down. *)
Theorem C46_chain_real : forall (s : sys) L a b, lived s L -> In (a, b) (over L) ->
  exists na nb, heap (sm s) a = Some na /\ heap (sm s) b = Some nb /\ child na = Some nb /\
    is_remove nb = false /\ (forall q c, nb <> NInner (IAbort q c)).
Proof.
  intros s L a b Hl Hin. destruct (lived_ginv _ _ Hl) as [S G]. apply (g_under _ _ _ G) in Hin. destruct (g_real _ _ _ G _ _ Hin) as (nb & na & A & B & [C1 C2] & _ & E).
  exists na, nb. repeat (split; auto). intros q c ->. contradiction.
Qed.
(** And it is complete: every update other than a marker has its child in the
    log, and only one. *)
Theorem C46_chain_complete : forall (s : sys) L a na, lived s L -> heap (sm s) a = Some na -> child na <> None -> (forall q c, na <> NInner (IAbort q c)) ->
  exists b, In (a, b) (over L) /\ forall b', In (a, b') (over L) -> b' = b.
Proof.
  intros s L a na Hl Ha Hc Hm. destruct (lived_ginv _ _ Hl) as [S G]. destruct (g_full _ _ _ G _ _ Ha) as [b Hb].
  - destruct na as [|[]]; simpl; auto. destruct (Hm p c); auto.
  - destruct na as [[]|[]]; simpl in *; auto; congruence.
  - exists b. split; [apply (g_under _ _ _ G), Hb|]. intros b' Hb'. apply (g_under _ _ _ G) in Hb'. eapply (g_fun _ _ _ G); eauto.
Qed.
(** What is handed over is not a remove node (their memory is a matter of
    PostInnerDeleteNode). *)
Theorem C46_no_remove : forall (s : sys) L g, lived s L -> In g (given L) -> exists n, heap (sm s) g = Some n /\ is_remove n = false.
Proof. intros s L g Hl Hg. destruct (lived_ginv _ _ Hl) as [S G]. apply (g_kind _ _ _ G), (g_given _ _ _ G), Hg. Qed.
End C45.
Print Assumptions C45_removed_stays.
Print Assumptions C45_removed_not_blocked.
Print Assumptions C46_once_partial.
Print Assumptions C46_one_chain_partial.
Print Assumptions C46_unreachable_partial.
Print Assumptions C46_pages_disjoint.
Print Assumptions C46_chain_real.
Print Assumptions C46_chain_complete.
Print Assumptions C46_no_remove.

(** * Examples *)
Fixpoint log_of {P : Params} (tr : list event) (ss : list sys) : log :=
  match tr, ss with
  | e :: tr', _ :: (s :: _) as ss' => note s e (log_of tr' ss')
  | _, _ => {| given := []; over := [] |}
  end.
Lemma log_ok {P : Params} tr ss s : exec tr ss s -> lived s (log_of tr ss) /\ exists ss', ss = s :: ss'.
Proof.
  induction 1 as [|tr ss s e s' H [IH [ss' ->]] Hs]; [split; [constructor|exists []; auto]|]. split; [|eauto]. cbn [log_of]. constructor; auto.
Qed.
#[local] Existing Instance natP.
(** The history of C44's example, until the deletion has returned: a page was
    removed and merged.  The log has more than a hundred updates, chains and a
    marker were handed over, and there is a removed page. *)
Definition busy_log (c : conf) : bool :=
  let L := log_of (c_tr c) (c_ss c) in
  (100 <=? length (over L)) && (5 <=? length (given L)) &&
  existsb (fun g => match heap (sm (c_s c)) g with Some (NInner (IAbort _ _)) => true | _ => false end) (given L) &&
  existsb (fun g => match heap (sm (c_s c)) g with Some (NLeaf (LIns _ _ _ _)) => true | _ => false end) (given L) &&
  existsb (fun i => match get (sm (c_s c)) i with Some (_, n) => is_remove n | None => false end) (seq 0 (nid (sm (c_s c)))).
Lemma busy_log_ok c : cexec c -> busy_log c = true -> exists L, lived (c_s c) L /\ 100 <= length (over L) /\ 5 <= length (given L) /\
  (exists g q x, In g (given L) /\ heap (sm (c_s c)) g = Some (NInner (IAbort q x))) /\
  (exists g n, In g (given L) /\ heap (sm (c_s c)) g = Some n /\ child n <> None /\ (forall q x, n <> NInner (IAbort q x))) /\
  exists i, removed (sm (c_s c)) i.
Proof.
  intros Hc. unfold busy_log. destruct (log_ok _ _ _ Hc) as [Hl _]. set (L := log_of (c_tr c) (c_ss c)) in *. clearbody L. intros E.
  apply andb_true_iff in E as [E E5]. apply andb_true_iff in E as [E E4]. apply andb_true_iff in E as [E E3]. apply andb_true_iff in E as [E1 E2]. apply Nat.leb_le in E1, E2.
  exists L. split; auto. split; auto. split; auto. split; [|split].
  - apply existsb_exists in E3 as (g & Hg & E). exists g. destruct (heap (sm (c_s c)) g) as [[|[]]|]; try discriminate. eauto.
  - apply existsb_exists in E4 as (g & Hg & E). exists g. destruct (heap (sm (c_s c)) g) as [[[]|]|]; try discriminate. eexists. split; auto. split; [reflexivity|]. split; discriminate.
  - apply existsb_exists in E5 as (i & _ & E). exists i. unfold removed. destruct (get (sm (c_s c)) i) as [[p n]|]; [|discriminate]. eauto.
Qed.
Example C46_example : exists (s : sys) L, lived s L /\ 100 <= length (over L) /\ 5 <= length (given L) /\
  (exists g q x, In g (given L) /\ heap (sm s) g = Some (NInner (IAbort q x))) /\
  (exists g n, In g (given L) /\ heap (sm s) g = Some n /\ child n <> None /\ (forall q x, n <> NInner (IAbort q x))) /\
  exists i, removed (sm s) i.
Proof.
  destruct (busy_log_ok (play (suspended 40)) (play_exec _)) as (L & H); [vm_compute; reflexivity|]. exists (c_s (play (suspended 40))), L. exact H.
Qed.
