(** Single-threaded operations: they return, and keep the tree in order. *)
From Coq Require Import List Arith Lia Bool ZArith Sorted.
From Verif Require Import Base Leaf LeafSpec LeafProofs LeafProofs2 Inner InnerSpec InnerProofs InnerProofs2 Tree TreeSpec TreeInv TreeProg SeqTree SeqTree2 SeqPot SeqUp SeqProg SeqAdjust SeqSmo SeqMerge SeqSettle SeqTrav TreeSpec Keeps.
Import ListNotations.

Section SeqOps.
Context {P : Params}.

(** Between two operations: a tree without removed pages. *)
Record ready (m : mem) (lev : nat -> list cell) (H : nat) : Prop := {
  r_bound : mbound m;
  r_tree : tree (node_of m) (root m) lev H;
  r_clean : forall h, h <= H -> clean_at (node_of m) (lev h)
}.
Lemma clean_remrun N l k : clean_at N l -> remrun N l k.
Proof. intros Hc. exists l, [], []. simpl. rewrite app_nil_r. repeat split; auto. Qed.
Lemma ready_minv m lev H k : ready m lev H -> minv m lev H k.
Proof. intros [B T C]. split; [exact B|]. split; [exact T|]. intros h Hh. apply clean_remrun, C, Hh. Qed.
Lemma arrived_ready m lev H k x c pre ga gb post : arrived m lev H k x c pre ga gb post -> ready m lev H.
Proof. intros [v1 v2 v3 _ _ _ _]. constructor; auto. Qed.

Lemma arrived_wf m lev H k x c pre ga gb post : arrived m lev H k x c pre ga gb post -> lwf c /\ no_merge c.
Proof.
  intros Hv. pose proof (at_ok _ _ _ _ _ _ _ _ _ _ _ (ready_minv _ _ _ k (arrived_ready _ _ _ _ _ _ _ _ _ _ Hv)) (v_at _ _ _ _ _ _ _ _ _ _ Hv)) as [Hok _].
  rewrite (v_leaf _ _ _ _ _ _ _ _ _ _ Hv) in Hok. destruct Hok as (_ & W & M). pose proof (v_live _ _ _ _ _ _ _ _ _ _ Hv) as Hl. destruct c; simpl in *; auto; discriminate.
Qed.

(** Posting a data record. *)
Lemma post_ready m lev H k x c pre ga gb post c' : arrived m lev H k x c pre ga gb post ->
  lwf c' -> no_merge c' -> llow c' = llow c -> lhigh c' = lhigh c -> is_remove (NLeaf c') = false ->
  ready (cas_mem m (s_id (cur x)) (NLeaf c')) lev H.
Proof.
  intros Hv W M E1 E2 Hl. pose proof (arrived_ready _ _ _ _ _ _ _ _ _ _ Hv) as R. pose proof (ready_minv _ _ _ k R) as I. pose proof (v_at _ _ _ _ _ _ _ _ _ _ Hv) as A. pose proof (v_leaf _ _ _ _ _ _ _ _ _ _ Hv) as Ec.
  assert (Eb : lbody c' = c') by (destruct c'; auto; discriminate).
  destruct (step_page m lev H 0 k x pre ga gb post (NLeaf c') I A) as (I' & A' & _ & Ho & Hg).
  - rewrite Ec. exact E1.
  - rewrite Ec. exact E2.
  - split; [|intros Hq; congruence]. split; auto. rewrite Eb. auto.
  - rewrite Ec. exact Logic.I.
  - rewrite Ec. apply (v_live _ _ _ _ _ _ _ _ _ _ Hv).
  - exact Hl.
  - constructor; [apply I'|apply I'|]. intros h Hh. destruct (Nat.eq_dec h 0) as [->|Hne].
    + pose proof (r_clean _ _ _ R 0 Hh) as Hc. unfold clean_at, live in *. rewrite Forall_forall in Hc |- *. intros [j o] Hj. specialize (Hc _ Hj). simpl in *.
      destruct (Nat.eq_dec j (s_id (cur x))) as [->|Hne].
      * unfold rem. pose proof (at_node _ _ _ _ _ _ _ _ _ _ A') as En. simpl in En. rewrite En. exact Hl.
      * unfold rem, node_of in *. rewrite Hg; auto.
    + apply (clean_others _ _ _ _ _ _ h Ho Hne Hh). apply (r_clean _ _ _ R h Hh).
Qed.

Lemma insert_ready f m lev H k v : ready m lev H -> 3 * mpot m lev H + 1 < f ->
  tot m (insert f k v) (fun m' _ => exists lev' H', ready m' lev' H').
Proof.
  intros R Hf. destruct f as [|f]; [lia|]. cbn [insert].
  eapply tot_bind; [apply (traverse_spec f m lev H k (ready_minv _ _ _ _ R)); lia|].
  intros m1 x (lev1 & H1 & c & pre & ga & gb & post & Hv & _). unfold leaf_of. rewrite (v_leaf _ _ _ _ _ _ _ _ _ _ Hv). simpl pbind at 1.
  destruct (arrived_wf _ _ _ _ _ _ _ _ _ _ Hv) as [W M]. pose proof (v_range _ _ _ _ _ _ _ _ _ _ Hv) as Hr.
  destruct (lcheck_spec c k v W Hr) as (b & ix & Ec & Hb & Hp). eapply tot_liftb; [exact Ec|]. cbn [fst snd]. destruct b.
  - apply tot_ret. exists lev1, H1. eapply arrived_ready; eauto.
  - apply tot_cas; [apply cursn_tab, (a_cur _ _ _ _ _ _ _ _ _ _ (v_at _ _ _ _ _ _ _ _ _ _ Hv))|]. apply tot_ret. exists lev1, H1.
    apply (post_ready _ _ _ _ _ _ _ _ _ _ _ Hv); auto. split; auto. split; auto. split; auto. intros Hm. apply Hb in Hm. discriminate.
Qed.
Lemma delete_ready f m lev H k v : ready m lev H -> 3 * mpot m lev H + 1 < f ->
  tot m (delete f k v) (fun m' _ => exists lev' H', ready m' lev' H').
Proof.
  intros R Hf. destruct f as [|f]; [lia|]. cbn [delete].
  eapply tot_bind; [apply (traverse_spec f m lev H k (ready_minv _ _ _ _ R)); lia|].
  intros m1 x (lev1 & H1 & c & pre & ga & gb & post & Hv & _). unfold leaf_of. rewrite (v_leaf _ _ _ _ _ _ _ _ _ _ Hv). simpl pbind at 1.
  destruct (arrived_wf _ _ _ _ _ _ _ _ _ _ Hv) as [W M]. pose proof (v_range _ _ _ _ _ _ _ _ _ _ Hv) as Hr.
  destruct (lcheck_spec c k v W Hr) as (b & ix & Ec & Hb & Hp). eapply tot_liftb; [exact Ec|]. cbn [fst snd]. destruct b.
  - apply tot_cas; [apply cursn_tab, (a_cur _ _ _ _ _ _ _ _ _ _ (v_at _ _ _ _ _ _ _ _ _ _ Hv))|]. apply tot_ret. exists lev1, H1.
    apply (post_ready _ _ _ _ _ _ _ _ _ _ _ Hv); auto. split; auto. split; auto. split; auto. apply Hb. auto.
  - apply tot_ret. exists lev1, H1. eapply arrived_ready; eauto.
Qed.
(** A ConditionalInsert of a pair without pending deletes. *)
Lemma tot_keeps {A} Q m (p : prog A) R S : tot m p R -> heapok Q m -> keeps Q p S -> tot m p (fun m' a => R m' a /\ heapok Q m' /\ S a).
Proof.
  unfold tot. intros Ht Hm Hk. destruct (prun m p) as [m' [a|e]] eqn:E; [|exact Ht]. destruct (keeps_run _ _ _ _ _ _ Hm Hk E) as [Hm' Ha]. auto.
Qed.
Lemma cond_ready f m lev H k v pred : ready m lev H -> heapok (nodel k v) m -> 3 * mpot m lev H + 1 < f ->
  tot m (cond_insert f k v pred) (fun m' _ => exists lev' H', ready m' lev' H').
Proof.
  intros R Hn Hf. destruct f as [|f]; [lia|]. cbn [cond_insert].
  eapply tot_bind; [apply (tot_keeps _ _ _ _ _ (traverse_spec f m lev H k (ready_minv _ _ _ _ R) ltac:(lia)) Hn (traverse_keeps _ (closed_w _ (nodel_closed k v)) _ _ _ _))|].
  intros m1 x [(lev1 & H1 & c & pre & ga & gb & post & Hv & _) [_ Hd]]. unfold leaf_of. unfold cok in Hd. rewrite (v_leaf _ _ _ _ _ _ _ _ _ _ Hv) in *. simpl pbind at 1.
  destruct (arrived_wf _ _ _ _ _ _ _ _ _ _ Hv) as [W M]. pose proof (v_range _ _ _ _ _ _ _ _ _ _ Hv) as Hr.
  destruct (lcond_spec pred c k v W Hr) as (r & Ec & Hres). eapply tot_liftb; [exact Ec|]. destruct r as [| |ix].
  - apply tot_ret. exists lev1, H1. eapply arrived_ready; eauto.
  - apply tot_ret. exists lev1, H1. eapply arrived_ready; eauto.
  - destruct Hres as (-> & Hm & _). apply tot_cas; [apply cursn_tab, (a_cur _ _ _ _ _ _ _ _ _ _ (v_at _ _ _ _ _ _ _ _ _ _ Hv))|]. apply tot_ret. exists lev1, H1.
    apply (post_ready _ _ _ _ _ _ _ _ _ _ _ Hv); auto. split; auto. split; auto. split; auto. split; auto. rewrite <- stored_base. intros Hs. apply Hm. apply stored_mem; auto.
Qed.
Lemma fetch_ready f m lev H k : ready m lev H -> 3 * mpot m lev H < f ->
  tot m (fetch traverse f k) (fun m' _ => exists lev' H', ready m' lev' H').
Proof.
  intros R Hf. unfold fetch. eapply tot_bind; [apply (traverse_spec f m lev H k (ready_minv _ _ _ _ R)); lia|].
  intros m1 x (lev1 & H1 & c & pre & ga & gb & post & Hv & _). unfold leaf_of. rewrite (v_leaf _ _ _ _ _ _ _ _ _ _ Hv). simpl pbind at 1.
  destruct (arrived_wf _ _ _ _ _ _ _ _ _ _ Hv) as [W M]. destruct (lconsolidate_spec c W) as (items & Ec & _). eapply tot_liftb; [exact Ec|].
  apply tot_ret. exists lev1, H1. eapply arrived_ready; eauto.
Qed.

(** The page Begin() starts with. *)
Lemma first_ready m lev H : ready m lev H -> exists r, prun m first_page = (m, Ok r).
Proof.
  intros R. pose proof (r_tree _ _ _ R) as T. pose proof (t_leaf _ _ _ _ T) as Hf. pose proof (r_clean _ _ _ R 0 ltac:(lia)) as Hc. pose proof (t_ok _ _ _ _ T 0) as Hk.
  destruct (lev 0) as [|[i o] l]; [discriminate|]. simpl in Hf. injection Hf as ->.
  destruct (Hk FIRST_LEAF ltac:(lia) ltac:(left; auto)) as (n & En & [Hok _]). inversion Hc as [|? ? Hl _]; subst. unfold live, rem in Hl. simpl in Hl. rewrite En in Hl.
  destruct n as [c|c]; [|lia]. destruct Hok as (_ & W & _). assert (Eb : lbody c = c) by (destruct c; auto; discriminate). rewrite Eb in W.
  destruct (lconsolidate_spec c W) as (items & Ec & _). apply node_of_get in En as (p & Gp).
  exists (RPage (llow c) items (lhigh c)). unfold first_page. simpl. rewrite Gp. simpl. rewrite Ec. reflexivity.
Qed.

(** * GetValue *)
(** No unfinished split has a sibling that is about to be split itself. *)
Definition calm (m : mem) : Prop := forall i n, node_of m i = Some n ->
  match n with
  | NLeaf (LSplit _ s _ _) =>
      match node_of m s with
      | Some (NLeaf (LBase low items high)) => length items < LEAF_SIZE_UPPER \/ lsplit_sibling (LBase low items high) = Ok None
      | _ => True
      end
  | NInner (ISplit _ s _ _) =>
      match node_of m s with
      | Some (NInner (IBase _ _ _ items _)) => length items < INNER_SIZE_UPPER
      | _ => True
      end
  | _ => True
  end.

(** JumpToNodeID to the sibling of an unfinished split, without parent. *)
Lemma ro_jump f m lev H h i s x ps ns : ready m lev H -> calm m -> h <= H -> In (i, Some s) (lev h) -> get m s = Some (ps, ns) -> is_leaf ns = is_leaf (s_node (cur x)) -> s_id (cur x) <> s ->
  tot m (jump_to (S f) s x) (fun m' o => m' = m /\ o = Some (at_snap x s ps ns)).
Proof.
  intros R C Hh Hi Gs Hlf Hne. simpl jump_to. eapply tot_load; [exact Gs|]. cbn [fst snd]. rewrite Hlf, Bool.eqb_reflx. apply Nat.eqb_neq in Hne. rewrite Hne. simpl andb. cbv iota.
  pose proof (t_cell _ _ _ _ (r_tree _ _ _ R) h i s Hh Hi) as Hp. unfold pending in Hp.
  assert (Es : node_of m s = Some ns) by (unfold node_of; rewrite Gs; auto). rewrite Es in Hp.
  destruct (node_of m i) as [ni|] eqn:Ei; [|destruct Hp]. pose proof (C i ni Ei) as Hc.
  unfold settle, finish_smo, strip_snap. cbn [cur set_cur s_node s_id s_ptr].
  destruct ni as [c|c]; destruct c as [?|?|?|k0 s0 n0 c0|?|?] || destruct c; try (destruct Hp; fail).
  - destruct ns as [[low items high|? ? ? ?|? ? ? ?|? ? ? ?|? ?|? ? ? ?]|]; try (destruct Hp; fail). destruct Hp as (E1 & E2 & E3 & _). subst. rewrite Es in Hc.
    cbn [pbind]. unfold try_consolidate. cbn [cur set_cur s_node is_delta pbind]. unfold adjust. cbn [cur set_cur s_node]. unfold LEAF_SIZE_UPPER, LEAF_SIZE_LOWER in *.
    destruct (128 <=? length items) eqn:Eu.
    + apply Nat.leb_le in Eu. destruct Hc as [Hc|Hc]; [lia|]. rewrite Hc. cbn [lift pbind]. apply tot_ret. auto.
    + destruct (length items <=? 32) eqn:El; [apply Nat.leb_le in El; lia|]. apply tot_ret. auto.
  - destruct ns as [|ci]; try (destruct Hp; fail). destruct ci as [d low lid items high|? ? ? ?|? ? ? ? ?|? ? ? ?|? ?|? ? ? ?|? ?]; try (destruct Hp; fail). destruct Hp as (E1 & E2 & E3 & _). subst. rewrite Es in Hc.
    cbn [strip pbind]. unfold try_consolidate. cbn [cur set_cur s_node is_delta pbind]. unfold adjust. cbn [cur set_cur s_node]. unfold INNER_SIZE_UPPER, INNER_SIZE_LOWER in *.
    destruct (128 <=? length items) eqn:Eu; [apply Nat.leb_le in Eu; lia|].
    destruct (length items <=? 32) eqn:El; [apply Nat.leb_le in El; lia|]. apply tot_ret. auto.
Qed.

Lemma ids_cell l1 i o l2 : ids (l1 ++ (i, o) :: l2) = ids l1 ++ i :: match o with None => [] | Some s => [s] end ++ ids l2.
Proof. rewrite ids_app. reflexivity. Qed.

Lemma beyond_hd N k l hk n : beyond N k l -> match ids l with [] => False | j :: _ => n = j /\ nlo N j = Some hk end -> klt k hk = true.
Proof. destruct l as [|[j o] l]; simpl; [tauto|]. intros Hb (_ & E). inversion Hb as [|? ? H1 _]; subst. simpl in H1. rewrite E in H1. exact H1. Qed.

Lemma ro_chain f m lev H h k x oi l1 l2 : ready m lev H -> calm m -> h <= H -> lev h = l1 ++ (s_id (cur x), oi) :: l2 -> cursn m (cur x) -> key x = k ->
  is_remove (s_node (cur x)) = false -> above (nlow (s_node (cur x))) k -> beyond (node_of m) k l2 ->
  tot m (sibling_chain kge (S (S f)) x) (fun m' o => m' = m /\ exists x', o = Some x' /\ key x' = k /\ cursn m (cur x') /\ In (s_id (cur x')) (ids (lev h)) /\
    is_remove (s_node (cur x')) = false /\ above (nlow (s_node (cur x'))) k /\ below (nhigh (s_node (cur x'))) k).
Proof.
  intros R C Hh El Hx Ek Hl Hab Hb. pose proof (r_tree _ _ _ R) as T. pose proof (t_seg _ _ _ _ T h Hh) as Hs. pose proof (tree_ranges _ _ _ _ h T Hh) as Hr.
  rewrite El, ids_cell in Hs, Hr. destruct (seg_mid _ _ _ _ _ _ Hs Hr) as (n & En & Hn). rewrite (cursn_node _ _ Hx) in En. injection En as <-.
  assert (Hin : In (s_id (cur x)) (ids (lev h))). { rewrite El. eapply ids_in. apply in_or_app. right. left. reflexivity. }
  assert (Hstop : below (nhigh (s_node (cur x))) k -> tot m (Ret (Some x)) (fun m' o => m' = m /\ exists x', o = Some x' /\ key x' = k /\ cursn m (cur x') /\ In (s_id (cur x')) (ids (lev h)) /\
    is_remove (s_node (cur x')) = false /\ above (nlow (s_node (cur x'))) k /\ below (nhigh (s_node (cur x'))) k)).
  { intros Hbe. apply tot_ret. split; auto. exists x. repeat (split; auto). }
  cbn [sibling_chain]. destruct (nhigh (s_node (cur x))) as [[hk nx]|] eqn:Ehi; [|apply Hstop; exact Logic.I].
  rewrite Ek. destruct (kge k hk) eqn:Eg; [|apply Hstop; simpl; unfold kge in Eg; destruct (klt k hk); auto; discriminate].
  assert (Hge : klt k hk = false) by (unfold kge in Eg; destruct (klt k hk); auto; discriminate).
  destruct oi as [s|].
  - simpl in Hn. destruct Hn as (k' & E1 & E2). injection E1 as <- <-.
    assert (Hi : In (s_id (cur x), Some nx) (lev h)) by (rewrite El; apply in_elt).
    assert (Hnxin : In nx (ids (lev h))). { rewrite El, ids_cell. apply in_or_app. right. right. left. auto. }
    destruct (t_ok _ _ _ _ T h nx Hh Hnxin) as (ns & Es & Hoks). pose proof Es as Gs. apply node_of_get in Gs as (ps & Gs).
    destruct (t_ok _ _ _ _ T h (s_id (cur x)) Hh Hin) as (nx0 & Ex0 & Hokx). rewrite (cursn_node _ _ Hx) in Ex0. injection Ex0 as <-.
    assert (Hlf : is_leaf ns = is_leaf (s_node (cur x))). { destruct Hoks as [Hoks _], Hokx as [Hokx _]. destruct ns, (s_node (cur x)); simpl; auto; lia. }
    assert (Hne : s_id (cur x) <> nx). { pose proof (tree_nodup _ _ _ _ h T Hh) as Nd. rewrite El, ids_cell in Nd. apply NoDup_remove_2 in Nd. intros E. apply Nd. rewrite E. apply in_or_app. right. left. auto. }
    eapply tot_bind; [eapply ro_jump; eauto|]. intros m' o [-> ->]. simpl sibling_chain. cbn [cur at_snap set_cur s_node key].
    assert (Hs2 : seg (node_of m) None ((ids l1 ++ [s_id (cur x)]) ++ nx :: ids l2) None) by (rewrite <- app_assoc; exact Hs).
    assert (Hr2 : rangeok (node_of m) ((ids l1 ++ [s_id (cur x)]) ++ nx :: ids l2)) by (rewrite <- app_assoc; exact Hr).
    destruct (seg_mid _ _ _ _ _ _ Hs2 Hr2) as (ns' & En' & Hn'). rewrite Es in En'. injection En' as <-.
    assert (Hbe : below (nhigh ns) k).
    { destruct (ids l2) as [|j r] eqn:El2; [rewrite Hn'; exact Logic.I|]. destruct Hn' as (k2 & E3 & E4). rewrite E3. simpl. apply (beyond_hd _ _ _ k2 j Hb). rewrite El2. auto. }
    assert (Hgoal : m = m /\ exists x', Some (at_snap x nx ps ns) = Some x' /\ key x' = k /\ cursn m (cur x') /\ In (s_id (cur x')) (ids (lev h)) /\
      is_remove (s_node (cur x')) = false /\ above (nlow (s_node (cur x'))) k /\ below (nhigh (s_node (cur x'))) k).
    { split; auto. exists (at_snap x nx ps ns). split; auto. split; [exact Ek|]. split; [exact Gs|]. split; [exact Hnxin|]. simpl. split; [|split].
      - pose proof (t_cell _ _ _ _ T h _ _ Hh Hi) as Hp. unfold pending in Hp. rewrite Es in Hp. destruct (node_of m (s_id (cur x))) as [[[]|[]]|]; try (destruct Hp; fail); destruct ns as [[]|[]]; simpl; auto; destruct Hp.
      - unfold nlo in E2. rewrite Es in E2. rewrite E2. simpl. auto.
      - exact Hbe. }
    destruct (nhigh ns) as [[hk2 n2]|] eqn:Eh2; [|apply tot_ret; exact Hgoal].
    rewrite Ek. unfold kge. simpl in Hbe. rewrite Hbe. simpl. apply tot_ret. exact Hgoal.
  - exfalso. simpl in Hn. destruct (ids l2) as [|j r] eqn:El2; [congruence|]. destruct Hn as (k' & E1 & E2). injection E1 as <- <-.
    rewrite (beyond_hd _ _ _ hk nx Hb) in Hge; [discriminate|]. rewrite El2. auto.
Qed.

Lemma ro_load m lev H h k i oi l1 l2 : ready m lev H -> lev h = l1 ++ (i, oi) :: l2 -> h <= H ->
  exists x, cursn m (cur x) /\ s_id (cur x) = i /\ key x = k /\ is_remove (s_node (cur x)) = false /\ is_leaf (s_node (cur x)) = (h =? 0) /\
    forall (A : Type) (f : option ctx -> prog A) Q, tot m (f (Some x)) Q -> tot m (pbind (load_ro k i) f) Q.
Proof.
  intros R El Hh. assert (Hi : In (i, oi) (lev h)) by (rewrite El; apply in_elt).
  destruct (t_ok _ _ _ _ (r_tree _ _ _ R) h i Hh (ids_in _ _ _ Hi)) as (n & En & Hok). pose proof En as Gn. apply node_of_get in Gn as (p & Gn).
  pose proof (r_clean _ _ _ R h Hh) as Hc. unfold clean_at in Hc. rewrite Forall_forall in Hc. specialize (Hc _ Hi). unfold live, rem in Hc. simpl in Hc. rewrite En in Hc.
  exists {| key := k; cur := {| s_id := i; s_ptr := p; s_node := n |}; prt := PUninit |}. split; [exact Gn|]. split; auto. split; auto. split; auto. split.
  - simpl. destruct Hok as [Hok _]. destruct n; simpl; destruct Hok as [Hok _]; [subst; auto|]. symmetry. apply Nat.eqb_neq. lia.
  - intros A f Q HQ. unfold load_ro. simpl pbind. eapply tot_load; [exact Gn|]. cbn [fst snd].
    rewrite (strip_same _ _ {| s_id := i; s_ptr := p; s_node := n |} Hok). cbn [s_node]. rewrite Hc. exact HQ.
Qed.

Definition ro_post (m : mem) (lev : nat -> list cell) (k : K) (m' : mem) (o : option ctx) : Prop :=
  m' = m /\ exists x c, o = Some x /\ s_node (cur x) = NLeaf c /\ is_remove (NLeaf c) = false /\ node_of m (s_id (cur x)) = Some (NLeaf c) /\ In (s_id (cur x)) (ids (lev 0)) /\ in_range c k.
Lemma ro_nav f m lev H h k x oi l1 l2 : ready m lev H -> calm m -> S h <= H -> lev (S h) = l1 ++ (s_id (cur x), oi) :: l2 -> cursn m (cur x) -> key x = k ->
  is_remove (s_node (cur x)) = false -> above (nlow (s_node (cur x))) k -> beyond (node_of m) k l2 ->
  tot m (nav_inner kge inavigate (S (S f)) x) (fun m' o => m' = m /\ exists i x', o = Some (i, x') /\ key x' = k /\
      exists pre' ga' oi' gb' post', lev h = (pre' ++ ga') ++ (i, oi') :: gb' ++ post' /\ above (nlo (node_of m) i) k /\ beyond (node_of m) k (gb' ++ post')).
Proof.
  intros R C Hh El Hx Ek Hl Hab Hb. unfold nav_inner. eapply tot_bind; [eapply (ro_chain f m lev H _ k x oi l1 l2); eauto|].
  intros m1 o [-> (x1 & -> & K1 & C1 & I1 & L1 & A1 & B1)].
  destruct (t_ok _ _ _ _ (r_tree _ _ _ R) _ _ Hh I1) as (n1 & N1 & O1). rewrite (cursn_node _ _ C1) in N1. injection N1 as <-. pose proof (cursn_node _ _ C1) as E1.
  destruct (s_node (cur x1)) as [c|c] eqn:Ec; [destruct O1 as [[O1 _] _]; lia|].
  destruct (route_in _ _ _ _ _ k _ c (r_tree _ _ _ R) Hh I1 E1 L1 A1 B1) as (i & oi' & A0 & B0 & pre' & ga' & gb' & post' & Ei & F).
  rewrite K1. eapply tot_liftb; [exact Ei|]. apply tot_ret. split; auto. exists i, x1. split; auto. split; auto. exists pre', ga', oi', gb', post'.
  destruct F as [(_ & E & _) F]. split; [rewrite E, <- !app_assoc; reflexivity|exact F].
Qed.
Lemma ro_descend h : forall f m lev H k x oi l1 l2, ready m lev H -> calm m -> S h <= H -> lev (S h) = l1 ++ (s_id (cur x), oi) :: l2 -> cursn m (cur x) -> key x = k ->
  is_remove (s_node (cur x)) = false -> above (nlow (s_node (cur x))) k -> beyond (node_of m) k l2 -> h + 2 < f ->
  tot m (descend_ro f x) (ro_post m lev k).
Proof.
  induction h as [|h IH]; intros f m lev H k x oi l1 l2 R C Hh El Hx Ek Hl Hab Hb Hf; (destruct f as [|[|[|f]]]; try lia); cbn [descend_ro].
  all: (eapply tot_bind; [eapply (ro_nav f m lev H _ k x oi l1 l2); eauto|]).
  all: intros m1 o [-> (i & x1 & -> & K1 & pre' & ga' & oi' & gb' & post' & E & Ha & Hb')]; rewrite K1;
    destruct (ro_load m lev H _ k i oi' _ _ R E ltac:(lia)) as (y & Y1 & Y2 & Y3 & Y4 & Y5 & Y6); apply Y6; rewrite Y5; cbn [Nat.eqb];
    assert (Hay : above (nlow (s_node (cur y))) k) by (unfold nlo in Ha; rewrite <- Y2, (cursn_node _ _ Y1) in Ha; exact Ha).
  - rewrite <- Y2 in E. eapply tot_mono; [eapply (ro_chain f m lev H 0 k y oi'); eauto; lia|].
    intros m2 o [-> (x2 & -> & K2 & C2 & I2 & L2 & A2 & B2)]. split; auto.
    destruct (t_ok _ _ _ _ (r_tree _ _ _ R) 0 _ ltac:(lia) I2) as (n2 & N2 & O2). rewrite (cursn_node _ _ C2) in N2. injection N2 as <-.
    destruct (s_node (cur x2)) as [c|c] eqn:Ec; [|destruct O2 as [[O2 _] _]; lia].
    exists x2, c. split; auto. split; auto. split; auto. split; [rewrite (cursn_node _ _ C2), Ec; auto|]. split; auto. split; auto.
  - rewrite <- Y2 in E. eapply (IH (S (S f)) m lev H k y oi'); eauto; lia.
Qed.
End SeqOps.
