(** Leaf pages on which a conditional insert may have recorded the wrong
    position: an insert of a pair that the base page stores and a pending
    delete hides gets a position that does not mark the stored pair as
    overwritten (see [C05_refuted]).  Lookups on such pages stay right, and a
    rebuild that succeeds is right, too. *)
From Coq Require Import List Arith Lia Bool ZArith NArith Sorted Permutation.
From Verif Require Import Base SmallSet Bloom SmallProofs Leaf LeafSpec LeafProofs.
Import ListNotations.

Section LeafWeak.
Context {P : Params}.

Definition pos_okw (items : list (K * V)) (k : K) (v : V) (ix : nat * bool) : Prop :=
  if snd ix then nth_error items (fst ix) = Some (k, v) else fst ix = ub k items.
Lemma pos_ok_w items k v ix : pos_ok items k v ix -> pos_okw items k v ix.
Proof. unfold pos_ok, pos_okw. destruct (snd ix); tauto. Qed.

Fixpoint lwfw (c : lchain) : Prop :=
  match c with
  | LBase low items high => base_ok low items high /\ NoDup items
  | LIns k v ix c => lwfw c /\ in_range c k /\ ~ lmem c k v /\ pos_okw (lbase_for k c) k v ix
  | LDel k v ix c => lwfw c /\ in_range c k /\ lmem c k v /\ pos_okw (lbase_for k c) k v ix
  | LSplit k sib n c =>
      match c with
      | LBase low items high =>
          lwfw c /\ below high k /\ match low with None => True | Some l => klt l k = true end /\
          n = length (filter (fun x => kge (fst x) k) items)
      | _ => False
      end
  | LRemove _ _ => False
  | LMerge mk id r c => lwfw c /\ lwfw r /\ llow r = Some mk /\ lhigh c = Some (mk, id)
  end.

Lemma lwfw_range c : lwfw c -> range_ok (llow c) (lhigh c).
Proof.
  induction c; simpl; intros H; try tauto.
  - destruct H as ((_ & _ & H) & _); auto.
  - destruct c; tauto.
  - destruct H as (H1 & H2 & E1 & E2). apply IHc1 in H2. apply IHc2 in H1.
    rewrite E1 in H2. rewrite E2 in H1. destruct (llow c2) as [a|]; simpl in *; auto.
    destruct (lhigh c1) as [[b ?]|]; auto. order.
Qed.

Lemma lwf_lwfw c : lwf c -> lwfw c.
Proof.
  induction c; simpl; auto; try tauto.
  - intros (H1 & H2 & H3 & H4). auto using pos_ok_w.
  - intros (H1 & H2 & H3 & H4). auto using pos_ok_w.
  - destruct c; auto; tauto.
Qed.

Lemma in_rangew_merge mk id r c k : lwfw (LMerge mk id r c) ->
  in_range (LMerge mk id r c) k ->
  if klt k mk then in_range c k else in_range r k.
Proof.
  intros (H1 & H2 & E1 & E2) [Ha Hb]. simpl in *. unfold in_range.
  destruct (klt k mk) eqn:E.
  - rewrite E2. simpl. auto.
  - rewrite E1. simpl. auto.
Qed.

Lemma in_rangew_merge_l mk id r c k : lwfw (LMerge mk id r c) -> in_range c k ->
  in_range (LMerge mk id r c) k /\ klt k mk = true.
Proof.
  intros (H1 & H2 & E1 & E2) [Ha Hb]. rewrite E2 in Hb. simpl in Hb. split; auto.
  split; auto. simpl. apply lwfw_range in H2. rewrite E1 in H2. simpl in H2.
  destruct (lhigh r) as [[y ?]|]; simpl; auto. order.
Qed.
Lemma in_rangew_merge_r mk id r c k : lwfw (LMerge mk id r c) -> in_range r k ->
  in_range (LMerge mk id r c) k /\ klt k mk = false.
Proof.
  intros (H1 & H2 & E1 & E2) [Ha Hb]. rewrite E1 in Ha. simpl in Ha. split; auto.
  split; auto. simpl. apply lwfw_range in H1. rewrite E2 in H1. destruct (llow c) as [l|]; simpl in *; auto. order.
Qed.

Lemma lcheckw_spec c k v : lwfw c -> in_range c k ->
  exists b ix, lcheck k v c = Ok (b, ix) /\ (b = true <-> lmem c k v) /\ pos_okw (lbase_for k c) k v ix.
Proof.
  induction c; simpl; intros Hw Hr.
  - destruct Hw as ((Ha & _) & _). destruct (lbase_check k v items Ha) as [H1 H2].
    eexists _, _. split; [rewrite <- surjective_pairing; reflexivity|auto using pos_ok_w].
  - destruct Hw as (Hw & Hk & Hn & Hi). destruct (keq k k0 && veq v0 v) eqn:E.
    + apply andb_true_iff in E as [E1 E2]. apply keq_spec in E1. apply veq_spec in E2. subst.
      eexists _, _. split; eauto. split; auto. tauto.
    + destruct (IHc Hw Hr) as (b & ix' & E1 & E2 & E3). eexists _, _. split; eauto. split; auto.
      rewrite E2. apply andb_false_iff in E. split; auto. intros [[-> ->]|H]; auto.
      rewrite keq_refl, veq_refl in E. intuition discriminate.
  - destruct Hw as (Hw & Hk & Hn & Hi). destruct (keq k k0 && veq v0 v) eqn:E.
    + apply andb_true_iff in E as [E1 E2]. apply keq_spec in E1. apply veq_spec in E2. subst.
      eexists _, _. split; eauto. split; auto. split; [discriminate|tauto].
    + destruct (IHc Hw Hr) as (b & ix' & E1 & E2 & E3). eexists _, _. split; eauto. split; auto.
      rewrite E2. apply andb_false_iff in E. split; [|tauto]. intros H; split; auto. intros [-> ->].
      rewrite keq_refl, veq_refl in E. intuition discriminate.
  - destruct c; try tauto. destruct Hw as (((Ha & Hb) & Hd) & Hh & Hl & Hn).
    destruct Hr as [Hr1 Hr2]. simpl in *.
    destruct (lbase_check k v items Ha) as [H1 H2].
    eexists _, _. split; [rewrite <- surjective_pairing; reflexivity|]. split; [|apply pos_ok_w; auto]. rewrite H1. tauto.
  - tauto.
  - pose proof (in_rangew_merge _ _ _ _ _ Hw Hr) as Hr'. destruct Hw as (H1 & H2 & _).
    rewrite kge_negb. destruct (klt k k0); simpl; auto.
Qed.

Definition dokw (items : list (K * V)) (d : ldata) : Prop := pos_okw items (d_k d) (d_v d) (d_ix d).

(** What consolidating one base page with deltas [l] has to give. *)
Record mergedw (inbase : K * V -> Prop) (l : list ldata) (out : list (K * V)) : Prop := {
  mgw_in : forall x, (exists d, In d l /\ d_ins d = true /\ dpair d = x) \/ (inbase x /\ ~ In x (map dpair l)) -> In x out;
  mgw_out : forall x, In x out -> (exists d, In d l /\ d_ins d = true /\ dpair d = x) \/ inbase x;
  mgw_asc : ascending out }.

(** Index facts for one well-placed delta. *)
Lemma dokw_before items d i x : ascending items -> dokw items d ->
  nth_error items i = Some x -> i < d_idx d -> klt (d_k d) (fst x) = false.
Proof.
  intros Ha Hd E Hi. unfold dokw, pos_okw in Hd. unfold d_idx in Hi. destruct (snd (d_ix d)).
  - apply (asc_nth items i (fst (d_ix d)) _ _ Ha ltac:(lia) E Hd).
  - rewrite Hd in Hi. eapply ub_before; eauto.
Qed.
Lemma dokw_after items d i x : ascending items -> dokw items d ->
  nth_error items i = Some x -> d_idx d <= i -> klt (fst x) (d_k d) = false.
Proof.
  intros Ha Hd E Hi. unfold dokw, pos_okw in Hd. unfold d_idx in Hi. destruct (snd (d_ix d)).
  - apply (asc_nth items (fst (d_ix d)) i _ _ Ha ltac:(lia) Hd E).
  - rewrite Hd in Hi. pose proof (ub_after _ _ _ _ Ha Hi E). order.
Qed.
Lemma go2w_spec items ce : ascending items -> NoDup items -> ce <= length items ->
  forall l cs, cs <= ce ->
  StronglySorted dstep l -> StronglySorted (fun a b => klt (d_k b) (d_k a) = false) l ->
  NoDup (map dpair l) -> (forall d, In d l -> dokw items d) ->
  (forall d, In d l -> cs <= d_idx d /\ (if d_fl d then d_idx d < ce else d_idx d <= ce)) ->
  exists out, go2 items cs ce l = Ok out /\
    mergedw (fun x => exists i, cs <= i < ce /\ nth_error items i = Some x) l out.
Proof.
  intros Ha Hn Hce. induction l as [|d r IH]; intros cs Hcs Hs Hk Hnd Hok Hb; cbn [go2].
  - unfold slice. rewrite (proj2 (Nat.leb_le _ _) Hcs), (proj2 (Nat.leb_le _ _) Hce). simpl andb. cbv iota.
    eexists; split; [reflexivity|]. split.
    + intros x. rewrite In_slice by auto. simpl. intros [(? & [] & _)|[H _]]; auto.
    + intros x. rewrite In_slice by auto. auto.
    + apply ascending_firstn, ascending_skipn, Ha.
  - destruct (Hb d (or_introl eq_refl)) as [Hb1 Hb2].
    assert (Hb3 : d_idx d <= ce) by (destruct (d_fl d); lia).
    rewrite (proj2 (Nat.leb_le _ _) Hb1), (proj2 (Nat.leb_le _ _) Hb3). cbn [andb].
    unfold slice. rewrite (proj2 (Nat.leb_le _ _) Hb1), (proj2 (Nat.leb_le (d_idx d) (length items)) ltac:(lia)).
    cbn [andb bind].
    inversion Hs as [|? ? Hs' Hsf]; subst. inversion Hk as [|? ? Hk' Hkf]; subst.
    simpl in Hnd. inversion Hnd as [|? ? Hnd1 Hnd2]; subst.
    rewrite Forall_forall in Hsf, Hkf.
    destruct (IH (if d_fl d then S (d_idx d) else d_idx d)) as (b & Eb & [M1 M2 M3]); auto.
    { destruct (d_fl d); lia. }
    { intros d' Hd'. apply Hok; right; auto. }
    { intros d' Hd'. destruct (Hb d' (or_intror Hd')) as [_ H2]. split; auto.
      specialize (Hsf _ Hd'). unfold dstep in Hsf. destruct (d_fl d); lia. }
    rewrite Eb. cbn [bind]. eexists; split; [reflexivity|].
    assert (Hdok : dokw items d) by (apply Hok; left; auto).
    set (cs' := if d_fl d then S (d_idx d) else d_idx d) in *.
    assert (Hcs' : d_idx d <= cs') by (unfold cs'; destruct (d_fl d); lia).
    (* elements of b have key at least that of d *)
    assert (Kb : forall y, In y b -> klt (fst y) (d_k d) = false).
    { intros y Hy. apply M2 in Hy as [(d' & H1 & H2 & <-)|(i & H1 & H2)].
      - apply (Hkf _ H1).
      - apply (dokw_after items d i y Ha Hdok H2). lia. }
    (* elements before d have key at most that of d *)
    assert (Ka : forall x, In x (firstn (d_idx d - cs) (skipn cs items)) -> klt (d_k d) (fst x) = false).
    { intros x Hx. apply In_slice in Hx as (i & H1 & H2); [|lia]. apply (dokw_before items d i x Ha Hdok H2). lia. }
    split.
    + intros x. rewrite !in_app_iff.
      intros [(d' & [<-|H1] & H2 & E)|[(i & H1 & H2) H3]].
        -- right; left. rewrite H2. left; auto.
        -- right; right. apply M1. left. exists d'. auto.
        -- simpl in H3. destruct (le_lt_dec cs' i).
           ++ right; right. apply M1. right. split; [exists i; split; auto; lia|tauto].
           ++ assert (i < d_idx d \/ (i = d_idx d /\ d_fl d = true)) as [Hi|[Hi Hf]].
              { unfold cs' in *. destruct (d_fl d); [|left; lia]. destruct (Nat.eq_dec i (d_idx d)); auto. left; lia. }
              ** left. apply In_slice; [lia|]. exists i. split; auto; lia.
              ** exfalso. apply H3. left. unfold dokw, pos_okw in Hdok. unfold d_fl in Hf. rewrite Hf in Hdok.
                 fold (d_idx d) in Hdok. subst i. unfold dpair. congruence.
    + intros x. rewrite !in_app_iff. intros [H|[H|H]].
      * right. apply In_slice in H as (i & H1 & H2); [|lia]. exists i. split; auto; lia.
      * left. exists d. destruct (d_ins d); simpl in H; [|tauto]. destruct H as [<-|[]].
        split; [left; auto|auto].
      * apply M2 in H as [(d' & H1 & H2 & E)|(i & H1 & H2)].
        -- left. exists d'. split; [right; auto|auto].
        -- right. exists i. split; auto; lia.
    + apply ascending_app; [apply ascending_firstn, ascending_skipn, Ha| |].
      * destruct (d_ins d); simpl; [|auto]. constructor; auto. apply Forall_forall. intros y Hy. simpl. auto.
      * intros x y Hx Hy. specialize (Ka _ Hx). apply in_app_iff in Hy as [Hy|Hy].
        -- destruct (d_ins d); simpl in Hy; [|tauto]. destruct Hy as [<-|[]]. auto.
        -- specialize (Kb _ Hy). order.
Qed.

Lemma dstepw_of items a b : ascending items -> dokw items a -> dokw items b ->
  dlt b a = false -> dpair a <> dpair b -> dstep a b.
Proof.
  intros Ha Da Db Hl Hp.
  assert (Hk : klt (d_k b) (d_k a) = false).
  { destruct (klt (d_k b) (d_k a)) eqn:E; auto. assert (dlt b a = true) by (apply dlt_true; auto). congruence. }
  unfold dstep. unfold dokw, pos_okw in *. fold (d_fl a) (d_idx a) in Da. fold (d_fl b) (d_idx b) in Db.
  destruct (klt (d_k a) (d_k b)) eqn:Eab.
  - destruct (d_fl a) eqn:Fa.
    + destruct (le_lt_dec (d_idx b) (d_idx a)) as [Hi|]; auto. exfalso.
      assert (klt (d_k a) (d_k b) = false); [|congruence].
      apply (dokw_after items b (d_idx a) _ Ha) in Da; auto.
    + destruct (le_lt_dec (d_idx a) (d_idx b)) as [|Hi]; auto. exfalso.
      rewrite Da in Hi. pose proof (ub_le items (d_k a)).
      destruct (nth_some items (d_idx b) ltac:(lia)) as (x & Ex).
      pose proof (ub_before _ _ _ _ Hi Ex). destruct (d_fl b).
      * rewrite Db in Ex. inversion Ex; subst. simpl in *. order.
      * pose proof (ub_after _ (d_k b) _ _ Ha (Nat.eq_le_incl _ _ (eq_sym Db)) Ex). order.
  - assert (Ek : d_k a = d_k b) by order.
    assert (d_idx a <= d_idx b).
    { destruct (le_lt_dec (d_idx a) (d_idx b)); auto.
      assert (dlt b a = true) by (apply dlt_true; auto). congruence. }
    destruct (d_fl a) eqn:Fa; auto.
    destruct (Nat.eq_dec (d_idx a) (d_idx b)) as [Ei|]; [exfalso|lia].
    destruct (d_fl b).
    + apply Hp. unfold dpair. rewrite Ei in Da. congruence.
    + rewrite Ei, Db in Da.
      pose proof (ub_after _ _ _ _ Ha (Nat.le_refl _) Da). simpl in *. order.
Qed.

Lemma dstepsw items s : ascending items -> dsorted s -> NoDup (map dpair s) ->
  (forall d, In d s -> dokw items d) -> StronglySorted dstep s.
Proof.
  intros Ha H. induction H as [|a s H IH Hf]; intros Hn Hd; constructor.
  - apply IH; [inversion Hn; auto|intros; apply Hd; right; auto].
  - rewrite Forall_forall in *. intros b Hb. apply (dstepw_of items); auto.
    + apply Hd; left; auto. + apply Hd; right; auto. + apply (Hf _ Hb).
    + simpl in Hn. inversion Hn as [|? ? Hn1 _]; subst. intros E. apply Hn1. rewrite E. apply in_map; auto.
Qed.

Lemma lcollectw_base cap hk low items high s ds :
  ascending items -> NoDup items -> dsorted s -> NoDup (map dpair s) ->
  (forall d, In d s -> below hk (d_k d) -> dokw items d) ->
  exists out, lcollect cap hk (LBase low items high) s ds =
    Ok (out, filter (fun d => negb (belowb hk (d_k d))) s, ds) /\
    mergedw (fun x => In x items /\ below hk (fst x)) (filter (fun d => belowb hk (d_k d)) s) out.
Proof.
  intros Ha Hn Hs Hnd Hok. cbn [lcollect]. fold (ce_of hk items).
  destruct (sss_end_spec hk s Hs) as [E1 E2]. rewrite E1, E2.
  set (l := filter (fun d => belowb hk (d_k d)) s).
  destruct (ce_spec hk items Ha) as [Hc1 Hc2].
  assert (Hl : forall d, In d l -> In d s /\ below hk (d_k d)).
  { intros d Hd. apply filter_In in Hd. rewrite belowb_spec in Hd. auto. }
  assert (Hok' : forall d, In d l -> dokw items d) by (intros d Hd; apply Hok; apply Hl; auto).
  assert (Hnd' : NoDup (map dpair l)) by (apply NoDup_map_filter; auto).
  assert (Hst : StronglySorted dstep l).
  { apply (dstepsw items); auto. apply SSorted_filter; auto. }
  rewrite lloop_go2; auto.
  - destruct (go2w_spec items (ce_of hk items) Ha Hn Hc1 l 0) as (out & Eo & [M1 M2 M3]); auto; [lia| | |].
    + apply SSorted_filter. apply dsorted_keys; auto.
    + intros d Hd. split; [lia|]. destruct (Hl d Hd) as [_ Hb]. specialize (Hok' d Hd).
      unfold dokw, pos_okw in Hok'. fold (d_fl d) (d_idx d) in Hok'. destruct (d_fl d).
      * apply (Hc2 _ _ Hok'). auto.
      * rename Hok' into Hu. destruct (le_lt_dec (d_idx d) (ce_of hk items)) as [|Hi]; auto. exfalso.
        rewrite Hu in Hi. pose proof (ub_le items (d_k d)).
        destruct (nth_some items (ce_of hk items) ltac:(lia)) as (x & Ex).
        pose proof (ub_before _ _ _ _ Hi Ex) as Hx.
        assert (below hk (fst x)) as Hbx.
        { destruct hk as [[h j]|]; simpl in *; auto. order. }
        apply (Hc2 _ _ Ex) in Hbx. lia.
    + rewrite Eo. cbn [bind]. eexists; split; [reflexivity|]. split; auto.
      * intros x [H|[[H1 H2] H']]; apply M1; auto. right; split; auto.
        apply In_nth_error in H1 as (i & H1). exists i. split; auto.
        split; [lia|]. apply (Hc2 _ _ H1); auto.
      * intros x Hx. apply M2 in Hx as [|(i & H1 & H2)]; auto. right.
        split; [eapply nth_error_In; eauto|]. apply (Hc2 _ _ H2). lia.
  - unfold l. clear. induction s; simpl; auto. destruct (belowb hk (d_k a)); simpl; lia.
Qed.

Record ssetw_ok (cap : nat) (c : lchain) (s : list ldata) (seen : list (K * V)) : Prop := {
  ssw_sorted : dsorted s;
  ssw_nd : NoDup (map dpair s);
  ssw_above : forall d, In d s -> above (llow c) (d_k d);
  ssw_pos : forall d, In d s -> below (lhigh c) (d_k d) -> pos_okw (lbase_for (d_k d) c) (d_k d) (d_v d) (d_ix d);
  ssw_seen : forall x, in_range c (fst x) -> (In x seen <-> In x (map dpair s));
  ssw_cap : length seen + ldepth c <= cap }.

Record collectedw (c : lchain) (s : list ldata) (seen : list (K * V))
       (out : list (K * V)) (seen' : list (K * V)) : Prop := {
  cow_in : forall k v, in_range c k /\
     ((exists d, In d s /\ dpair d = (k, v) /\ d_ins d = true) \/
      (~ In (k, v) (map dpair s) /\ lmem c k v)) -> In (k, v) out;
  cow_out : forall x, In x out -> in_range c (fst x);
  cow_asc : ascending out;
  cow_seen1 : forall x, In x seen -> In x seen';
  cow_seen2 : forall x, In x seen' -> In x seen \/ in_range c (fst x);
  cow_len : length seen' <= length seen + ldepth c }.

(** One delta [d] with its child [c]; [c'] is the chain with the delta. *)
Lemma ssetw_insert cap c d s seen :
  ssetw_ok cap c s seen -> S (length seen + ldepth c) <= cap ->
  in_range c (d_k d) -> pos_okw (lbase_for (d_k d) c) (d_k d) (d_v d) (d_ix d) ->
  ~ In (dpair d) seen ->
  ssetw_ok cap c (insert_nodedup dlt d s) (seen ++ [dpair d]).
Proof.
  intros [S1 S2 S3 S4 S5 S6] Hc Hr Hp Hn.
  pose proof (insert_nd_perm d s) as Hperm.
  assert (Hin : forall x, In x (insert_nodedup dlt d s) -> x = d \/ In x s).
  { intros x Hx. apply Permutation_sym in Hperm. apply (Permutation_in _ Hperm) in Hx. destruct Hx; auto. }
  split.
  - apply dsorted_insert; auto.
  - eapply Permutation_NoDup; [apply Permutation_map, Hperm|]. simpl. constructor; auto.
    rewrite <- S5; auto.
  - intros x Hx. apply Hin in Hx as [->|Hx]; auto. apply Hr.
  - intros x Hx. apply Hin in Hx as [->|Hx]; auto.
  - intros x Hx. rewrite in_app_iff, (S5 _ Hx). rewrite (map_perm_in dpair _ _ x Hperm). simpl. tauto.
  - rewrite app_length. simpl. lia.
Qed.

Lemma lcollectw_spec cap c : forall s seen, lwfw c -> ssetw_ok cap c s seen ->
  exists out seen', lcollect cap (lhigh c) c s (filled phash seen) =
     Ok (out, filter (fun d => negb (belowb (lhigh c) (d_k d))) s, filled phash seen') /\
     collectedw c s seen out seen'.
Proof.
  assert (Base : forall hk low items high s seen c,
    ascending items -> NoDup items -> dsorted s -> NoDup (map dpair s) ->
    llow c = low -> lhigh c = hk ->
    (forall d, In d s -> above low (d_k d)) ->
    (forall d, In d s -> below hk (d_k d) -> dokw items d) ->
    (forall x, In x items -> above low (fst x)) ->
    (forall k v, below hk k -> (lmem c k v <-> In (k, v) items)) ->
    exists out seen', lcollect cap hk (LBase low items high) s (filled phash seen) =
     Ok (out, filter (fun d => negb (belowb hk (d_k d))) s, filled phash seen') /\
     collectedw c s seen out seen').
  { clear. intros hk low items high s seen c Ha Hn Hs Hnd El Eh Hab Hok Hil Hm.
    destruct (lcollectw_base cap hk low items high s (filled phash seen) Ha Hn Hs Hnd Hok) as (out & E & [M1 M2 M3]).
    exists out, seen. split; [exact E|]. split; auto; [| |lia].
    - intros k v. unfold in_range. rewrite El, Eh. simpl. intros [[R1 R2] [(d & H1 & H2 & H3)|[H1 H2]]]; apply M1.
      + left. exists d. split; auto. apply filter_In. split; auto. rewrite belowb_spec. inversion H2; subst; auto.
      + right. split; [split; [apply Hm; auto|auto]|]. intros Hin. apply H1.
        apply in_map_iff in Hin as (d & E1 & E2). apply filter_In in E2. rewrite <- E1. apply in_map. tauto.
    - intros x Hx. unfold in_range. rewrite El, Eh. apply M2 in Hx as [(d & H1 & H2 & <-)|[H1 H2]].
      + apply filter_In in H1 as [H1 H4]. rewrite belowb_spec in H4. simpl. split; auto.
      + split; auto. }
  (* a data delta [d] on top of [c] *)
  assert (Delta : forall c c' d,
    (forall s seen, lwfw c -> ssetw_ok cap c s seen ->
      exists out seen', lcollect cap (lhigh c) c s (filled phash seen) =
       Ok (out, filter (fun d => negb (belowb (lhigh c) (d_k d))) s, filled phash seen') /\
       collectedw c s seen out seen') ->
    lwfw c -> in_range c (d_k d) -> pos_okw (lbase_for (d_k d) c) (d_k d) (d_v d) (d_ix d) ->
    llow c' = llow c -> lhigh c' = lhigh c -> ldepth c' = S (ldepth c) ->
    (forall k, lbase_for k c' = lbase_for k c) ->
    (forall k v, (k, v) <> dpair d -> (lmem c' k v <-> lmem c k v)) ->
    (lmem c' (d_k d) (d_v d) <-> d_ins d = true) ->
    forall s seen, ssetw_ok cap c' s seen ->
    exists out seen', 
      (if pseen (dpair d) (filled phash seen) then lcollect cap (lhigh c) c s (filled phash seen)
       else do ds' <- binsert phash cap (dpair d) (filled phash seen);
            lcollect cap (lhigh c) c (insert_nodedup dlt d s) ds') =
      Ok (out, filter (fun d => negb (belowb (lhigh c) (d_k d))) s, filled phash seen') /\
      collectedw c' s seen out seen').
  { clear Base. intros c0 c' d IH Hw Hr Hp El Eh Ed Eb Hm1 Hm2 s seen Hs.
    assert (Hir : forall k, in_range c' k <-> in_range c0 k) by (intros k; unfold in_range; rewrite El, Eh; tauto).
    assert (Hs0 : ssetw_ok cap c0 s seen).
    { destruct Hs as [S1 S2 S3 S4 S5 S6]. rewrite El in S3. rewrite Eh in S4. split; auto.
      - intros e He Hb. rewrite <- Eb. auto.
      - intros x Hx. apply S5. apply Hir; auto.
      - lia. }
    destruct (pseen (dpair d) (filled phash seen)) eqn:Eseen.
    - apply pseen_spec in Eseen.
      destruct (IH s seen Hw Hs0) as (out & seen' & E & [C1 C2 C3 C4 C5 C6]).
      exists out, seen'. split; auto. split; auto; [| |intros x Hx; rewrite Hir; auto|lia].
      + intros k v. rewrite Hir. intros [H1 [H2|[H2 H3]]]; apply C1; split; auto; right; split; auto.
        apply Hm1; auto. intros E'. apply H2. rewrite E'. apply Hs0; auto.
      + intros x Hx. rewrite Hir. auto.
    - assert (Hns : ~ In (dpair d) seen) by (rewrite <- pseen_spec; congruence).
      pose proof (ssw_cap _ _ _ _ Hs) as Hcap. rewrite Ed in Hcap.
      destruct (filled_inv phash seen) as (_ & Edata & _).
      unfold binsert. rewrite Edata. rewrite (proj2 (Nat.ltb_lt _ _)) by lia. cbn [bind].
      rewrite <- filled_snoc.
      destruct (IH _ _ Hw (ssetw_insert cap c0 d s seen Hs0 ltac:(lia) Hr Hp Hns)) as (out & seen' & E & [C1 C2 C3 C4 C5 C6]).
      exists out, seen'. rewrite E. split.
      + rewrite insert_nd_filter; auto. rewrite (proj2 (belowb_spec _ _) (proj2 Hr)). auto.
      + pose proof (insert_nd_perm d s) as Hperm.
        assert (Hni : ~ In (dpair d) (map dpair s)) by (rewrite <- (ssw_seen _ _ _ _ Hs0 (dpair d)); auto).
        split; auto.
        * intros k v. rewrite Hir. intros Hpre. apply C1. revert Hpre. rewrite (map_perm_in dpair _ _ (k, v) Hperm). simpl.
          assert (Hex : (exists x, In x (insert_nodedup dlt d s) /\ dpair x = (k, v) /\ d_ins x = true) <->
                        (dpair d = (k, v) /\ d_ins d = true) \/ (exists x, In x s /\ dpair x = (k, v) /\ d_ins x = true)).
          { split.
            - intros (x & H1 & H2). apply Permutation_sym in Hperm. apply (Permutation_in _ Hperm) in H1.
              destruct H1 as [<-|H1]; eauto.
            - intros [H|(x & H1 & H2)]; [exists d|exists x]; split; auto; apply (Permutation_in _ Hperm); simpl; auto. }
          rewrite Hex. clear Hex.
          assert (Hd : {dpair d = (k, v)} + {dpair d <> (k, v)}).
          { unfold dpair. destruct (K_eq_dec (d_k d) k), (V_eq_dec (d_v d) v); subst; auto; right; congruence. }
          destruct Hd as [Hd|Hd].
          -- assert (k = d_k d /\ v = d_v d) as [-> ->] by (unfold dpair in Hd; inversion Hd; auto).
             fold (dpair d) in *. rewrite Hm2.
             intros (H1 & H2); split; auto. destruct H2 as [H2|H2]; [left; auto|]. left; left; tauto.
          -- assert (lmem c' k v <-> lmem c0 k v) as -> by (apply Hm1; congruence). tauto.
        * intros x Hx. rewrite Hir. auto.
        * intros x Hx. apply C4. apply in_app_iff; auto.
        * intros x Hx. rewrite Hir. apply C5 in Hx as [Hx|Hx]; auto. apply in_app_iff in Hx as [Hx|[<-|[]]]; auto.
        * rewrite app_length in C6. simpl in C6. lia. }
  induction c as [low items high|k v ix c IH|k v ix c IH|k sib n c IH|id c IH|mk id r IHr c IHc]; intros s seen Hw Hs.
  - destruct Hw as ((Ha & Hi & Hr) & Hn). destruct Hs as [S1 S2 S3 S4 S5 S6].
    apply (Base high low items high s seen (LBase low items high)); auto.
    + intros x Hx. apply Hi; auto.
    + intros; simpl; tauto.
  - destruct Hw as (Hw & Hr & Hn & Hp).
    apply (Delta c (LIns k v ix c) {| d_ins := true; d_k := k; d_v := v; d_ix := ix |}); auto; simpl.
    + intros k' v' Hne. unfold dpair in Hne; simpl in Hne. split; [|auto]. intros [[-> ->]|]; tauto.
    + tauto.
  - destruct Hw as (Hw & Hr & Hn & Hp).
    apply (Delta c (LDel k v ix c) {| d_ins := false; d_k := k; d_v := v; d_ix := ix |}); auto; simpl.
    + intros k' v' Hne. unfold dpair in Hne; simpl in Hne. split; [tauto|]. intros H; split; auto. intros [-> ->]; tauto.
    + split; [tauto|discriminate].
  - destruct c as [low items high| | | | |]; simpl in Hw; try tauto.
    destruct Hw as (((Ha & Hi & Hr) & Hn) & Hk & Hlk & Hnn). destruct Hs as [S1 S2 S3 S4 S5 S6].
    cbn [lcollect]. apply (Base (Some (k, sib)) low items high s seen (LSplit k sib n (LBase low items high))); auto.
    + intros x Hx. apply Hi; auto.
    + intros k' v' Hb. simpl in *. tauto.
  - simpl in Hw; tauto.
  - pose proof Hw as Hw0. destruct Hw as (Hwc & Hwr & E1 & E2). cbn [lcollect]. 
    destruct Hs as [S1 S2 S3 S4 S5 S6]. simpl in S3, S4, S6.
    assert (Hsc : ssetw_ok cap c s seen).
    { split; auto; [| |lia].
      - intros d Hd Hb. destruct (in_rangew_merge_l _ _ _ _ (d_k d) Hw0 (conj (S3 d Hd) Hb)) as [[_ Hr'] Hlt].
        specialize (S4 d Hd Hr'). rewrite kge_negb, Hlt in S4. auto.
      - intros x Hx. apply S5. apply (in_rangew_merge_l mk id r c); auto. }
    destruct (IHc s seen Hwc Hsc) as (o1 & seen1 & Ec & [C1 C2 C3 C4 C5 C6]).
    rewrite Ec. cbn [bind]. rewrite E2 in *.
    set (s1 := filter (fun d => negb (belowb (Some (mk, id)) (d_k d))) s) in *.
    assert (Hs1 : forall d, In d s1 <-> In d s /\ klt (d_k d) mk = false).
    { intros d. unfold s1. rewrite filter_In. simpl. rewrite negb_true_iff. tauto. }
    assert (Hs1m : forall x, klt (fst x) mk = false -> (In x (map dpair s1) <-> In x (map dpair s))).
    { intros x Hx. rewrite !in_map_iff. split; intros (d & D1 & D2); exists d; split; auto; apply Hs1; auto.
      split; auto. subst x; auto. }
    assert (Hsr : ssetw_ok cap r s1 seen1).
    { split.
      - apply SSorted_filter; auto.
      - apply NoDup_map_filter; auto.
      - intros d Hd. apply Hs1 in Hd. rewrite E1. simpl. tauto.
      - intros d Hd Hb. apply Hs1 in Hd as [Hd Hlt]. specialize (S4 d Hd Hb). rewrite kge_negb, Hlt in S4. auto.
      - intros x Hx. destruct (in_rangew_merge_r mk id r c (fst x) Hw0 Hx) as [Hx1 Hx2].
        rewrite (Hs1m _ Hx2). rewrite <- (S5 _ Hx1). split; auto. intros Hin. apply C5 in Hin as [|Hin]; auto.
        destruct (in_rangew_merge_l mk id r c (fst x) Hw0 Hin). congruence.
      - lia. }
    destruct (IHr s1 seen1 Hwr Hsr) as (o2 & seen2 & Er & [D1 D2 D3 D4 D5 D6]).
    rewrite Er. cbn [bind]. exists (o1 ++ o2), seen2. split.
    { f_equal. f_equal. f_equal. unfold s1. simpl.
      assert (Hhr : forall k, negb (belowb (lhigh r) k) = true -> negb (klt k mk) = true).
      { intros k. rewrite !negb_true_iff. intros Hb. apply lwfw_range in Hwr. rewrite E1 in Hwr.
        destruct (lhigh r) as [[y j]|]; simpl in *; [order|discriminate]. }
      clear -Hhr. induction s as [|d s IH]; simpl; auto.
      destruct (negb (belowb (lhigh r) (d_k d))) eqn:E.
      - rewrite (Hhr _ E). simpl. rewrite E. f_equal; auto.
      - destruct (negb (klt (d_k d) mk)); simpl; auto. rewrite E; auto. }
    assert (K1 : forall x, In x o1 -> klt (fst x) mk = true).
    { intros [k v] Hx. apply C2 in Hx. simpl in *. apply (in_rangew_merge_l mk id r c) in Hx; auto. tauto. }
    assert (K2 : forall x, In x o2 -> klt (fst x) mk = false).
    { intros [k v] Hx. apply D2 in Hx. simpl in *. apply (in_rangew_merge_r mk id r c) in Hx; auto. tauto. }
    split.
    + intros k v. rewrite in_app_iff. simpl. intros [H1 H2].
      pose proof (in_rangew_merge _ _ _ _ _ Hw0 H1) as G. destruct (klt k mk) eqn:Ek; [left; apply C1; auto|].
      right. apply D1. split; auto. rewrite (Hs1m (k, v)) by auto. destruct H2 as [(d & H3 & H4 & H5)|H2]; [left|auto].
      exists d. split; auto. apply Hs1. split; auto. inversion H4; subst; auto.
    + intros x Hx. apply in_app_iff in Hx as [Hx|Hx].
      * apply C2, (in_rangew_merge_l mk id r c) in Hx; tauto.
      * apply D2, (in_rangew_merge_r mk id r c) in Hx; tauto.
    + apply ascending_app; auto. intros x y Hx Hy. specialize (K1 _ Hx). specialize (K2 _ Hy). order.
    + auto.
    + intros x Hx. apply D5 in Hx as [Hx|Hx].
      * apply C5 in Hx as [|Hx]; auto. right. apply (in_rangew_merge_l mk id r c); auto.
      * right. apply (in_rangew_merge_r mk id r c); auto.
    + simpl. lia.
Qed.

End LeafWeak.
