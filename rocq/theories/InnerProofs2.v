(** Inner pages: rebuilding, counts, left neighbours, splitting, built pages. *)
From Coq Require Import List Arith Lia Bool ZArith NArith Sorted Permutation.
From Verif Require Import Base SmallSet Bloom SmallProofs Leaf LeafSpec LeafProofs LeafProofs2 Inner InnerSpec InnerProofs.
Import ListNotations.

Section InnerProofs2.
Context {P : Params}.
Variable lowof : nat -> option K.
Notation skey := (fun d => fst (s_item d)).
Notation iwf := (iwf lowof).

Definition rgt (a b : K) : bool := klt b a.
Lemma klt_tot a b : klt a b = false -> klt b a = false -> a = b. Proof. intros; order. Qed.
Lemma klt_tr a b c : klt a b = true -> klt b c = true -> klt a c = true. Proof. intros; order. Qed.
Lemma klt_ir a : klt a a = false. Proof. order. Qed.
Lemma rgt_tot a b : rgt a b = false -> rgt b a = false -> a = b. Proof. unfold rgt. intros; order. Qed.
Lemma rgt_tr a b c : rgt a b = true -> rgt b c = true -> rgt a c = true. Proof. unfold rgt. intros; order. Qed.
Lemma rgt_ir a : rgt a a = false. Proof. unfold rgt. order. Qed.

Lemma imerge_gmerge fuel : forall a d, imerge fuel a d = gmerge klt fuel a d.
Proof.
  reflexivity.
Qed.

(** Deltas below the high key come first. *)
Lemma ikey_split (s : list idata) h : gsorted klt skey s ->
  s = filter (fun d => klt (fst (s_item d)) h) s ++ filter (fun d => negb (klt (fst (s_item d)) h)) s.
Proof.
  induction 1 as [|a s H IH Hf]; simpl; auto. rewrite Forall_forall in Hf.
  destruct (klt (fst (s_item a)) h) eqn:E; simpl; [f_equal; auto|].
  assert (forall d, In d s -> klt (fst (s_item d)) h = false) as G by (intros d Hd; specialize (Hf _ Hd); order).
  rewrite (filter_none _ _ G), (filter_all (fun d => negb _)); auto.
  intros x Hx. rewrite (G _ Hx); auto.
Qed.

Lemma isss_end_spec hk s : gsorted klt skey s ->
  firstn (isss_end hk s) s = filter (fun d => belowb hk (fst (s_item d))) s /\
  skipn (isss_end hk s) s = filter (fun d => negb (belowb hk (fst (s_item d)))) s /\ isss_end hk s <= length s.
Proof.
  intros H. destruct hk as [[h i]|]; simpl.
  - pose proof (ikey_split s h H) as E.
    set (a := filter (fun d => klt (fst (s_item d)) h) s) in *. set (b := filter (fun d => negb (klt (fst (s_item d)) h)) s) in *.
    assert (Eb : first_not (fun d => negb (klt (fst (s_item d)) h)) (rev s) = length b).
    { rewrite E, rev_app_distr, first_not_app_all, rev_length; auto.
      - intros x Hx. apply in_rev, filter_In in Hx. tauto.
      - intros x Hx. apply in_rev, filter_In in Hx. destruct Hx as [_ ->]; auto. }
    rewrite Eb. assert (El : length s - length b = length a) by (rewrite E at 1; rewrite app_length; lia).
    rewrite El. clear El Eb. clearbody a b. subst s.
    rewrite firstn_app, skipn_app, Nat.sub_diag, firstn_all, skipn_all. simpl. rewrite app_nil_r, app_length.
    split; auto. split; auto. lia.
  - rewrite firstn_all, skipn_all. rewrite filter_all, filter_none; auto.
Qed.

Lemma lb_filter (rest : list sep) h : strict rest -> firstn (lb h rest) rest = filter (fun x => klt (fst x) h) rest.
Proof.
  intros H. apply strict_asc in H. induction H as [|a l H IH Hf]; simpl; auto. rewrite Forall_forall in Hf.
  unfold lb in *. simpl. destruct (klt (fst a) h) eqn:E; simpl; [f_equal; auto|].
  rewrite filter_none; auto. intros x Hx. specialize (Hf _ Hx). order.
Qed.

Lemma upd_ext s M M' x i : (M x i <-> M' x i) -> upd s M x i <-> upd s M' x i.
Proof. unfold upd. tauto. Qed.
Lemma upd_same s s' M x i : (forall d, fst (s_item d) = x -> (In d s <-> In d s')) -> upd s M x i <-> upd s' M x i.
Proof.
  intros H. unfold upd. split; intros [(d & H1 & H2 & H3)|[H1 H2]].
  - left. exists d. split; auto. apply H; auto. rewrite H2; auto.
  - right. split; auto. intros d Hd E. apply (H1 d); auto. apply H; auto.
  - left. exists d. split; auto. apply H; auto. rewrite H2; auto.
  - right. split; auto. intros d Hd E. apply (H1 d); auto. apply H; auto.
Qed.

Lemma icollect_base cap lid hk d low lid0 items high s : iwf (IBase d low lid0 items high) ->
  subok lowof lid (IBase d low lid0 items high) -> gsorted klt skey s ->
  (forall h i, hk = Some (h, i) -> sabove low h) ->
  exists out s1, icollect cap lid hk (IBase d low lid0 items high) s = Ok (out, s1) /\ strict out /\
    s1 = filter (fun d => negb (belowb hk (fst (s_item d)))) s /\
    forall x i, In (x, i) out <-> below hk x /\ upd s (sepx lid (IBase d low lid0 items high)) x i.
Proof.
  intros Hw Hsub Hs Hh. destruct Hw as (rest & Hb). pose proof Hb as (Ei & Hst & Hl & Hr & Hin).
  set (ce := match hk with None => length items | Some (h, _) => 1 + lower_bound h (skipn 1 items) end).
  set (cs := if lid0 =? lid then 1 else 0).
  assert (Eu : icollect cap lid hk (IBase d low lid0 items high) s =
    (do a <- slice items cs ce;
     do out <- imerge (length a + isss_end hk s) a (firstn (isss_end hk s) s);
     Ok (out, skipn (isss_end hk s) s))) by (unfold ce, cs; rewrite Ei; reflexivity).
  rewrite Eu. clear Eu. destruct (isss_end_spec hk s Hs) as (E1 & E2 & E3).
  set (a := (if lid0 =? lid then [] else [(rawlow low, lid0)]) ++ filter (fun x => belowb hk (fst x)) rest).
  assert (Hce : ce = S (length (filter (fun x => belowb hk (fst x)) rest)) /\
                firstn (length (filter (fun x => belowb hk (fst x)) rest)) rest = filter (fun x => belowb hk (fst x)) rest).
  { unfold ce. destruct hk as [[h hi]|]; rewrite Ei; cbn [skipn length].
    - rewrite lower_bound_lb by (apply strict_asc; auto). simpl belowb.
      rewrite <- lb_filter by auto. rewrite firstn_length. pose proof (lb_le rest h).
      rewrite (Nat.min_l (lb h rest) (length rest)) by lia. auto.
    - simpl belowb. rewrite filter_all by auto. rewrite firstn_all. auto. }
  destruct Hce as [Hce Hfn]. set (n := length (filter (fun x => belowb hk (fst x)) rest)) in *.
  assert (Hn : n <= length rest) by (unfold n at 1; rewrite <- Hfn; rewrite firstn_length; lia).
  assert (Ea : slice items cs ce = Ok a).
  { unfold slice. assert ((cs <=? ce) && (ce <=? length items) = true) as ->.
    { rewrite Ei, Hce. cbn [length]. apply andb_true_intro; split; apply Nat.leb_le; [unfold cs; destruct (_ =? _)|]; lia. }
    f_equal. rewrite Ei, Hce. unfold cs, a. destruct (lid0 =? lid); simpl; rewrite ?Nat.sub_0_r, Hfn; auto. }
  rewrite Ea. cbn [bind]. rewrite imerge_gmerge, E1.
  assert (Hsa : gsorted klt (fun x : sep => fst x) a).
  { unfold a. destruct (Nat.eqb_spec lid0 lid) as [E|E]; simpl; [apply SSorted_filter; auto|].
    constructor; [apply SSorted_filter; auto|]. apply Forall_forall. intros [x i] Hx. apply filter_In in Hx as [Hx _].
    destruct (Hin _ _ Hx) as (G & _). destruct Hsub as [?|(x0 & Ex & _)]; [simpl in *; congruence|].
    simpl in Ex. subst low. simpl in *. auto. }
  destruct (gmerge_spec klt klt_ir klt_tr klt_tot (length a + isss_end hk s) a (filter (fun d => belowb hk (fst (s_item d))) s))
    as (out & Eo & Hso & Ho); auto.
  { apply SSorted_filter. auto. }
  { rewrite <- E1, firstn_length. lia. }
  rewrite Eo. cbn [bind]. rewrite E2. exists out. eexists. split; [reflexivity|]. split; auto. split; auto.
  intros x i. rewrite Ho.
  assert (Ha : In (x, i) a <-> below hk x /\ sepx lid (IBase d low lid0 items high) x i).
  { unfold a, sepx. cbn [seps ilid ilow]. rewrite Ei. cbn [tl]. rewrite in_app_iff, filter_In, belowb_spec. simpl fst.
    destruct (Nat.eqb_spec lid0 lid) as [E|E].
    - simpl. split; [intros [[]|H]; tauto|]. intros [H1 [H2|(H2 & _)]]; [tauto|congruence].
    - destruct Hsub as [?|(x0 & Ex & _)]; [simpl in *; congruence|]. simpl in Ex. subst low. simpl.
      split.
      + intros [[H|[]]|H]; [|tauto]. inversion H; subst. split; auto.
        destruct hk as [[h j]|]; simpl; auto. apply (Hh h j); auto.
      + intros [H1 [H2|(H2 & H3 & H4)]]; [tauto|]. inversion H3; subst; auto. }
  unfold upd. setoid_rewrite filter_In. setoid_rewrite belowb_spec. rewrite Ha. split.
  - intros [(e & [H1 H2] & H3 & H4)|[H1 [H2 H3]]].
    + rewrite H3 in H2. split; auto. left. exists e. auto.
    + split; auto. right. split; auto. intros e He Ee. apply (H1 e); auto. split; auto. rewrite Ee; auto.
  - intros [H0 [(e & H1 & H3 & H4)|[H1 H2]]].
    + left. exists e. split; auto. split; auto. rewrite H3. auto.
    + right. split; auto. intros e [He _]; auto.
Qed.

Lemma flen {A} (f : A -> bool) l : length (filter f l) <= length l.
Proof. induction l; simpl; auto. destruct (f a); simpl; lia. Qed.
Lemma slt_glt : slt = glt klt. Proof. reflexivity. Qed.
Lemma sgt_glt : sgt = glt rgt. Proof. reflexivity. Qed.

Lemma sinsert_ok lt cap d s : S (length s) <= cap ->
  (length (SmallSet.insert lt seq_ d s) <= S (length s)) ->
  sinsert lt cap d s = Ok (SmallSet.insert lt seq_ d s).
Proof. intros H1 H2. unfold sinsert. assert (_ <=? cap = true) as -> by (apply Nat.leb_le; lia). auto. Qed.

Lemma idelta_ok_below hk k : below hk k -> idelta_ok hk k = true.
Proof. destruct hk as [[h i]|]; simpl; auto. Qed.

Lemma icollect_spec cap lid : forall c s, iwf c -> subok lowof lid c -> gsorted klt skey s ->
  (forall d, In d s -> lo_ok lid c (fst (s_item d))) -> length s + idepth c <= cap ->
  exists out s1, icollect cap lid (ihigh c) c s = Ok (out, s1) /\ strict out /\ gsorted klt skey s1 /\
    length s1 <= length s + idepth c /\
    (forall d, In d s1 <-> In d s /\ ~ below (ihigh c) (fst (s_item d))) /\
    (forall x i, In (x, i) out <-> below (ihigh c) x /\ upd s (sepx lid c) x i).
Proof.
  assert (Hd : forall c s x i, iwf c -> upd s (sepx lid c) x i -> (forall d, In d s -> lo_ok lid c (fst (s_item d))) -> above (ilow c) x).
  { intros c0 s x i Hw [(d & H1 & H2 & H3)|[_ [H|(_ & H & _)]]] Hl.
    - specialize (Hl _ H1). rewrite H2 in Hl. apply Hl.
    - apply sabove_above. apply (seps_range lowof c0 Hw _ _ H).
    - rewrite H. simpl. order. }
  assert (Hdelta : forall c s x j b, iwf c -> sabove (ilow c) x -> below (ihigh c) x ->
    gsorted klt skey s -> (forall d, In d s -> lo_ok lid c (fst (s_item d))) -> length s + S (idepth c) <= cap ->
    (forall s, iwf c -> subok lowof lid c -> gsorted klt skey s ->
      (forall d, In d s -> lo_ok lid c (fst (s_item d))) -> length s + idepth c <= cap ->
      exists out s1, icollect cap lid (ihigh c) c s = Ok (out, s1) /\ strict out /\ gsorted klt skey s1 /\
        length s1 <= length s + idepth c /\
        (forall d, In d s1 <-> In d s /\ ~ below (ihigh c) (fst (s_item d))) /\
        (forall x i, In (x, i) out <-> below (ihigh c) x /\ upd s (sepx lid c) x i)) ->
    subok lowof lid c ->
    let d0 := {| s_ins := b; s_item := (x, j) |} in
    exists out s1, (do s' <- sinsert slt cap d0 s; icollect cap lid (ihigh c) c s') = Ok (out, s1) /\ strict out /\ gsorted klt skey s1 /\
        length s1 <= length s + S (idepth c) /\
        (forall d, In d s1 <-> In d s /\ ~ below (ihigh c) (fst (s_item d))) /\
        (forall y i, In (y, i) out <-> below (ihigh c) y /\ upd s (app_delta d0 (sepx lid c)) y i)).
  { intros c s x j b Hw Hsa Hbe Hs Hlo Hlen IH Hsub d0.
    destruct (gset_insert klt klt_ir klt_tr klt_tot d0 s (sepx lid c) Hs) as (G1 & G2 & G3 & G4 & G5).
    rewrite sinsert_ok by (rewrite ?slt_glt; auto; lia). cbn [bind]. rewrite slt_glt.
    destruct (IH (SmallSet.insert (glt klt) seq_ d0 s)) as (out & s1 & E & Ho & Hs1 & Hl1 & Hi1 & Hi2); auto.
    - intros d Hdd. apply G3 in Hdd as [->|Hdd]; auto. simpl. split; auto. apply sabove_above; auto.
    - lia.
    - exists out, s1. split; auto. split; auto. split; auto. split; [lia|]. split.
      + intros d. rewrite Hi1. split; intros [H1 H2]; split; auto. apply G3 in H1 as [->|H1]; auto. simpl in H2. tauto.
      + intros y i. rewrite Hi2, G5. tauto. }
  induction c as [d low lid0 items high|[sk i] nx loc c IH|[sk i] [ps pi] nx loc c IH|sk sib n c IH|id c IH|mk id r IHr c IHc|p c IH];
    intros s Hw Hsub Hs Hlo Hlen.
  - destruct (icollect_base cap lid high d low lid0 items high s Hw Hsub Hs) as (out & s1 & E & Ho & -> & Hx).
    { intros h j ->. apply iwf_range in Hw. simpl in Hw. destruct low; simpl in *; auto. }
    exists out. eexists. split; [exact E|]. split; auto. split; [apply SSorted_filter; auto|]. split.
    + match goal with |- length (filter ?f _) <= _ => pose proof (flen f s) end. lia.
    + split; auto. intros d0. rewrite filter_In, negb_true_iff. simpl ihigh. rewrite <- belowb_spec.
      destruct (belowb high (fst (s_item d0))); intuition congruence.
  - destruct Hw as (Hw & Hsa & Hbe & Hlw & Hns & _). cbn [icollect ihigh ilow ilid idepth fst] in *.
    rewrite idelta_ok_below by auto.
    destruct (Hdelta c s sk i true Hw Hsa Hbe Hs Hlo Hlen IH Hsub) as (out & s1 & E & Ho & Hs1 & Hl1 & Hi1 & Hi2).
    exists out, s1. split; auto. split; auto. split; auto. split; auto. split; auto.
    intros x j. rewrite Hi2. enough (Hu : upd s (app_delta {| s_ins := true; s_item := (sk, i) |} (sepx lid c)) x j <->
      upd s (sepx lid (IIns (sk, i) nx loc c)) x j) by tauto.
    apply upd_ext. unfold app_delta, sepx. cbn [seps s_ins s_item fst ilid ilow]. split.
    + intros [[_ H]|[H1 [H2|H2]]]; [inversion H; auto|auto|auto].
    + intros [[[-> ->]|H]|(H1 & H2 & H3)]; auto; [tauto|]. right. split; auto.
      intros ->. rewrite H2 in Hsa. simpl in Hsa. order.
  - destruct Hw as (Hw & Hsa & Hbe & Hse & Hpr & _). cbn [icollect ihigh ilow ilid idepth fst] in *.
    rewrite idelta_ok_below by auto.
    destruct (Hdelta c s sk i false Hw Hsa Hbe Hs Hlo Hlen IH Hsub) as (out & s1 & E & Ho & Hs1 & Hl1 & Hi1 & Hi2).
    exists out, s1. split; auto. split; auto. split; auto. split; auto. split; auto.
    intros x j. rewrite Hi2. enough (Hu : upd s (app_delta {| s_ins := false; s_item := (sk, i) |} (sepx lid c)) x j <->
      upd s (sepx lid (IDel (sk, i) (ps, pi) nx loc c)) x j) by tauto.
    apply upd_ext. unfold app_delta, sepx. cbn [seps s_ins s_item fst ilid ilow]. split.
    + intros [[? _]|[H1 [H2|H2]]]; [discriminate|auto|auto].
    + intros [H|(H1 & H2 & H3)]; [tauto|]. right. split; auto.
      intros ->. rewrite H2 in Hsa. simpl in Hsa. order.
  - destruct c as [d low lid0 items high| | | | | |]; simpl in Hw; try tauto. destruct Hw as (Hw & H1 & H2 & H3).
    destruct (icollect_base cap lid (Some (sk, sib)) d low lid0 items high s Hw Hsub Hs) as (out & s1 & E & Ho & -> & Hx).
    { intros h j [= <- <-]. auto. }
    exists out. eexists. split; [exact E|]. split; auto. split; [apply SSorted_filter; auto|]. split.
    + match goal with |- length (filter ?f _) <= _ => pose proof (flen f s) end. lia.
    + split.
      * intros d0. rewrite filter_In, negb_true_iff. simpl ihigh. rewrite <- (belowb_spec (Some (sk, sib))).
        destruct (belowb (Some (sk, sib)) (fst (s_item d0))); intuition congruence.
      * intros x i. rewrite Hx. simpl ihigh. unfold sepx. cbn [seps ilid ilow]. split; intros [G1 G2]; split; auto.
        -- revert G2. apply upd_ext. simpl in G1. tauto.
        -- revert G2. apply upd_ext. simpl in G1. tauto.
  - simpl in Hw; tauto.
  - pose proof Hw as Hw0. destruct Hw as (Hc & Hr & E1 & E2). unfold lo_ok in Hlo. cbn [icollect ihigh ilow ilid idepth] in *.
    destruct (subok_merge lowof _ _ _ _ _ Hw0 Hsub) as [Hsr Hnr].
    destruct (IHc s Hc Hsub Hs Hlo) as (o1 & s1 & F1 & Ho1 & Hs1 & Hl1 & Hi1 & Hx1); [lia|].
    rewrite E1 in F1, Hi1, Hx1. rewrite E1, F1. cbn [bind].
    destruct (IHr s1 Hr Hsr Hs1) as (o2 & s2 & F2 & Ho2 & Hs2 & Hl2 & Hi2 & Hx2).
    { intros d Hdd. apply Hi1 in Hdd as [_ Hdd]. split; [rewrite E2; simpl in *; order|congruence]. }
    { lia. }
    rewrite F2. cbn [bind]. exists (o1 ++ o2), s2. split; auto.
    assert (Hge : forall x i, In (x, i) o2 -> klt x mk = false).
    { intros x i Hx. apply Hx2 in Hx as [_ Hx]. apply Hd in Hx; auto.
      - rewrite E2 in Hx. auto.
      - intros d Hdd. apply Hi1 in Hdd as [_ Hdd]. split; [rewrite E2; simpl in *; order|congruence]. }
    pose proof (iwf_range _ _ Hc) as Rc. pose proof (iwf_range _ _ Hr) as Rr. rewrite E1 in Rc. rewrite E2 in Rr.
    split; [apply SSorted_app; auto|].
    { intros [x i] [y j] Hx Hy. simpl. apply Hx1 in Hx as [Hx _]. simpl in Hx. apply Hge in Hy. order. }
    split; auto. split; [lia|]. split.
    { intros d. rewrite Hi2, Hi1. split; [tauto|]. intros [H1 H2]. split; auto. split; auto. intros H3. apply H2.
      simpl in H3. destruct (ihigh r) as [[h j]|]; simpl in *; auto. order. }
    intros x i. rewrite in_app_iff. destruct (klt x mk) eqn:Ex.
    + rewrite Hx1. simpl below at 1.
      assert (Hb : below (ihigh r) x) by (destruct (ihigh r) as [[h j]|]; simpl in *; auto; order).
      assert (Hu : upd s (sepx lid (IMerge mk id r c)) x i <-> upd s (sepx lid c) x i).
      { apply upd_ext. unfold sepx. cbn [seps ilid ilow]. rewrite Ex. tauto. }
      rewrite Hu. split; [|tauto]. intros [H|H]; [tauto|]. apply Hge in H. congruence.
    + assert (Hu : upd s (sepx lid (IMerge mk id r c)) x i <-> upd s1 (sepx lid r) x i).
      { etransitivity; [apply (upd_same s s1)|].
        - intros d Hdk. rewrite Hi1, Hdk. simpl. rewrite Ex. intuition congruence.
        - apply upd_ext. unfold sepx. cbn [seps ilid ilow]. rewrite Ex, E2. split.
          + intros [[[-> ->]|H]|(_ & H & _)]; auto. rewrite H in Rc. simpl in Rc. congruence.
          + intros [H|(_ & H & ->)]; auto. inversion H; auto. }
      rewrite Hu, <- Hx2. split; [|auto]. intros [H|H]; auto. apply Hx1 in H as [H _]. simpl in H. congruence.
  - simpl in Hw; tauto.
Qed.

Lemma strict_NoDup (l : list sep) : strict l -> NoDup l.
Proof.
  induction 1 as [|a l H IH Hf]; constructor; auto. rewrite Forall_forall in Hf. intros Hin.
  specialize (Hf _ Hin). simpl in Hf. order.
Qed.

(** ** Item counts *)
Lemma icount_card c : iwf c -> forall l : list sep, NoDup l ->
  (forall s i, In (s, i) l <-> seps c s i) -> icount c = (1 + Z.of_nat (length l))%Z.
Proof.
  induction c as [d low lid0 items high|[sk i] nx loc c IH|[sk i] [ps pi] nx loc c IH|sk sib n c IH|id c IH|mk id r IHr c IHc|p c IH];
    intros Hw l Hn Hl.
  - destruct Hw as (rest & -> & Hs & _). cbn [icount seps tl] in *. cbn [length].
    assert (length rest = length l); [|lia]. apply Permutation_length, NoDup_Permutation; auto using strict_NoDup.
    intros [x i]. rewrite Hl. tauto.
  - destruct Hw as (Hw & _ & _ & _ & Hns & _). cbn [icount seps] in *.
    assert (Hin : In (sk, i) l) by (apply Hl; auto).
    apply in_split in Hin as (l1 & l2 & ->). pose proof (NoDup_remove_1 _ _ _ Hn). pose proof (NoDup_remove_2 _ _ _ Hn) as Hn2.
    rewrite (IH Hw (l1 ++ l2)); auto.
    + rewrite !app_length. simpl length. lia.
    + intros s' i'. specialize (Hl s' i'). rewrite in_app_iff in Hl |- *. simpl In in Hl. split.
      * intros Hin. assert (Hne : (s', i') <> (sk, i)).
        { intros E. apply Hn2. inversion E; subst. apply in_app_iff; auto. }
        destruct (proj1 Hl) as [[-> ->]|[_ H2]]; [tauto|congruence|auto].
      * intros H2. assert (In (s', i') l1 \/ (sk, i) = (s', i') \/ In (s', i') l2) as [?|[E|?]]; auto.
        -- apply Hl. right. split; auto. intros ->. eapply Hns; eauto.
        -- inversion E; subst. exfalso; eapply Hns; eauto.
  - destruct Hw as (Hw & _ & _ & Hse & _). cbn [icount seps] in *.
    assert (Hin : ~ In (sk, i) l) by (rewrite Hl; tauto).
    rewrite (IH Hw ((sk, i) :: l)); [simpl length; lia|constructor; auto|].
    intros s' i'. simpl In. rewrite Hl. split.
    + intros [E|[_ H]]; auto. inversion E; subst; auto.
    + intros H. destruct (K_eq_dec s' sk) as [->|]; auto. left. f_equal. eapply seps_fun; eauto.
  - destruct c as [d low lid0 items high| | | | | |]; simpl in Hw; try tauto. destruct Hw as (Hw & H1 & H2 & ->).
    destruct Hw as (rest & -> & Hs & _). cbn [icount seps tl] in *. cbn [length].
    assert (length l = length (filter (fun x => klt (fst x) sk) rest)).
    { apply Permutation_length, NoDup_Permutation; auto using NoDup_filter, strict_NoDup.
      intros [x i]. rewrite Hl, filter_In. simpl. tauto. }
    pose proof (filter_split_length (fun x : sep => klt (fst x) sk) rest). unfold kge. lia.
  - simpl in Hw; tauto.
  - destruct Hw as (Hc & Hr & E1 & E2). cbn [icount seps] in *.
    assert (Hin : In (mk, ilid r) l).
    { apply Hl. rewrite klt_ir. auto. }
    apply in_split in Hin as (l1 & l2 & ->). pose proof (NoDup_remove_1 _ _ _ Hn) as Hn1. pose proof (NoDup_remove_2 _ _ _ Hn) as Hn2.
    assert (Hl' : forall s i, In (s, i) (l1 ++ l2) <-> if klt s mk then seps c s i else seps r s i).
    { intros s i. specialize (Hl s i). rewrite in_app_iff in Hl |- *. simpl In in Hl. destruct (klt s mk) eqn:E.
      - rewrite <- Hl. split; [tauto|]. intros [H|[H|H]]; auto. inversion H; subst. rewrite klt_ir in E; discriminate.
      - assert (Hne : (mk, ilid r) = (s, i) -> ~ seps r s i).
        { intros [= <- <-] H. apply (seps_range lowof r Hr) in H as (H & _). rewrite E2 in H. simpl in H. order. }
        split.
        + intros H. destruct (proj1 Hl) as [[-> ->]|]; [tauto| |auto].
          exfalso. apply Hn2. apply in_app_iff. auto.
        + intros H. destruct (proj2 Hl (or_intror H)) as [?|[?|?]]; auto. exfalso. eapply Hne; eauto. }
    rewrite (IHc Hc (filter (fun x => klt (fst x) mk) (l1 ++ l2))), (IHr Hr (filter (fun x => negb (klt (fst x) mk)) (l1 ++ l2)));
      auto using NoDup_filter.
    + pose proof (filter_split_length (fun x : sep => klt (fst x) mk) (l1 ++ l2)).
      rewrite app_length in *. simpl length. lia.
    + intros s i. rewrite filter_In, Hl'. simpl. rewrite negb_true_iff. split.
      * intros [H H2]. rewrite H2 in H. auto.
      * intros H. pose proof (seps_range lowof r Hr _ _ H) as (G & _). rewrite E2 in G. simpl in G.
        assert (klt s mk = false) as -> by order. auto.
    + intros s i. rewrite filter_In, Hl'. simpl. split.
      * intros [H H2]. rewrite H2 in H. auto.
      * intros H. pose proof (seps_range lowof c Hc _ _ H) as (_ & G & _). rewrite E1 in G. simpl in G. rewrite G. auto.
  - simpl in Hw; tauto.
Qed.

(** ** Rebuilding *)
Lemma iconsolidate_spec c dep : iwf c ->
  exists rest, iconsolidate dep c = Ok (IBase dep (ilow c) (ilid c) ((rawlow (ilow c), ilid c) :: rest) (ihigh c)) /\
    strict rest /\ (forall s i, In (s, i) rest <-> seps c s i) /\
    icount c = (1 + Z.of_nat (length rest))%Z /\
    iwf (IBase dep (ilow c) (ilid c) ((rawlow (ilow c), ilid c) :: rest) (ihigh c)).
Proof.
  intros Hw. destruct (icollect_spec (idepth c) (ilid c) c [] Hw) as (out & s1 & E & Ho & _ & _ & _ & Hx).
  - left; auto.
  - constructor.
  - intros d [].
  - simpl; lia.
  - assert (Hin : forall s i, In (s, i) out <-> seps c s i).
    { intros s i. rewrite Hx. unfold upd, sepx. split.
      - intros [_ [(d & [] & _)|[_ [H|(H & _)]]]]; auto. congruence.
      - intros H. split; [apply (seps_range lowof c Hw _ _ H)|]. right. split; auto. }
    pose proof (icount_card c Hw out (strict_NoDup _ Ho) Hin) as Hc.
    exists out. unfold iconsolidate. rewrite E. cbn [bind]. cbn [length].
    assert ((icount c <? Z.of_nat (S (length out)))%Z = false) as -> by (apply Z.ltb_ge; lia).
    assert ((icount c =? Z.of_nat (S (length out)))%Z = true) as -> by (apply Z.eqb_eq; lia).
    split; auto. split; auto. split; auto. split; auto.
    exists out. split; auto. split; auto. split; [apply iwf_lid; auto|]. split; [apply (iwf_range lowof); auto|].
    intros s i H. apply (seps_range lowof c Hw). apply Hin; auto.
Qed.

(** ** Left neighbour *)
Lemma firstn_snoc {A} (l : list A) j x : nth_error l j = Some x -> firstn (S j) l = firstn j l ++ [x].
Proof.
  revert j. induction l as [|a l IH]; intros [|j]; simpl; try discriminate.
  - intros [= ->]. auto.
  - intros H. f_equal. apply IH; auto.
Qed.

Lemma ileft_loop_spec x0 rest fuel : forall i1 s counter left out F,
  1 <= i1 -> i1 <= S (length rest) ->
  gmerge rgt F (rev (firstn (i1 - 1) rest)) s = Ok out -> length s + counter <= fuel ->
  match counter with
  | O => True
  | S c => forall x, nth_error (out ++ [x0]) c = Some x -> ileft_loop fuel (x0 :: rest) i1 s counter left = Ok (snd x)
  end.
Proof.
  assert (H0 : forall fuel i1 s (x : sep), ileft_loop fuel (x0 :: rest) i1 s 0 (Some x) = Ok (snd x)).
  { intros f i1 s x. destruct f; reflexivity. }
  induction fuel as [|f IH]; intros i1 s counter left out F Hi1 Hi2 Hg Hf; destruct counter as [|cn]; auto; [lia|].
  intros x Hx. cbn [ileft_loop]. destruct i1 as [|j]; [lia|].
  assert (Hstep : forall j s out F y left', 1 <= j -> j <= S (length rest) -> gmerge rgt F (rev (firstn (j - 1) rest)) s = Ok out ->
     length s + cn <= f -> nth_error (y :: out ++ [x0]) cn = Some x ->
     left' = Some y -> ileft_loop f (x0 :: rest) j s cn left' = Ok (snd x)).
  { intros j' s' out' F' y left' G1 G2 G3 G4 G5 ->. destruct cn as [|cn].
    - simpl in G5. inversion G5; subst. apply H0.
    - specialize (IH j' s' (S cn) (Some y) out' F' G1 G2 G3 G4). simpl in IH. apply IH. auto. }
  assert (Hsame : forall j s out F left', 1 <= j -> j <= S (length rest) -> gmerge rgt F (rev (firstn (j - 1) rest)) s = Ok out ->
     length s + S cn <= f -> nth_error (out ++ [x0]) cn = Some x -> ileft_loop f (x0 :: rest) j s (S cn) left' = Ok (snd x)).
  { intros j' s' out' F' left' G1 G2 G3 G4 G5. apply (IH j' s' (S cn) left' out' F' G1 G2 G3 G4). auto. }
  destruct s as [|d s].
  - destruct j as [|j].
    + cbn [nth_error]. replace (S 0 - 1) with 0 in Hg by lia. simpl in Hg. destruct F; simpl in Hg; inversion Hg; subst; clear Hg.
      * destruct cn as [|cn]; simpl in Hx; [|destruct cn; discriminate]. inversion Hx; subst. apply H0.
      * destruct cn as [|cn]; simpl in Hx; [|destruct cn; discriminate]. inversion Hx; subst. apply H0.
    + cbn [nth_error]. destruct (nth_some rest j ltac:(lia)) as (y & Hy). rewrite Hy.
      simpl Nat.sub in Hg. rewrite ?Nat.sub_0_r in Hg. rewrite (firstn_snoc _ _ _ Hy), rev_app_distr in Hg. simpl in Hg.
      assert (out = y :: rev (firstn j rest)) by (destruct F; simpl in Hg; congruence). subst out.
      apply (Hstep (S j) [] (rev (firstn j rest)) F y); auto; try lia.
      simpl Nat.sub. rewrite Nat.sub_0_r. destruct F; simpl; destruct (rev (firstn j rest)); auto.
  - destruct j as [|j].
    + simpl Nat.sub in Hg. simpl in Hg. destruct F as [|F]; [discriminate|]. simpl in Hg.
      destruct (gmerge rgt F [] s) as [r|] eqn:Er; [|discriminate]. simpl in Hg. inversion Hg; subst; clear Hg.
      simpl in Hf. destruct (s_ins d).
      * apply (Hstep 1 s r F (s_item d)); auto; lia.
      * apply (Hsame 1 s r F); auto; lia.
    + cbn [nth_error]. destruct (nth_some rest j ltac:(lia)) as (y & Hy). rewrite Hy.
      simpl Nat.sub in Hg. rewrite ?Nat.sub_0_r in Hg. pose proof Hg as Hg0.
      rewrite (firstn_snoc _ _ _ Hy), rev_app_distr in Hg. simpl in Hg. simpl in Hf.
      destruct F as [|F]; [discriminate|].
      assert (Hg1 : (if klt (fst (s_item d)) (fst y)
                     then do r <- gmerge rgt F (rev (firstn j rest)) (d :: s); Ok (y :: r)
                     else if klt (fst y) (fst (s_item d))
                     then do r <- gmerge rgt F (y :: rev (firstn j rest)) s; Ok (if s_ins d then s_item d :: r else r)
                     else do r <- gmerge rgt F (rev (firstn j rest)) s; Ok (if s_ins d then s_item d :: r else r)) = Ok out) by exact Hg.
      clear Hg. rename Hg1 into Hg.
      destruct (keq (fst (s_item d)) (fst y)) eqn:Ek.
      * apply keq_spec in Ek. rewrite Ek, !klt_ir in Hg.
        destruct (gmerge rgt F (rev (firstn j rest)) s) as [r|] eqn:Er; [|discriminate]. simpl in Hg. inversion Hg; subst; clear Hg.
        destruct (s_ins d).
        -- apply (Hstep (S j) s r F (s_item d)); auto; try lia. simpl Nat.sub. rewrite Nat.sub_0_r. auto.
        -- apply (Hsame (S j) s r F); auto; try lia. simpl Nat.sub. rewrite Nat.sub_0_r. auto.
      * destruct (klt (fst (s_item d)) (fst y)) eqn:El.
        -- destruct (gmerge rgt F (rev (firstn j rest)) (d :: s)) as [r|] eqn:Er; [|discriminate]. simpl in Hg. inversion Hg; subst; clear Hg.
           apply (Hstep (S j) (d :: s) r F y); auto; try (simpl; lia). simpl Nat.sub. rewrite Nat.sub_0_r. auto.
        -- assert (klt (fst y) (fst (s_item d)) = true) as Hlt by order. rewrite Hlt in Hg.
           destruct (gmerge rgt F (y :: rev (firstn j rest)) s) as [r|] eqn:Er; [|discriminate]. simpl in Hg. inversion Hg; subst; clear Hg.
           assert (Er' : gmerge rgt F (rev (firstn (S (S j) - 1) rest)) s = Ok r).
           { simpl Nat.sub. rewrite (firstn_snoc _ _ _ Hy), rev_app_distr. auto. }
           destruct (s_ins d).
           ++ apply (Hstep (S (S j)) s r F (s_item d)); auto; lia.
           ++ apply (Hsame (S (S j)) s r F); auto; lia.
Qed.

Lemma SSorted_rev {A} (R : A -> A -> Prop) l : StronglySorted R l -> StronglySorted (fun a b => R b a) (rev l).
Proof.
  induction 1 as [|a l H IH Hf]; simpl; [constructor|]. apply SSorted_app; auto.
  - constructor; constructor.
  - intros x y Hx [<-|[]]. rewrite Forall_forall in Hf. apply Hf. apply in_rev; auto.
Qed.

Lemma ileft_base cap k d low lid items high s : iwf (IBase d low lid items high) ->
  gsorted rgt skey s -> (forall d, In d s -> klt k (fst (s_item d)) = false) ->
  exists out x0, gsorted rgt (fun x : sep => fst x) out /\ snd x0 = lid /\
    (forall x i, In (x, i) out <-> klt k x = false /\ upd s (fun x i => In (x, i) (tl items)) x i) /\
    forall x, nth_error (out ++ [x0]) 1 = Some x ->
      ileft_rec cap k (IBase d low lid items high) s = Ok (Some (snd x)).
Proof.
  intros (rest & -> & Hs & _) Hss Hk. pose proof (strict_asc _ Hs) as Ha. pose proof (ub_le rest k) as Hu.
  cbn [tl]. set (a := rev (firstn (ub k rest) rest)).
  assert (Hsa : gsorted rgt (fun x : sep => fst x) a).
  { unfold a, gsorted, rgt. apply (SSorted_rev (fun a b => klt (fst a) (fst b) = true)).
    rewrite <- (firstn_skipn (ub k rest) rest) in Hs. apply SSorted_app_inv in Hs. tauto. }
  destruct (gmerge_spec rgt rgt_ir rgt_tr rgt_tot (length a + length s) a s Hsa Hss (le_n _)) as (out & Eo & Hso & Ho).
  exists out, (rawlow low, lid). split; auto. split; auto. split.
  - intros x i. rewrite Ho. unfold upd.
    assert (Hin : In (x, i) a <-> klt k x = false /\ In (x, i) rest).
    { unfold a. rewrite <- in_rev. split.
      - intros H. apply In_nth_error in H as (p & Hp).
        assert (p < ub k rest) by (assert (p < length (firstn (ub k rest) rest)) by (apply nth_error_Some; congruence); rewrite firstn_length in *; lia).
        rewrite firstn_nth in Hp by auto. split; [apply (ub_before rest k p (x, i)); auto|eapply nth_error_In; eauto].
      - intros [H1 H2]. apply In_nth_error in H2 as (p & Hp).
        assert (p < ub k rest).
        { destruct (lt_dec p (ub k rest)); auto. pose proof (ub_after rest k p (x, i) Ha ltac:(lia) Hp) as G. simpl in G. congruence. }
        apply (nth_error_In _ p). rewrite firstn_nth; auto. }
    rewrite Hin. split.
    + intros [(e & H1 & H2 & H3)|H]; [|tauto]. specialize (Hk _ H1). rewrite H2 in Hk. split; auto. left; eauto.
    + tauto.
  - intros x Hx. cbn [ileft_rec skipn]. rewrite upper_bound_ub by auto.
    pose proof (ileft_loop_spec (rawlow low, lid) rest (length s + 3) (1 + ub k rest) s 2 None out (length a + length s)) as G.
    cbv beta iota in G. rewrite G with (x := x); auto; try lia.
    replace (1 + ub k rest - 1) with (ub k rest) by lia. auto.
Qed.

Lemma ileft_rec_spec cap k c : iwf c -> imerge_free c -> below (ihigh c) k -> forall s,
  gsorted rgt skey s -> (forall d, In d s -> klt k (fst (s_item d)) = false) -> length s + idepth c <= cap ->
  exists out x0, gsorted rgt (fun x : sep => fst x) out /\ snd x0 = ilid c /\
    (forall x i, In (x, i) out <-> klt k x = false /\ upd s (seps c) x i) /\
    forall x, nth_error (out ++ [x0]) 1 = Some x -> ileft_rec cap k c s = Ok (Some (snd x)).
Proof.
  induction c as [d low lid0 items high|[sk i] nx loc c IH|[sk i] [ps pi] nx loc c IH|sk sib n c IH|id c IH|mk id r IHr c IHc|p c IH];
    intros Hw Hm Hb s Hs Hk Hlen; simpl in Hm; try tauto.
  - destruct (ileft_base cap k d low lid0 items high s Hw Hs Hk) as (out & x0 & H1 & H2 & H3 & H4).
    exists out, x0. auto.
  - destruct Hw as (Hw & Hsa & Hbe & Hlw & Hns & _). cbn [ileft_rec ihigh ilid idepth fst] in *.
    unfold kle. destruct (klt k sk) eqn:E; simpl negb; cbv iota.
    + destruct (IH Hw Hm Hb s Hs Hk) as (out & x0 & H1 & H2 & H3 & H4); [lia|].
      exists out, x0. split; auto. split; auto. split; auto. intros x j. rewrite H3. 
      enough (G : klt k x = false -> (seps c x j <-> seps (IIns (sk, i) nx loc c) x j)).
      { split; intros [G1 G2]; split; auto; revert G2; apply upd_ext; (first [apply G; assumption|symmetry; apply G; assumption]). }
      intros Hx. cbn [seps]. split.
      * intros H. right. split; auto. intros ->. congruence.
      * intros [[-> ->]|[_ H]]; auto. congruence.
    + set (d0 := {| s_ins := true; s_item := (sk, i) |}).
      destruct (gset_insert rgt rgt_ir rgt_tr rgt_tot d0 s (seps c) Hs) as (G1 & G2 & G3 & G4 & G5).
      rewrite sinsert_ok by (rewrite ?sgt_glt; auto; lia). cbn [bind]. rewrite sgt_glt.
      destruct (IH Hw Hm Hb (SmallSet.insert (glt rgt) seq_ d0 s)) as (out & x0 & H1 & H2 & H3 & H4); auto; [|lia|].
      * intros d Hd. apply G3 in Hd as [->|Hd]; auto.
      * exists out, x0. split; auto. split; auto. split; auto. intros x j. rewrite H3, G5.
        enough (upd s (app_delta d0 (seps c)) x j <-> upd s (seps (IIns (sk, i) nx loc c)) x j) by tauto.
        apply upd_ext. unfold app_delta. cbn [seps s_ins s_item fst d0]. split.
        -- intros [[_ H]|H]; auto. inversion H; auto.
        -- intros [[-> ->]|H]; auto.
  - destruct Hw as (Hw & Hsa & Hbe & Hse & Hpr & _). cbn [ileft_rec ihigh ilid idepth fst] in *.
    unfold kle. destruct (klt k sk) eqn:E; simpl negb; cbv iota.
    + destruct (IH Hw Hm Hb s Hs Hk) as (out & x0 & H1 & H2 & H3 & H4); [lia|].
      exists out, x0. split; auto. split; auto. split; auto. intros x j. rewrite H3. 
      enough (G : klt k x = false -> (seps c x j <-> seps (IDel (sk, i) (ps, pi) nx loc c) x j)).
      { split; intros [G1 G2]; split; auto; revert G2; apply upd_ext; (first [apply G; assumption|symmetry; apply G; assumption]). }
      intros Hx. cbn [seps]. split.
      * intros H. split; auto. intros ->. congruence.
      * tauto.
    + set (d0 := {| s_ins := false; s_item := (sk, i) |}).
      destruct (gset_insert rgt rgt_ir rgt_tr rgt_tot d0 s (seps c) Hs) as (G1 & G2 & G3 & G4 & G5).
      rewrite sinsert_ok by (rewrite ?sgt_glt; auto; lia). cbn [bind]. rewrite sgt_glt.
      destruct (IH Hw Hm Hb (SmallSet.insert (glt rgt) seq_ d0 s)) as (out & x0 & H1 & H2 & H3 & H4); auto; [|lia|].
      * intros d Hd. apply G3 in Hd as [->|Hd]; auto.
      * exists out, x0. split; auto. split; auto. split; auto. intros x j. rewrite H3, G5.
        enough (upd s (app_delta d0 (seps c)) x j <-> upd s (seps (IDel (sk, i) (ps, pi) nx loc c)) x j) by tauto.
        apply upd_ext. unfold app_delta. cbn [seps s_ins s_item fst d0]. split.
        -- intros [[? _]|H]; [discriminate|auto].
        -- auto.
  - destruct c as [d low lid0 items high| | | | | |]; simpl in Hw; try tauto. destruct Hw as (Hw & H1 & H2 & _).
    destruct (ileft_base cap k d low lid0 items high s Hw Hs Hk) as (out & x0 & G1 & G2 & G3 & G4).
    exists out, x0. split; auto. split; auto. split; auto. intros x i. rewrite G3. simpl in Hb.
    enough (G : klt k x = false -> (In (x, i) (tl items) <-> seps (ISplit sk sib n (IBase d low lid0 items high)) x i)).
    { split; intros [F1 F2]; split; auto; revert F2; apply upd_ext; (first [apply G; assumption|symmetry; apply G; assumption]). }
    intros Hx. cbn [seps]. split; [|tauto]. intros H. split; auto. order.
  - simpl in Hw; tauto.
  - simpl in Hw; tauto.
Qed.

Lemma ileft_spec c k j : iwf c -> imerge_free c -> seps c k j ->
  exists i, ileft k c = Ok (Some i) /\ left_of c k i.
Proof.
  intros Hw Hm Hk. destruct (seps_range lowof c Hw _ _ Hk) as (Hsa & Hbe & _).
  destruct (ileft_rec_spec (idepth c) k c Hw Hm Hbe []) as (out & x0 & H1 & H2 & H3 & H4); [constructor|intros d []|simpl; lia|].
  assert (Hin : forall x i, In (x, i) out <-> klt k x = false /\ seps c x i).
  { intros x i. rewrite H3. unfold upd. split.
    - intros [G [(d & [] & _)|[_ ?]]]; auto.
    - intros [G1 G2]. split; [exact G1|]. right. split; [intros d []|exact G2]. }
  assert (Hk' : In (k, j) out) by (apply Hin; split; auto; order).
  destruct out as [|[y i0] out]; [destruct Hk'|].
  inversion H1 as [|? ? H1' Hf]; subst. rewrite Forall_forall in Hf.
  assert (y = k) as ->.
  { destruct Hk' as [[= -> _]|Hk']; auto. specialize (Hf _ Hk'). unfold rgt in Hf. simpl in Hf.
    destruct (Hin y i0) as [G _]. destruct G; [left; auto|]. order. }
  assert (Ef : forall r, ileft_rec (idepth c) k c [] = Ok (Some r) -> ileft k c = Ok (Some r)).
  { intros r E. unfold ileft. destruct (ihigh c) as [[h hi]|]; auto. simpl in Hbe. rewrite Hbe. auto. }
  destruct out as [|[x i] out].
  - exists (snd x0). split; [apply Ef, H4; auto|]. right. rewrite H2. split; auto. intros s i Hs.
    destruct (klt s k) eqn:E; auto. exfalso. assert (In (s, i) [(k, i0)]) as [[= -> _]|[]] by (apply Hin; split; auto; order). order.
  - exists i. split; [apply (fun H => Ef _ (H4 (x, i) H)); auto|]. left. exists x.
    assert (Hx : In (x, i) ((k, i0) :: (x, i) :: out)) by (simpl; auto).
    apply Hin in Hx as [_ Hx]. split; auto. split; [specialize (Hf (x, i) (or_introl eq_refl)); auto|].
    intros s' j' Hs' Hlt. assert (In (s', j') ((k, i0) :: (x, i) :: out)) as [[= <- _]|[[= <- _]|G]].
    { apply Hin. split; auto. order. }
    + order.
    + order.
    + inversion H1' as [|? ? _ Hf']; subst. rewrite Forall_forall in Hf'. specialize (Hf' _ G). unfold rgt in Hf'. simpl in Hf'. order.
Qed.

(** ** Splitting *)
Lemma strict_nth {B} (l : list (K * B)) i j x y : strict l -> i < j -> nth_error l i = Some x -> nth_error l j = Some y ->
  klt (fst x) (fst y) = true.
Proof.
  intros H. revert i j. induction H as [|a l H IH Hf]; intros [|i] [|j] Hij Hx Hy; simpl in *; try discriminate; try lia.
  - inversion Hx; subst. rewrite Forall_forall in Hf. apply (Hf y). eapply nth_error_In; eauto.
  - eapply (IH i j); eauto. lia.
Qed.

Lemma strict_skipn {B} n (l : list (K * B)) : strict l -> strict (skipn n l).
Proof. intros H. rewrite <- (firstn_skipn n l) in H. apply SSorted_app_inv in H. tauto. Qed.

Lemma isplit_spec d low lid items high : iwf (IBase d low lid items high) -> 2 <= length items ->
  exists k lid' rest', isplit_sibling (IBase d low lid items high) = Ok (IBase 0 (Some k) lid' ((k, lid') :: rest') high) /\
    S (length rest') = length items - Nat.div2 (length items) /\
    In (k, lid') (tl items) /\ sabove low k /\ below high k /\
    rest' = filter (fun x => klt k (fst x)) (tl items) /\
    (forall s i, In (s, i) rest' <-> In (s, i) (tl items) /\ klt k s = true) /\
    iwf (IBase 0 (Some k) lid' ((k, lid') :: rest') high) /\
    (forall sib, iwf (ISplit k sib (S (length rest')) (IBase d low lid items high))).
Proof.
  intros (rest & -> & Hs & Hl & Hr & Hin) Hlen. cbn [tl].
  set (items := (rawlow low, lid) :: rest) in *.
  set (i := Nat.div2 (length items)).
  assert (Hi : 1 <= i /\ i < length items).
  { unfold i. destruct (length items) as [|[|n]]; [lia|lia|]. simpl Nat.div2. split; [lia|].
    pose proof (Nat.lt_div2 (S (S n)) ltac:(lia)). simpl Nat.div2 in H. auto. }
  destruct (nth_some items i ltac:(lia)) as ([k lid'] & Hx).
  unfold isplit_sibling. cbv zeta. assert (2 <=? length items = true) as -> by (apply Nat.leb_le; auto).
  fold i. rewrite Hx. simpl fst; simpl snd.
  assert (Hsk : exists rest', skipn i items = (k, lid') :: rest').
  { pose proof (skipn_nth items i 0) as G. rewrite Nat.add_0_r, Hx in G. destruct (skipn i items) as [|y r']; simpl in G; [discriminate|].
    inversion G; subst. eauto. }
  destruct Hsk as (rest' & Hsk). rewrite Hsk. exists k, lid', rest'.
  assert (Hlr : S (length rest') = length items - i).
  { rewrite <- (skipn_length i items), Hsk. auto. }
  destruct i as [|j] eqn:Ei; [lia|].
  assert (Hxr : nth_error rest j = Some (k, lid')) by exact Hx.
  assert (Hkin : In (k, lid') rest) by (eapply nth_error_In; eauto).
  destruct (Hin _ _ Hkin) as (Hk1 & Hk2 & Hk3).
  assert (Hskr : skipn j rest = (k, lid') :: rest') by exact Hsk.
  assert (Hst' : strict ((k, lid') :: rest')) by (rewrite <- Hskr; apply strict_skipn; auto).
  assert (Hfl : rest' = filter (fun x => klt k (fst x)) rest).
  { rewrite <- (firstn_skipn j rest), filter_app, Hskr. simpl. rewrite klt_ir.
    rewrite filter_none, filter_all; auto.
    - intros y Hy. inversion Hst' as [|? ? _ Hf]; subst. rewrite Forall_forall in Hf. apply (Hf _ Hy).
    - intros y Hy. apply In_nth_error in Hy as (p & Hp).
      assert (p < length (firstn j rest)) by (apply nth_error_Some; congruence). rewrite firstn_length in *.
      rewrite firstn_nth in Hp by lia. pose proof (strict_nth rest p j y (k, lid') Hs ltac:(lia) Hp Hxr) as G. simpl in G. order. }
  assert (Hin' : forall s i0, In (s, i0) rest' <-> In (s, i0) rest /\ klt k s = true).
  { intros s i0. rewrite Hfl, filter_In. tauto. }
  split; auto. split; auto. split; auto. split; auto. split; auto. split; auto. split; auto. split.
  - exists rest'. split; auto. split; [inversion Hst'; auto|]. split; auto. split; [destruct high as [[h ?]|]; simpl in *; auto|].
    intros s i0 H. apply Hin' in H as [H1 H2]. destruct (Hin _ _ H1) as (_ & ? & ?). simpl. auto.
  - intros sib. simpl. split; [exists rest; unfold base_part; auto 8|]. split; auto. split; auto.
    rewrite Hfl. assert (Hcnt : forall l : list sep, strict l -> In (k, lid') l ->
       length (filter (fun x => kge (fst x) k) l) = S (length (filter (fun x => klt k (fst x)) l))).
    { clear. induction 1 as [|a l H IH Hf]; simpl; [tauto|]. rewrite Forall_forall in Hf. intros [->|Hi].
      - unfold kge at 1. simpl. rewrite klt_ir. simpl. f_equal.
        f_equal. apply filter_ext_in. intros b Hb. specialize (Hf _ Hb). simpl in Hf.
        unfold kge. rewrite Hf. assert (klt (fst b) k = false) as -> by order. auto.
      - specialize (Hf _ Hi) as G. simpl in G. unfold kge at 1. rewrite G. simpl.
        assert (klt k (fst a) = false) as -> by order. auto. }
    rewrite (Hcnt rest); auto.
Qed.

(** ** Backward navigation *)
Lemma inavBI_sound k c : iwf c -> sabove (ilow c) k -> (ilow c = None -> k <> kdef) ->
  exists i, inavBI k c = Ok i /\ sabove (lowof i) k.
Proof.
  induction c as [d low lid0 items high|[s i] nx loc c IH|[s i] [ps pi] nx loc c IH|sk sib n c IH|id c IH|mk id r IHr c IHc|p c IH];
    intros Hw Hlo Hd; cbn [inavBI ilow] in *.
  - destruct Hw as (rest & E & Hs & Hl & Hr & Hin). subst items. unfold locateBI.
    pose proof (strict_asc _ Hs) as Ha. rewrite upper_bound_ub by auto. pose proof (ub_le rest k).
    destruct (ub k rest) as [|j] eqn:Eu; cbn [nth_error fst snd].
    + assert (keq (rawlow low) k = false) as ->.
      { apply keq_false. destruct low; simpl in *; [order|]. intros E. apply Hd; auto. }
      exists lid0. rewrite Hl. auto.
    + destruct (nth_some rest j ltac:(lia)) as ([x i] & Hx). rewrite Hx. cbn [fst snd].
      pose proof (ub_before rest k j (x, i) ltac:(lia) Hx) as Hle. simpl in Hle.
      destruct (Hin x i) as (_ & _ & Hli); [eapply nth_error_In; eauto|].
      destruct (keq x k) eqn:Ek.
      * apply keq_spec in Ek. subst x. destruct j as [|j]; cbn [nth_error].
        -- exists lid0. rewrite Hl. auto.
        -- destruct (nth_some rest j ltac:(lia)) as ([y iy] & Hy). rewrite Hy. exists iy. split; auto.
           destruct (Hin y iy) as (_ & _ & Hliy); [eapply nth_error_In; eauto|]. rewrite Hliy. simpl.
           apply (strict_nth rest j (S j) (y, iy) (k, i)); auto.
      * exists i. split; auto. rewrite Hli. simpl. order.
  - destruct Hw as (Hw & Hsa & Hbe & Hlw & _). destruct (before_next k nx && kgt k s) eqn:E; auto.
    exists i. split; auto. rewrite Hlw. apply andb_prop in E as [_ E]. auto.
  - destruct Hw as (Hw & Hsa & Hbe & Hse & Hpr & _).
    destruct (((ilid c =? pi) || kgt k ps) && before_next k nx) eqn:E; auto.
    exists pi. split; auto. apply andb_prop in E as [E _]. apply orb_prop in E as [E|E].
    + apply Nat.eqb_eq in E. rewrite <- E, iwf_lid by auto. auto.
    + destruct (lowof pi) as [x|] eqn:Ex; simpl; auto. rewrite (Hpr x) by auto. auto.
  - apply IH; auto. destruct c; simpl in *; tauto.
  - simpl in Hw; tauto.
  - destruct Hw as (Hc & Hr & E1 & E2). destruct (kgt k mk) eqn:E; auto. apply IHr; auto.
    + rewrite E2. auto.
    + rewrite E2. discriminate.
  - simpl in Hw; tauto.
Qed.

(** ** Built pages *)
Lemma ibuilt_iwf ex c : ibuilt ex lowof c -> iwf c.
Proof.
  induction 1 as [lid Hl|a k b Ha Hb|c s i next loc _ IH Hsa Hbe He Hl _|c s i [ps pi] next loc _ IH Hsa Hbe He Hl _|
    d low lid items high d' k lid' items' sib _ IH He|c s _ IH He|l r mk rid _ IHl _ IHr E1 E2|c c' d _ IH He].
  - exists []. split; auto. split; [constructor|]. split; auto. split; [exact I|]. intros s i [].
  - exists [(k, b)]. split; auto. split; [repeat constructor|]. split; auto. split; [exact I|].
    intros s i [[= <- <-]|[]]. simpl. auto.
  - destruct (isearch_spec lowof s c IH Hsa Hbe) as (r & l & E & H1 & H2 & H3).
    rewrite E in He. inversion He; subst. simpl. auto 8.
  - destruct (isearch_spec lowof s c IH Hsa Hbe) as (r & l & E & H1 & H2 & H3).
    rewrite E in He. inversion He; subst. destruct H3 as [_ H3]. simpl. auto 8.
  - assert (Hlen : 2 <= length items).
    { unfold isplit_sibling in He. destruct (2 <=? length items) eqn:E; [apply Nat.leb_le; auto|discriminate]. }
    destruct (isplit_spec d low lid items high IH Hlen) as (k0 & l0 & r0 & E & _ & _ & _ & _ & _ & _ & _ & H).
    rewrite E in He. inversion He; subst. apply H.
  - destruct c as [d low lid items high| | | | | |]; try discriminate.
    assert (Hlen : 2 <= length items).
    { unfold isplit_sibling in He. destruct (2 <=? length items) eqn:E; [apply Nat.leb_le; auto|discriminate]. }
    destruct (isplit_spec d low lid items high IH Hlen) as (k0 & l0 & r0 & E & _ & _ & _ & _ & _ & _ & H & _).
    rewrite E in He. inversion He; subst. auto.
  - simpl. auto.
  - destruct (iconsolidate_spec c d IH) as (rest & E & _ & _ & _ & H). rewrite E in He. inversion He; subst. auto.
Qed.

Lemma ibuilt_exact c : ibuilt true lowof c -> iexact c.
Proof.
  induction 1 as [lid Hl|a k b Ha Hb|c s i next loc _ IH Hsa Hbe He Hl Hn|c s i [ps pi] next loc _ IH Hsa Hbe He Hl Hn|
    d low lid items high d' k lid' items' sib _ IH He|c s _ IH He|l r mk rid _ IHl _ IHr E1 E2|c c' d Hb IH He]; simpl; auto.
  - destruct (Hn eq_refl). auto.
  - destruct c as [d low lid items high| | | | | |]; try discriminate. unfold isplit_sibling in He.
    destruct (2 <=? length items); [|discriminate]. destruct (nth_error items _); [|discriminate].
    inversion He; subst. exact I.
  - destruct (iconsolidate_spec c d (ibuilt_iwf _ _ Hb)) as (rest & E & _). rewrite E in He. inversion He; subst. exact I.
Qed.

Lemma routes_fun c k i j : iwf c -> routes c k i -> routes c k j -> i = j.
Proof.
  intros Hw [(s & H1 & H2 & H3)|[H1 H2]] [(s' & G1 & G2 & G3)|[G1 G2]].
  - specialize (H3 _ _ G1 G2). specialize (G3 _ _ H1 H2). assert (s = s') by order. subst.
    eapply seps_fun; eauto.
  - specialize (G2 _ _ H1). congruence.
  - specialize (H2 _ _ G1). congruence.
  - congruence.
Qed.
Lemma routes_ext c c' k i : ilid c = ilid c' -> (forall s j, seps c s j <-> seps c' s j) -> routes c k i -> routes c' k i.
Proof.
  intros El Hs [(s & H1 & H2 & H3)|[H1 H2]].
  - left. exists s. rewrite <- Hs. split; auto. split; auto. intros s' j. rewrite <- Hs. eauto.
  - right. rewrite <- El. split; auto. intros s j. rewrite <- Hs. eauto.
Qed.
Lemma iwf_base_exact d low lid items high : iexact (IBase d low lid items high). Proof. exact I. Qed.

(** The scratch array of FindLeftSibling has room on any chain. *)
Lemma insert_length lt d s : length (SmallSet.insert lt seq_ d s) <= S (length s).
Proof. induction s as [|a s IH]; simpl; auto. destruct (lt a d); simpl; [lia|]. destruct (seq_ a d); simpl; lia. Qed.
Lemma ileft_loop_room items fuel : forall i1 s counter left, ileft_loop fuel items i1 s counter left <> Er EOverrun.
Proof.
  induction fuel as [|f IH]; intros i1 s counter left; (destruct counter as [|cn]; [destruct left; discriminate|]); simpl; [discriminate|].
  destruct s as [|d s].
  - destruct i1 as [|j]; [discriminate|]. destruct (nth_error items j); [apply IH|discriminate].
  - destruct i1 as [|[|j]]; [discriminate|destruct (s_ins d); apply IH|].
    destruct (nth_error items (S j)); [|discriminate].
    destruct (keq _ _); [destruct (s_ins d); apply IH|]. destruct (klt _ _); [apply IH|].
    destruct (s_ins d); apply IH.
Qed.
Lemma ileft_rec_room cap k c : forall s, length s + idepth c <= cap -> ileft_rec cap k c s <> Er EOverrun.
Proof.
  induction c as [d low lid0 items high|[sk i] nx loc c IH|[sk i] [ps pi] nx loc c IH|sk sib n c IH|id c IH|mk id r IHr c IHc|p c IH];
    intros s Hl; cbn [ileft_rec idepth] in *; try discriminate.
  - pose proof (ileft_loop_room items (length s + 3) (1 + upper_bound k (skipn 1 items)) s 2 None) as G.
    destruct (ileft_loop _ _ _ _ _ _); simpl; congruence.
  - destruct (kle _ k); [|apply IH; lia]. rewrite sinsert_ok by (try apply insert_length; lia). cbn [bind].
    apply IH. pose proof (insert_length sgt {| s_ins := true; s_item := (sk, i) |} s). lia.
  - destruct (kle _ k); [|apply IH; lia]. rewrite sinsert_ok by (try apply insert_length; lia). cbn [bind].
    apply IH. pose proof (insert_length sgt {| s_ins := false; s_item := (sk, i) |} s). lia.
  - apply IH; auto.
Qed.
Lemma ileft_room k c : ileft k c <> Er EOverrun.
Proof.
  unfold ileft. destruct (ihigh c) as [[h i]|]; [destruct (klt k h); [|discriminate]|]; apply ileft_rec_room; simpl; lia.
Qed.
End InnerProofs2.
