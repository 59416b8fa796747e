(** Leaf chains: counts, consolidation, splitting, value collection. *)
From Coq Require Import List Arith Lia Bool ZArith NArith Sorted Permutation.
From Verif Require Import Base SmallSet Bloom SmallProofs Leaf LeafSpec.
Import ListNotations.

From Verif Require Import LeafProofs LeafWeak.

Section LeafProofs2.
Context {P : Params}.

(** ** Item counts *)
Lemma filter_split_length {A} (f : A -> bool) l :
  length (filter f l) + length (filter (fun x => negb (f x)) l) = length l.
Proof. induction l; simpl; auto. destruct (f a); simpl; lia. Qed.

Lemma NoDup_filter {A} (f : A -> bool) l : NoDup l -> NoDup (filter f l).
Proof.
  induction l as [|a l IH]; simpl; auto. intros H; inversion H; subst.
  destruct (f a); auto. constructor; auto. rewrite filter_In. tauto.
Qed.

Lemma lcountw_card c : lwfw c -> forall l : list (K * V), NoDup l ->
  (forall k v, In (k, v) l <-> in_range c k /\ lmem c k v) -> lcount c = Z.of_nat (length l).
Proof.
  induction c as [low items high|k v ix c IH|k v ix c IH|k sib n c IH|id c IH|mk id r IHr c IHc]; intros Hw l Hn Hl.
  - destruct Hw as ((Ha & Hi & Hr) & Hnd). simpl. f_equal. apply Permutation_length, NoDup_Permutation; auto.
    intros [k v]. rewrite Hl. simpl. split; [intros H; split; auto; apply (Hi _ H)|tauto].
  - destruct Hw as (Hw & Hr & Hm & _). simpl.
    assert (Hin : In (k, v) l) by (apply Hl; split; [apply Hr|left; auto]).
    apply in_split in Hin as (l1 & l2 & ->). pose proof (NoDup_remove_1 _ _ _ Hn). pose proof (NoDup_remove_2 _ _ _ Hn) as Hn2.
    rewrite (IH Hw (l1 ++ l2)); auto.
    + rewrite !app_length. simpl. lia.
    + intros k' v'. specialize (Hl k' v'). rewrite in_app_iff in Hl |- *. simpl in Hl. split.
      * intros Hin.
        assert (Hne : (k', v') <> (k, v)).
        { intros E. apply Hn2. inversion E; subst. apply in_app_iff; auto. }
        destruct (proj1 Hl) as [H1 [[-> ->]|H2]]; [tauto|congruence|auto].
      * intros [H1 H2]. assert (In (k', v') l1 \/ (k, v) = (k', v') \/ In (k', v') l2) as [?|[E|?]]
          by (apply Hl; split; auto); auto.
        inversion E; subst; tauto.
  - destruct Hw as (Hw & Hr & Hm & _). simpl.
    assert (Hin : ~ In (k, v) l) by (rewrite Hl; simpl; tauto).
    rewrite (IH Hw ((k, v) :: l)); [simpl length; lia|constructor; auto|].
    intros k' v'. simpl. specialize (Hl k' v'). simpl in Hl. rewrite Hl. split.
    + intros [E|[H1 [H2 H3]]]; [inversion E; subst; auto|auto].
    + intros [H1 H2]. destruct (K_eq_dec k k'); [destruct (V_eq_dec v v')|]; subst; auto; right; split; auto;
        (split; [intros [? ?]; congruence|auto]).
  - destruct c as [low items high| | | | |]; simpl in Hw; try tauto.
    destruct Hw as (((Ha & Hi & Hr) & Hnd) & Hk & Hlk & Hnn). simpl. subst n.
    assert (length l = length (filter (fun x => klt (fst x) k) items)) as ->.
    { apply Permutation_length, NoDup_Permutation; auto using NoDup_filter.
      intros [k' v']. rewrite Hl, filter_In. simpl. split; [tauto|].
      intros [H1 H2]. specialize (Hi _ H1). split; auto. split; simpl; tauto. }
    pose proof (filter_split_length (fun x => klt (fst x) k) items). unfold kge. lia.
  - simpl in Hw; tauto.
  - pose proof Hw as Hw0. destruct Hw as (Hwc & Hwr & E1 & E2). simpl.
    rewrite (IHc Hwc (filter (fun x => klt (fst x) mk) l)), (IHr Hwr (filter (fun x => negb (klt (fst x) mk)) l));
      auto using NoDup_filter.
    + pose proof (filter_split_length (fun x => klt (fst x) mk) l). lia.
    + intros k v. rewrite filter_In, Hl. simpl. rewrite negb_true_iff. split.
      * intros [[H1 H2] H3]. rewrite H3 in H2. pose proof (in_rangew_merge _ _ _ _ _ Hw0 H1) as G. rewrite H3 in G. auto.
      * intros [H1 H2]. destruct (in_rangew_merge_r mk id r c k Hw0 H1) as [G1 G2]. rewrite G2. auto.
    + intros k v. rewrite filter_In, Hl. simpl. split.
      * intros [[H1 H2] H3]. rewrite H3 in H2. pose proof (in_rangew_merge _ _ _ _ _ Hw0 H1) as G. rewrite H3 in G. auto.
      * intros [H1 H2]. destruct (in_rangew_merge_l mk id r c k Hw0 H1) as [G1 G2]. rewrite G2. auto.
Qed.

Lemma lcount_card c : lwf c -> forall l : list (K * V), NoDup l ->
  (forall k v, In (k, v) l <-> in_range c k /\ lmem c k v) -> lcount c = Z.of_nat (length l).
Proof. intros H. apply lcountw_card, lwf_lwfw, H. Qed.

Lemma lconsolidate_spec c : lwf c ->
  exists items, lconsolidate c = Ok (LBase (llow c) items (lhigh c)) /\
    lwf (LBase (llow c) items (lhigh c)) /\ lcount c = Z.of_nat (length items) /\
    (forall k v, In (k, v) items <-> in_range c k /\ lmem c k v).
Proof.
  intros Hw. destruct (lcollect_spec (ldepth c) c [] [] Hw) as (out & seen & E & [C1 C2 C3 _ _ _]).
  { split; simpl; try tauto; try constructor; try lia. }
  assert (Hin : forall k v, In (k, v) out <-> in_range c k /\ lmem c k v).
  { intros k v. rewrite C1. simpl. split; intros [H1 H2]; split; auto. destruct H2 as [(d & [] & _)|]; tauto. }
  exists out. unfold lconsolidate. change (@empty (K * V)) with (filled phash (@nil (K * V))).
  rewrite E. cbn [bind]. pose proof (lcount_card c Hw out C3 Hin) as Hc.
  rewrite Hc, Z.ltb_irrefl, Z.eqb_refl. split; auto. split; auto. simpl. split; auto.
  split; auto. split; [|apply lwf_range; auto]. intros [k v] Hx. apply Hin in Hx as [[H1 H2] _]. auto.
Qed.

(** ** Splitting *)
(** On pages with misplaced conditional inserts: if the rebuild succeeds. *)
Lemma lmem_dec c k v : {lmem c k v} + {~ lmem c k v}.
Proof.
  induction c; simpl.
  - apply in_dec. intros [a b] [a' b']. destruct (K_eq_dec a a'), (V_eq_dec b b'); subst; auto; right; congruence.
  - destruct (K_eq_dec k k0), (V_eq_dec v v0), IHc; subst; auto; right; tauto.
  - destruct (K_eq_dec k k0), (V_eq_dec v v0), IHc; subst; try (right; tauto); left; split; auto; tauto.
  - destruct (klt k k0), IHc; auto; right; intros [? ?]; auto; discriminate.
  - auto.
  - destruct (klt k k0); auto.
Qed.
Lemma lconsolidatew_spec c c' : lwfw c -> lconsolidate c = Ok c' ->
  exists items, c' = LBase (llow c) items (lhigh c) /\
    lwf (LBase (llow c) items (lhigh c)) /\ lcount c = Z.of_nat (length items) /\
    (forall k v, In (k, v) items <-> in_range c k /\ lmem c k v).
Proof.
  intros Hw Ec. destruct (lcollectw_spec (ldepth c) c [] [] Hw) as (out & seen & E & [C1 C2 C3 _ _ _]).
  { split; simpl; try tauto; try constructor; try lia. }
  assert (Hin : forall k v, in_range c k /\ lmem c k v -> In (k, v) out).
  { intros k v [H1 H2]. apply C1. simpl. tauto. }
  unfold lconsolidate in Ec. change (@empty (K * V)) with (filled phash (@nil (K * V))) in Ec.
  rewrite E in Ec. cbn [bind] in Ec.
  assert (Pd : forall a b : K * V, {a = b} + {a <> b}).
  { intros [a b] [a' b']. destruct (K_eq_dec a a'), (V_eq_dec b b'); subst; auto; right; congruence. }
  set (l := nodup Pd (filter (fun x => if lmem_dec c (fst x) (snd x) then true else false) out)).
  assert (Hl : forall k v, In (k, v) l <-> in_range c k /\ lmem c k v).
  { intros k v. unfold l. rewrite nodup_In, filter_In. simpl. destruct (lmem_dec c k v) as [Hm|Hm].
    - split; [intros [H _]; split; auto; apply (C2 _ H)|]. intros H. split; auto.
    - split; [intros [_ H]; discriminate|tauto]. }
  assert (Hnl : NoDup l) by apply NoDup_nodup.
  pose proof (lcountw_card c Hw l Hnl Hl) as Hc.
  destruct (lcount c <? Z.of_nat (length out))%Z eqn:E1; [discriminate|].
  destruct (lcount c =? Z.of_nat (length out))%Z eqn:E2; [|discriminate]. apply Z.eqb_eq in E2.
  inversion Ec; subst c'. clear Ec.
  assert (Hlen : length out <= length l) by lia.
  assert (Hi : incl l out) by (intros [k v] Hx; apply Hin, Hl; auto).
  pose proof (NoDup_length_incl Hnl Hlen Hi) as Hio. pose proof (NoDup_incl_NoDup Hnl Hlen Hi) as Hno.
  assert (Hout : forall k v, In (k, v) out <-> in_range c k /\ lmem c k v).
  { intros k v. rewrite <- Hl. split; auto. }
  exists out. split; auto. split; [|split; auto]. simpl. split; auto.
  split; auto. split; [|apply lwfw_range; auto]. intros [k v] Hx. apply C2 in Hx. exact Hx.
Qed.

Lemma scan_back_spec k (items : list (K * V)) i : i < length items ->
  let m := scan_back k items i in
  m <= i /\ (forall j x, m < j <= i -> nth_error items j = Some x -> fst x = k) /\
  (m = 0 \/ forall x, nth_error items m = Some x -> fst x <> k).
Proof.
  induction i as [|i IH]; intros Hi; cbn [scan_back].
  - split; auto. split; auto. intros; lia.
  - destruct (nth_some items (S i) Hi) as (x & E). rewrite E. destruct (keq (fst x) k) eqn:Ek.
    + destruct (IH ltac:(lia)) as (H1 & H2 & H3). apply keq_spec in Ek. split; [lia|]. split; auto.
      intros j y Hj Ey. destruct (Nat.eq_dec j (S i)) as [->|].
      * congruence.
      * apply (H2 j); auto; lia.
    + apply keq_false in Ek. split; [lia|]. split; [intros; lia|]. right. intros y Ey. congruence.
Qed.
Lemma scan_fwd_spec k (items : list (K * V)) i : i <= length items ->
  let m := scan_fwd k items i in
  i <= m <= length items /\ (forall j x, i <= j < m -> nth_error items j = Some x -> fst x = k) /\
  (forall x, nth_error items m = Some x -> fst x <> k).
Proof.
  intros Hi m. unfold m, scan_fwd. pose proof (first_not_le (fun x => keq (fst x) k) (skipn i items)) as Hl.
  rewrite skipn_length in Hl. split; [lia|]. split.
  - intros j x Hj E. apply keq_spec. apply (first_not_before (fun x => keq (fst x) k) (skipn i items) (j - i)); [lia|].
    rewrite skipn_nth. replace (i + (j - i)) with j by lia. auto.
  - intros x E. rewrite <- skipn_nth in E. apply first_not_at in E. apply keq_false in E. auto.
Qed.

Lemma find_split_point_spec (items : list (K * V)) : ascending items -> 4 <= length items ->
  exists r, find_split_point items = Ok r /\
  match r with
  | None => True
  | Some i => LEAF_SIZE_LOWER < i /\ LEAF_SIZE_LOWER < length items - i /\
      exists x, nth_error items i = Some x /\
      forall j y, j < i -> nth_error items j = Some y -> klt (fst y) (fst x) = true
  end.
Proof.
  intros Ha Hn. unfold find_split_point.
  set (n := length items) in *. set (ct := Nat.div2 n).
  assert (Hct : 2 * ct <= n <= 2 * ct + 1).
  { unfold ct. pose proof (Nat.div2_odd n). destruct (Nat.odd n); simpl Nat.b2n in *; lia. }
  rewrite (proj2 (Nat.ltb_lt 1 ct)) by lia.
  destruct (nth_some items ct ltac:(fold n; lia)) as (x & Ex). rewrite Ex.
  destruct (scan_back_spec (fst x) items (ct - 1) ltac:(fold n; lia)) as (B1 & B2 & B3).
  set (m := scan_back (fst x) items (ct - 1)) in *.
  destruct (LEAF_SIZE_LOWER <? S m) eqn:E1.
  - apply Nat.ltb_lt in E1. eexists; split; [reflexivity|]. split; auto. split; [lia|].
    assert (exists y, nth_error items (S m) = Some y /\ fst y = fst x) as (y & Ey & Hy).
    { destruct (Nat.eq_dec (S m) ct) as [->|]; [exists x; auto|].
      destruct (nth_some items (S m) ltac:(fold n; lia)) as (y & Ey). exists y. split; auto. apply (B2 (S m)); auto; lia. }
    exists y. split; auto. rewrite Hy. intros j z Hj Ez.
    destruct B3 as [B3|B3]; [rewrite B3 in E1; unfold LEAF_SIZE_LOWER in E1; lia|].
    destruct (nth_some items m ltac:(fold n; lia)) as (w & Ew).
    pose proof (asc_nth items j m z w Ha ltac:(lia) Ez Ew).
    pose proof (asc_nth items m ct w x Ha ltac:(lia) Ew Ex). specialize (B3 _ Ew). order.
  - destruct (scan_fwd_spec (fst x) items (ct + 1) ltac:(fold n; lia)) as (F1 & F2 & F3).
    set (it := scan_fwd (fst x) items (ct + 1)) in *.
    destruct (LEAF_SIZE_LOWER <? n - it) eqn:E2; eexists; (split; [reflexivity|]); [|exact I].
    apply Nat.ltb_lt in E2. split; [lia|]. split; auto.
    destruct (nth_some items it ltac:(fold n; lia)) as (y & Ey). exists y. split; auto.
    pose proof (asc_nth items ct it x y Ha ltac:(lia) Ex Ey) as H1. specialize (F3 _ Ey).
    intros j z Hj Ez. destruct (le_lt_dec j ct).
    + pose proof (asc_nth items j ct z x Ha ltac:(lia) Ez Ex). order.
    + pose proof (F2 j z ltac:(lia) Ez). order.
Qed.

Lemma filter_ge_skipn (items : list (K * V)) k i : i <= length items ->
  (forall j x, j < i -> nth_error items j = Some x -> klt (fst x) k = true) ->
  (forall j x, i <= j -> nth_error items j = Some x -> klt (fst x) k = false) ->
  filter (fun x => kge (fst x) k) items = skipn i items.
Proof.
  intros Hi H1 H2. rewrite <- (firstn_skipn i items) at 1. rewrite filter_app, filter_none, filter_all; auto.
  - intros x Hx. apply In_nth_error in Hx as (j & E). rewrite skipn_nth in E. rewrite kge_negb, (H2 (i + j) x); auto. lia.
  - intros x Hx. apply In_nth_error in Hx as (j & E).
    assert (j < i). { assert (j < length (firstn i items)) by (apply nth_error_Some; congruence). rewrite firstn_length in *. lia. }
    rewrite firstn_nth in E by auto. rewrite kge_negb, (H1 j x); auto.
Qed.

(** Splitting a well-formed base page gives two well-formed neighbours. *)
Lemma lsplit_spec low items high s : lwf (LBase low items high) ->
  lsplit_sibling (LBase low items high) = Ok (Some s) ->
  exists key si, s = LBase (Some key) si high /\
    lwf s /\ (forall sib, lwf (LSplit key sib (length si) (LBase low items high))) /\
    (forall k v, In (k, v) items -> klt k key = false -> In (k, v) si) /\
    (forall k v, In (k, v) si -> In (k, v) items /\ klt k key = false) /\
    LEAF_SIZE_LOWER < length si /\ LEAF_SIZE_LOWER + length si < length items.
Proof.
  intros ((Ha & Hi & Hr) & Hn) E. cbn [lsplit_sibling] in E.
  destruct (find_split_point items) as [p|] eqn:Ep; [|discriminate]. cbn [bind] in E.
  destruct p as [i|]; [|discriminate].
  destruct (le_lt_dec 4 (length items)) as [H4|H4].
  2:{ unfold find_split_point in Ep. rewrite (proj2 (Nat.ltb_ge 1 _)) in Ep; [discriminate|].
      destruct items as [|? [|? [|? [|? ?]]]]; simpl in *; lia. }
  destruct (find_split_point_spec items Ha H4) as (r & Er & Hspec). rewrite Ep in Er. inversion Er; subst r.
  destruct Hspec as (L1 & L2 & x & Ex & Hlt). rewrite Ex in E. inversion E; subst s. clear E Er.
  assert (Hge : forall j y, i <= j -> nth_error items j = Some y -> klt (fst y) (fst x) = false).
  { intros j y Hj Ey. apply (asc_nth items i j); auto. }
  exists (fst x), (skipn i items). split; auto.
  destruct (Hi x) as [Hx1 Hx2]; [eapply nth_error_In; eauto|].
  assert (Hlow : match low with None => True | Some l => klt l (fst x) = true end).
  { destruct low as [l|]; auto. destruct (nth_some items 0 ltac:(lia)) as (y & Ey).
    pose proof (Hlt 0 y ltac:(lia) Ey). destruct (Hi y) as [Hy _]; [eapply nth_error_In; eauto|]. simpl in Hy. order. }
  assert (Hf : filter (fun y => kge (fst y) (fst x)) items = skipn i items).
  { apply filter_ge_skipn; auto. lia. }
  split.
  { simpl. split; [|apply NoDup_skipn; auto]. split; [apply ascending_skipn; auto|]. split.
    - intros y Hy. rewrite <- Hf in Hy. apply filter_In in Hy as [Hy1 Hy2].
      split; [simpl; order|apply Hi; auto].
    - destruct high as [[h j]|]; simpl in *; auto. }
  split.
  { intros sib. simpl. split; [split; [split; [|split]|]; auto|]. split; auto. split; auto. f_equal. auto. }
  split; [|split].
  - intros k v Hin Hk. rewrite <- Hf. apply filter_In. split; auto. simpl. order.
  - intros k v Hin. rewrite <- Hf in Hin. apply filter_In in Hin as [? Hk]. simpl in Hk. split; auto. order.
  - rewrite skipn_length. lia.
Qed.

(** ** Collecting the values of a key *)
Lemma vseen_spec v l : vseen v (filled vhash l) = true <-> In v l.
Proof.
  unfold vseen. rewrite exists_exact.
  - split; [intros (y & H & E)|intros H; exists v]; [|split; auto using veq_refl].
    apply veq_spec in E. subst; auto.
  - intros a b E. apply veq_spec in E. congruence.
Qed.
Lemma vseen_false v l : vseen v (filled vhash l) = false <-> ~ In v l.
Proof. rewrite <- vseen_spec. destruct (vseen v (filled vhash l)); split; congruence. Qed.

Lemma run_of_spec k (l : list (K * V)) : ascending l -> (forall x, In x l -> klt (fst x) k = false) ->
  (forall v, In v (run_of k l) <-> In (k, v) l) /\ (NoDup l -> NoDup (run_of k l)).
Proof.
  induction 1 as [|[k' v'] l H IH Hf]; intros Hk; cbn [run_of].
  - simpl. split; [tauto|constructor].
  - rewrite Forall_forall in Hf. simpl fst in *. simpl snd.
    destruct (keq k k') eqn:E.
    + apply keq_spec in E. subst k'. destruct IH as [I1 I2]; [intros; apply Hk; right; auto|]. split.
      * intros v. simpl. rewrite I1. split; intros [E|E]; auto; left; congruence.
      * intros Hn. inversion Hn; subst. constructor; auto. rewrite I1; auto.
    + apply keq_false in E. split; [|constructor]. intros v. simpl. split; [tauto|]. intros [E'|E'].
      * inversion E'; congruence.
      * specialize (Hf _ E'). specialize (Hk (k', v') (or_introl eq_refl)). simpl in *. exfalso. order.
Qed.

Lemma run_of_base k (items : list (K * V)) : ascending items ->
  (forall v, In v (run_of k (skipn (lb k items) items)) <-> In (k, v) items) /\
  (NoDup items -> NoDup (run_of k (skipn (lb k items) items))).
Proof.
  intros Ha. destruct (run_of_spec k (skipn (lb k items) items)) as [H1 H2].
  - apply ascending_skipn; auto.
  - intros x Hx. apply In_nth_error in Hx as (j & E). rewrite skipn_nth in E. refine (lb_after _ _ _ _ Ha _ E). lia.
  - split; [|intros Hn; apply H2, NoDup_skipn, Hn].
    intros v. rewrite H1. split.
    + intros Hin. rewrite <- (firstn_skipn (lb k items) items). apply in_app_iff; auto.
    + intros Hin. apply In_nth_error in Hin as (j & E). destruct (le_lt_dec (lb k items) j).
      * apply nth_error_In with (n := j - lb k items). rewrite skipn_nth. replace (lb k items + (j - lb k items)) with j by lia. auto.
      * pose proof (lb_before _ _ _ _ l E). simpl in *. exfalso; order.
Qed.

Definition win_ok (items : list (K * V)) (k : K) (start : nat) (fin : option nat) : Prop :=
  start <= lb k items /\ match fin with None => True | Some e => lb k items <= e <= length items end.

Lemma lb_window (items : list (K * V)) k start e : ascending items ->
  start <= lb k items -> lb k items <= e <= length items ->
  start + lower_bound k (firstn (e - start) (skipn start items)) = lb k items.
Proof.
  intros Ha H1 H2. rewrite lower_bound_lb by (apply ascending_firstn, ascending_skipn, Ha).
  assert (lb k (firstn (e - start) (skipn start items)) = lb k items - start); [|lia].
  apply first_not_unique.
  - rewrite firstn_length, skipn_length. lia.
  - intros i x Hi E. rewrite firstn_nth, skipn_nth in E by lia. refine (lb_before _ _ _ _ _ E). lia.
  - intros x E. destruct (le_lt_dec (e - start) (lb k items - start)).
    + assert (length (firstn (e - start) (skipn start items)) <= lb k items - start) by (rewrite firstn_length; lia).
      apply nth_error_None in H. congruence.
    + rewrite firstn_nth, skipn_nth in E by lia. refine (lb_after _ _ _ _ Ha _ E). lia.
Qed.

Lemma no_merge_base k k' c : no_merge c -> lbase_for k c = lbase_for k' c.
Proof. induction c; simpl; auto; tauto. Qed.

Lemma win_delta (items : list (K * V)) k k' v' ix start fin : ascending items ->
  pos_okw items k' v' ix -> win_ok items k start fin -> k <> k' ->
  if klt k' k then win_ok items k (fst ix) fin else win_ok items k start (Some (fst ix)).
Proof.
  intros Ha Hp [W1 W2] Hne. destruct ix as [i fl]. unfold pos_okw in Hp. simpl in *.
  destruct (klt k' k) eqn:E; split; auto; simpl.
  - destruct (le_lt_dec i (lb k items)); auto. exfalso. destruct fl.
    + assert (klt (fst (k', v')) k = false) by (refine (lb_after _ _ _ _ Ha _ Hp); lia). simpl in *. order.
    + subst i. pose proof (ub_le items k'). 
      destruct (nth_some items (lb k items) ltac:(lia)) as (x & Ex).
      pose proof (ub_before _ _ _ _ l Ex). pose proof (lb_after _ _ _ _ Ha (Nat.le_refl _) Ex). order.
  - assert (klt k k' = true) by order. destruct fl.
    + assert (i < length items) by (apply nth_error_Some; congruence). split; [|lia].
      destruct (le_lt_dec (lb k items) i); auto. exfalso. pose proof (lb_before _ _ _ _ l Hp). simpl in *. order.
    + subst i. split; [|apply ub_le].
      destruct (le_lt_dec (lb k items) (ub k' items)) as [|Hl]; auto. exfalso.
      pose proof (lb_le items k). destruct (nth_some items (ub k' items) ltac:(lia)) as (x & Ex).
      pose proof (lb_before _ _ _ _ Hl Ex). pose proof (ub_after _ _ _ _ Ha (Nat.le_refl _) Ex). order.
Qed.

Lemma lbase_for_asc c k : lwfw c -> ascending (lbase_for k c) /\ NoDup (lbase_for k c).
Proof.
  induction c as [low items high| | |sk sib n c IH| |mk id r IHr c IHc]; simpl; intros H; try tauto.
  - destruct H as ((H1 & _) & H2); auto.
  - destruct c; tauto.
  - destruct H as (H1 & H2 & _). destruct (kge k mk); auto.
Qed.

Lemma lvalues_rec_spec cap k c : forall pres dels start fin,
  lwfw c -> in_range c k -> win_ok (lbase_for k c) k start fin ->
  (no_merge c \/ (start = 0 /\ fin = None /\ clean c)) ->
  length pres + ldepth c <= cap -> length dels + ldepth c <= cap ->
  exists r, lvalues_rec cap k c (filled vhash pres) (filled vhash dels) start fin = Ok r /\
    NoDup r /\ forall v, In v r <-> ~ In v pres /\ ~ In v dels /\ lmem c k v.
Proof.
  assert (Eff : forall v' pres dels, negb (vseen v' (filled vhash dels)) && negb (vseen v' (filled vhash pres)) = true <->
                ~ In v' dels /\ ~ In v' pres).
  { intros. rewrite andb_true_iff, !negb_true_iff, !vseen_false. tauto. }
  assert (Bin : forall l v', length l < cap -> binsert vhash cap v' (filled vhash l) = Ok (filled vhash (l ++ [v']))).
  { intros l v' H. unfold binsert. destruct (filled_inv vhash l) as (_ & E & _). rewrite E.
    rewrite (proj2 (Nat.ltb_lt _ _) H). rewrite filled_snoc. auto. }
  assert (Base : forall low items high pres dels start fin, ascending items -> NoDup items -> win_ok items k start fin ->
    exists r, lvalues_rec cap k (LBase low items high) (filled vhash pres) (filled vhash dels) start fin = Ok r /\
    NoDup r /\ forall v, In v r <-> ~ In v pres /\ ~ In v dels /\ In (k, v) items).
  { intros low items high pres dels start fin Ha Hn [W1 W2]. cbn [lvalues_rec].
    set (e := match fin with None => length items | Some e => e end).
    pose proof (lb_le items k) as Hlb.
    assert (He : lb k items <= e <= length items) by (unfold e; destruct fin; lia).
    rewrite (proj2 (Nat.leb_le start e)), (proj2 (Nat.leb_le e _)) by lia. cbn [andb].
    rewrite lb_window by auto. eexists; split; [reflexivity|]. destruct (run_of_base k items Ha) as [R1 R2].
    split; [apply NoDup_filter; auto|]. intros v. rewrite filter_In, R1, Eff. tauto. }
  induction c as [low items high|k' v' ix c IH|k' v' ix c IH|sk sib n c IH|id c IH|mk id r IHr c IHc];
    intros pres dels start fin Hw Hr Hwin Hm Hc1 Hc2.
  - destruct Hw as ((Ha & _) & Hn). apply Base; auto.
  - destruct Hw as (Hw & Hk' & Hnm & Hp). cbn [lvalues_rec]. simpl in Hm, Hc1, Hc2, Hwin.
    assert (Hm' : no_merge c) by (destruct Hm as [|(_ & _ & ?)]; auto).
    destruct (keq k k') eqn:Ek.
    + apply keq_spec in Ek. subst k'.
      destruct (negb (vseen v' (filled vhash dels)) && negb (vseen v' (filled vhash pres))) eqn:Es.
      * apply Eff in Es as [Es1 Es2]. rewrite Bin by lia. cbn [bind].
        destruct (IH (pres ++ [v']) dels start fin) as (r & Er & R1 & R2); auto; try lia.
        { rewrite app_length. simpl. lia. }
        rewrite Er. cbn [bind]. exists (v' :: r). split; auto. split.
        -- constructor; auto. rewrite R2, in_app_iff. simpl. tauto.
        -- intros v. simpl. rewrite R2, in_app_iff. simpl. split.
           ++ intros [<-|H]; tauto.
           ++ intros (H1 & H2 & [[_ ->]|H3]); auto. destruct (V_eq_dec v' v); auto. right. tauto.
      * destruct (IH pres dels start fin) as (r & Er & R1 & R2); auto; try lia.
        exists r. split; auto. split; auto. intros v. rewrite R2. simpl. split; [tauto|].
        intros (H1 & H2 & [[_ ->]|H3]); auto. exfalso.
        assert (negb (vseen v' (filled vhash dels)) && negb (vseen v' (filled vhash pres)) = true) by (apply Eff; auto).
        congruence.
    + apply keq_false in Ek. destruct (lbase_for_asc c k Hw) as [Hasc _].
      rewrite (no_merge_base k' k c Hm') in Hp.
      pose proof (win_delta _ k k' v' ix start fin Hasc Hp Hwin Ek) as Hwin'. unfold kgt.
      destruct (klt k' k).
      * destruct (IH pres dels (fst ix) fin) as (r & Er & R1 & R2); auto; try lia.
        exists r. split; auto. split; auto. intros v. rewrite R2. simpl. intuition congruence.
      * destruct (IH pres dels start (Some (fst ix))) as (r & Er & R1 & R2); auto; try lia.
        exists r. split; auto. split; auto. intros v. rewrite R2. simpl. intuition congruence.
  - destruct Hw as (Hw & Hk' & Hnm & Hp). cbn [lvalues_rec]. simpl in Hm, Hc1, Hc2, Hwin.
    assert (Hm' : no_merge c) by (destruct Hm as [|(_ & _ & ?)]; auto).
    destruct (keq k k') eqn:Ek.
    + apply keq_spec in Ek. subst k'.
      destruct (negb (vseen v' (filled vhash pres))) eqn:Es.
      * rewrite negb_true_iff, vseen_false in Es. rewrite Bin by lia. cbn [bind].
        destruct (IH pres (dels ++ [v']) start fin) as (r & Er & R1 & R2); auto; try lia.
        { rewrite app_length. simpl. lia. }
        exists r. split; auto. split; auto. intros v. rewrite R2, in_app_iff. simpl. 
        destruct (V_eq_dec v' v) as [->|]; [tauto|]. split; [|tauto].
        intros (H1 & H2 & H3). split; auto. split; auto. split; auto. intros [_ ?]; congruence.
      * rewrite negb_false_iff, vseen_spec in Es.
        destruct (IH pres dels start fin) as (r & Er & R1 & R2); auto; try lia.
        exists r. split; auto. split; auto. intros v. rewrite R2. simpl. split; [|tauto].
        intros (H1 & H2 & H3). split; auto. split; auto. split; auto. intros [_ ->]. auto.
    + apply keq_false in Ek. destruct (lbase_for_asc c k Hw) as [Hasc _].
      rewrite (no_merge_base k' k c Hm') in Hp.
      pose proof (win_delta _ k k' v' ix start fin Hasc Hp Hwin Ek) as Hwin'. unfold kgt.
      destruct (klt k' k).
      * destruct (IH pres dels (fst ix) fin) as (r & Er & R1 & R2); auto; try lia.
        exists r. split; auto. split; auto. intros v. rewrite R2. simpl. intuition congruence.
      * destruct (IH pres dels start (Some (fst ix))) as (r & Er & R1 & R2); auto; try lia.
        exists r. split; auto. split; auto. intros v. rewrite R2. simpl. intuition congruence.
  - destruct c as [low items high| | | | |]; simpl in Hw; try tauto.
    destruct Hw as (((Ha & Hi & _) & Hn) & Hk & Hlk & Hnn). destruct Hr as [Hr1 Hr2]. simpl in *.
    destruct (Base low items high pres dels start fin Ha Hn Hwin) as (r & Er & R1 & R2).
    exists r. split; [exact Er|]. split; auto. intros v. rewrite R2. tauto.
  - simpl in Hw; tauto.
  - pose proof (in_rangew_merge _ _ _ _ _ Hw Hr) as Hr'. destruct Hw as (Hwc & Hwr & E1 & E2). cbn [lvalues_rec lmem].
    simpl in *. rewrite kge_negb in *. destruct Hm as [[]|(-> & -> & Hcl & Hcr)].
    destruct (klt k mk); simpl negb in *; cbv iota in *; [apply IHc|apply IHr]; auto; lia.
Qed.

Lemma lvaluesw_spec c k : lwfw c -> clean c -> in_range c k ->
  exists r, lvalues k c = Ok r /\ NoDup r /\ forall v, In v r <-> lmem c k v.
Proof.
  intros Hw Hc Hr.
  destruct (lvalues_rec_spec (ldepth c) k c [] [] 0 None) as (r & E & H1 & H2); auto.
  - split; auto. lia.
  - exists r. split; [exact E|]. split; auto. intros v. rewrite H2. simpl. tauto.
Qed.

(** Whatever the positions in the delta records: only values that are there. *)
Lemma run_of_in k (l : list (K * V)) v : In v (run_of k l) -> In (k, v) l.
Proof.
  induction l as [|[k' v'] l IH]; cbn [run_of fst snd]; [intros []|]. destruct (keq k k') eqn:E; [|intros []]. apply keq_spec in E. subst k'.
  intros [->|H]; [left; reflexivity|right; auto].
Qed.
Lemma run_of_nodup k (l : list (K * V)) : NoDup l -> NoDup (run_of k l).
Proof.
  induction 1 as [|[k' v'] l H1 H2 IH]; cbn [run_of fst snd]; [constructor|]. destruct (keq k k') eqn:E; [|constructor]. apply keq_spec in E. subst k'.
  constructor; [|exact IH]. intros H. apply H1, run_of_in, H.
Qed.
Lemma skipn_sub {A} n (l : list A) : (forall x, In x (skipn n l) -> In x l) /\ (NoDup l -> NoDup (skipn n l)).
Proof.
  revert n. induction l as [|a l IH]; intros [|n]; simpl; auto. destruct (IH n) as [H1 H2]. split; [intros x H; right; auto|]. intros H. inversion H; auto.
Qed.
Lemma lvalues_rec_sound cap k c : forall pres dels start fin r,
  lwfw c -> in_range c k -> length pres + ldepth c <= cap -> length dels + ldepth c <= cap ->
  lvalues_rec cap k c (filled vhash pres) (filled vhash dels) start fin = Ok r ->
  NoDup r /\ forall v, In v r -> ~ In v pres /\ ~ In v dels /\ lmem c k v.
Proof.
  assert (Eff : forall v' pres dels, negb (vseen v' (filled vhash dels)) && negb (vseen v' (filled vhash pres)) = true <->
                ~ In v' dels /\ ~ In v' pres).
  { intros. rewrite andb_true_iff, !negb_true_iff, !vseen_false. tauto. }
  assert (Bin : forall l v', length l < cap -> binsert vhash cap v' (filled vhash l) = Ok (filled vhash (l ++ [v']))).
  { intros l v' H. unfold binsert. destruct (filled_inv vhash l) as (_ & E & _). rewrite E.
    rewrite (proj2 (Nat.ltb_lt _ _) H). rewrite filled_snoc. auto. }
  assert (Base : forall low items high pres dels start fin r, NoDup items ->
    lvalues_rec cap k (LBase low items high) (filled vhash pres) (filled vhash dels) start fin = Ok r ->
    NoDup r /\ forall v, In v r -> ~ In v pres /\ ~ In v dels /\ In (k, v) items).
  { intros low items high pres dels start fin r Hn E. cbn [lvalues_rec] in E. destruct (_ && _) in E; [|discriminate]. cbv zeta in E. injection E as <-.
    split; [apply NoDup_filter, run_of_nodup, skipn_sub, Hn|]. intros v H. apply filter_In in H as [H1 H2]. apply Eff in H2. apply run_of_in, skipn_sub in H1. tauto. }
  induction c as [low items high|k' v' ix c IH|k' v' ix c IH|sk sib n c IH|id c IH|mk id q IHr c IHc];
    intros pres dels start fin r Hw Hr Hc1 Hc2 E.
  - destruct Hw as (_ & Hn). apply (Base _ _ _ _ _ _ _ _ Hn E).
  - destruct Hw as (Hw & Hk' & Hnm & Hp). cbn [lvalues_rec] in E. simpl in Hc1, Hc2.
    destruct (keq k k') eqn:Ek.
    + apply keq_spec in Ek. subst k'.
      destruct (negb (vseen v' (filled vhash dels)) && negb (vseen v' (filled vhash pres))) eqn:Es.
      * apply Eff in Es as [Es1 Es2]. rewrite Bin in E by lia. cbn [bind] in E.
        destruct (lvalues_rec cap k c (filled vhash (pres ++ [v'])) (filled vhash dels) start fin) as [r'|] eqn:Er; [|discriminate]. cbn [bind] in E. injection E as <-.
        destruct (IH (pres ++ [v']) dels start fin r') as (R1 & R2); auto; try lia; [rewrite app_length; simpl; lia|].
        split; [constructor; auto; intros H; apply R2 in H; rewrite in_app_iff in H; simpl in H; tauto|].
        intros v [<-|H]; [simpl; tauto|]. apply R2 in H. rewrite in_app_iff in H. simpl in *. tauto.
      * destruct (IH pres dels start fin r) as (R1 & R2); auto; try lia. split; [exact R1|]. intros v H. apply R2 in H. simpl. tauto.
    + apply keq_false in Ek. destruct (kgt k k'); [destruct (IH pres dels (fst ix) fin r) as (R1 & R2)|destruct (IH pres dels start (Some (fst ix)) r) as (R1 & R2)]; auto; try lia.
      all: split; [exact R1|]; intros v H; apply R2 in H; simpl; tauto.
  - destruct Hw as (Hw & Hk' & Hnm & Hp). cbn [lvalues_rec] in E. simpl in Hc1, Hc2.
    destruct (keq k k') eqn:Ek.
    + apply keq_spec in Ek. subst k'.
      destruct (negb (vseen v' (filled vhash pres))) eqn:Es.
      * rewrite negb_true_iff, vseen_false in Es. rewrite Bin in E by lia. cbn [bind] in E.
        destruct (IH pres (dels ++ [v']) start fin r) as (R1 & R2); auto; try lia; [rewrite app_length; simpl; lia|].
        split; [exact R1|]. intros v H. apply R2 in H. rewrite in_app_iff in H. simpl in *. destruct H as (H1 & H2 & H3). split; [exact H1|]. split; [tauto|]. split; [|exact H3]. intros [_ ->]. tauto.
      * rewrite negb_false_iff, vseen_spec in Es.
        destruct (IH pres dels start fin r) as (R1 & R2); auto; try lia. split; [exact R1|]. intros v H. apply R2 in H. simpl. destruct H as (H1 & H2 & H3). split; [exact H1|]. split; [exact H2|]. split; [|exact H3]. intros [_ ->]. auto.
    + apply keq_false in Ek. destruct (kgt k k'); [destruct (IH pres dels (fst ix) fin r) as (R1 & R2)|destruct (IH pres dels start (Some (fst ix)) r) as (R1 & R2)]; auto; try lia.
      all: split; [exact R1|]; intros v H; apply R2 in H; simpl; destruct H as (H1 & H2 & H3); (split; [exact H1|]); (split; [exact H2|]); (split; [|exact H3]); intros [F _]; congruence.
  - destruct c as [low items high| | | | |]; simpl in Hw; try tauto.
    destruct Hw as ((_ & Hn) & _). destruct Hr as [Hr1 Hr2]. simpl in *.
    destruct (Base low items high pres dels start fin r Hn E) as (R1 & R2). split; [exact R1|]. intros v H. apply R2 in H. tauto.
  - simpl in Hw; tauto.
  - pose proof (in_rangew_merge _ _ _ _ _ Hw Hr) as Hr'. destruct Hw as (Hwc & Hwr & E1 & E2). cbn [lvalues_rec lmem] in *.
    simpl in *. rewrite kge_negb in *. destruct (klt k mk); simpl negb in *; cbv iota in *; [apply (IHc pres dels start fin r)|apply (IHr pres dels start fin r)]; auto; lia.
Qed.
Lemma lvalues_sound c k r : lwfw c -> in_range c k -> lvalues k c = Ok r -> NoDup r /\ forall v, In v r -> lmem c k v.
Proof.
  intros Hw Hr E. destruct (lvalues_rec_sound (ldepth c) k c [] [] 0 None r Hw Hr) as [H1 H2]; auto. split; [exact H1|]. intros v H. apply H2, H.
Qed.

(** ** The predicate version *)
Lemma lvalues_spec c k : lwf c -> clean c -> in_range c k ->
  exists r, lvalues k c = Ok r /\ NoDup r /\ forall v, In v r <-> lmem c k v.
Proof. intros H. apply lvaluesw_spec, lwf_lwfw, H. Qed.

Lemma lcond_base_spec pred v pres dels l :
  match lcond_base pred v (filled vhash pres) (filled vhash dels) l with
  | None => forall x, In x l -> ~ In x pres -> ~ In x dels -> pred x = false /\ x <> v
  | Some CSatisfied => exists x, In x l /\ ~ In x pres /\ ~ In x dels /\ pred x = true
  | Some CExists => In v l /\ ~ In v pres /\ ~ In v dels
  | Some (CAbsent _) => False
  end.
Proof.
  induction l as [|a l IH]; simpl; [tauto|].
  destruct (vseen a (filled vhash dels)) eqn:E1; simpl.
  { apply vseen_spec in E1. destruct (lcond_base _ _ _ _ l) as [[| |ix]|]; auto.
    - destruct IH as (x & ?). exists x. tauto. - tauto.
    - intros x [->|Hx]; auto. tauto. }
  destruct (vseen a (filled vhash pres)) eqn:E2; simpl.
  { apply vseen_spec in E2. destruct (lcond_base _ _ _ _ l) as [[| |ix]|]; auto.
    - destruct IH as (x & ?). exists x. tauto. - tauto.
    - intros x [->|Hx]; auto. tauto. }
  apply vseen_false in E1. apply vseen_false in E2.
  destruct (pred a) eqn:Ep; [exists a; tauto|].
  destruct (veq v a) eqn:Ev; [apply veq_spec in Ev; subst; auto|]. apply veq_false in Ev.
  destruct (lcond_base _ _ _ _ l) as [[| |ix]|]; auto.
  - destruct IH as (x & ?). exists x. tauto. - tauto.
  - intros x [->|Hx]; auto.
Qed.

Definition cond_ok (pred : V -> bool) (c : lchain) (k : K) (v : V) (pres dels : list V) (r : cond_result) : Prop :=
  match r with
  | CSatisfied => exists x, lmem c k x /\ ~ In x pres /\ ~ In x dels /\ pred x = true
  | CExists => lmem c k v /\ ~ In v pres /\ ~ In v dels
  | CAbsent ix => ix = (ub k (lbase_for k c), false) /\
      forall x, lmem c k x -> ~ In x pres -> ~ In x dels -> pred x = false /\ x <> v
  end.

Lemma run_length k (l : list (K * V)) : length (run_of k l) = first_not (fun x => keq k (fst x)) l.
Proof. induction l as [|a l IH]; simpl; auto. destruct (keq k (fst a)); simpl; auto. Qed.
Lemma lb_run_ub k (items : list (K * V)) : ascending items ->
  lb k items + length (run_of k (skipn (lb k items) items)) = ub k items.
Proof.
  intros Ha. rewrite run_length. symmetry. pose proof (lb_le items k).
  set (m := first_not (fun x => keq k (fst x)) (skipn (lb k items) items)).
  pose proof (first_not_le (fun x => keq k (fst x)) (skipn (lb k items) items)) as Hm. fold m in Hm.
  rewrite skipn_length in Hm.
  apply first_not_unique; [lia| |].
  - intros i x Hi E. apply negb_true_iff. destruct (le_lt_dec (lb k items) i).
    + assert (keq k (fst x) = true).
      { apply (first_not_before (fun x => keq k (fst x)) (skipn (lb k items) items) (i - lb k items)); [fold m; lia|].
        rewrite skipn_nth. replace (lb k items + (i - lb k items)) with i by lia. auto. }
      order.
    + pose proof (lb_before _ _ _ _ l E). order.
  - intros x E. apply negb_false_iff. pose proof (lb_after _ _ _ _ Ha (Nat.le_add_r _ _) E).
    rewrite <- skipn_nth in E. apply first_not_at in E. order.
Qed.

Lemma lcond_rec_spec pred cap k v c : forall pres dels,
  lwfw c -> in_range c k ->
  length pres + ldepth c <= cap -> length dels + ldepth c <= cap ->
  exists r, lcond_rec pred cap k v c (filled vhash pres) (filled vhash dels) = Ok r /\
    ((forall x, In x pres -> x <> v /\ pred x = false) -> cond_ok pred c k v pres dels r).
Proof.
  assert (Eff : forall v' pres dels, negb (vseen v' (filled vhash dels)) && negb (vseen v' (filled vhash pres)) = true <->
                ~ In v' dels /\ ~ In v' pres).
  { intros. rewrite andb_true_iff, !negb_true_iff, !vseen_false. tauto. }
  assert (Bin : forall l v', length l < cap -> binsert vhash cap v' (filled vhash l) = Ok (filled vhash (l ++ [v']))).
  { intros l v' H. unfold binsert. destruct (filled_inv vhash l) as (_ & E & _). rewrite E.
    rewrite (proj2 (Nat.ltb_lt _ _) H). rewrite filled_snoc. auto. }
  assert (Base : forall low items high pres dels, ascending items -> NoDup items ->
    exists r, lcond_rec pred cap k v (LBase low items high) (filled vhash pres) (filled vhash dels) = Ok r /\
     cond_ok pred (LBase low items high) k v pres dels r).
  { intros low items high pres dels Ha Hn. cbn [lcond_rec]. rewrite lower_bound_lb by auto.
    pose proof (lcond_base_spec pred v pres dels (run_of k (skipn (lb k items) items))) as H.
    destruct (run_of_base k items Ha) as [R1 R2].
    destruct (lcond_base pred v _ _ _) as [[| |ix]|]; eexists; (split; [reflexivity|]); simpl.
    - destruct H as (x & H1 & H2). rewrite R1 in H1. exists x. tauto.
    - rewrite R1 in H. auto.
    - tauto.
    - rewrite lb_run_ub by auto. split; auto. intros x Hx. apply H. apply R1; auto. }
  induction c as [low items high|k' v' ix c IH|k' v' ix c IH|sk sib n c IH|id c IH|mk id r IHr c IHc];
    intros pres dels Hw Hr Hc1 Hc2.
  - destruct Hw as ((Ha & _) & Hn). destruct (Base low items high pres dels Ha Hn) as (r & E & H). eauto.
  - destruct Hw as (Hw & Hk' & Hnm & Hp). cbn [lcond_rec]. simpl in Hc1, Hc2.
    destruct (keq k k') eqn:Ek; simpl andb.
    + apply keq_spec in Ek. subst k'.
      destruct (negb (vseen v' (filled vhash dels)) && negb (vseen v' (filled vhash pres))) eqn:Es.
      * apply Eff in Es as [Es1 Es2]. rewrite Bin by lia. cbn [bind].
        destruct (pred v') eqn:Ep; [eexists; split; [reflexivity|intros _; simpl; exists v'; tauto]|].
        destruct (veq v v') eqn:Ev; [apply veq_spec in Ev; subst; eexists; split; [reflexivity|intros _; simpl; tauto]|].
        apply veq_false in Ev.
        destruct (IH (pres ++ [v']) dels) as (r & Er & R); auto; try lia.
        { rewrite app_length. simpl. lia. }
        exists r. split; auto. intros Hpres.
        assert (R' : cond_ok pred c k v (pres ++ [v']) dels r).
        { apply R. intros x Hx. apply in_app_iff in Hx as [Hx|[<-|[]]]; auto. }
        destruct r as [| |ix']; simpl in *.
        -- destruct R' as (x & H1 & H2 & H3 & H4). exists x. rewrite in_app_iff in H2. tauto.
        -- destruct R' as (H1 & H2 & H3). rewrite in_app_iff in H2. tauto.
        -- destruct R' as (H1 & H2). split; auto. intros x [[_ ->]|Hx] Hx1 Hx2; auto.
           destruct (V_eq_dec x v') as [->|]; auto. apply H2; auto. rewrite in_app_iff. simpl. intuition.
      * destruct (IH pres dels) as (r & Er & R); auto; try lia.
        exists r. split; auto. intros Hpres. specialize (R Hpres).
        destruct r as [| |ix']; simpl in *.
        -- destruct R as (x & H1 & H2). exists x. tauto.
        -- tauto.
        -- destruct R as (H1 & H2). split; auto. intros x [[_ ->]|Hx] Hx1 Hx2; auto. exfalso.
           assert (negb (vseen v' (filled vhash dels)) && negb (vseen v' (filled vhash pres)) = true) by (apply Eff; auto).
           congruence.
    + apply keq_false in Ek. destruct (IH pres dels) as (r & Er & R); auto; try lia.
      exists r. split; auto. intros Hpres. specialize (R Hpres). destruct r as [| |ix']; simpl in *.
      * destruct R as (x & H1 & H2). exists x. tauto.
      * tauto.
      * destruct R as (H1 & H2). split; auto. intros x [[? _]|Hx]; auto. congruence.
  - destruct Hw as (Hw & Hk' & Hnm & Hp). cbn [lcond_rec]. simpl in Hc1, Hc2.
    destruct (keq k k') eqn:Ek; simpl andb.
    + apply keq_spec in Ek. subst k'.
      destruct (negb (vseen v' (filled vhash pres))) eqn:Es.
      * rewrite negb_true_iff, vseen_false in Es. rewrite Bin by lia. cbn [bind].
        destruct (IH pres (dels ++ [v'])) as (r & Er & R); auto; try lia.
        { rewrite app_length. simpl. lia. }
        exists r. split; auto. intros Hpres. specialize (R Hpres). destruct r as [| |ix']; simpl in *.
        -- destruct R as (x & H1 & H2 & H3 & H4). rewrite in_app_iff in H3. simpl in H3.
           exists x. split; [|tauto]. split; auto. intros [_ ->]. tauto.
        -- destruct R as (H1 & H2 & H3). rewrite in_app_iff in H3. simpl in H3. split; [|tauto].
           split; auto. intros [_ ->]; tauto.
        -- destruct R as (H1 & H2). split; auto. intros x [Hx0 Hx] Hx1 Hx2. apply H2; auto.
           rewrite in_app_iff. simpl. intros [|[->|[]]]; auto.
      * rewrite negb_false_iff, vseen_spec in Es.
        destruct (IH pres dels) as (r & Er & R); auto; try lia.
        exists r. split; auto. intros Hpres. specialize (R Hpres). destruct r as [| |ix']; simpl in *.
        -- destruct R as (x & H1 & H2 & H3). exists x. split; [|tauto]. split; auto. intros [_ ->]; tauto.
        -- destruct R as (H1 & H2 & H3). split; [|tauto]. split; auto. intros [_ ->]; tauto.
        -- destruct R as (H1 & H2). split; auto. intros x [Hx0 Hx] Hx1 Hx2. auto.
    + apply keq_false in Ek. destruct (IH pres dels) as (r & Er & R); auto; try lia.
      exists r. split; auto. intros Hpres. specialize (R Hpres). destruct r as [| |ix']; simpl in *.
      * destruct R as (x & H1 & H2). exists x. split; [|tauto]. split; auto. intros [? _]; congruence.
      * split; [|tauto]. split; [|tauto]. intros [? _]; congruence.
      * destruct R as (H1 & H2). split; auto. intros x [_ Hx]; auto.
  - destruct c as [low items high| | | | |]; simpl in Hw; try tauto.
    destruct Hw as (((Ha & Hi & _) & Hn) & Hk & Hlk & Hnn). destruct Hr as [Hr1 Hr2]. simpl in Hr2.
    destruct (Base low items high pres dels Ha Hn) as (r & Er & R).
    exists r. split; [exact Er|]. intros _. destruct r; simpl in *.
    + destruct R as (x & ?). exists x. tauto.
    + tauto.
    + split; [tauto|]. intros x [_ Hx]. apply R; auto.
  - simpl in Hw; tauto.
  - pose proof (in_rangew_merge _ _ _ _ _ Hw Hr) as Hr'. destruct Hw as (Hwc & Hwr & E1 & E2). cbn [lcond_rec].
    simpl in Hc1, Hc2. unfold cond_ok. cbn [lbase_for lmem]. rewrite kge_negb.
    destruct (klt k mk); simpl negb; cbv iota; [apply IHc|apply IHr]; auto; lia.
Qed.

Lemma lcondw_spec pred c k v : lwfw c -> in_range c k ->
  exists r, lcond pred k v c = Ok r /\
  match r with
  | CSatisfied => exists x, lmem c k x /\ pred x = true
  | CExists => lmem c k v
  | CAbsent ix => ix = (ub k (lbase_for k c), false) /\ ~ lmem c k v /\ forall x, lmem c k x -> pred x = false
  end.
Proof.
  intros Hw Hr. destruct (lcond_rec_spec pred (ldepth c) k v c [] []) as (r & E & H); auto.
  exists r. split; [exact E|]. assert (H' : cond_ok pred c k v [] [] r) by (apply H; simpl; tauto).
  destruct r; simpl in *.
  - destruct H' as (x & ?). exists x. tauto.
  - tauto.
  - destruct H' as (H1 & H2). split; auto. split.
    + intros Hm. destruct (H2 v Hm); auto.
    + intros x Hx. apply (H2 x); auto.
Qed.

Lemma lcond_spec pred c k v : lwf c -> in_range c k ->
  exists r, lcond pred k v c = Ok r /\
  match r with
  | CSatisfied => exists x, lmem c k x /\ pred x = true
  | CExists => lmem c k v
  | CAbsent ix => ix = (ub k (lbase_for k c), false) /\ ~ lmem c k v /\ forall x, lmem c k x -> pred x = false
  end.
Proof. intros H. apply lcondw_spec, lwf_lwfw, H. Qed.

Lemma stored_base c k v : stored c k v <-> In (k, v) (lbase_for k c).
Proof.
  induction c as [| | | | |mk id r IHr c IHc]; simpl; try tauto. rewrite kge_negb.
  destruct (klt k mk); simpl; auto.
Qed.

Lemma built_lwf c : built c -> lwf c.
Proof.
  induction 1 as [|c k v ix Hb IH Hr E|c k v ix Hb IH Hr E|pred c k v ix Hb IH Hr E Hst|low items high key si sib Hb IH E|c s Hb IH E|
                  l r mk rid Hb1 IH1 Hb2 IH2 E1 E2|c c' Hb IH E].
  - simpl. split; [|constructor]. split; [constructor|]. split; simpl; tauto.
  - destruct (lcheck_spec c k v IH Hr) as (b & ix' & E' & H1 & H2). rewrite E in E'. inversion E'; subst.
    simpl. split; auto. split; auto. split; auto. rewrite <- H1. discriminate.
  - destruct (lcheck_spec c k v IH Hr) as (b & ix' & E' & H1 & H2). rewrite E in E'. inversion E'; subst.
    simpl. split; auto. split; auto. split; auto. rewrite <- H1. auto.
  - destruct (lcond_spec pred c k v IH Hr) as (r & E' & H). rewrite E in E'. inversion E'; subst r.
    destruct H as (-> & H1 & H2). simpl. split; auto. split; auto. split; auto.
    split; auto. rewrite <- stored_base. auto.
  - destruct (lsplit_spec _ _ _ _ IH E) as (key' & si' & Es & _ & H & _). inversion Es; subst. apply H.
  - destruct c as [low items high| | | | |]; try discriminate.
    destruct (lsplit_spec _ _ _ _ IH E) as (key' & si' & Es & H & _). auto.
  - simpl. auto.
  - destruct (lconsolidate_spec c IH) as (items & E' & H & _). rewrite E in E'. inversion E'; subst; auto.
Qed.


(** ** Statements used by the property file *)
Lemma find_split_point_complete (items : list (K * V)) : ascending items -> find_split_point items = Ok None ->
  forall l r, items = l ++ r -> LEAF_SIZE_LOWER < length l -> LEAF_SIZE_LOWER < length r ->
  exists x y, In x l /\ In y r /\ fst x = fst y.
Proof.
  intros Ha E l r -> Hl Hr. unfold find_split_point in E.
  set (items := l ++ r) in *. set (n := length items) in *. set (ct := Nat.div2 n) in *.
  assert (Hn : n = length l + length r) by (unfold n, items; apply app_length).
  assert (Hct : 2 * ct <= n <= 2 * ct + 1).
  { unfold ct. pose proof (Nat.div2_odd n). destruct (Nat.odd n); simpl Nat.b2n in *; lia. }
  pose proof Hl as Hl0. pose proof Hr as Hr0. unfold LEAF_SIZE_LOWER in Hl0, Hr0.
  rewrite (proj2 (Nat.ltb_lt 1 ct)) in E by lia.
  destruct (nth_some items ct ltac:(fold n; lia)) as (x & Ex). rewrite Ex in E.
  destruct (scan_back_spec (fst x) items (ct - 1) ltac:(fold n; lia)) as (B1 & B2 & B3).
  set (m := scan_back (fst x) items (ct - 1)) in *.
  destruct (LEAF_SIZE_LOWER <? S m) eqn:E1; [discriminate|].
  destruct (scan_fwd_spec (fst x) items (ct + 1) ltac:(fold n; lia)) as (F1 & F2 & F3).
  set (it := scan_fwd (fst x) items (ct + 1)) in *.
  destruct (LEAF_SIZE_LOWER <? n - it) eqn:E2; [discriminate|].
  apply Nat.ltb_ge in E1. apply Nat.ltb_ge in E2. unfold LEAF_SIZE_LOWER in *.
  assert (Hrun : forall j y, m < j < it -> nth_error items j = Some y -> fst y = fst x).
  { intros j y Hj Ey. destruct (lt_eq_lt_dec j ct) as [[?| ->]|?].
    - apply (B2 j); auto. lia. - congruence. - apply (F2 j); auto. lia. }
  destruct (nth_some items (length l - 1) ltac:(fold n; lia)) as (a & Ea).
  destruct (nth_some items (length l) ltac:(fold n; lia)) as (b & Eb).
  exists a, b. split; [|split].
  - unfold items in Ea. rewrite nth_error_app1 in Ea by lia. eapply nth_error_In; eauto.
  - unfold items in Eb. rewrite nth_error_app2 in Eb by lia. eapply nth_error_In; eauto.
  - rewrite (Hrun (length l - 1) a ltac:(lia) Ea), (Hrun (length l) b ltac:(lia) Eb). auto.
Qed.

Lemma split_full low (items : list (K * V)) high : ascending items -> 4 <= length items ->
  exists r, lsplit_sibling (LBase low items high) = Ok r /\
  match r with
  | None => forall l r, items = l ++ r -> LEAF_SIZE_LOWER < length l -> LEAF_SIZE_LOWER < length r ->
      exists x y, In x l /\ In y r /\ fst x = fst y
  | Some s => exists l key v r,
      s = LBase (Some key) ((key, v) :: r) high /\ items = l ++ (key, v) :: r /\
      LEAF_SIZE_LOWER < length l /\ LEAF_SIZE_LOWER < length ((key, v) :: r) /\
      (forall x y, In x l -> In y ((key, v) :: r) -> klt (fst x) (fst y) = true)
  end.
Proof.
  intros Ha H4. destruct (find_split_point_spec items Ha H4) as (r & E & H). cbn [lsplit_sibling]. rewrite E. cbn [bind].
  destruct r as [i|].
  - destruct H as (L1 & L2 & x & Ex & Hlt). rewrite Ex. eexists; split; [reflexivity|].
    assert (Hs : skipn i items = x :: skipn (S i) items).
    { clear - Ex. revert i Ex. induction items as [|a l IH]; intros [|i] E; simpl in *; try congruence. apply IH; auto. }
    exists (firstn i items), (fst x), (snd x), (skipn (S i) items).
    rewrite <- surjective_pairing, <- Hs. split; auto. split; [symmetry; apply firstn_skipn|].
    split; [rewrite firstn_length; lia|]. split; [rewrite skipn_length; lia|].
    intros a b Hia Hib. apply In_nth_error in Hia as (j & Ej). apply In_nth_error in Hib as (j' & Ej').
    assert (j < i). { assert (j < length (firstn i items)) by (apply nth_error_Some; congruence). rewrite firstn_length in *. lia. }
    rewrite firstn_nth in Ej by auto. rewrite skipn_nth in Ej'.
    pose proof (Hlt j a ltac:(lia) Ej). pose proof (asc_nth items i (i + j') x b Ha ltac:(lia) Ex Ej'). order.
  - eexists; split; [reflexivity|]. simpl. intros l r. apply find_split_point_complete; auto.
Qed.

Lemma single_key_unsplit low (items : list (K * V)) high k :
  (forall x, In x items -> fst x = k) -> 4 <= length items ->
  lsplit_sibling (LBase low items high) = Ok None.
Proof.
  intros Hk H4. assert (Ha : ascending items).
  { clear H4. induction items as [|a l IH]; constructor.
    - apply IH. intros; apply Hk; right; auto.
    - apply Forall_forall. intros x Hx. rewrite (Hk a), (Hk x) by (simpl; auto). apply klt_irrefl. }
  destruct (split_full low items high Ha H4) as ([s|] & E & H); auto.
  destruct H as (l & key & v & r & -> & Ei & L1 & _ & Hlt). exfalso.
  destruct l as [|a l]; [simpl in L1; lia|].
  assert (klt (fst a) key = true) by (apply (Hlt a (key, v)); left; auto).
  assert (fst a = k) by (apply Hk; rewrite Ei; left; auto).
  assert (fst (key, v) = k) by (apply Hk; rewrite Ei; apply in_app_iff; right; left; auto).
  simpl in *. order.
Qed.

(** The scratch arrays of the value collection have room on any chain. *)
Lemma binsert_no_overrun {A} (h : A -> N) cap v l : length (data l) < cap ->
  exists b, binsert h cap v l = Ok b /\ length (data b) = S (length (data l)).
Proof.
  intros H. unfold binsert. rewrite (proj2 (Nat.ltb_lt _ _) H). eexists; split; [reflexivity|].
  simpl. rewrite app_length. simpl. lia.
Qed.
Lemma lvalues_rec_room cap k c : forall pres dels start fin,
  length (data pres) + ldepth c <= cap -> length (data dels) + ldepth c <= cap ->
  lvalues_rec cap k c pres dels start fin <> Er EOverrun.
Proof.
  induction c as [low items high|k' v' ix c IH|k' v' ix c IH|sk sib n c IH|id c IH|mk id r IHr c IHc];
    intros pres dels start fin H1 H2; simpl in *.
  - destruct (_ && _); congruence.
  - destruct (keq k k'); [|destruct (kgt k k'); apply IH; lia].
    destruct (_ && _); [|apply IH; lia].
    destruct (binsert_no_overrun vhash cap v' pres ltac:(lia)) as (b & -> & Hb). simpl.
    specialize (IH b dels start fin ltac:(lia) ltac:(lia)).
    destruct (lvalues_rec cap k c b dels start fin); simpl; congruence.
  - destruct (keq k k'); [|destruct (kgt k k'); apply IH; lia].
    destruct (negb _); [|apply IH; lia].
    destruct (binsert_no_overrun vhash cap v' dels ltac:(lia)) as (b & -> & Hb). simpl. apply IH; lia.
  - apply IH; lia.
  - congruence.
  - destruct (kge k mk); [apply IHr|apply IHc]; lia.
Qed.
Lemma lvalues_room k c : lvalues k c <> Er EOverrun.
Proof. apply lvalues_rec_room; simpl; lia. Qed.
End LeafProofs2.
