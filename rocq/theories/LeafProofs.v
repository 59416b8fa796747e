(** Proofs about leaf pages. *)
From Coq Require Import List Arith Lia Bool ZArith NArith Sorted Permutation.
From Verif Require Import Base SmallSet Bloom SmallProofs Leaf LeafSpec.
Import ListNotations.

Section LeafProofs.
Context {P : Params}.

Definition range_ok {B} (l : option K) (h : option (K * B)) : Prop :=
  match l, h with Some x, Some (y, _) => klt x y = true | _, _ => True end.

(** Base page reached by key [k]. *)
Fixpoint lbase_for (k : K) (c : lchain) : list (K * V) :=
  match c with
  | LBase _ items _ => items
  | LIns _ _ _ c | LDel _ _ _ c | LSplit _ _ _ c | LRemove _ c => lbase_for k c
  | LMerge mk _ r c => if kge k mk then lbase_for k r else lbase_for k c
  end.

(** Position right after the last element with key at most [k]. *)
Definition ub {B} (k : K) (l : list (K * B)) : nat := first_not (fun x => negb (klt k (fst x))) l.

Definition pos_ok (items : list (K * V)) (k : K) (v : V) (ix : nat * bool) : Prop :=
  if snd ix then nth_error items (fst ix) = Some (k, v)
  else fst ix = ub k items /\ ~ In (k, v) items.

Definition base_ok {B} (low : option K) (items : list (K * B)) (high : option (K * nat)) : Prop :=
  ascending items /\ (forall x, In x items -> above low (fst x) /\ below high (fst x)) /\
  range_ok low high.

Fixpoint lwf (c : lchain) : Prop :=
  match c with
  | LBase low items high => base_ok low items high /\ NoDup items
  | LIns k v ix c => lwf c /\ in_range c k /\ ~ lmem c k v /\ pos_ok (lbase_for k c) k v ix
  | LDel k v ix c => lwf c /\ in_range c k /\ lmem c k v /\ pos_ok (lbase_for k c) k v ix
  | LSplit k sib n c =>
      match c with
      | LBase low items high =>
          lwf c /\ below high k /\ match low with None => True | Some l => klt l k = true end /\
          n = length (filter (fun x => kge (fst x) k) items)
      | _ => False
      end
  | LRemove _ _ => False
  | LMerge mk id r c => lwf c /\ lwf r /\ llow r = Some mk /\ lhigh c = Some (mk, id)
  end.

Lemma lwf_range c : lwf c -> range_ok (llow c) (lhigh c).
Proof.
  induction c; simpl; intros H; try tauto.
  - destruct H as ((_ & _ & H) & _); auto.
  - destruct c; tauto.
  - destruct H as (H1 & H2 & E1 & E2). apply IHc1 in H2. apply IHc2 in H1.
    rewrite E1 in H2. rewrite E2 in H1. destruct (llow c2) as [a|]; simpl in *; auto.
    destruct (lhigh c1) as [[b ?]|]; auto. order.
Qed.

(** Sorted lists are partitioned by key comparisons. *)
Lemma asc_part_lt {B} (l : list (K * B)) k : ascending l -> partitioned (fun x => klt (fst x) k) l.
Proof.
  unfold ascending. induction 1 as [|a l H IH Hf]; simpl; auto. split; auto.
  intros Ha y Hy. rewrite Forall_forall in Hf. specialize (Hf _ Hy). order.
Qed.
Lemma asc_part_le {B} (l : list (K * B)) k : ascending l -> partitioned (fun x => negb (klt k (fst x))) l.
Proof.
  unfold ascending. induction 1 as [|a l H IH Hf]; simpl; auto. split; auto.
  intros Ha y Hy. rewrite Forall_forall in Hf. specialize (Hf _ Hy). order.
Qed.

Definition lb {B} (k : K) (l : list (K * B)) : nat := first_not (fun x => klt (fst x) k) l.
Lemma lower_bound_lb {B} (l : list (K * B)) k : ascending l -> lower_bound k l = lb k l.
Proof. intros H. apply bsearch_spec, asc_part_lt, H. Qed.

Lemma lb_before {B} (l : list (K * B)) k i x : i < lb k l -> nth_error l i = Some x -> klt (fst x) k = true.
Proof. intros H1 H2. apply (first_not_before _ _ _ _ H1 H2). Qed.
Lemma lb_after {B} (l : list (K * B)) k i x :
  ascending l -> lb k l <= i -> nth_error l i = Some x -> klt (fst x) k = false.
Proof. intros H H1 H2. apply (first_not_after _ _ _ _ (asc_part_lt l k H) H1 H2). Qed.
Lemma ub_before {B} (l : list (K * B)) k i x : i < ub k l -> nth_error l i = Some x -> klt k (fst x) = false.
Proof. intros H1 H2. apply negb_true_iff. apply (first_not_before _ _ _ _ H1 H2). Qed.
Lemma ub_after {B} (l : list (K * B)) k i x :
  ascending l -> ub k l <= i -> nth_error l i = Some x -> klt k (fst x) = true.
Proof. intros H H1 H2. apply negb_false_iff. apply (first_not_after _ _ _ _ (asc_part_le l k H) H1 H2). Qed.
Lemma lb_le {B} (l : list (K * B)) k : lb k l <= length l.
Proof. apply first_not_le. Qed.
Lemma ub_le {B} (l : list (K * B)) k : ub k l <= length l.
Proof. apply first_not_le. Qed.

Lemma nth_some {B} (l : list B) i : i < length l -> exists x, nth_error l i = Some x.
Proof. intros H. destruct (nth_error l i) eqn:E; eauto. apply nth_error_None in E; lia. Qed.

Lemma asc_nth {B} (l : list (K * B)) i j x y :
  ascending l -> i <= j -> nth_error l i = Some x -> nth_error l j = Some y -> klt (fst y) (fst x) = false.
Proof.
  intros H; revert i j; induction H as [|a l H IH Hf]; intros i j Hij Hi Hj.
  - destruct i; discriminate.
  - rewrite Forall_forall in Hf. destruct i, j; simpl in *; try lia.
    + inversion Hi; inversion Hj; subst; order.
    + inversion Hi; subst. apply Hf. eapply nth_error_In; eauto.
    + apply (IH i j); auto; lia.
Qed.

Lemma skipn_nth {B} (l : list B) n i : nth_error (skipn n l) i = nth_error l (n + i).
Proof. revert l; induction n; destruct l; simpl; auto. destruct i; auto. Qed.
Lemma firstn_nth {B} (l : list B) n i : i < n -> nth_error (firstn n l) i = nth_error l i.
Proof. revert l i; induction n; destruct l, i; simpl; intros; auto; try lia. apply IHn; lia. Qed.

Lemma In_slice {B} (l : list B) a b x : b <= length l ->
  In x (firstn (b - a) (skipn a l)) <-> exists i, a <= i < b /\ nth_error l i = Some x.
Proof.
  intros Hb. split.
  - intros H. apply In_nth_error in H as (i & H).
    assert (i < b - a).
    { assert (i < length (firstn (b - a) (skipn a l))) by (apply nth_error_Some; congruence).
      rewrite firstn_length in H0. lia. }
    rewrite firstn_nth, skipn_nth in H by auto. exists (a + i). split; auto. lia.
  - intros (i & H1 & H2). apply nth_error_In with (n := i - a).
    rewrite firstn_nth, skipn_nth by lia. replace (a + (i - a)) with i by lia. auto.
Qed.


Lemma scan_stop k v (items : list (K * V)) i : ascending items ->
  lb k items <= i <= length items ->
  (forall j x, lb k items <= j < i -> nth_error items j = Some x -> fst x = k /\ snd x <> v) ->
  (forall x, nth_error items i = Some x -> fst x <> k) ->
  ~ In (k, v) items /\ i = ub k items.
Proof.
  intros Ha Hi Hp Hx.
  assert (Hb : forall j x, j < i -> nth_error items j = Some x -> klt k (fst x) = false).
  { intros j x Hj E. destruct (le_lt_dec (lb k items) j).
    - destruct (Hp j x ltac:(lia) E). order.
    - apply (lb_before _ _ _ _ l) in E. order. }
  assert (Hg : forall j x, i <= j -> nth_error items j = Some x -> klt k (fst x) = true).
  { intros j x Hj E. assert (j < length items) by (apply nth_error_Some; congruence).
    destruct (nth_some items i ltac:(lia)) as (y & Ey).
    pose proof (asc_nth _ _ _ _ _ Ha Hj Ey E). pose proof (lb_after _ _ _ _ Ha (proj1 Hi) Ey).
    specialize (Hx _ Ey). order. }
  split.
  - intros Hin. apply In_nth_error in Hin as (j & E).
    destruct (le_lt_dec i j) as [H|H].
    + pose proof (Hg _ _ H E). simpl in *. order.
    + destruct (le_lt_dec (lb k items) j).
      * destruct (Hp j _ ltac:(lia) E). auto.
      * apply (lb_before _ _ _ _ l) in E. simpl in E. order.
  - symmetry. apply first_not_unique; [lia| |].
    + intros j x Hj E. rewrite (Hb j x); auto.
    + intros x E. rewrite (Hg i x); auto.
Qed.

Lemma lscan_spec k v (items : list (K * V)) : ascending items ->
  forall l i, lb k items <= i <= length items -> l = skipn i items ->
  (forall j x, lb k items <= j < i -> nth_error items j = Some x -> fst x = k /\ snd x <> v) ->
  let r := lscan k v i l in
  (fst r = true <-> In (k, v) items) /\ pos_ok items k v (snd r).
Proof.
  intros Ha. induction l as [|x l IH]; intros i Hi El Hp; cbn [lscan].
  - destruct (scan_stop k v items i Ha Hi Hp) as [H1 H2].
    { intros x E. rewrite <- (Nat.add_0_r i), <- skipn_nth, <- El in E. discriminate. }
    simpl. split; [split; [discriminate|tauto]|]. split; auto.
  - assert (Ex : nth_error items i = Some x) by (rewrite <- (Nat.add_0_r i), <- skipn_nth, <- El; auto).
    assert (i < length items) by (apply nth_error_Some; congruence).
    destruct (keq (fst x) k) eqn:Ek; [destruct (veq (snd x) v) eqn:Ev|].
    + apply keq_spec in Ek. apply veq_spec in Ev. destruct x as [k' v']; simpl in *; subst.
      split; [split; auto; intros _; eapply nth_error_In; eauto|]. exact Ex.
    + apply IH; [lia| |].
      * rewrite <- (Nat.add_1_r i), Nat.add_comm. change (S i) with (1 + i).
        assert (G : forall A (l : list A) n x r, skipn n l = x :: r -> skipn (1 + n) l = r).
        { intros A l0 n; revert l0; induction n; destruct l0; simpl; intros; try discriminate.
          - congruence. - destruct n; simpl in *; [destruct l0; congruence|]. apply (IHn l0) in H0; auto. }
        symmetry in El. apply G in El. auto.
      * intros j y Hj E. destruct (Nat.eq_dec j i) as [->|].
        -- assert (y = x) by congruence. subst. apply keq_spec in Ek. apply veq_false in Ev. auto.
        -- apply (Hp j); auto. lia.
    + apply keq_false in Ek. destruct (scan_stop k v items i Ha Hi Hp) as [H1 H2].
      { intros y E. congruence. }
      simpl. split; [split; [discriminate|tauto]|]. split; auto.
Qed.

Lemma lbase_check k v (items : list (K * V)) : ascending items ->
  let i := lower_bound k items in
  let r := lscan k v i (skipn i items) in
  (fst r = true <-> In (k, v) items) /\ pos_ok items k v (snd r).
Proof.
  intros Ha i. unfold i. rewrite lower_bound_lb by auto. apply lscan_spec; auto.
  - pose proof (lb_le items k); lia.
  - intros; lia.
Qed.

Lemma below_weaken {B C} (h1 : option (K * B)) (h2 : option (K * C)) k :
  (forall y i, h2 = Some (y, i) -> exists x j, h1 = Some (x, j) /\ klt y x = false) ->
  below h1 k -> below h2 k.
Proof.
  intros H. destruct h2 as [[y i]|]; simpl; auto. destruct (H y i eq_refl) as (x & j & -> & Hl).
  simpl. order.
Qed.

Lemma in_range_merge mk id r c k : lwf (LMerge mk id r c) ->
  in_range (LMerge mk id r c) k ->
  if klt k mk then in_range c k else in_range r k.
Proof.
  intros (H1 & H2 & E1 & E2) [Ha Hb]. simpl in *. unfold in_range.
  destruct (klt k mk) eqn:E.
  - rewrite E2. simpl. auto.
  - rewrite E1. simpl. auto.
Qed.

Lemma in_range_merge_l mk id r c k : lwf (LMerge mk id r c) -> in_range c k ->
  in_range (LMerge mk id r c) k /\ klt k mk = true.
Proof.
  intros (H1 & H2 & E1 & E2) [Ha Hb]. rewrite E2 in Hb. simpl in Hb. split; auto.
  split; auto. simpl. apply lwf_range in H2. rewrite E1 in H2. simpl in H2.
  destruct (lhigh r) as [[y ?]|]; simpl; auto. order.
Qed.
Lemma in_range_merge_r mk id r c k : lwf (LMerge mk id r c) -> in_range r k ->
  in_range (LMerge mk id r c) k /\ klt k mk = false.
Proof.
  intros (H1 & H2 & E1 & E2) [Ha Hb]. rewrite E1 in Ha. simpl in Ha. split; auto.
  split; auto. simpl. apply lwf_range in H1. rewrite E2 in H1. destruct (llow c) as [l|]; simpl in *; auto. order.
Qed.

Lemma kge_negb k mk : kge k mk = negb (klt k mk). Proof. reflexivity. Qed.

Lemma lcheck_spec c k v : lwf c -> in_range c k ->
  exists b ix, lcheck k v c = Ok (b, ix) /\ (b = true <-> lmem c k v) /\ pos_ok (lbase_for k c) k v ix.
Proof.
  induction c; simpl; intros Hw Hr.
  - destruct Hw as ((Ha & _) & _). destruct (lbase_check k v items Ha) as [H1 H2].
    eexists _, _. split; [rewrite <- surjective_pairing; reflexivity|auto].
  - destruct Hw as (Hw & Hk & Hn & Hi). destruct (keq k k0 && veq v0 v) eqn:E.
    + apply andb_true_iff in E as [E1 E2]. apply keq_spec in E1. apply veq_spec in E2. subst.
      eexists _, _. split; eauto. split; auto. tauto.
    + destruct (IHc Hw Hr) as (b & ix' & E1 & E2 & E3). eexists _, _. split; eauto. split; auto.
      rewrite E2. apply andb_false_iff in E. split; auto. intros [[-> ->]|H]; auto.
      rewrite keq_refl, veq_refl in E. intuition discriminate.
  - destruct Hw as (Hw & Hk & Hn & Hi). destruct (keq k k0 && veq v0 v) eqn:E.
    + apply andb_true_iff in E as [E1 E2]. apply keq_spec in E1. apply veq_spec in E2. subst.
      eexists _, _. split; eauto. split; auto. split; [discriminate|tauto].
    + destruct (IHc Hw Hr) as (b & ix' & E1 & E2 & E3). eexists _, _. split; eauto. split; auto.
      rewrite E2. apply andb_false_iff in E. split; [|tauto]. intros H; split; auto. intros [-> ->].
      rewrite keq_refl, veq_refl in E. intuition discriminate.
  - destruct c; try tauto. destruct Hw as (((Ha & Hb) & Hd) & Hh & Hl & Hn).
    destruct Hr as [Hr1 Hr2]. simpl in *.
    destruct (lbase_check k v items Ha) as [H1 H2].
    eexists _, _. split; [rewrite <- surjective_pairing; reflexivity|]. split; auto. rewrite H1. tauto.
  - tauto.
  - pose proof (in_range_merge _ _ _ _ _ Hw Hr) as Hr'. destruct Hw as (H1 & H2 & _).
    rewrite kge_negb. destruct (klt k k0); simpl; auto.
Qed.

(** ** The merge loop of consolidation *)
Definition dpair (d : ldata) : K * V := (d_k d, d_v d).

(** The loop without draining: equal to [lloop] on well-formed input. *)
Fixpoint go2 (items : list (K * V)) (cs ce : nat) (l : list ldata) : res (list (K * V)) :=
  match l with
  | [] => slice items cs ce
  | d :: r =>
      if (cs <=? d_idx d) && (d_idx d <=? ce) then
        do a <- slice items cs (d_idx d);
        do b <- go2 items (if d_fl d then S (d_idx d) else d_idx d) ce r;
        Ok (a ++ (if d_ins d then [dpair d] else []) ++ b)
      else Er EAssert
  end.

Definition dstep (a b : ldata) : Prop :=
  if d_fl a then d_idx a < d_idx b else d_idx a <= d_idx b.

Lemma slice_self {B} (l : list B) i : i <= length l -> slice l i i = Ok [].
Proof.
  intros H. unfold slice. rewrite (proj2 (Nat.leb_le i i)), (proj2 (Nat.leb_le _ _) H) by lia. simpl.
  rewrite Nat.sub_diag. auto.
Qed.

Lemma ldrain_length ci over l : let '(o, ov, rest) := ldrain ci over l in length rest <= length l.
Proof.
  revert over; induction l as [|d r IH]; simpl; intros over; auto.
  destruct (d_idx d =? ci); auto. specialize (IH (over || d_fl d)).
  destruct (ldrain ci (over || d_fl d) r) as ((o & ov) & rest). lia.
Qed.

Lemma ldrain_go2 items ce ci : ci <= ce -> ci <= length items -> forall l (over : bool),
  StronglySorted dstep l ->
  (forall d, In d l -> (if over then ci < d_idx d else ci <= d_idx d)) ->
  let '(o, ov, rest) := ldrain ci over l in
  go2 items (if over then S ci else ci) ce l =
  (do b <- go2 items (if ov then S ci else ci) ce rest; Ok (o ++ b)).
Proof.
  intros Hce Hci. induction l as [|d r IH]; intros over Hs Hd; cbn [ldrain].
  - simpl. destruct (slice items (if over then S ci else ci) ce); auto.
  - destruct (Nat.eqb_spec (d_idx d) ci) as [E|E].
    + assert (over = false) by (destruct over; auto; specialize (Hd d (or_introl eq_refl)); simpl in Hd; lia).
      subst over. simpl orb. inversion Hs as [|? ? Hs' Hf]; subst.
      specialize (IH (d_fl d) Hs').
      destruct (ldrain (d_idx d) (d_fl d) r) as ((o & ov) & rest).
      cbn [go2]. rewrite Nat.leb_refl, (proj2 (Nat.leb_le _ _) Hce). cbn [andb].
      rewrite slice_self by auto. cbn [bind].
      rewrite IH.
      * destruct (go2 items _ ce rest); simpl; auto. destruct (d_ins d); auto.
      * intros d' Hd'. rewrite Forall_forall in Hf. specialize (Hf _ Hd'). unfold dstep in Hf. auto.
    + simpl app. destruct (go2 items (if over then S ci else ci) ce (d :: r)) eqn:Eg; auto.
Qed.

Lemma StronglySorted_suffix {B} (R : B -> B -> Prop) l1 l2 :
  StronglySorted R (l1 ++ l2) -> StronglySorted R l2.
Proof. induction l1; simpl; auto. intros H; inversion H; auto. Qed.

Lemma ldrain_suffix ci over l : exists l1, l = l1 ++ snd (ldrain ci over l).
Proof.
  revert over; induction l as [|d r IH]; simpl; intros over; [exists []; auto|].
  destruct (d_idx d =? ci); [|exists []; auto].
  destruct (IH (over || d_fl d)) as (l1 & E).
  destruct (ldrain ci (over || d_fl d) r) as ((o & ov) & rest). simpl in *. exists (d :: l1). simpl; congruence.
Qed.

Lemma lloop_go2 items ce : ce <= length items -> forall fuel l cs,
  length l <= fuel -> StronglySorted dstep l ->
  lloop fuel items cs ce l = go2 items cs ce l.
Proof.
  intros Hce. induction fuel as [|f IH]; intros l cs Hf Hs.
  - destruct l; simpl in *; [auto|lia].
  - destruct l as [|d r]; [reflexivity|].
    cbn [lloop]. cbn [go2].
    destruct ((cs <=? d_idx d) && (d_idx d <=? ce)) eqn:E; auto.
    apply andb_true_iff in E as [E1 E2]. apply Nat.leb_le in E1. apply Nat.leb_le in E2.
    destruct (slice items cs (d_idx d)) as [a|e] eqn:Es; cbn [bind]; auto.
    pose proof (ldrain_go2 items ce (d_idx d) E2 ltac:(lia) (d :: r) false Hs) as G.
    pose proof (ldrain_length (d_idx d) false (d :: r)) as GL.
    pose proof (ldrain_suffix (d_idx d) false (d :: r)) as GS.
    pose proof (ldrain_length (d_idx d) (d_fl d) r) as GL'.
    cbn [ldrain] in *. rewrite Nat.eqb_refl in *. simpl orb in *.
    destruct (ldrain (d_idx d) (d_fl d) r) as ((o & ov) & rest) eqn:Ed. cbn [snd] in *.
    rewrite IH.
    + cbn [go2] in G. rewrite Nat.leb_refl, (proj2 (Nat.leb_le _ _) E2) in G. cbn [andb] in G.
      rewrite slice_self in G by lia. cbn [bind app] in G.
      assert (Gp : forall d', In d' (d :: r) -> d_idx d <= d_idx d').
      { inversion Hs as [|? ? _ Hff]; subst. rewrite Forall_forall in Hff.
        intros d' [<-|Hd']; auto. specialize (Hff _ Hd'). unfold dstep in Hff. destruct (d_fl d); lia. }
      specialize (G Gp).
      destruct (go2 items (if ov then S (d_idx d) else d_idx d) ce rest) as [b|]; cbn [bind] in *.
      * destruct (go2 items (if d_fl d then S (d_idx d) else d_idx d) ce r) as [b'|]; cbn [bind] in *; [|discriminate].
        inversion G as [G']. unfold dpair in *. congruence.
      * destruct (go2 items (if d_fl d then S (d_idx d) else d_idx d) ce r) as [b'|]; cbn [bind] in *; [discriminate|auto].
    + simpl in Hf. lia.
    + destruct GS as (l1 & E). rewrite E in Hs. eapply StronglySorted_suffix; eauto.
Qed.

Definition dok (items : list (K * V)) (d : ldata) : Prop := pos_ok items (d_k d) (d_v d) (d_ix d).

(** What consolidating one base page with deltas [l] has to give. *)
Record merged (inbase : K * V -> Prop) (l : list ldata) (out : list (K * V)) : Prop := {
  mg_in : forall x, In x out <->
      (exists d, In d l /\ d_ins d = true /\ dpair d = x) \/ (inbase x /\ ~ In x (map dpair l));
  mg_asc : ascending out;
  mg_nd : NoDup out }.

Lemma ascending_app {B} (a b : list (K * B)) : ascending a -> ascending b ->
  (forall x y, In x a -> In y b -> klt (fst y) (fst x) = false) -> ascending (a ++ b).
Proof. intros. apply SSorted_app; auto. Qed.
Lemma ascending_firstn {B} (l : list (K * B)) n : ascending l -> ascending (firstn n l).
Proof. intros H. rewrite <- (firstn_skipn n l) in H. apply SSorted_app_inv in H. tauto. Qed.
Lemma ascending_skipn {B} (l : list (K * B)) n : ascending l -> ascending (skipn n l).
Proof. intros H. rewrite <- (firstn_skipn n l) in H. apply SSorted_app_inv in H. tauto. Qed.

Lemma NoDup_app_intro {B} (a b : list B) : NoDup a -> NoDup b ->
  (forall x, In x a -> In x b -> False) -> NoDup (a ++ b).
Proof.
  induction a as [|x a IH]; simpl; auto. intros Ha Hb H. inversion Ha; subst.
  constructor; [|apply IH; auto; intros; eapply H; eauto].
  rewrite in_app_iff. intros [?|?]; [auto|]. apply (H x); auto.
Qed.
Lemma NoDup_app_elim {B} (a b : list B) : NoDup (a ++ b) ->
  NoDup a /\ NoDup b /\ (forall x, In x a -> In x b -> False).
Proof.
  induction a as [|x a IH]; simpl; intros H; [split; [constructor|auto]|].
  inversion H as [|? ? H1 H2]; subst. apply IH in H2 as (H3 & H4 & H5). rewrite in_app_iff in H1.
  split; [constructor; auto|]. split; auto. intros y [->|Hy] Hb; eauto.
Qed.
Lemma NoDup_firstn {B} (l : list B) n : NoDup l -> NoDup (firstn n l).
Proof. intros H. rewrite <- (firstn_skipn n l) in H. apply NoDup_app_elim in H. tauto. Qed.
Lemma NoDup_skipn {B} (l : list B) n : NoDup l -> NoDup (skipn n l).
Proof. intros H. rewrite <- (firstn_skipn n l) in H. apply NoDup_app_elim in H. tauto. Qed.

Lemma nth_NoDup {B} (l : list B) i j x : NoDup l -> nth_error l i = Some x -> nth_error l j = Some x -> i = j.
Proof.
  intros H E1 E2. assert (i < length l) by (apply nth_error_Some; congruence).
  eapply NoDup_nth_error; eauto. congruence.
Qed.

(** Index facts for one well-placed delta. *)
Lemma dok_before items d i x : ascending items -> dok items d ->
  nth_error items i = Some x -> i < d_idx d -> klt (d_k d) (fst x) = false.
Proof.
  intros Ha Hd E Hi. unfold dok, pos_ok in Hd. unfold d_idx in Hi. destruct (snd (d_ix d)).
  - apply (asc_nth items i (fst (d_ix d)) _ _ Ha ltac:(lia) E Hd).
  - destruct Hd as [Hd _]. rewrite Hd in Hi. eapply ub_before; eauto.
Qed.
Lemma dok_after items d i x : ascending items -> dok items d ->
  nth_error items i = Some x -> d_idx d <= i -> klt (fst x) (d_k d) = false.
Proof.
  intros Ha Hd E Hi. unfold dok, pos_ok in Hd. unfold d_idx in Hi. destruct (snd (d_ix d)).
  - apply (asc_nth items (fst (d_ix d)) i _ _ Ha ltac:(lia) Hd E).
  - destruct Hd as [Hd _]. rewrite Hd in Hi. pose proof (ub_after _ _ _ _ Ha Hi E). order.
Qed.
Lemma dok_notin items d i : NoDup items -> dok items d ->
  nth_error items i = Some (dpair d) -> d_fl d = true /\ i = d_idx d.
Proof.
  intros Hn Hd E. unfold dok, pos_ok, d_fl, d_idx in *. destruct (snd (d_ix d)).
  - split; auto. eapply nth_NoDup; eauto.
  - exfalso. apply (proj2 Hd). eapply nth_error_In; eauto.
Qed.

Lemma go2_spec items ce : ascending items -> NoDup items -> ce <= length items ->
  forall l cs, cs <= ce ->
  StronglySorted dstep l -> StronglySorted (fun a b => klt (d_k b) (d_k a) = false) l ->
  NoDup (map dpair l) -> (forall d, In d l -> dok items d) ->
  (forall d, In d l -> cs <= d_idx d /\ (if d_fl d then d_idx d < ce else d_idx d <= ce)) ->
  exists out, go2 items cs ce l = Ok out /\
    merged (fun x => exists i, cs <= i < ce /\ nth_error items i = Some x) l out.
Proof.
  intros Ha Hn Hce. induction l as [|d r IH]; intros cs Hcs Hs Hk Hnd Hok Hb; cbn [go2].
  - unfold slice. rewrite (proj2 (Nat.leb_le _ _) Hcs), (proj2 (Nat.leb_le _ _) Hce). simpl andb. cbv iota.
    eexists; split; [reflexivity|]. split.
    + intros x. rewrite In_slice by auto. simpl. split; [auto|]. intros [(? & [] & _)|[H _]]; auto.
    + apply ascending_firstn, ascending_skipn, Ha.
    + apply NoDup_firstn, NoDup_skipn, Hn.
  - destruct (Hb d (or_introl eq_refl)) as [Hb1 Hb2].
    assert (Hb3 : d_idx d <= ce) by (destruct (d_fl d); lia).
    rewrite (proj2 (Nat.leb_le _ _) Hb1), (proj2 (Nat.leb_le _ _) Hb3). cbn [andb].
    unfold slice. rewrite (proj2 (Nat.leb_le _ _) Hb1), (proj2 (Nat.leb_le (d_idx d) (length items)) ltac:(lia)).
    cbn [andb bind].
    inversion Hs as [|? ? Hs' Hsf]; subst. inversion Hk as [|? ? Hk' Hkf]; subst.
    simpl in Hnd. inversion Hnd as [|? ? Hnd1 Hnd2]; subst.
    rewrite Forall_forall in Hsf, Hkf.
    destruct (IH (if d_fl d then S (d_idx d) else d_idx d)) as (b & Eb & [M1 M2 M3]); auto.
    { destruct (d_fl d); lia. }
    { intros d' Hd'. apply Hok; right; auto. }
    { intros d' Hd'. destruct (Hb d' (or_intror Hd')) as [_ H2]. split; auto.
      specialize (Hsf _ Hd'). unfold dstep in Hsf. destruct (d_fl d); lia. }
    rewrite Eb. cbn [bind]. eexists; split; [reflexivity|].
    assert (Hdok : dok items d) by (apply Hok; left; auto).
    set (cs' := if d_fl d then S (d_idx d) else d_idx d) in *.
    assert (Hcs' : d_idx d <= cs') by (unfold cs'; destruct (d_fl d); lia).
    (* elements of b have key at least that of d *)
    assert (Kb : forall y, In y b -> klt (fst y) (d_k d) = false).
    { intros y Hy. apply M1 in Hy as [(d' & H1 & H2 & <-)|[(i & H1 & H2) _]].
      - apply (Hkf _ H1).
      - apply (dok_after items d i y Ha Hdok H2). lia. }
    (* elements before d have key at most that of d *)
    assert (Ka : forall x, In x (firstn (d_idx d - cs) (skipn cs items)) -> klt (d_k d) (fst x) = false).
    { intros x Hx. apply In_slice in Hx as (i & H1 & H2); [|lia]. apply (dok_before items d i x Ha Hdok H2). lia. }
    assert (Db : ~ In (dpair d) b).
    { intros Hy. apply M1 in Hy as [(d' & H1 & H2 & E)|[(i & H1 & H2) _]].
      - apply Hnd1. rewrite <- E. apply in_map; auto.
      - destruct (dok_notin items d i Hn Hdok H2) as [F1 F2]. unfold cs' in H1. rewrite F1 in H1. lia. }
    assert (Da : ~ In (dpair d) (firstn (d_idx d - cs) (skipn cs items))).
    { intros Hx. apply In_slice in Hx as (i & H1 & H2); [|lia].
      destruct (dok_notin items d i Hn Hdok H2) as [F1 F2]. lia. }
    assert (Dab : forall x, In x (firstn (d_idx d - cs) (skipn cs items)) ->
                  ~ In x (map dpair r)).
    { intros x Hx Hin. apply In_slice in Hx as (i & H1 & H2); [|lia].
      apply in_map_iff in Hin as (d' & <- & Hd').
      destruct (dok_notin items d' i Hn (Hok _ (or_intror Hd')) H2) as [F1 F2].
      specialize (Hsf _ Hd'). unfold dstep in Hsf. destruct (d_fl d); lia. }
    split.
    + intros x. rewrite !in_app_iff. split.
      * intros [H|[H|H]].
        -- right. pose proof H as H0. apply In_slice in H as (i & H1 & H2); [|lia].
           split; [exists i; split; auto; lia|]. simpl. intros [<-|Hin]; [auto|]. eapply Dab; eauto.
        -- left. exists d. destruct (d_ins d); simpl in H; [|tauto]. destruct H as [<-|[]].
           split; [left; auto|auto].
        -- pose proof H as H0. apply M1 in H as [(d' & H1 & H2 & E)|[(i & H1 & H2) H3]].
           ++ left. exists d'. split; [right; auto|auto].
           ++ right. split; [exists i; split; auto; lia|]. simpl. intros [<-|Hin]; auto.
      * intros [(d' & [<-|H1] & H2 & E)|[(i & H1 & H2) H3]].
        -- right; left. rewrite H2. left; auto.
        -- right; right. apply M1. left. exists d'. auto.
        -- simpl in H3. destruct (le_lt_dec cs' i).
           ++ right; right. apply M1. right. split; [exists i; split; auto; lia|tauto].
           ++ assert (i < d_idx d \/ (i = d_idx d /\ d_fl d = true)) as [Hi|[Hi Hf]].
              { unfold cs' in *. destruct (d_fl d); [|left; lia]. destruct (Nat.eq_dec i (d_idx d)); auto. left; lia. }
              ** left. apply In_slice; [lia|]. exists i. split; auto; lia.
              ** exfalso. apply H3. left. unfold dok, pos_ok in Hdok. unfold d_fl in Hf. rewrite Hf in Hdok.
                 fold (d_idx d) in Hdok. subst i. unfold dpair. congruence.
    + apply ascending_app; [apply ascending_firstn, ascending_skipn, Ha| |].
      * destruct (d_ins d); simpl; [|auto]. constructor; auto. apply Forall_forall. intros y Hy. simpl. auto.
      * intros x y Hx Hy. specialize (Ka _ Hx). apply in_app_iff in Hy as [Hy|Hy].
        -- destruct (d_ins d); simpl in Hy; [|tauto]. destruct Hy as [<-|[]]. auto.
        -- specialize (Kb _ Hy). order.
    + apply NoDup_app_intro; [apply NoDup_firstn, NoDup_skipn, Hn| |].
      * destruct (d_ins d); simpl; auto. constructor; auto.
      * intros x Hx Hy. apply in_app_iff in Hy as [Hy|Hy].
        -- destruct (d_ins d); simpl in Hy; [|tauto]. destruct Hy as [<-|[]]. auto.
        -- apply M1 in Hy as [(d' & H1 & H2 & <-)|[(i & H1 & H2) H3]].
           ++ eapply Dab; eauto. apply in_map; auto.
           ++ apply In_slice in Hx as (j & J1 & J2); [|lia].
              pose proof (nth_NoDup items i j x Hn H2 J2). lia.
Qed.

(** ** The sorted set of deltas *)
Lemma dlt_irrefl a : dlt a a = false.
Proof. unfold dlt. rewrite klt_irrefl, keq_refl. apply Nat.ltb_irrefl. Qed.
Lemma dlt_true a b : dlt a b = true <->
  klt (d_k a) (d_k b) = true \/ (d_k a = d_k b /\ d_idx a < d_idx b).
Proof.
  unfold dlt. destruct (klt (d_k a) (d_k b)) eqn:E; [split; auto|].
  destruct (keq (d_k a) (d_k b)) eqn:E2.
  - apply keq_spec in E2. rewrite Nat.ltb_lt. split; auto. intros [?|[? ?]]; auto. congruence.
  - apply keq_false in E2. split; [discriminate|]. intros [?|[? ?]]; congruence.
Qed.
Lemma dlt_trans a b c : dlt a b = true -> dlt b c = true -> dlt a c = true.
Proof.
  rewrite !dlt_true. intros [H1|[H1 H2]] [H3|[H3 H4]]; try (left; order). right; split; [order|lia].
Qed.
Lemma dlt_neg a b c : dlt a c = true -> dlt a b = true \/ dlt b c = true.
Proof.
  rewrite !dlt_true. intros H.
  destruct (klt (d_k a) (d_k b)) eqn:E1; auto. destruct (klt (d_k b) (d_k c)) eqn:E2; auto.
  destruct H as [H|[H1 H2]]; [exfalso; order|].
  assert (d_k a = d_k b) by order. assert (d_k b = d_k c) by order.
  destruct (le_lt_dec (d_idx b) (d_idx a)); [right; right|left; right]; split; auto; lia.
Qed.

Definition dsorted (s : list ldata) : Prop := StronglySorted (nlt dlt) s.
Lemma dsorted_insert d s : dsorted s -> dsorted (insert_nodedup dlt d s).
Proof.
  intros H. apply insert_nodedup_sorted; auto; [exact dlt_irrefl|exact dlt_trans|exact dlt_neg].
Qed.
Lemma insert_nd_perm d s : Permutation (d :: s) (insert_nodedup dlt d s).
Proof.
  unfold insert_nodedup. set (n := first_not _ s). rewrite <- (firstn_skipn n s) at 1.
  apply Permutation_middle.
Qed.
Lemma insert_nd_filter f d s : f d = false -> filter f (insert_nodedup dlt d s) = filter f s.
Proof.
  intros H. unfold insert_nodedup. set (n := first_not _ s).
  rewrite filter_app. simpl. rewrite H. rewrite <- filter_app, firstn_skipn. auto.
Qed.

Lemma dsorted_keys s : dsorted s -> StronglySorted (fun a b => klt (d_k b) (d_k a) = false) s.
Proof.
  unfold dsorted. induction 1 as [|a s H IH Hf]; constructor; auto.
  rewrite Forall_forall in *. intros b Hb. specialize (Hf _ Hb). unfold nlt in Hf.
  destruct (klt (d_k b) (d_k a)) eqn:E; auto.
  assert (dlt b a = true) by (apply dlt_true; auto). congruence.
Qed.

Lemma dstep_of items a b : ascending items -> dok items a -> dok items b ->
  dlt b a = false -> dpair a <> dpair b -> dstep a b.
Proof.
  intros Ha Da Db Hl Hp.
  assert (Hk : klt (d_k b) (d_k a) = false).
  { destruct (klt (d_k b) (d_k a)) eqn:E; auto. assert (dlt b a = true) by (apply dlt_true; auto). congruence. }
  unfold dstep. unfold dok, pos_ok in *. fold (d_fl a) (d_idx a) in Da. fold (d_fl b) (d_idx b) in Db.
  destruct (klt (d_k a) (d_k b)) eqn:Eab.
  - destruct (d_fl a) eqn:Fa.
    + destruct (le_lt_dec (d_idx b) (d_idx a)) as [Hi|]; auto. exfalso.
      assert (klt (d_k a) (d_k b) = false); [|congruence].
      apply (dok_after items b (d_idx a) _ Ha) in Da; auto.
    + destruct Da as [Da _]. destruct (le_lt_dec (d_idx a) (d_idx b)) as [|Hi]; auto. exfalso.
      rewrite Da in Hi. pose proof (ub_le items (d_k a)).
      destruct (nth_some items (d_idx b) ltac:(lia)) as (x & Ex).
      pose proof (ub_before _ _ _ _ Hi Ex). destruct (d_fl b).
      * rewrite Db in Ex. inversion Ex; subst. simpl in *. order.
      * destruct Db as [Db _]. pose proof (ub_after _ (d_k b) _ _ Ha (Nat.eq_le_incl _ _ (eq_sym Db)) Ex). order.
  - assert (Ek : d_k a = d_k b) by order.
    assert (d_idx a <= d_idx b).
    { destruct (le_lt_dec (d_idx a) (d_idx b)); auto.
      assert (dlt b a = true) by (apply dlt_true; auto). congruence. }
    destruct (d_fl a) eqn:Fa; auto.
    destruct (Nat.eq_dec (d_idx a) (d_idx b)) as [Ei|]; [exfalso|lia].
    destruct (d_fl b).
    + apply Hp. unfold dpair. rewrite Ei in Da. congruence.
    + destruct Db as [Db _]. rewrite Ei, Db in Da.
      pose proof (ub_after _ _ _ _ Ha (Nat.le_refl _) Da). simpl in *. order.
Qed.

Lemma dsteps items s : ascending items -> dsorted s -> NoDup (map dpair s) ->
  (forall d, In d s -> dok items d) -> StronglySorted dstep s.
Proof.
  intros Ha H. induction H as [|a s H IH Hf]; intros Hn Hd; constructor.
  - apply IH; [inversion Hn; auto|intros; apply Hd; right; auto].
  - rewrite Forall_forall in *. intros b Hb. apply (dstep_of items); auto.
    + apply Hd; left; auto. + apply Hd; right; auto. + apply (Hf _ Hb).
    + simpl in Hn. inversion Hn as [|? ? Hn1 _]; subst. intros E. apply Hn1. rewrite E. apply in_map; auto.
Qed.

Definition belowb {B} (h : option (K * B)) (k : K) : bool :=
  match h with None => true | Some (x, _) => klt k x end.
Lemma belowb_spec {B} (h : option (K * B)) k : belowb h k = true <-> below h k.
Proof. destruct h as [[x b]|]; simpl; tauto. Qed.

Lemma first_not_app_all {A} (p : A -> bool) l1 l2 :
  (forall x, In x l1 -> p x = true) -> (forall x, In x l2 -> p x = false) ->
  first_not p (l1 ++ l2) = length l1.
Proof.
  induction l1 as [|a l1 IH]; simpl; intros H1 H2.
  - destruct l2 as [|b l2]; simpl; auto. rewrite (H2 b); simpl; auto.
  - rewrite (H1 a); auto.
Qed.

Lemma filter_all {A} (p : A -> bool) l : (forall x, In x l -> p x = true) -> filter p l = l.
Proof. induction l; simpl; auto. intros H. rewrite H; auto. f_equal; auto. Qed.
Lemma filter_none {A} (p : A -> bool) l : (forall x, In x l -> p x = false) -> filter p l = [].
Proof. induction l; simpl; auto. intros H. rewrite H; auto. Qed.

Lemma key_sorted_split (s : list ldata) h :
  StronglySorted (fun a b => klt (d_k b) (d_k a) = false) s ->
  s = filter (fun d => klt (d_k d) h) s ++ filter (fun d => negb (klt (d_k d) h)) s.
Proof.
  induction 1 as [|a s H IH Hf]; simpl; auto. rewrite Forall_forall in Hf.
  destruct (klt (d_k a) h) eqn:E; simpl; [f_equal; auto|].
  assert (forall d, In d s -> klt (d_k d) h = false) as G by (intros d Hd; specialize (Hf _ Hd); order).
  rewrite (filter_none _ _ G), (filter_all (fun d => negb _)); auto.
  intros x Hx. rewrite (G _ Hx); auto.
Qed.

Lemma sss_end_spec hk s : dsorted s ->
  firstn (sss_end hk s) s = filter (fun d => belowb hk (d_k d)) s /\
  skipn (sss_end hk s) s = filter (fun d => negb (belowb hk (d_k d))) s.
Proof.
  intros H. apply dsorted_keys in H. destruct hk as [[h i]|]; simpl.
  - pose proof (key_sorted_split s h H) as E.
    set (a := filter (fun d => klt (d_k d) h) s) in *. set (b := filter (fun d => negb (klt (d_k d) h)) s) in *.
    assert (Eb : first_not (fun d => negb (klt (d_k d) h)) (rev s) = length b).
    { rewrite E, rev_app_distr, first_not_app_all, rev_length; auto.
      - intros x Hx. apply in_rev, filter_In in Hx. tauto.
      - intros x Hx. apply in_rev, filter_In in Hx. destruct Hx as [_ ->]; auto. }
    rewrite Eb. assert (El : length s - length b = length a) by (rewrite E at 1; rewrite app_length; lia).
    rewrite El. clear El Eb. clearbody a b. subst s.
    rewrite firstn_app, skipn_app, Nat.sub_diag, firstn_all, skipn_all. simpl. rewrite app_nil_r. auto.
  - rewrite firstn_all, skipn_all. rewrite filter_all, filter_none; auto.
Qed.

Lemma NoDup_map_filter {A B} (g : A -> B) (f : A -> bool) l : NoDup (map g l) -> NoDup (map g (filter f l)).
Proof.
  induction l as [|a l IH]; simpl; auto. intros H; inversion H; subst.
  destruct (f a); simpl; auto. constructor; auto. intros Hin. apply in_map_iff in Hin as (x & E & Hx).
  apply filter_In in Hx. apply H2. rewrite <- E. apply in_map. tauto.
Qed.

Lemma SSorted_filter {A} (R : A -> A -> Prop) f l : StronglySorted R l -> StronglySorted R (filter f l).
Proof.
  induction 1 as [|a l H IH Hf]; simpl; [constructor|]. destruct (f a); auto.
  constructor; auto. rewrite Forall_forall in *. intros x Hx. apply filter_In in Hx. apply Hf; tauto.
Qed.

Definition ce_of (hk : option (K * nat)) (items : list (K * V)) : nat :=
  match hk with None => length items | Some (h, _) => lower_bound h items end.
Lemma ce_spec hk items : ascending items -> ce_of hk items <= length items /\
  (forall i x, nth_error items i = Some x -> (i < ce_of hk items <-> below hk (fst x))).
Proof.
  intros Ha. destruct hk as [[h j]|]; simpl.
  - rewrite lower_bound_lb by auto. split; [apply lb_le|]. intros i x E. split.
    + intros Hi. eapply lb_before; eauto.
    + intros Hb. destruct (le_lt_dec (lb h items) i) as [Hi|]; auto.
      pose proof (lb_after _ _ _ _ Ha Hi E). congruence.
  - split; auto. intros i x E. split; auto. intros _. apply nth_error_Some; congruence.
Qed.

Lemma lcollect_base cap hk low items high s ds :
  ascending items -> NoDup items -> dsorted s -> NoDup (map dpair s) ->
  (forall d, In d s -> below hk (d_k d) -> dok items d) ->
  exists out, lcollect cap hk (LBase low items high) s ds =
    Ok (out, filter (fun d => negb (belowb hk (d_k d))) s, ds) /\
    merged (fun x => In x items /\ below hk (fst x)) (filter (fun d => belowb hk (d_k d)) s) out.
Proof.
  intros Ha Hn Hs Hnd Hok. cbn [lcollect]. fold (ce_of hk items).
  destruct (sss_end_spec hk s Hs) as [E1 E2]. rewrite E1, E2.
  set (l := filter (fun d => belowb hk (d_k d)) s).
  destruct (ce_spec hk items Ha) as [Hc1 Hc2].
  assert (Hl : forall d, In d l -> In d s /\ below hk (d_k d)).
  { intros d Hd. apply filter_In in Hd. rewrite belowb_spec in Hd. auto. }
  assert (Hok' : forall d, In d l -> dok items d) by (intros d Hd; apply Hok; apply Hl; auto).
  assert (Hnd' : NoDup (map dpair l)) by (apply NoDup_map_filter; auto).
  assert (Hst : StronglySorted dstep l).
  { apply (dsteps items); auto. apply SSorted_filter; auto. }
  rewrite lloop_go2; auto.
  - destruct (go2_spec items (ce_of hk items) Ha Hn Hc1 l 0) as (out & Eo & [M1 M2 M3]); auto; [lia| | |].
    + apply SSorted_filter. apply dsorted_keys; auto.
    + intros d Hd. split; [lia|]. destruct (Hl d Hd) as [_ Hb]. specialize (Hok' d Hd).
      unfold dok, pos_ok in Hok'. fold (d_fl d) (d_idx d) in Hok'. destruct (d_fl d).
      * apply (Hc2 _ _ Hok'). auto.
      * destruct Hok' as [Hu _]. destruct (le_lt_dec (d_idx d) (ce_of hk items)) as [|Hi]; auto. exfalso.
        rewrite Hu in Hi. pose proof (ub_le items (d_k d)).
        destruct (nth_some items (ce_of hk items) ltac:(lia)) as (x & Ex).
        pose proof (ub_before _ _ _ _ Hi Ex) as Hx.
        assert (below hk (fst x)) as Hbx.
        { destruct hk as [[h j]|]; simpl in *; auto. order. }
        apply (Hc2 _ _ Ex) in Hbx. lia.
    + rewrite Eo. cbn [bind]. eexists; split; [reflexivity|]. split; auto.
      intros x. rewrite M1. split; intros [H|[H H']]; auto; right; split; auto.
      * destruct H as (i & H1 & H2). split; [eapply nth_error_In; eauto|]. apply (Hc2 _ _ H2). lia.
      * destruct H as [H1 H2]. apply In_nth_error in H1 as (i & H1). exists i. split; auto.
        split; [lia|]. apply (Hc2 _ _ H1); auto.
  - unfold l. clear. induction s; simpl; auto. destruct (belowb hk (d_k a)); simpl; lia.
Qed.

(** ** CollectAllValuesOnLeafRecursive *)
Lemma pseen_spec x seen : pseen x (filled phash seen) = true <-> In x seen.
Proof.
  unfold pseen. rewrite exists_exact.
  - split; [intros (y & H & E)|intros H; exists x]; [|split; auto].
    + unfold peq in E. apply andb_true_iff in E as [E1 E2]. apply keq_spec in E1. apply veq_spec in E2.
      destruct x, y; simpl in *; subst; auto.
    + unfold peq. rewrite keq_refl, veq_refl; auto.
  - intros a b E. unfold peq in E. apply andb_true_iff in E as [E1 E2]. apply keq_spec in E1. apply veq_spec in E2.
    destruct a, b; simpl in *; subst; auto.
Qed.

Record sset_ok (cap : nat) (c : lchain) (s : list ldata) (seen : list (K * V)) : Prop := {
  ss_sorted : dsorted s;
  ss_nd : NoDup (map dpair s);
  ss_above : forall d, In d s -> above (llow c) (d_k d);
  ss_pos : forall d, In d s -> below (lhigh c) (d_k d) -> pos_ok (lbase_for (d_k d) c) (d_k d) (d_v d) (d_ix d);
  ss_seen : forall x, in_range c (fst x) -> (In x seen <-> In x (map dpair s));
  ss_cap : length seen + ldepth c <= cap }.

Record collected (c : lchain) (s : list ldata) (seen : list (K * V))
       (out : list (K * V)) (seen' : list (K * V)) : Prop := {
  co_in : forall k v, In (k, v) out <-> in_range c k /\
     ((exists d, In d s /\ dpair d = (k, v) /\ d_ins d = true) \/
      (~ In (k, v) (map dpair s) /\ lmem c k v));
  co_asc : ascending out;
  co_nd : NoDup out;
  co_seen1 : forall x, In x seen -> In x seen';
  co_seen2 : forall x, In x seen' -> In x seen \/ in_range c (fst x);
  co_len : length seen' <= length seen + ldepth c }.

Lemma map_perm_in {A B} (g : A -> B) l1 l2 x : Permutation l1 l2 -> In x (map g l2) <-> In x (map g l1).
Proof. intros H. split; apply Permutation_in; [apply Permutation_sym|]; apply Permutation_map; auto. Qed.

(** One delta [d] with its child [c]; [c'] is the chain with the delta. *)
Lemma sset_insert cap c d s seen :
  sset_ok cap c s seen -> S (length seen + ldepth c) <= cap ->
  in_range c (d_k d) -> pos_ok (lbase_for (d_k d) c) (d_k d) (d_v d) (d_ix d) ->
  ~ In (dpair d) seen ->
  sset_ok cap c (insert_nodedup dlt d s) (seen ++ [dpair d]).
Proof.
  intros [S1 S2 S3 S4 S5 S6] Hc Hr Hp Hn.
  pose proof (insert_nd_perm d s) as Hperm.
  assert (Hin : forall x, In x (insert_nodedup dlt d s) -> x = d \/ In x s).
  { intros x Hx. apply Permutation_sym in Hperm. apply (Permutation_in _ Hperm) in Hx. destruct Hx; auto. }
  split.
  - apply dsorted_insert; auto.
  - eapply Permutation_NoDup; [apply Permutation_map, Hperm|]. simpl. constructor; auto.
    rewrite <- S5; auto.
  - intros x Hx. apply Hin in Hx as [->|Hx]; auto. apply Hr.
  - intros x Hx. apply Hin in Hx as [->|Hx]; auto.
  - intros x Hx. rewrite in_app_iff, (S5 _ Hx). rewrite (map_perm_in dpair _ _ x Hperm). simpl. tauto.
  - rewrite app_length. simpl. lia.
Qed.

Lemma lcollect_spec cap c : forall s seen, lwf c -> sset_ok cap c s seen ->
  exists out seen', lcollect cap (lhigh c) c s (filled phash seen) =
     Ok (out, filter (fun d => negb (belowb (lhigh c) (d_k d))) s, filled phash seen') /\
     collected c s seen out seen'.
Proof.
  assert (Base : forall hk low items high s seen c,
    ascending items -> NoDup items -> dsorted s -> NoDup (map dpair s) ->
    llow c = low -> lhigh c = hk ->
    (forall d, In d s -> above low (d_k d)) ->
    (forall d, In d s -> below hk (d_k d) -> dok items d) ->
    (forall x, In x items -> above low (fst x)) ->
    (forall k v, below hk k -> (lmem c k v <-> In (k, v) items)) ->
    exists out seen', lcollect cap hk (LBase low items high) s (filled phash seen) =
     Ok (out, filter (fun d => negb (belowb hk (d_k d))) s, filled phash seen') /\
     collected c s seen out seen').
  { clear. intros hk low items high s seen c Ha Hn Hs Hnd El Eh Hab Hok Hil Hm.
    destruct (lcollect_base cap hk low items high s (filled phash seen) Ha Hn Hs Hnd Hok) as (out & E & [M1 M2 M3]).
    exists out, seen. split; [exact E|]. split; auto; [|lia].
    intros k v. rewrite M1. unfold in_range. rewrite El, Eh. simpl. split.
    - intros [(d & H1 & H2 & H3)|[[H1 H2] H3]].
      + apply filter_In in H1 as [H1 H4]. rewrite belowb_spec in H4. inversion H3; subst.
        split; [split; auto|]. left. exists d. auto.
      + split; [split; auto; apply (Hil _ H1)|]. right. split; [|apply Hm; auto].
        intros Hin. apply H3. apply in_map_iff in Hin as (d & E1 & E2). apply in_map_iff. exists d.
        split; auto. apply filter_In. split; auto. rewrite belowb_spec. inversion E1; subst; auto.
    - intros [[R1 R2] [(d & H1 & H2 & H3)|[H1 H2]]].
      + left. exists d. split; auto. apply filter_In. split; auto. rewrite belowb_spec. inversion H2; subst; auto.
      + right. split; [split; [apply Hm; auto|auto]|]. intros Hin. apply H1.
        apply in_map_iff in Hin as (d & E1 & E2). apply filter_In in E2. rewrite <- E1. apply in_map. tauto. }
  (* a data delta [d] on top of [c] *)
  assert (Delta : forall c c' d,
    (forall s seen, lwf c -> sset_ok cap c s seen ->
      exists out seen', lcollect cap (lhigh c) c s (filled phash seen) =
       Ok (out, filter (fun d => negb (belowb (lhigh c) (d_k d))) s, filled phash seen') /\
       collected c s seen out seen') ->
    lwf c -> in_range c (d_k d) -> pos_ok (lbase_for (d_k d) c) (d_k d) (d_v d) (d_ix d) ->
    llow c' = llow c -> lhigh c' = lhigh c -> ldepth c' = S (ldepth c) ->
    (forall k, lbase_for k c' = lbase_for k c) ->
    (forall k v, (k, v) <> dpair d -> (lmem c' k v <-> lmem c k v)) ->
    (lmem c' (d_k d) (d_v d) <-> d_ins d = true) ->
    forall s seen, sset_ok cap c' s seen ->
    exists out seen', 
      (if pseen (dpair d) (filled phash seen) then lcollect cap (lhigh c) c s (filled phash seen)
       else do ds' <- binsert phash cap (dpair d) (filled phash seen);
            lcollect cap (lhigh c) c (insert_nodedup dlt d s) ds') =
      Ok (out, filter (fun d => negb (belowb (lhigh c) (d_k d))) s, filled phash seen') /\
      collected c' s seen out seen').
  { clear Base. intros c0 c' d IH Hw Hr Hp El Eh Ed Eb Hm1 Hm2 s seen Hs.
    assert (Hir : forall k, in_range c' k <-> in_range c0 k) by (intros k; unfold in_range; rewrite El, Eh; tauto).
    assert (Hs0 : sset_ok cap c0 s seen).
    { destruct Hs as [S1 S2 S3 S4 S5 S6]. rewrite El in S3. rewrite Eh in S4. split; auto.
      - intros e He Hb. rewrite <- Eb. auto.
      - intros x Hx. apply S5. apply Hir; auto.
      - lia. }
    destruct (pseen (dpair d) (filled phash seen)) eqn:Eseen.
    - apply pseen_spec in Eseen.
      destruct (IH s seen Hw Hs0) as (out & seen' & E & [C1 C2 C3 C4 C5 C6]).
      exists out, seen'. split; auto. split; auto; [|intros x Hx; rewrite Hir; auto|lia].
      intros k v. rewrite C1, Hir. split; intros [H1 [H2|[H2 H3]]]; split; auto; right; split; auto.
      + apply Hm1; auto. intros E'. apply H2. rewrite E'. apply Hs0; auto.
      + apply Hm1; auto. intros E'. apply H2. rewrite E'. apply Hs0; auto.
    - assert (Hns : ~ In (dpair d) seen) by (rewrite <- pseen_spec; congruence).
      pose proof (ss_cap _ _ _ _ Hs) as Hcap. rewrite Ed in Hcap.
      destruct (filled_inv phash seen) as (_ & Edata & _).
      unfold binsert. rewrite Edata. rewrite (proj2 (Nat.ltb_lt _ _)) by lia. cbn [bind].
      rewrite <- filled_snoc.
      destruct (IH _ _ Hw (sset_insert cap c0 d s seen Hs0 ltac:(lia) Hr Hp Hns)) as (out & seen' & E & [C1 C2 C3 C4 C5 C6]).
      exists out, seen'. rewrite E. split.
      + rewrite insert_nd_filter; auto. rewrite (proj2 (belowb_spec _ _) (proj2 Hr)). auto.
      + pose proof (insert_nd_perm d s) as Hperm.
        assert (Hni : ~ In (dpair d) (map dpair s)) by (rewrite <- (ss_seen _ _ _ _ Hs0 (dpair d)); auto).
        split; auto.
        * intros k v. rewrite C1, Hir. rewrite (map_perm_in dpair _ _ (k, v) Hperm). simpl.
          assert (Hex : (exists x, In x (insert_nodedup dlt d s) /\ dpair x = (k, v) /\ d_ins x = true) <->
                        (dpair d = (k, v) /\ d_ins d = true) \/ (exists x, In x s /\ dpair x = (k, v) /\ d_ins x = true)).
          { split.
            - intros (x & H1 & H2). apply Permutation_sym in Hperm. apply (Permutation_in _ Hperm) in H1.
              destruct H1 as [<-|H1]; eauto.
            - intros [H|(x & H1 & H2)]; [exists d|exists x]; split; auto; apply (Permutation_in _ Hperm); simpl; auto. }
          rewrite Hex. clear Hex.
          assert (Hd : {dpair d = (k, v)} + {dpair d <> (k, v)}).
          { unfold dpair. destruct (K_eq_dec (d_k d) k), (V_eq_dec (d_v d) v); subst; auto; right; congruence. }
          destruct Hd as [Hd|Hd].
          -- assert (k = d_k d /\ v = d_v d) as [-> ->] by (unfold dpair in Hd; inversion Hd; auto).
             fold (dpair d) in *. rewrite Hm2.
             split; intros (H1 & H2); split; auto.
             ++ destruct H2 as [[H2|H2]|[H2 _]]; [right; tauto|left; auto|tauto].
             ++ destruct H2 as [H2|H2]; [left; auto|]. left; left; tauto.
          -- assert (lmem c' k v <-> lmem c0 k v) as -> by (apply Hm1; congruence). tauto.
        * intros x Hx. apply C4. apply in_app_iff; auto.
        * intros x Hx. rewrite Hir. apply C5 in Hx as [Hx|Hx]; auto. apply in_app_iff in Hx as [Hx|[<-|[]]]; auto.
        * rewrite app_length in C6. simpl in C6. lia. }
  induction c as [low items high|k v ix c IH|k v ix c IH|k sib n c IH|id c IH|mk id r IHr c IHc]; intros s seen Hw Hs.
  - destruct Hw as ((Ha & Hi & Hr) & Hn). destruct Hs as [S1 S2 S3 S4 S5 S6].
    apply (Base high low items high s seen (LBase low items high)); auto.
    + intros x Hx. apply Hi; auto.
    + intros; simpl; tauto.
  - destruct Hw as (Hw & Hr & Hn & Hp).
    apply (Delta c (LIns k v ix c) {| d_ins := true; d_k := k; d_v := v; d_ix := ix |}); auto; simpl.
    + intros k' v' Hne. unfold dpair in Hne; simpl in Hne. split; [|auto]. intros [[-> ->]|]; tauto.
    + tauto.
  - destruct Hw as (Hw & Hr & Hn & Hp).
    apply (Delta c (LDel k v ix c) {| d_ins := false; d_k := k; d_v := v; d_ix := ix |}); auto; simpl.
    + intros k' v' Hne. unfold dpair in Hne; simpl in Hne. split; [tauto|]. intros H; split; auto. intros [-> ->]; tauto.
    + split; [tauto|discriminate].
  - destruct c as [low items high| | | | |]; simpl in Hw; try tauto.
    destruct Hw as (((Ha & Hi & Hr) & Hn) & Hk & Hlk & Hnn). destruct Hs as [S1 S2 S3 S4 S5 S6].
    cbn [lcollect]. apply (Base (Some (k, sib)) low items high s seen (LSplit k sib n (LBase low items high))); auto.
    + intros x Hx. apply Hi; auto.
    + intros k' v' Hb. simpl in *. tauto.
  - simpl in Hw; tauto.
  - pose proof Hw as Hw0. destruct Hw as (Hwc & Hwr & E1 & E2). cbn [lcollect]. 
    destruct Hs as [S1 S2 S3 S4 S5 S6]. simpl in S3, S4, S6.
    assert (Hsc : sset_ok cap c s seen).
    { split; auto; [| |lia].
      - intros d Hd Hb. destruct (in_range_merge_l _ _ _ _ (d_k d) Hw0 (conj (S3 d Hd) Hb)) as [[_ Hr'] Hlt].
        specialize (S4 d Hd Hr'). rewrite kge_negb, Hlt in S4. auto.
      - intros x Hx. apply S5. apply (in_range_merge_l mk id r c); auto. }
    destruct (IHc s seen Hwc Hsc) as (o1 & seen1 & Ec & [C1 C2 C3 C4 C5 C6]).
    rewrite Ec. cbn [bind]. rewrite E2 in *.
    set (s1 := filter (fun d => negb (belowb (Some (mk, id)) (d_k d))) s) in *.
    assert (Hs1 : forall d, In d s1 <-> In d s /\ klt (d_k d) mk = false).
    { intros d. unfold s1. rewrite filter_In. simpl. rewrite negb_true_iff. tauto. }
    assert (Hs1m : forall x, klt (fst x) mk = false -> (In x (map dpair s1) <-> In x (map dpair s))).
    { intros x Hx. rewrite !in_map_iff. split; intros (d & D1 & D2); exists d; split; auto; apply Hs1; auto.
      split; auto. subst x; auto. }
    assert (Hsr : sset_ok cap r s1 seen1).
    { split.
      - apply SSorted_filter; auto.
      - apply NoDup_map_filter; auto.
      - intros d Hd. apply Hs1 in Hd. rewrite E1. simpl. tauto.
      - intros d Hd Hb. apply Hs1 in Hd as [Hd Hlt]. specialize (S4 d Hd Hb). rewrite kge_negb, Hlt in S4. auto.
      - intros x Hx. destruct (in_range_merge_r mk id r c (fst x) Hw0 Hx) as [Hx1 Hx2].
        rewrite (Hs1m _ Hx2). rewrite <- (S5 _ Hx1). split; auto. intros Hin. apply C5 in Hin as [|Hin]; auto.
        destruct (in_range_merge_l mk id r c (fst x) Hw0 Hin). congruence.
      - lia. }
    destruct (IHr s1 seen1 Hwr Hsr) as (o2 & seen2 & Er & [D1 D2 D3 D4 D5 D6]).
    rewrite Er. cbn [bind]. exists (o1 ++ o2), seen2. split.
    { f_equal. f_equal. f_equal. unfold s1. simpl.
      assert (Hhr : forall k, negb (belowb (lhigh r) k) = true -> negb (klt k mk) = true).
      { intros k. rewrite !negb_true_iff. intros Hb. apply lwf_range in Hwr. rewrite E1 in Hwr.
        destruct (lhigh r) as [[y j]|]; simpl in *; [order|discriminate]. }
      clear -Hhr. induction s as [|d s IH]; simpl; auto.
      destruct (negb (belowb (lhigh r) (d_k d))) eqn:E.
      - rewrite (Hhr _ E). simpl. rewrite E. f_equal; auto.
      - destruct (negb (klt (d_k d) mk)); simpl; auto. rewrite E; auto. }
    assert (K1 : forall x, In x o1 -> klt (fst x) mk = true).
    { intros [k v] Hx. apply C1 in Hx as [Hx _]. apply (in_range_merge_l mk id r c) in Hx; auto. tauto. }
    assert (K2 : forall x, In x o2 -> klt (fst x) mk = false).
    { intros [k v] Hx. apply D1 in Hx as [Hx _]. apply (in_range_merge_r mk id r c) in Hx; auto. tauto. }
    split.
    + intros k v. rewrite in_app_iff, C1, D1. simpl. split.
      * intros [[H1 H2]|[H1 H2]].
        -- destruct (in_range_merge_l mk id r c k Hw0 H1) as [G1 ->]. auto.
        -- destruct (in_range_merge_r mk id r c k Hw0 H1) as [G1 G2]. rewrite G2. split; auto.
           rewrite (Hs1m (k, v)) in H2 by auto. destruct H2 as [(d & H3 & H4)|H2]; [left|auto].
           exists d. split; auto. apply Hs1; auto.
      * intros [H1 H2]. pose proof (in_range_merge _ _ _ _ _ Hw0 H1) as G. destruct (klt k mk) eqn:Ek; [left; auto|].
        right. split; auto. rewrite (Hs1m (k, v)) by auto. destruct H2 as [(d & H3 & H4 & H5)|H2]; [left|auto].
        exists d. split; auto. apply Hs1. split; auto. inversion H4; subst; auto.
    + apply ascending_app; auto. intros x y Hx Hy. specialize (K1 _ Hx). specialize (K2 _ Hy). order.
    + apply NoDup_app_intro; auto. intros x Hx Hy. specialize (K1 _ Hx). specialize (K2 _ Hy). congruence.
    + auto.
    + intros x Hx. apply D5 in Hx as [Hx|Hx].
      * apply C5 in Hx as [|Hx]; auto. right. apply (in_range_merge_l mk id r c); auto.
      * right. apply (in_range_merge_r mk id r c); auto.
    + simpl. lia.
Qed.

End LeafProofs.
