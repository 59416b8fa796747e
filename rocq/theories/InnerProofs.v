(** Proofs about inner pages. *)
From Coq Require Import List Arith Lia Bool ZArith NArith Sorted Permutation.
From Verif Require Import Base SmallSet Bloom SmallProofs Leaf LeafSpec LeafProofs LeafProofs2 Inner InnerSpec.
Import ListNotations.

Section GMerge.
Context {P : Params}.
Variable lt : K -> K -> bool.
Hypothesis lt_irrefl : forall a, lt a a = false.
Hypothesis lt_trans : forall a b c, lt a b = true -> lt b c = true -> lt a c = true.
Hypothesis lt_total : forall a b, lt a b = false -> lt b a = false -> a = b.

(** A set of deltas [s] applied on top of a relation [M]. *)
Definition upd (s : list idata) (M : K -> nat -> Prop) (x : K) (i : nat) : Prop :=
  (exists d, In d s /\ s_item d = (x, i) /\ s_ins d = true) \/
  ((forall d, In d s -> fst (s_item d) <> x) /\ M x i).

Fixpoint gmerge (fuel : nat) (a : list sep) (d : list idata) : res (list sep) :=
  match a, d with
  | _, [] => Ok a
  | [], x :: d' =>
      match fuel with
      | O => Er EFuel
      | S f => do r <- gmerge f [] d'; Ok (if s_ins x then s_item x :: r else r)
      end
  | y :: a', x :: d' =>
      match fuel with
      | O => Er EFuel
      | S f =>
          if lt (fst y) (fst (s_item x)) then do r <- gmerge f a' d; Ok (y :: r)
          else if lt (fst (s_item x)) (fst y) then
            do r <- gmerge f a d'; Ok (if s_ins x then s_item x :: r else r)
          else do r <- gmerge f a' d'; Ok (if s_ins x then s_item x :: r else r)
      end
  end.

Definition gsorted {A} (key : A -> K) (l : list A) : Prop :=
  StronglySorted (fun a b => lt (key a) (key b) = true) l.
Notation skey := (fun d => fst (s_item d)).
Notation pkey := (fun x : sep => fst x).

Lemma gmerge_spec fuel : forall a d, gsorted pkey a -> gsorted skey d -> length a + length d <= fuel ->
  exists out, gmerge fuel a d = Ok out /\ gsorted pkey out /\
    (forall x i, In (x, i) out <-> upd d (fun x i => In (x, i) a) x i).
Proof.
  assert (Hcons : forall (y : sep) (out : list sep), gsorted pkey out ->
    (forall x i, In (x, i) out -> lt (fst y) x = true) -> gsorted pkey (y :: out)).
  { intros y out Hs Hf. constructor; auto. apply Forall_forall. intros [x i] Hx. simpl. eauto. }
  assert (Hneq : forall a b, lt a b = true -> a <> b) by (intros a b H ->; rewrite lt_irrefl in H; discriminate).
  induction fuel as [|f IH]; intros a d Ha Hd Hf.
  - destruct a; [|simpl in Hf; lia]. destruct d; [|simpl in Hf; lia]. exists []. split; auto. split; auto.
    intros x i. unfold upd. simpl. firstorder.
  - destruct d as [|x d].
    { exists a. split; [destruct a; auto|]. split; auto. intros z i. unfold upd. simpl. firstorder. }
    inversion Hd as [|? ? Hd' Hfd]; subst. rewrite Forall_forall in Hfd.
    destruct a as [|y a].
    + destruct (IH [] d) as (out & E & Hs & Hm); auto; [simpl in *; lia|]. simpl. rewrite E. simpl.
      eexists; split; [reflexivity|]. destruct (s_ins x) eqn:Ex.
      * split.
        -- apply Hcons; auto. intros z i Hz. apply Hm in Hz as [(d0 & H1 & H2 & H3)|[_ []]].
           specialize (Hfd _ H1). rewrite H2 in Hfd. auto.
        -- intros z i. simpl. rewrite Hm. unfold upd. simpl. split.
           ++ intros [E1|[(d0 & H1 & H2 & H3)|[_ []]]]; left; [exists x|exists d0]; auto.
           ++ intros [(d0 & [<-|H1] & H2 & H3)|[_ []]]; auto. right. left. exists d0; auto.
      * split; auto. intros z i. rewrite Hm. unfold upd. simpl. split.
        -- intros [(d0 & H1 & H2 & H3)|[_ []]]. left; exists d0; auto.
        -- intros [(d0 & [<-|H1] & H2 & H3)|[_ []]]; [congruence|]. left. exists d0; auto.
    + inversion Ha as [|? ? Ha' Hfa]; subst. rewrite Forall_forall in Hfa.
      simpl. destruct (lt (fst y) (fst (s_item x))) eqn:E1; [|destruct (lt (fst (s_item x)) (fst y)) eqn:E2].
      * destruct (IH a (x :: d)) as (out & E & Hs & Hm); auto; [simpl in *; lia|]. rewrite E. simpl.
        eexists; split; [reflexivity|].
        assert (Hlt : forall d0, In d0 (x :: d) -> lt (fst y) (fst (s_item d0)) = true).
        { intros d0 [<-|H]; auto. specialize (Hfd _ H). eauto. }
        split.
        -- apply Hcons; auto. intros z i Hz. apply Hm in Hz as [(d0 & H1 & H2 & H3)|[_ H]].
           ++ specialize (Hlt _ H1). rewrite H2 in Hlt. auto.
           ++ apply (Hfa _ H).
        -- intros z i. simpl In at 1. rewrite Hm. unfold upd. split.
           ++ intros [->|[H|[H1 H2]]]; auto.
              ** right. split; [|left; auto]. intros d0 H0. specialize (Hlt _ H0). simpl in Hlt.
                 intros Heq. rewrite Heq in Hlt. rewrite lt_irrefl in Hlt. discriminate.

           ++ intros [H|[H1 [->|H2]]]; auto.
      * destruct (IH (y :: a) d) as (out & E & Hs & Hm); auto; [simpl in *; lia|]. rewrite E. simpl.
        eexists; split; [reflexivity|].
        assert (Hout : forall z i, In (z, i) out -> lt (fst (s_item x)) z = true).
        { intros z i Hz. apply Hm in Hz as [(d0 & H1 & H2 & H3)|[_ H]].
          - specialize (Hfd _ H1). rewrite H2 in Hfd. auto.
          - destruct H as [->|H]; auto. specialize (Hfa _ H). simpl in *. eauto. }
        assert (Hya : forall z i, In (z, i) (y :: a) -> fst (s_item x) <> z).
        { intros z i [->|H]; auto. specialize (Hfa _ H). simpl in *. apply Hneq. eauto. }
        destruct (s_ins x) eqn:Ex.
        -- split; [apply Hcons; auto|]. intros z i. simpl In at 1. rewrite Hm. unfold upd. split.
           ++ intros [E3|[(d0 & H1 & H2 & H3)|[H1 H2]]].
              ** left. exists x. simpl; auto.
              ** left. exists d0. simpl; auto.
              ** right. split; auto. intros d0 [<-|H]; auto. eapply Hya; eauto.
           ++ intros [(d0 & [<-|H1] & H2 & H3)|[H1 H2]]; auto.
              ** right. left. exists d0; auto.
              ** right. right. split; auto. intros d0 H. apply H1; right; auto.
        -- split; auto. intros z i. rewrite Hm. unfold upd. split.
           ++ intros [(d0 & H1 & H2 & H3)|[H1 H2]].
              ** left. exists d0. simpl; auto.
              ** right. split; auto. intros d0 [<-|H]; auto. eapply Hya; eauto.
           ++ intros [(d0 & [<-|H1] & H2 & H3)|[H1 H2]]; [congruence| |].
              ** left. exists d0; auto.
              ** right. split; auto. intros d0 H. apply H1; right; auto.
      * pose proof (lt_total _ _ E1 E2) as Eq.
        destruct (IH a d) as (out & E & Hs & Hm); auto; [simpl in *; lia|]. rewrite E. simpl.
        eexists; split; [reflexivity|].
        assert (Hout : forall z i, In (z, i) out -> lt (fst (s_item x)) z = true).
        { intros z i Hz. apply Hm in Hz as [(d0 & H1 & H2 & H3)|[_ H]].
          - specialize (Hfd _ H1). rewrite H2 in Hfd. auto.
          - specialize (Hfa _ H). simpl in *. congruence. }
        assert (Hya : forall z i, In (z, i) a -> fst (s_item x) <> z).
        { intros z i H. specialize (Hfa _ H). simpl in *. apply Hneq. congruence. }
        destruct (s_ins x) eqn:Ex.
        -- split; [apply Hcons; auto|]. intros z i. simpl In at 1. rewrite Hm. unfold upd. split.
           ++ intros [E3|[(d0 & H1 & H2 & H3)|[H1 H2]]].
              ** left. exists x. simpl; auto.
              ** left. exists d0. simpl; auto.
              ** right. split; [|right; auto]. intros d0 [<-|H]; auto. eapply Hya; eauto.
           ++ intros [(d0 & [<-|H1] & H2 & H3)|[H1 [->|H2]]]; auto.
              ** right. left. exists d0; auto.
              ** exfalso. apply (H1 x); simpl; auto.
              ** right. right. split; auto. intros d0 H. apply H1; right; auto.
        -- split; auto. intros z i. rewrite Hm. unfold upd. split.
           ++ intros [(d0 & H1 & H2 & H3)|[H1 H2]].
              ** left. exists d0. simpl; auto.
              ** right. split; [|right; auto]. intros d0 [<-|H]; auto. eapply Hya; eauto.
           ++ intros [(d0 & [<-|H1] & H2 & H3)|[H1 [->|H2]]]; [congruence| | |].
              ** left. exists d0; auto.
              ** exfalso. apply (H1 x); simpl; auto.
              ** right. split; auto. intros d0 H. apply H1; right; auto.
Qed.

(** Inserting a delta below all the others of the set. *)
Definition glt (a b : idata) : bool := lt (fst (s_item a)) (fst (s_item b)).
Definition app_delta (d : idata) (M : K -> nat -> Prop) (x : K) (i : nat) : Prop :=
  (s_ins d = true /\ s_item d = (x, i)) \/ (x <> fst (s_item d) /\ M x i).

Lemma glt_facts :
  (forall x, glt x x = false) /\
  (forall x y z, glt x y = true -> glt y z = true -> glt x z = true) /\
  (forall x y z, glt x z = true -> glt x y = true \/ glt y z = true) /\
  (forall x y, seq_ x y = true <-> glt x y = false /\ glt y x = false).
Proof.
  unfold glt, seq_. split; [|split; [|split]]; eauto.
  - intros x y z H. destruct (lt (fst (s_item x)) (fst (s_item y))) eqn:E; auto.
    destruct (lt (fst (s_item y)) (fst (s_item z))) eqn:E2; auto.
    destruct (lt (fst (s_item y)) (fst (s_item x))) eqn:E3.
    + assert (lt (fst (s_item y)) (fst (s_item z)) = true) by eauto. congruence.
    + rewrite (lt_total _ _ E E3) in H. congruence.
  - intros x y. rewrite keq_spec. split; [intros ->; auto|intros [H1 H2]; auto].
Qed.

Lemma gset_insert d s M : gsorted skey s ->
  gsorted skey (SmallSet.insert glt seq_ d s) /\
  length (SmallSet.insert glt seq_ d s) <= S (length s) /\
  (forall d', In d' (SmallSet.insert glt seq_ d s) -> d' = d \/ In d' s) /\
  (forall d', In d' s -> In d' (SmallSet.insert glt seq_ d s)) /\
  (forall x i, upd (SmallSet.insert glt seq_ d s) M x i <-> upd s (app_delta d M) x i).
Proof.
  intros Hs. destruct glt_facts as (F1 & F2 & F3 & F4).
  split; [apply (insert_sorted glt seq_ F2 F4); auto|].
  split; [|split; [|split]].
  - clear. induction s as [|a s IH]; simpl; auto. destruct (glt a d); simpl; [lia|]. destruct (seq_ a d); simpl; lia.
  - intros d'. apply insert_In.
  - intros d'. apply insert_keeps.
  - intros x i. destruct (existsb (fun y => seq_ y d) s) eqn:Ee.
    + apply existsb_exists in Ee as (y & Hy & Ey). rewrite (insert_dup_keeps glt seq_ F3 F4 d s y Hs Hy Ey).
      unfold seq_ in Ey. apply keq_spec in Ey. unfold upd, app_delta. split.
      * intros [H|[H1 H2]]; auto. right. split; auto. right. split; auto. rewrite <- Ey. intros ->. apply (H1 y); auto.
      * intros [H|[H1 [[H2 H3]|[H2 H3]]]]; auto. exfalso. apply (H1 y); auto. rewrite Ey, H3; auto.
    + assert (Hnew : forall y, In y s -> seq_ y d = false).
      { intros y Hy. destruct (seq_ y d) eqn:E; auto. rewrite <- Ee. symmetry. apply existsb_exists. eauto. }
      pose proof (insert_new glt seq_ d s Hnew) as Hin.
      assert (Hnk : forall y, In y s -> fst (s_item y) <> fst (s_item d)).
      { intros y Hy. specialize (Hnew _ Hy). unfold seq_ in Hnew. apply keq_false in Hnew. auto. }
      unfold upd, app_delta. split.
      * intros [(d' & H1 & H2 & H3)|[H1 H2]].
        -- apply insert_In in H1 as [->|H1]; [|left; eauto]. right. split; auto.
           intros d0 H0. specialize (Hnk _ H0). rewrite H2 in Hnk. auto.
        -- right. split; [intros d0 H0; apply H1; apply insert_keeps; auto|]. right. split; auto.
           intros ->. apply (H1 d); auto.
      * intros [(d' & H1 & H2 & H3)|[H1 [[H2 H3]|[H2 H3]]]].
        -- left. exists d'. split; auto. apply insert_keeps; auto.
        -- left. exists d. auto.
        -- right. split; auto. intros d0 H0. apply insert_In in H0 as [->|H0]; auto.
Qed.
End GMerge.

Section InnerProofs.
Context {P : Params}.
Variable lowof : nat -> option K.

Notation skey := (fun d => fst (s_item d)).

Definition base_part (low : option K) (lid : nat) (items rest : list sep) (high : option sep) : Prop :=
  items = (rawlow low, lid) :: rest /\ strict rest /\ lowof lid = low /\ range_ok low high /\
  (forall s i, In (s, i) rest -> sabove low s /\ below high s /\ lowof i = Some s).

(** Base page reached by a key. *)
Fixpoint ibase_for (k : K) (c : ichain) : list sep :=
  match c with
  | IBase _ _ _ items _ => items
  | IIns _ _ _ c | IDel _ _ _ _ c | ISplit _ _ _ c | IRemove _ c | IAbort _ c => ibase_for k c
  | IMerge mk _ r c => if kge k mk then ibase_for k r else ibase_for k c
  end.
(** [loc] is a lower-bound position of [s], not looking at the first element. *)
Definition loc_ok (items : list sep) (s : K) (loc : nat) : Prop :=
  loc <= length items /\
  (forall j x, 1 <= j < loc -> nth_error items j = Some x -> klt (fst x) s = true) /\
  (forall j x, 1 <= j -> loc <= j -> nth_error items j = Some x -> klt (fst x) s = false).

Fixpoint iwf (c : ichain) : Prop :=
  match c with
  | IBase _ low lid items high => exists rest, base_part low lid items rest high
  | IIns (s, i) _ loc c => iwf c /\ sabove (ilow c) s /\ below (ihigh c) s /\ lowof i = Some s /\
      (forall j, ~ seps c s j) /\ loc_ok (ibase_for s c) s loc /\ (imerge_free c -> 1 <= loc)
  | IDel (s, i) (ps, pi) _ loc c => iwf c /\ sabove (ilow c) s /\ below (ihigh c) s /\ seps c s i /\
      (forall x, lowof pi = Some x -> x = ps) /\
      loc_ok (ibase_for s c) s loc /\ (imerge_free c -> 1 <= loc)
  | ISplit k sib n c =>
      match c with
      | IBase _ low lid items high => iwf c /\ sabove low k /\ below high k /\
          n = length (filter (fun x => kge (fst x) k) (tl items))
      | _ => False
      end
  | IMerge mk id r c => iwf c /\ iwf r /\ ihigh c = Some (mk, id) /\ ilow r = Some mk
  | IRemove _ _ | IAbort _ _ => False
  end.

Lemma strict_asc {B} (l : list (K * B)) : strict l -> ascending l.
Proof.
  induction 1 as [|a l H IH Hf]; constructor; auto. eapply Forall_impl; [|exact Hf]. simpl. intros; order.
Qed.
Lemma upper_bound_ub {B} k (l : list (K * B)) : ascending l -> upper_bound k l = ub k l.
Proof. intros H. unfold upper_bound, ub. apply bsearch_spec. apply (asc_part_le l k H). Qed.
Lemma sabove_above l k : sabove l k -> above l k.
Proof. destruct l; simpl; auto. intros; order. Qed.

Lemma iwf_range c : iwf c -> range_ok (ilow c) (ihigh c).
Proof.
  induction c as [d low lid items high|[s i] nx loc c IH|[s i] [ps pi] nx loc c IH|k sib n c IH|id c IH|mk id r IHr c IHc|p c IH];
    simpl; try tauto.
  - intros (rest & _ & _ & _ & H & _). auto.
  - destruct c; tauto.
  - intros (H1 & H2 & E1 & E2). specialize (IHc H1). specialize (IHr H2). rewrite E1 in IHc. rewrite E2 in IHr.
    destruct (ilow c), (ihigh r) as [[? ?]|]; simpl in *; auto. order.
Qed.

Lemma iwf_lid c : iwf c -> lowof (ilid c) = ilow c.
Proof.
  induction c as [d low lid items high|[s i] nx loc c IH|[s i] [ps pi] nx loc c IH|k sib n c IH|id c IH|mk id r IHr c IHc|p c IH];
    simpl; try tauto.
  - intros (rest & _ & _ & H & _). auto.
  - destruct c; tauto.
Qed.

Lemma seps_range c : iwf c -> forall s i, seps c s i -> sabove (ilow c) s /\ below (ihigh c) s /\ lowof i = Some s.
Proof.
  induction c as [d low lid items high|[s i] nx loc c IH|[s i] [ps pi] nx loc c IH|k sib n c IH|id c IH|mk id r IHr c IHc|p c IH];
    intros Hw x j Hx.
  - destruct Hw as (rest & -> & _ & _ & _ & H). apply H. auto.
  - simpl in *. destruct Hx as [[-> ->]|[_ Hx]]; [tauto|]. apply IH; tauto.
  - simpl in *. apply IH; tauto.
  - destruct c; simpl in Hw; try tauto. destruct Hx as [H1 H2]. simpl in *.
    destruct Hw as ((rest & -> & _ & _ & _ & H) & _). apply H in H2. tauto.
  - simpl in Hw; tauto.
  - pose proof (iwf_range _ Hw) as Hr. destruct Hw as (Hc & Hr' & E1 & E2). simpl in *.
    destruct (klt x mk) eqn:E.
    + destruct (IHc Hc _ _ Hx) as (H1 & H2 & H3). split; auto. split; auto.
      pose proof (iwf_range _ Hr') as Hrr. rewrite E2 in Hrr. destruct (ihigh r) as [[h ?]|]; simpl in *; auto. order.
    + pose proof (iwf_range _ Hc) as Hrc. rewrite E1 in Hrc.
      destruct Hx as [[-> ->]|Hx].
      * pose proof (iwf_lid _ Hr') as Hl. rewrite E2 in Hl. split; [destruct (ilow c); simpl in *; auto|]. split; auto.
        pose proof (iwf_range _ Hr') as Hrr. rewrite E2 in Hrr. destruct (ihigh r) as [[h ?]|]; simpl in *; auto.
      * destruct (IHr Hr' _ _ Hx) as (H1 & H2 & H3). rewrite E2 in H1. split; auto.
        destruct (ilow c); simpl in *; auto. order.
  - simpl in Hw; tauto.
Qed.

Lemma strict_fun {B} (l : list (K * B)) s i j : strict l -> In (s, i) l -> In (s, j) l -> i = j.
Proof.
  induction 1 as [|a l H IH Hf]; simpl; [tauto|]. rewrite Forall_forall in Hf.
  intros [->|H1] [H2|H2]; auto.
  - congruence.
  - specialize (Hf _ H2). simpl in Hf. order.
  - subst a. specialize (Hf _ H1). simpl in Hf. order.
Qed.

Lemma seps_fun c : iwf c -> forall s i j, seps c s i -> seps c s j -> i = j.
Proof.
  induction c as [d low lid items high|[s i] nx loc c IH|[s i] [ps pi] nx loc c IH|k sib n c IH|id c IH|mk id r IHr c IHc|p c IH];
    intros Hw x a b Ha Hb.
  - destruct Hw as (rest & -> & Hs & _). simpl in *. eapply strict_fun; eauto.
  - simpl in *. destruct Ha as [[-> ->]|[? Ha]], Hb as [[? ->]|[? Hb]]; try congruence. eapply IH; eauto; tauto.
  - simpl in *. eapply IH; try tauto. apply Ha. apply Hb.
  - destruct c; simpl in Hw; try tauto. destruct Hw as ((rest & -> & Hs & _) & _). simpl in *. 
    eapply strict_fun; [eauto|apply Ha|apply Hb].
  - simpl in Hw; tauto.
  - destruct Hw as (Hc & Hr & E1 & E2). simpl in *. destruct (klt x mk); eauto.
    destruct Ha as [[-> ->]|Ha], Hb as [[? ->]|Hb]; eauto.
    + apply (seps_range r Hr) in Hb as (Hb & _). rewrite E2 in Hb. simpl in Hb. order.
    + subst. apply (seps_range r Hr) in Ha as (Ha & _). rewrite E2 in Ha. simpl in Ha. order.
  - simpl in Hw; tauto.
Qed.


(** ** Exact search *)
(** [lid] is the id of the leftmost child of the whole page: on a right branch
    the first element counts as a separator. *)
Definition sepx (lid : nat) (c : ichain) (s : K) (i : nat) : Prop :=
  seps c s i \/ (ilid c <> lid /\ ilow c = Some s /\ i = ilid c).
Definition subok (lid : nat) (c : ichain) : Prop :=
  ilid c = lid \/ exists x, ilow c = Some x /\ sabove (lowof lid) x.
Definition lo_ok (lid : nat) (c : ichain) (k : K) : Prop :=
  above (ilow c) k /\ (ilid c = lid -> sabove (ilow c) k).

Lemma subok_merge lid mk id r c : iwf (IMerge mk id r c) -> subok lid c -> subok lid r /\ ilid r <> lid.
Proof.
  intros (Hc & Hr & E1 & E2) Hs.
  pose proof (iwf_range _ Hc) as Hrc. rewrite E1 in Hrc.
  assert (H : sabove (lowof lid) mk).
  { destruct Hs as [<-|(x & Ex & Hx)].
    - rewrite (iwf_lid _ Hc). destruct (ilow c); simpl in *; auto.
    - rewrite Ex in Hrc. simpl in Hrc. destruct (lowof lid); simpl in *; auto. order. }
  split; [right; exists mk; auto|]. intros <-. rewrite (iwf_lid _ Hr), E2 in H. simpl in H. order.
Qed.

Lemma base_full_asc low lid items rest high : base_part low lid items rest high -> low <> None -> strict items.
Proof.
  intros (-> & Hs & _ & _ & Hin) Hn. constructor; auto. apply Forall_forall. intros [x i] Hx. simpl.
  destruct (Hin _ _ Hx) as (H & _). destruct low; simpl in *; congruence.
Qed.

Lemma below_mono {B C} (h : option (K * B)) (x : K) (c : C) k : below h x -> below (Some (x, c)) k -> below h k.
Proof. destruct h as [[? ?]|]; simpl; auto. intros; order. Qed.

Lemma isearch_base k lid d low lid0 items high : iwf (IBase d low lid0 items high) ->
  subok lid (IBase d low lid0 items high) -> lo_ok lid (IBase d low lid0 items high) k ->
  exists r loc, isearch_rec k lid (IBase d low lid0 items high) = Ok (r, loc) /\
    loc_ok items k loc /\ (lid0 = lid -> 1 <= loc) /\
    match r with
    | Some (x, i) => x = k /\ sepx lid (IBase d low lid0 items high) k i
    | None => forall i, ~ sepx lid (IBase d low lid0 items high) k i
    end.
Proof.
  intros Hw Hsub [Hlo1 Hlo2]. destruct Hw as (rest & Hb). pose proof Hb as (Ei & Hs & Hl & Hr & Hin).
  pose proof (strict_asc _ Hs) as Ha. simpl in Hlo1, Hlo2.
  assert (Eu : isearch_rec k lid (IBase d low lid0 items high) =
    (let st := if lid =? lid0 then 1 else 0 in
     let it := st + lower_bound k (skipn st items) in
     match nth_error items it with
     | None => Ok (None, it)
     | Some x => if keq (fst x) k then Ok (Some x, it) else Ok (None, it)
     end)) by (rewrite Ei; reflexivity).
  rewrite Eu. clear Eu. unfold sepx, subok in *. cbn [seps ilid ilow] in *. rewrite (Nat.eqb_sym lid lid0). cbv zeta.
  destruct (Nat.eqb_spec lid0 lid) as [E|E].
  - subst lid0 items. cbn [skipn tl]. rewrite lower_bound_lb by auto. simpl Nat.add. cbn [nth_error].
    assert (Hloc : loc_ok ((rawlow low, lid) :: rest) k (S (lb k rest))).
    { split; [cbn [length]; pose proof (lb_le rest k); lia|]. split.
      - intros [|j] x Hj Hx; [lia|]. simpl in Hx. apply (lb_before rest k j x); auto. lia.
      - intros [|j] x Hj Hj2 Hx; [lia|]. simpl in Hx. apply (lb_after rest k j x); auto. lia. }
    destruct (nth_error rest (lb k rest)) as [[x i]|] eqn:En.
    + simpl fst. destruct (keq x k) eqn:Ek.
      * apply keq_spec in Ek. subst x. do 2 eexists; split; [reflexivity|]. split; auto. split; [lia|].
        split; auto. left. eapply nth_error_In; eauto.
      * do 2 eexists; split; [reflexivity|]. split; auto. split; [lia|]. intros j [Hj|(? & _)]; [|congruence].
        apply In_nth_error in Hj as (p & Hp). apply keq_false in Ek.
        destruct (lt_dec p (lb k rest)) as [Hp'|Hp'].
        -- pose proof (lb_before rest k p _ Hp' Hp) as G. simpl in G. order.
        -- pose proof (lb_after rest k (lb k rest) (x, i) Ha (le_n _) En) as G. simpl in G.
           pose proof (asc_nth rest (lb k rest) p (x, i) (k, j) Ha ltac:(lia) En Hp) as G2. simpl in G2. order.
    + do 2 eexists; split; [reflexivity|]. split; auto. split; [lia|]. intros j [Hj|(? & _)]; [|congruence].
      apply In_nth_error in Hj as (p & Hp). apply nth_error_None in En.
      assert (p < length rest) by (apply nth_error_Some; congruence).
      pose proof (lb_before rest k p _ ltac:(lia) Hp) as G. simpl in G. order.
  - destruct Hsub as [?|(x0 & -> & Hx0)]; [congruence|].
    assert (Hst : strict items) by (eapply base_full_asc; eauto; congruence).
    clear Ha. pose proof (strict_asc _ Hst) as Ha.
    cbn [skipn]. rewrite lower_bound_lb by auto. simpl Nat.add.
    assert (Hloc : loc_ok items k (lb k items)).
    { split; [apply lb_le|]. split.
      - intros j x Hj Hx. apply (lb_before items k j x); auto. lia.
      - intros j x Hj Hj2 Hx. apply (lb_after items k j x); auto. }
    assert (Hit : forall i, In (k, i) items <-> In (k, i) (tl items) \/ lid0 <> lid /\ Some x0 = Some k /\ i = lid0).
    { intros i. rewrite Ei. simpl. split.
      - intros [H|H]; auto. inversion H; subst. auto.
      - intros [H|(_ & H & H2)]; auto. inversion H; subst. auto. }
    destruct (nth_error items (lb k items)) as [[x i]|] eqn:En.
    + simpl fst. destruct (keq x k) eqn:Ek.
      * apply keq_spec in Ek. subst x. do 2 eexists; split; [reflexivity|]. split; auto. split; [congruence|].
        split; auto. apply Hit. eapply nth_error_In; eauto.
      * do 2 eexists; split; [reflexivity|]. split; auto. split; [congruence|]. intros j Hj. apply Hit in Hj.
        apply In_nth_error in Hj as (p & Hp). apply keq_false in Ek.
        destruct (lt_dec p (lb k items)) as [Hp'|Hp'].
        -- pose proof (lb_before items k p _ Hp' Hp) as G. simpl in G. order.
        -- pose proof (lb_after items k (lb k items) (x, i) Ha (le_n _) En) as G. simpl in G.
           pose proof (asc_nth items (lb k items) p (x, i) (k, j) Ha ltac:(lia) En Hp) as G2. simpl in G2. order.
    + do 2 eexists; split; [reflexivity|]. split; auto. split; [congruence|]. intros j Hj. apply Hit in Hj.
      apply In_nth_error in Hj as (p & Hp). apply nth_error_None in En.
      assert (p < length items) by (apply nth_error_Some; congruence).
      pose proof (lb_before items k p _ ltac:(lia) Hp) as G. simpl in G. order.
Qed.

Lemma isearch_rec_spec k lid c : iwf c -> subok lid c -> lo_ok lid c k -> below (ihigh c) k ->
  exists r loc, isearch_rec k lid c = Ok (r, loc) /\
    loc_ok (ibase_for k c) k loc /\ (ilid c = lid -> imerge_free c -> 1 <= loc) /\
    match r with
    | Some (x, i) => x = k /\ sepx lid c k i
    | None => forall i, ~ sepx lid c k i
    end.
Proof.
  induction c as [d low lid0 items high|[s i] nx loc c IH|[s i] [ps pi] nx loc c IH|sk sib n c IH|id c IH|mk id r IHr c IHc|p c IH];
    intros Hw Hsub Hlo Hhi.
  - destruct (isearch_base k lid d low lid0 items high Hw Hsub Hlo) as (r & loc & E & H1 & H2 & H3).
    exists r, loc. auto.
  - destruct Hw as (Hw & Hsa & Hbe & Hlw & Hns & Hloc & Hl1). unfold lo_ok, subok in *. cbn [isearch_rec ihigh ilow ilid ibase_for imerge_free fst] in *.
    destruct (keq s k) eqn:E.
    + apply keq_spec in E. subst s. exists (Some (k, i)), loc. split; auto. split; auto. split; auto.
      split; auto. left. left. auto.
    + apply keq_false in E. destruct (IH Hw Hsub Hlo Hhi) as (r & l & E1 & H1 & H2 & H3).
      exists r, l. split; auto. split; auto. split; auto. unfold sepx in *. cbn [seps ilid ilow].
      destruct r as [[x j]|].
      * destruct H3 as [-> [H3|H3]]; auto. 
      * intros j [[[? ?]|[_ H]]|H]; [congruence| |]; apply (H3 j); auto.
  - destruct Hw as (Hw & Hsa & Hbe & Hse & Hpr & Hloc & Hl1). unfold lo_ok, subok in *. cbn [isearch_rec ihigh ilow ilid ibase_for imerge_free fst] in *.
    destruct (keq s k) eqn:E.
    + apply keq_spec in E. subst s. exists None, loc. split; auto. split; auto. split; auto.
      intros j [[H _]|(H1 & H2 & _)]; [auto|]. cbn [ilow] in H2. rewrite H2 in Hsa. simpl in Hsa. order.
    + apply keq_false in E. destruct (IH Hw Hsub Hlo Hhi) as (r & l & E1 & H1 & H2 & H3).
      exists r, l. split; auto. split; auto. split; auto. unfold sepx in *. cbn [seps ilid ilow].
      destruct r as [[x j]|].
      * destruct H3 as [-> [H3|H3]]; auto. 
      * intros j [[_ H]|H]; apply (H3 j); auto.
  - destruct c as [d low lid0 items high| | | | | |]; simpl in Hw; try tauto. destruct Hw as (Hw & H1 & H2 & H3).
    assert (Hh : below high k) by (simpl in Hhi; apply (below_mono high sk sib k); auto).
    destruct (IH Hw Hsub Hlo Hh) as (r & l & E1 & G1 & G2 & G3). exists r, l. split; auto. split; auto. split; auto.
    unfold sepx in *. cbn [seps ilid ilow] in *. cbn [ihigh below] in Hhi. destruct r as [[x j]|].
    + destruct G3 as [-> [G3|G3]]; auto.
    + intros j [[_ H]|H]; apply (G3 j); auto.
  - simpl in Hw; tauto.
  - pose proof Hw as Hw0. destruct Hw as (Hc & Hr & E1 & E2). unfold lo_ok in *. cbn [isearch_rec ihigh ilow ilid ibase_for imerge_free fst] in *.
    destruct (subok_merge _ _ _ _ _ Hw0 Hsub) as [Hsr Hnr].
    pose proof (iwf_range _ Hc) as Hrc. rewrite E1 in Hrc.
    destruct (kge k mk) eqn:E.
    + destruct (IHr Hr Hsr) as (r0 & l & G1 & G2 & G3 & G4); auto.
      { split; [rewrite E2; simpl; order|congruence]. }
      exists r0, l. split; auto. split; auto. split; [tauto|].
      assert (Hx : forall i, sepx lid (IMerge mk id r c) k i <-> sepx lid r k i).
      { intros i. unfold sepx. cbn [seps ilid ilow]. assert (klt k mk = false) as -> by order. rewrite E2. split.
        - intros [[[-> ->]|H]|(_ & H & _)]; auto. rewrite H in Hrc. simpl in Hrc. order.
        - intros [H|(_ & H & ->)]; auto. inversion H; subst; auto. }
      destruct r0 as [[x j]|]; [rewrite Hx; auto|]. intros j. rewrite Hx. auto.
    + destruct (IHc Hc Hsub) as (r0 & l & G1 & G2 & G3 & G4); auto.
      { rewrite E1. simpl. order. }
      exists r0, l. split; auto. split; auto. split; [tauto|].
      assert (Hx : forall i, sepx lid (IMerge mk id r c) k i <-> sepx lid c k i).
      { intros i. unfold sepx. cbn [seps ilid ilow]. assert (klt k mk = true) as -> by order. tauto. }
      destruct r0 as [[x j]|]; [rewrite Hx; auto|]. intros j. rewrite Hx. auto.
  - simpl in Hw; tauto.
Qed.

Lemma isearch_spec k c : iwf c -> sabove (ilow c) k -> below (ihigh c) k ->
  exists r loc, isearch k c = Ok (r, loc) /\
    loc_ok (ibase_for k c) k loc /\ (imerge_free c -> 1 <= loc) /\
    match r with
    | Some (x, i) => x = k /\ seps c k i
    | None => forall i, ~ seps c k i
    end.
Proof.
  intros Hw Hlo Hhi. destruct (isearch_rec_spec k (ilid c) c Hw) as (r & loc & E & H1 & H2 & H3); auto.
  - left; auto.
  - split; auto. apply sabove_above; auto.
  - exists r, loc. split.
    { unfold isearch. destruct (ihigh c) as [[h j]|]; auto. simpl in Hhi. rewrite Hhi. auto. }
    split; auto. split; auto. unfold sepx in H3. destruct r as [[x i]|].
    + destruct H3 as [-> [H3|(H3 & _)]]; auto. congruence.
    + intros i Hi. apply (H3 i); auto.
Qed.

(** ** Routing *)
(** Navigation without search windows. *)
Fixpoint nav (k : K) (c : ichain) : res nat :=
  match c with
  | IBase _ _ _ items _ =>
      match nth_error items (ub k (tl items)) with Some x => Ok (snd x) | None => Er ERange end
  | IIns (s, i) next _ c => if kge k s && before_next k next then Ok i else nav k c
  | IDel (s, i) (ps, pi) next _ c =>
      if ((ilid c =? pi) || kge k ps) && before_next k next then Ok pi else nav k c
  | ISplit _ _ _ c => nav k c
  | IMerge mk _ r c => if kge k mk then nav k r else nav k c
  | IRemove _ _ | IAbort _ _ => Er EAssert
  end.

Definition iwin (items : list sep) (k : K) (start fin : nat) : Prop :=
  1 <= start <= S (ub k (tl items)) /\ S (ub k (tl items)) <= fin <= length items.

Lemma imf_base k k' c : imerge_free c -> ibase_for k c = ibase_for k' c.
Proof. induction c; simpl; auto; tauto. Qed.
Lemma imf_len k c : imerge_free c -> ilen c = length (ibase_for k c).
Proof. induction c; simpl; auto; tauto. Qed.
Lemma ibase_part k c : iwf c -> exists low lid rest high, base_part low lid (ibase_for k c) rest high.
Proof.
  induction c as [d low lid0 items high|[s i] nx loc c IH|[s i] [ps pi] nx loc c IH|sk sib n c IH|id c IH|mk id r IHr c IHc|p c IH];
    intros Hw; simpl in *; try tauto.
  - destruct Hw as (rest & Hb). eauto 6.
  - apply IH. destruct c; simpl in *; tauto.
  - destruct Hw as (Hc & Hr & _). destruct (kge k mk); auto.
Qed.

Lemma loc_win_ge items low lid rest high k s loc st fin : base_part low lid items rest high ->
  loc_ok items s loc -> 1 <= loc -> klt k s = false -> iwin items k st fin -> iwin items k (Nat.max st loc) fin.
Proof.
  intros (-> & Hs & _) (L1 & L2 & L3) Hl1 Hk [W1 W2]. split; [|auto].
  cbn [tl] in *. split; [lia|]. apply Nat.max_lub; [lia|].
  destruct (le_lt_dec loc (S (ub k rest))) as [|Hgt]; auto. exfalso.
  cbn [length] in *. destruct (nth_some rest (ub k rest)) as (x & Hx); [lia|].
  pose proof (L2 (S (ub k rest)) x ltac:(lia) Hx) as G.
  pose proof (ub_after rest k (ub k rest) x (strict_asc _ Hs) ltac:(lia) Hx) as G2. order.
Qed.
Lemma loc_win_lt items low lid rest high k s loc st fin : base_part low lid items rest high ->
  loc_ok items s loc -> 1 <= loc -> klt k s = true -> iwin items k st fin -> iwin items k st (Nat.min fin loc).
Proof.
  intros (-> & Hs & _) (L1 & L2 & L3) Hl1 Hk [W1 W2]. split; [auto|].
  cbn [tl] in *. split; [|lia]. apply Nat.min_glb; [lia|].
  destruct (le_lt_dec (S (ub k rest)) loc) as [|Hgt]; auto. exfalso.
  pose proof (ub_le rest k). destruct loc as [|p]; [lia|].
  destruct (nth_some rest p) as (x & Hx); [lia|].
  pose proof (L3 (S p) x ltac:(lia) ltac:(lia) Hx) as G.
  pose proof (ub_before rest k p x ltac:(lia) Hx) as G2. order.
Qed.

Lemma ub_window (items : list sep) k start fin : ascending (tl items) -> iwin items k start fin -> 
  start + upper_bound k (firstn (fin - start) (skipn start items)) = S (ub k (tl items)).
Proof.
  intros Ha [W1 W2]. destruct items as [|x0 rest]; [simpl in *; lia|]. cbn [tl] in *.
  destruct start as [|st]; [lia|]. cbn [skipn].
  rewrite upper_bound_ub by (apply ascending_firstn, ascending_skipn; auto).
  cbn [length] in W2. simpl Nat.add. f_equal.
  pose proof (ub_le rest k) as Hu.
  set (l := firstn (fin - S st) (skipn st rest)).
  assert (Hlen : length l = fin - S st) by (unfold l; rewrite firstn_length, skipn_length; lia).
  assert (Hnth : forall j, j < fin - S st -> nth_error l j = nth_error rest (st + j)).
  { intros j Hj. unfold l. rewrite firstn_nth by auto. apply skipn_nth. }
  assert (ub k l = ub k rest - st); [|lia].
  unfold ub at 1. apply first_not_unique.
  - lia.
  - intros j x Hj Hx. rewrite Hnth in Hx by lia. rewrite (ub_before rest k (st + j) x); auto. lia.
  - intros x Hx. assert (ub k rest - st < fin - S st).
    { rewrite <- Hlen. apply nth_error_Some. congruence. }
    rewrite Hnth in Hx by lia. rewrite (ub_after rest k (st + (ub k rest - st)) x); auto. lia.
Qed.

Lemma inav_nav k c : iwf c -> forall start fin,
  (imerge_free c -> iwin (ibase_for k c) k start fin) -> inav k c start fin = nav k c.
Proof.
  assert (Wfull : forall c0, iwf c0 -> imerge_free c0 -> iwin (ibase_for k c0) k 1 (ilen c0)).
  { intros c0 Hw Hm. rewrite (imf_len k _ Hm). destruct (ibase_part k c0 Hw) as (low & lid & rest & high & E & _).
    rewrite E. unfold iwin. cbn [tl length]. pose proof (ub_le rest k). lia. }
  induction c as [d low lid0 items high|[s i] nx loc c IH|[s i] [ps pi] nx loc c IH|sk sib n c IH|id c IH|mk id r IHr c IHc|p c IH];
    intros Hw st fin Hwin.
  - cbn [inav nav]. simpl in Hwin. specialize (Hwin I). destruct Hw as (rest & E & Hs & _).
    assert (Ha : ascending (tl items)) by (rewrite E; apply strict_asc; auto).
    pose proof (ub_window items k st fin Ha Hwin) as Hu. destruct Hwin as [W1 W2].
    unfold locate. assert ((st <=? fin) && (fin <=? length items) = true) as ->.
    { apply andb_true_intro; split; apply Nat.leb_le; lia. }
    cbv zeta. rewrite Hu. destruct items as [|x0 items]; [discriminate|]. reflexivity.
  - destruct Hw as (Hw & Hsa & Hbe & Hlw & Hns & Hloc & Hl1). cbn [inav nav imerge_free ibase_for] in *.
    assert (Hb0 : imerge_free c -> ibase_for k c = ibase_for s c) by apply imf_base.
    destruct (ibase_part s c Hw) as (low & lid & rest & high & Hb).
    destruct (kge k s) eqn:E; simpl andb.
    + destruct (before_next k nx); auto. apply IH; auto. intros Hm. rewrite (Hb0 Hm) in *.
      eapply loc_win_ge; eauto. order.
    + apply IH; auto. intros Hm. rewrite (Hb0 Hm) in *. eapply loc_win_lt; eauto. order.
  - destruct Hw as (Hw & Hsa & Hbe & Hse & Hpr & Hloc & Hl1). cbn [inav nav imerge_free ibase_for] in *.
    assert (Hb0 : imerge_free c -> ibase_for k c = ibase_for s c) by apply imf_base.
    destruct (ibase_part s c Hw) as (low & lid & rest & high & Hb).
    destruct (((ilid c =? pi) || kge k ps) && before_next k nx); auto.
    destruct (kge k s) eqn:E.
    + apply IH; auto. intros Hm. rewrite (Hb0 Hm) in *. rewrite Nat.max_comm.
      eapply loc_win_ge; eauto. order.
    + apply IH; auto. intros Hm. rewrite (Hb0 Hm) in *. rewrite Nat.min_comm. eapply loc_win_lt; eauto. order.
  - cbn [inav nav]. apply IH; auto. destruct c; simpl in *; tauto.
  - simpl in Hw; tauto.
  - destruct Hw as (Hc & Hr & E1 & E2). cbn [inav nav]. destruct (kge k mk); auto.
  - simpl in Hw; tauto.
Qed.

Lemma inavigate_nav k c : iwf c -> inavigate k c = nav k c.
Proof.
  intros Hw. apply inav_nav; auto. intros Hm. rewrite (imf_len k _ Hm).
  destruct (ibase_part k c Hw) as (low & lid & rest & high & E & _).
  rewrite E. unfold iwin. cbn [tl length]. pose proof (ub_le rest k). lia.
Qed.

(** Child ids recorded anywhere in a page. *)
Lemma nav_sound k c : iwf c -> above (ilow c) k -> exists i, nav k c = Ok i /\ above (lowof i) k.
Proof.
  induction c as [d low lid0 items high|[s i] nx loc c IH|[s i] [ps pi] nx loc c IH|sk sib n c IH|id c IH|mk id r IHr c IHc|p c IH];
    intros Hw Hlo; cbn [nav ilow] in *.
  - destruct Hw as (rest & E & Hs & Hl & Hr & Hin). rewrite E. cbn [tl]. pose proof (ub_le rest k).
    destruct (ub k rest) as [|j] eqn:Eu; cbn [nth_error].
    + eexists; split; [reflexivity|]. simpl. rewrite Hl. auto.
    + destruct (nth_some rest j ltac:(lia)) as ([x i] & Hx). rewrite Hx. eexists; split; [reflexivity|]. simpl.
      destruct (Hin x i) as (_ & _ & ->); [eapply nth_error_In; eauto|]. simpl.
      apply (ub_before rest k j (x, i)); auto. lia.
  - destruct Hw as (Hw & Hsa & Hbe & Hlw & _). destruct (kge k s && before_next k nx) eqn:E; auto.
    exists i. split; auto. rewrite Hlw. apply andb_prop in E as [E _]. simpl. order.
  - destruct Hw as (Hw & Hsa & Hbe & Hse & Hpr & _).
    destruct (((ilid c =? pi) || kge k ps) && before_next k nx) eqn:E; auto.
    exists pi. split; auto. apply andb_prop in E as [E _]. apply orb_prop in E as [E|E].
    + apply Nat.eqb_eq in E. rewrite <- E, iwf_lid by auto. auto.
    + destruct (lowof pi) as [x|] eqn:Ex; simpl; auto. rewrite (Hpr x) by auto. order.
  - apply IH; auto. destruct c; simpl in *; tauto.
  - simpl in Hw; tauto.
  - destruct Hw as (Hc & Hr & E1 & E2). destruct (kge k mk) eqn:E; auto. apply IHr; auto. rewrite E2. simpl. order.
  - simpl in Hw; tauto.
Qed.

(** Deltas posted with their true neighbours. *)
Fixpoint iexact (c : ichain) : Prop :=
  match c with
  | IBase _ _ _ _ _ => True
  | IIns (s, _) next _ c => next_of c s next /\ iexact c
  | IDel (s, _) (_, pi) next _ c => next_of c s next /\ left_of c s pi /\ iexact c
  | ISplit _ _ _ c | IRemove _ c | IAbort _ c => iexact c
  | IMerge _ _ r c => iexact c /\ iexact r
  end.

Lemma nav_routes k c : iwf c -> iexact c -> iin_range c k -> exists i, nav k c = Ok i /\ routes c k i.
Proof.
  induction c as [d low lid0 items high|[s i] nx loc c IH|[s i] [ps pi] nx loc c IH|sk sib n c IH|id c IH|mk id r IHr c IHc|p c IH];
    intros Hw Hex [Hlo Hhi]; cbn [nav ilow ihigh] in *.
  - destruct Hw as (rest & E & Hs & Hl & Hr & Hin). rewrite E. cbn [tl]. pose proof (ub_le rest k).
    pose proof (strict_asc _ Hs) as Ha. unfold routes. cbn [seps ilid tl].
    destruct (ub k rest) as [|j] eqn:Eu; cbn [nth_error].
    + eexists; split; [reflexivity|]. right. split; auto. intros s j Hj. apply In_nth_error in Hj as (p & Hp).
      apply (ub_after rest k p (s, j)); auto. lia.
    + destruct (nth_some rest j ltac:(lia)) as ([x i] & Hx). rewrite Hx. eexists; split; [reflexivity|]. left.
      exists x. simpl. split; [eapply nth_error_In; eauto|]. split; [apply (ub_before rest k j (x, i)); auto; lia|].
      intros s' j' Hj' Hk. apply In_nth_error in Hj' as (p & Hp).
      destruct (le_lt_dec p j) as [Hpj|Hpj].
      * apply (asc_nth rest p j (s', j') (x, i)); auto.
      * pose proof (ub_after rest k p (s', j') Ha ltac:(lia) Hp) as G. simpl in G. order.
  - destruct Hw as (Hw & Hsa & Hbe & Hlw & Hns & _). destruct Hex as [Hnx Hex].
    destruct (kge k s && before_next k nx) eqn:E.
    + exists i. split; auto. left. exists s. cbn [seps]. split; [left; auto|]. apply andb_prop in E as [E1 E2]. split; [order|].
      intros s' j [[-> ->]|[Hne Hs']] Hk; [order|]. destruct Hnx as [(s0 & i0 & j0 & -> & H1 & H2 & H3)|[H1 H2]].
      * simpl in E2. destruct (klt s s') eqn:Ess; auto. specialize (H3 _ _ Hs' Ess). order.
      * eapply H1; eauto.
    + destruct (IH Hw Hex) as (j & Ej & Hj); [split; auto|]. exists j. split; auto.
      assert (Hcase : klt k s = true \/ (exists s0 j0, seps c s0 j0 /\ klt s s0 = true /\ klt k s0 = false)).
      { apply andb_false_iff in E as [E|E]; [left; order|].
        destruct (klt k s) eqn:Eks; auto. right.
        destruct Hnx as [(s0 & i0 & j0 & -> & H1 & H2 & H3)|[H1 H2]].
        - simpl in E. exists s0, j0. auto.
        - destruct nx as [[n0 ni]|]; [|discriminate]. simpl in E.
          destruct (ihigh c) as [[h hi]|]; [|tauto]. simpl in Hhi. order. }
      destruct Hj as [(x & H1 & H2 & H3)|[H1 H2]].
      * left. exists x. cbn [seps]. split; [right; split; auto; intros ->; eapply Hns; eauto|]. split; auto.
        intros s' j' [[-> ->]|[_ Hs']] Hk; eauto. destruct Hcase as [?|(s0 & j0 & G1 & G2 & G3)]; [order|].
        specialize (H3 _ _ G1 G3). order.
      * right. cbn [ilid seps]. split; auto. intros s' j' [[-> ->]|[_ Hs']]; eauto.
        destruct Hcase as [?|(s0 & j0 & G1 & G2 & G3)]; [auto|]. specialize (H2 _ _ G1). order.
  - destruct Hw as (Hw & Hsa & Hbe & Hse & Hpr & _). destruct Hex as (Hnx & Hlf & Hex).
    destruct (((ilid c =? pi) || kge k ps) && before_next k nx) eqn:E.
    + exists pi. split; auto. apply andb_prop in E as [E1 E2].
      assert (Hup : forall s' j', seps c s' j' -> klt k s' = false -> klt s s' = false).
      { intros s' j' Hs' Hk. destruct Hnx as [(s0 & i0 & j0 & -> & H1 & H2 & H3)|[H1 H2]]; eauto.
        simpl in E2. destruct (klt s s') eqn:Ess; auto. specialize (H3 _ _ Hs' Ess). order. }
      destruct Hlf as [(x & H1 & H2 & H3)|[-> H2]].
      * left. exists x. cbn [seps]. destruct (seps_range c Hw _ _ H1) as (Hx1 & _ & Hx2).
        split; [split; auto; intros ->; order|]. split.
        -- apply orb_prop in E1 as [E1|E1].
           ++ apply Nat.eqb_eq in E1. rewrite <- E1, iwf_lid in Hx2 by auto. rewrite Hx2 in Hlo. auto.
           ++ rewrite (Hpr _ Hx2). order.
        -- intros s' j' [Hne Hs'] Hk. specialize (Hup _ _ Hs' Hk). apply (H3 _ _ Hs'). 
           destruct (K_eq_dec s s'); [congruence|]. order.
      * right. cbn [seps ilid]. split; auto. intros s' j' [Hne Hs']. specialize (H2 _ _ Hs').
        destruct (klt k s') eqn:Ek; auto. specialize (Hup _ _ Hs' Ek). 
        assert (s = s') by order. congruence.
    + destruct (IH Hw Hex) as (j & Ej & Hj); [split; auto|]. exists j. split; auto.
      assert (Hcase : klt k s = true \/ (exists s0 j0, seps c s0 j0 /\ klt s s0 = true /\ klt k s0 = false)).
      { apply andb_false_iff in E as [E|E].
        - left. apply orb_false_iff in E as [E1 E2]. apply Nat.eqb_neq in E1.
          destruct Hlf as [(x & H1 & H2 & H3)|[-> H2]]; [|congruence].
          destruct (seps_range c Hw _ _ H1) as (_ & _ & Hx2). rewrite <- (Hpr _ Hx2) in E2. order.
        - destruct (klt k s) eqn:Eks; auto. right.
          destruct Hnx as [(s0 & i0 & j0 & -> & H1 & H2 & H3)|[H1 H2]].
          + simpl in E. exists s0, j0. auto.
          + destruct nx as [[n0 ni]|]; [|discriminate]. simpl in E.
            destruct (ihigh c) as [[h hi]|]; [|tauto]. simpl in Hhi. order. }
      destruct Hj as [(x & H1 & H2 & H3)|[H1 H2]].
      * left. exists x. cbn [seps]. split; [split; auto|].
        { intros ->. destruct Hcase as [?|(s0 & j0 & G1 & G2 & G3)]; [order|]. specialize (H3 _ _ G1 G3). order. }
        split; auto. intros s' j' [_ Hs'] Hk; eauto.
      * right. cbn [ilid seps]. split; auto. intros s' j' [_ Hs']; eauto.
  - destruct c as [d low lid0 items high| | | | | |]; simpl in Hw; try tauto. destruct Hw as (Hw & H1 & H2 & H3).
    destruct (IH Hw Hex) as (j & Ej & Hj).
    { split; auto. simpl in *. apply (below_mono high sk sib k); auto. }
    exists j. split; auto. simpl in Hhi. destruct Hj as [(x & G1 & G2 & G3)|[G1 G2]].
    + left. exists x. cbn [seps]. split; [split; auto; order|]. split; auto. intros s' j' [_ Hs']; eauto.
    + right. cbn [seps ilid]. split; auto. intros s' j' [_ Hs']. eauto.
  - simpl in Hw; tauto.
  - destruct Hw as (Hc & Hr & E1 & E2). destruct Hex as [Hexc Hexr].
    destruct (kge k mk) eqn:E.
    + destruct (IHr Hr Hexr) as (j & Ej & Hj); [split; auto; rewrite E2; simpl; order|].
      exists j. split; auto.
      assert (Hr0 : forall s i, seps r s i -> klt mk s = true).
      { intros s i Hs. apply (seps_range r Hr) in Hs as (Hs & _). rewrite E2 in Hs. auto. }
      destruct Hj as [(x & G1 & G2 & G3)|[G1 G2]].
      * left. exists x. cbn [seps]. pose proof (Hr0 _ _ G1). assert (klt x mk = false) as -> by order.
        split; auto. split; auto. intros s' j' Hs' Hk. destruct (klt s' mk) eqn:Es; [order|].
        destruct Hs' as [[-> _]|Hs']; [order|eauto].
      * left. exists mk. cbn [seps]. assert (klt mk mk = false) as -> by order. split; auto. split; [order|].
        intros s' j' Hs' Hk. destruct (klt s' mk) eqn:Es; [order|]. destruct Hs' as [[-> _]|Hs']; [order|].
        specialize (G2 _ _ Hs'). order.
    + destruct (IHc Hc Hexc) as (j & Ej & Hj); [split; auto; rewrite E1; simpl; order|].
      exists j. split; auto. destruct Hj as [(x & G1 & G2 & G3)|[G1 G2]].
      * left. exists x. cbn [seps]. assert (klt x mk = true) as -> by order. split; auto. split; auto.
        intros s' j' Hs' Hk. assert (klt s' mk = true) as Es by order. rewrite Es in Hs'. eauto.
      * right. cbn [seps ilid]. split; auto. intros s' j' Hs'. destruct (klt s' mk) eqn:Es; eauto. order.
  - simpl in Hw; tauto.
Qed.
End InnerProofs.
