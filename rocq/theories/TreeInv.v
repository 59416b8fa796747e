(** The invariant of the index under all interleavings, and its preservation
    by each kind of atomic update. *)
From Coq Require Import NArith List Arith Lia Bool ZArith.
From Verif Require Import Base Leaf LeafSpec LeafProofs LeafWeak LeafProofs2 Inner InnerSpec InnerProofs InnerProofs2 Tree TreeSpec.
Import ListNotations.

Section TreeInv.
Context {P : Params}.

(** * Definitions *)
(** Ghost state: which ids have been made reachable for other threads. *)
Record world := { wm : mem; pub : nat -> Prop }.

Definition lo (m : mem) (i : nat) : option K := match node_of m i with Some n => nlow n | None => None end.
Definition lole (a b : option K) : Prop :=
  match a with None => True | Some x => match b with Some y => klt y x = false | None => False end end.

Fixpoint irefs (c : ichain) (j : nat) : Prop :=
  match c with
  | IBase _ _ lid items _ => j = lid \/ In j (map snd items)
  | IIns (_, i) _ _ c => j = i \/ irefs c j
  | IDel (_, i) (_, pi) _ _ c => j = i \/ j = pi \/ irefs c j
  | ISplit _ _ _ c | IRemove _ c | IAbort _ c => irefs c j
  | IMerge _ _ r c => irefs r j \/ irefs c j
  end.

Definition innerok (w : world) (c : ichain) : Prop :=
  iwf (lo (wm w)) c /\ forall j, irefs c j -> pub w j /\ lole (ilow c) (lo (wm w) j).
Definition lbody (c : lchain) : lchain := match c with LRemove _ c' => c' | _ => c end.
Definition bodyok (w : world) (n : node) : Prop :=
  match n with
  | NLeaf c => lwfw (lbody c)
  | NInner (IRemove _ c) => innerok w c
  | NInner (IAbort p c) => innerok w c /\ heap (wm w) p = Some (NInner c)
  | NInner c => innerok w c
  end.
Definition nextok (w : world) (n : node) : Prop :=
  forall h j, nhigh n = Some (h, j) ->
    pub w j /\ lo (wm w) j = Some h /\ exists n', node_of (wm w) j = Some n' /\ is_leaf n' = is_leaf n.

Definition leaf (m : mem) (i : nat) (c : lchain) : Prop := node_of m i = Some (NLeaf c).
Definition before (a b : lchain) : Prop :=
  match lhigh a, llow b with Some (h, _), Some l => klt l h = false | _, _ => False end.

Record mbound (m : mem) : Prop := {
  b_heap : forall p, (nptr m <= p)%N -> heap m p = None;
  b_tab : forall i p, tab m i = Some p -> i < nid m /\ (p < nptr m)%N /\ heap m p <> None
}.

Record wok (w : world) : Prop := {
  k_bound : mbound (wm w);
  k_pub : forall i, pub w i -> exists n, node_of (wm w) i = Some n /\ bodyok w n /\ nextok w n;
  k_root : pub w (root (wm w)) /\ lo (wm w) (root (wm w)) = None;
  k_first : pub w FIRST_LEAF /\ lo (wm w) FIRST_LEAF = None /\ exists c, leaf (wm w) FIRST_LEAF c;
  k_live : forall i c, pub w i -> leaf (wm w) i c -> is_remove (NLeaf c) = false -> reach (wm w) i;
  k_cover : forall k, exists i c, reach (wm w) i /\ leaf (wm w) i c /\ in_range c k;
  k_uniq : forall i j a b, reach (wm w) i -> reach (wm w) j -> leaf (wm w) i a -> leaf (wm w) j b ->
             i = j \/ before a b \/ before b a
}.

(** What never changes. *)
Record le (w w' : world) : Prop := {
  l_heap : forall p n, heap (wm w) p = Some n -> heap (wm w') p = Some n;
  l_pub : forall i, pub w i -> pub w' i;
  l_node : forall i p n, pub w i -> get (wm w) i = Some (p, n) ->
             exists p' n', get (wm w') i = Some (p', n') /\ is_leaf n' = is_leaf n /\ nlow n' = nlow n /\
                           (is_remove n = true -> p' = p /\ n' = n)
}.

(** * Basic facts *)
Lemma node_of_get m i n : node_of m i = Some n <-> exists p, get m i = Some (p, n).
Proof.
  unfold node_of. destruct (get m i) as [[p n']|]; simpl; split.
  - intros H; inversion H; eauto.
  - intros (p' & H); inversion H; auto.
  - discriminate.
  - intros (? & ?); discriminate.
Qed.
Lemma lo_node m i n : node_of m i = Some n -> lo m i = nlow n.
Proof. unfold lo. intros ->; auto. Qed.
Lemma get_tab m i p n : get m i = Some (p, n) -> tab m i = Some p /\ heap m p = Some n.
Proof.
  unfold get. destruct (tab m i) as [q|]; [|discriminate].
  destruct (heap m q) eqn:E; [|discriminate]. intros H; inversion H; subst; auto.
Qed.
Lemma get_intro m i p n : tab m i = Some p -> heap m p = Some n -> get m i = Some (p, n).
Proof. unfold get. intros -> ->. auto. Qed.

Lemma le_refl w : le w w.
Proof. constructor; auto. intros i p n _ H. exists p, n. auto. Qed.
Lemma le_trans a b c : le a b -> le b c -> le a c.
Proof.
  intros H1 H2. constructor.
  - intros p n H. apply H2, H1, H.
  - intros i H. apply H2, H1, H.
  - intros i p n Hp Hg. destruct (l_node _ _ H1 _ _ _ Hp Hg) as (p1 & n1 & G1 & E1 & E2 & E3).
    destruct (l_node _ _ H2 _ _ _ (l_pub _ _ H1 _ Hp) G1) as (p2 & n2 & G2 & F1 & F2 & F3).
    exists p2, n2. split; auto. split; [congruence|]. split; [congruence|].
    intros Hr. destruct (E3 Hr) as [-> ->]. auto.
Qed.
Lemma le_lo w w' i : wok w -> le w w' -> pub w i -> lo (wm w') i = lo (wm w) i.
Proof.
  intros Hw Hl Hp. destruct (k_pub _ Hw _ Hp) as (n & Hn & _). apply node_of_get in Hn as (p & Hg).
  destruct (l_node _ _ Hl _ _ _ Hp Hg) as (p' & n' & G & _ & E & _).
  unfold lo, node_of. rewrite G, Hg. simpl. auto.
Qed.
Lemma le_kind w w' i n : le w w' -> pub w i -> node_of (wm w) i = Some n ->
  exists n', node_of (wm w') i = Some n' /\ is_leaf n' = is_leaf n /\ nlow n' = nlow n.
Proof.
  intros Hl Hp Hn. apply node_of_get in Hn as (p & Hg).
  destruct (l_node _ _ Hl _ _ _ Hp Hg) as (p' & n' & G & E1 & E2 & _).
  exists n'. split; auto. apply node_of_get. eauto.
Qed.

Lemma iwf_ext (f g : nat -> option K) c : (forall j, irefs c j -> f j = g j) -> iwf f c -> iwf g c.
Proof.
  induction c as [d low lid items high|[s i] nx loc c IH|[s i] [ps pi] nx loc c IH|k sib n c IH|id c IH|mk id r IHr c IHc|p c IH];
    intros He Hw.
  - destruct Hw as (rest & E & H1 & H2 & H3 & H4). exists rest. split; auto. split; auto. split.
    { rewrite <- He; auto. simpl; auto. }
    split; auto. intros s i Hi. destruct (H4 _ _ Hi) as (A & B & C). split; auto. split; auto.
    rewrite <- He; auto. simpl. right. rewrite E. simpl. right. apply in_map_iff. exists (s, i). auto.
  - simpl in *. destruct Hw as (A & B & C & D & E). split; [apply IH; auto|]. split; auto. split; auto.
    split; [rewrite <- He; auto|auto].
  - simpl in *. destruct Hw as (A & B & C & D & E & F). split; [apply IH; auto|]. split; auto. split; auto.
    split; auto. split; [|auto]. intros x Hx. apply E. rewrite He; auto.
  - destruct c; simpl in Hw; try tauto. destruct Hw as (A & B). split; [apply IH; [exact He|exact A]|exact B].
  - simpl in Hw; tauto.
  - simpl in *. destruct Hw as (A & B & C). split; [apply IHc; auto|]. split; auto.
  - simpl in Hw; tauto.
Qed.

Lemma innerok_le w w' c : wok w -> le w w' -> innerok w c -> innerok w' c.
Proof.
  intros Hw Hl [H1 H2]. split.
  - eapply iwf_ext; [|exact H1]. intros j Hj. symmetry. apply le_lo; auto. apply H2; auto.
  - intros j Hj. destruct (H2 j Hj) as [A B]. split; [apply Hl; auto|]. rewrite (le_lo w w'); auto.
Qed.
Lemma bodyok_le w w' n : wok w -> le w w' -> bodyok w n -> bodyok w' n.
Proof.
  intros Hw Hl. destruct n as [c|c]; auto. destruct c; simpl; try apply innerok_le; auto.
  intros [A B]. split; [eapply innerok_le; eauto|apply Hl; auto].
Qed.
Lemma nextok_le w w' n : wok w -> le w w' -> nextok w n -> nextok w' n.
Proof.
  intros Hw Hl H h j E. destruct (H _ _ E) as (A & B & n' & C & D).
  split; [apply Hl; auto|]. split; [rewrite (le_lo w w'); auto|].
  destruct (le_kind _ _ _ _ Hl A C) as (n2 & E1 & E2 & _). exists n2. split; auto. congruence.
Qed.

Lemma lhigh_body c : lhigh (lbody c) = lhigh c. Proof. destruct c; auto. Qed.
Lemma llow_body c : llow (lbody c) = llow c. Proof. destruct c; auto. Qed.
Lemma lmem_body c k v : lmem (lbody c) k v <-> lmem c k v. Proof. destruct c; simpl; tauto. Qed.
Lemma leaf_range c : lwfw (lbody c) -> range_ok (llow c) (lhigh c).
Proof. intros H. rewrite <- lhigh_body, <- llow_body. apply lwfw_range; auto. Qed.

Lemma reach_leaf w i : wok w -> reach (wm w) i -> pub w i /\ exists c, leaf (wm w) i c /\ lwfw (lbody c).
Proof.
  intros Hw. induction 1 as [|i c h n H IH Hn Hh].
  - destruct (k_first _ Hw) as (A & _ & c & B). split; auto. exists c. split; auto.
    destruct (k_pub _ Hw _ A) as (n & C & D & _). unfold leaf in B. rewrite B in C. inversion C; subst. exact D.
  - destruct IH as (A & c' & B & _). unfold leaf in *. rewrite B in Hn. inversion Hn; subst c'.
    destruct (k_pub _ Hw _ A) as (n1 & C & D & E). rewrite B in C. inversion C; subst n1.
    destruct (E _ _ Hh) as (F & G & n2 & H1 & H2). split; auto.
    destruct n2 as [c2|]; [|discriminate]. exists c2. split; auto.
    destruct (k_pub _ Hw _ F) as (n3 & C3 & D3 & _). rewrite H1 in C3. inversion C3; subst. exact D3.
Qed.
Lemma leaf_fun m i c c' : leaf m i c -> leaf m i c' -> c = c'.
Proof. unfold leaf. intros -> H. inversion H; auto. Qed.
Lemma before_range a b k : before a b -> in_range a k -> in_range b k -> False.
Proof.
  unfold before, in_range. destruct (lhigh a) as [[h ?]|], (llow b); simpl; try tauto.
  intros H [_ H1] [H2 _]. order.
Qed.
(** The leaf covering a key decides. *)
Lemma contents_leaf w i c k v : wok w -> reach (wm w) i -> leaf (wm w) i c -> in_range c k ->
  (contents (wm w) k v <-> lmem c k v).
Proof.
  intros Hw Hr Hl Hk. split.
  - intros (j & c' & Hr' & Hl' & Hk' & Hm).
    destruct (k_uniq _ Hw _ _ _ _ Hr Hr' Hl Hl') as [<-|[H|H]].
    + rewrite (leaf_fun _ _ _ _ Hl Hl'). auto.
    + exfalso; eapply before_range; eauto.
    + exfalso; eapply before_range; eauto.
  - intros Hm. exists i, c. auto.
Qed.

(** * One changed entry *)
Record upd1 (m m' : mem) (i : nat) (p' : N) (n' : node) : Prop := {
  u_heap : forall p n, heap m p = Some n -> heap m' p = Some n;
  u_get : get m' i = Some (p', n');
  u_other : forall x, x <> i -> get m' x = get m x;
  u_root : root m' = root m;
  u_bound : mbound m'
}.
Lemma upd1_node m m' i p' n' : upd1 m m' i p' n' -> node_of m' i = Some n'.
Proof. intros H. apply node_of_get. exists p'. apply H. Qed.
Lemma upd1_other m m' i p' n' x : upd1 m m' i p' n' -> x <> i -> node_of m' x = node_of m x.
Proof. intros H Hx. unfold node_of. rewrite (u_other _ _ _ _ _ H); auto. Qed.

Definition cas_mem (m : mem) (i : nat) (n : node) : mem :=
  {| heap := pfset (heap m) (nptr m) n; nptr := N.succ (nptr m); tab := fset (tab m) i (nptr m); nid := nid m; root := root m |}.
Definition ptr_mem (m : mem) (i : nat) (p : N) : mem :=
  {| heap := heap m; nptr := nptr m; tab := fset (tab m) i p; nid := nid m; root := root m |}.
Definition new_mem (m : mem) (n : node) : mem :=
  {| heap := pfset (heap m) (nptr m) n; nptr := N.succ (nptr m); tab := fset (tab m) (nid m) (nptr m); nid := S (nid m); root := root m |}.
Definition root_mem (m : mem) (r : nat) : mem :=
  {| heap := heap m; nptr := nptr m; tab := tab m; nid := nid m; root := r |}.

Lemma fset_eq {A} (f : nat -> option A) i x : fset f i x i = Some x.
Proof. unfold fset. rewrite Nat.eqb_refl. auto. Qed.
Lemma fset_ne {A} (f : nat -> option A) i j x : j <> i -> fset f i x j = f j.
Proof. unfold fset. intros H. apply Nat.eqb_neq in H. rewrite H. auto. Qed.

Lemma pfset_eq {A} (f : N -> option A) i x : pfset f i x i = Some x.
Proof. unfold pfset. rewrite N.eqb_refl. auto. Qed.
Lemma pfset_ne {A} (f : N -> option A) i j x : j <> i -> pfset f i x j = f j.
Proof. unfold pfset. intros H. apply N.eqb_neq in H. rewrite H. auto. Qed.
Lemma fresh_heap m n p n0 : mbound m -> heap m p = Some n0 -> pfset (heap m) (nptr m) n p = Some n0.
Proof.
  intros Hb H. rewrite pfset_ne; auto. intros ->. rewrite (b_heap _ Hb) in H; [discriminate|lia].
Qed.
Lemma cas_upd1 m i n : mbound m -> i < nid m -> upd1 m (cas_mem m i n) i (nptr m) n.
Proof.
  intros Hb Hi. constructor; simpl; auto.
  - intros. apply fresh_heap; auto.
  - apply get_intro; simpl; [apply fset_eq|apply pfset_eq].
  - intros x Hx. unfold get; simpl. rewrite fset_ne by auto. destruct (tab m x) as [p|] eqn:E; auto.
    destruct (b_tab _ Hb _ _ E) as (_ & A & B). destruct (heap m p) eqn:Eh; [|congruence].
    rewrite (fresh_heap _ _ _ _ Hb Eh). auto.
  - constructor; simpl.
    + intros p Hp. rewrite pfset_ne by lia. apply Hb. lia.
    + intros x p. unfold fset at 1. destruct (x =? i) eqn:E.
      * apply Nat.eqb_eq in E. subst. intros H; inversion H; subst. rewrite pfset_eq. split; auto. split; [lia|discriminate].
      * intros H. destruct (b_tab _ Hb _ _ H) as (A & B & C). split; auto. split; [lia|]. rewrite pfset_ne; auto. lia.
Qed.
Lemma ptr_upd1 m i p n : mbound m -> i < nid m -> heap m p = Some n -> upd1 m (ptr_mem m i p) i p n.
Proof.
  intros Hb Hi Hp. constructor; simpl; auto.
  - apply get_intro; simpl; auto. apply fset_eq.
  - intros x Hx. unfold get; simpl. rewrite fset_ne by auto. auto.
  - constructor; simpl; [apply Hb|]. intros x q. unfold fset. destruct (x =? i) eqn:E.
    + apply Nat.eqb_eq in E. subst. intros H; inversion H; subst. split; auto. split; [|congruence].
      destruct (N.lt_ge_cases q (nptr m)); auto. rewrite (b_heap _ Hb) in Hp; [discriminate|auto].
    + intros H. apply Hb; auto.
Qed.
Lemma new_upd1 m n : mbound m -> upd1 m (new_mem m n) (nid m) (nptr m) n.
Proof.
  intros Hb. constructor; simpl; auto.
  - intros. apply fresh_heap; auto.
  - apply get_intro; simpl; [apply fset_eq|apply pfset_eq].
  - intros x Hx. unfold get; simpl. rewrite fset_ne by auto. destruct (tab m x) as [p|] eqn:E; auto.
    destruct (b_tab _ Hb _ _ E) as (_ & A & B). destruct (heap m p) eqn:Eh; [|congruence].
    rewrite (fresh_heap _ _ _ _ Hb Eh). auto.
  - constructor; simpl.
    + intros p Hp. rewrite pfset_ne by lia. apply Hb. lia.
    + intros x p. unfold fset at 1. destruct (x =? nid m) eqn:E.
      * apply Nat.eqb_eq in E. subst. intros H; inversion H; subst. rewrite pfset_eq. split; auto. split; [lia|discriminate].
      * intros H. destruct (b_tab _ Hb _ _ H) as (A & B & C). split; [lia|]. split; [lia|]. rewrite pfset_ne; auto. lia.
Qed.

Lemma upd1_le w m' (pub' : nat -> Prop) i p n p' n' : wok w -> get (wm w) i = Some (p, n) -> upd1 (wm w) m' i p' n' ->
  is_leaf n' = is_leaf n -> nlow n' = nlow n -> is_remove n = false -> (forall x, pub w x -> pub' x) ->
  le w {| wm := m'; pub := pub' |}.
Proof.
  intros Hw Hg Hu E1 E2 E3 Hp. constructor; simpl; auto.
  - apply Hu.
  - intros x q a Hx Ha. destruct (Nat.eq_dec x i) as [->|Hne].
    + rewrite Hg in Ha. inversion Ha; subst. exists p', n'. split; [apply Hu|]. split; auto. split; auto. congruence.
    + exists q, a. rewrite (u_other _ _ _ _ _ Hu); auto.
Qed.

(** * Reachability *)
Definition lnext (m : mem) (x : nat) : option (K * nat) :=
  match node_of m x with Some (NLeaf c) => lhigh c | _ => None end.
Lemma reach_lnext m i h n : reach m i -> lnext m i = Some (h, n) -> reach m n.
Proof.
  unfold lnext. intros Hr. destruct (node_of m i) as [[c|]|] eqn:E; try discriminate.
  intros Hh. eapply R_next; eauto.
Qed.
Lemma reach_mono m m' : (forall x, lnext m x = lnext m' x) -> forall x, reach m x -> reach m' x.
Proof.
  intros He x. induction 1 as [|i c h n H IH Hn Hh]; [constructor|].
  eapply reach_lnext; eauto. rewrite <- He. unfold lnext. rewrite Hn. eauto.
Qed.

(** Nothing happens on the leaf level, or the range and link stay as they are. *)
Lemma same_link_ok w m' (pub' : nat -> Prop) i p' n' :
  wok w -> upd1 (wm w) m' i p' n' -> le w {| wm := m'; pub := pub' |} ->
  (forall x, lnext (wm w) x = lnext m' x) ->
  (forall x c', leaf m' x c' -> x <> i -> leaf (wm w) x c') ->
  (forall c', n' = NLeaf c' -> exists c, leaf (wm w) i c /\ llow c' = llow c /\ lhigh c' = lhigh c /\
     (is_remove (NLeaf c') = false -> reach (wm w) i)) ->
  (forall c, leaf (wm w) i c -> exists c', n' = NLeaf c') ->
  (forall x, pub' x -> pub w x \/ (x <> i /\ exists n, node_of (wm w) x = Some n /\ is_leaf n = false /\
     bodyok {| wm := m'; pub := pub' |} n /\ nextok {| wm := m'; pub := pub' |} n)) ->
  bodyok {| wm := m'; pub := pub' |} n' -> nextok {| wm := m'; pub := pub' |} n' ->
  wok {| wm := m'; pub := pub' |}.
Proof.
  intros Hw Hu Hle Hnx Hlf Hc1 Hc2 Hpub Hb Hn.
  assert (Hn' := upd1_node _ _ _ _ _ Hu).
  assert (R1 : forall x, reach (wm w) x -> reach m' x) by (apply reach_mono; auto).
  assert (R2 : forall x, reach m' x -> reach (wm w) x) by (apply reach_mono; auto).
  assert (Lf : forall x c', leaf m' x c' -> exists c, leaf (wm w) x c /\ llow c' = llow c /\ lhigh c' = lhigh c).
  { intros x c' Hx. destruct (Nat.eq_dec x i) as [->|Hne].
    - unfold leaf in Hx. rewrite Hn' in Hx. inversion Hx; subst.
      destruct (Hc1 c' eq_refl) as (c & A & B & C & _). eauto.
    - exists c'. eauto. }
  assert (Lb : forall x c, leaf (wm w) x c -> exists c', leaf m' x c' /\ llow c' = llow c /\ lhigh c' = lhigh c).
  { intros x c Hx. destruct (Nat.eq_dec x i) as [->|Hne].
    - destruct (Hc2 _ Hx) as (c' & ->). destruct (Hc1 c' eq_refl) as (c0 & A & B & C & _).
      rewrite (leaf_fun _ _ _ _ Hx A). exists c'. auto.
    - exists c. unfold leaf. rewrite (upd1_other _ _ _ _ _ _ Hu Hne). auto. }
  constructor; simpl.
  - apply Hu.
  - intros x Hx. destruct (Nat.eq_dec x i) as [->|Hne]; [eauto|].
    rewrite (upd1_other _ _ _ _ _ _ Hu Hne).
    destruct (Hpub _ Hx) as [Hp|(_ & n & A & _ & B & C)]; [|eauto].
    destruct (k_pub _ Hw _ Hp) as (n & A & B & C). exists n. split; auto.
    split; [eapply bodyok_le; eauto|eapply nextok_le; eauto].
  - rewrite (u_root _ _ _ _ _ Hu). destruct (k_root _ Hw) as [A B]. split; [apply Hle; auto|].
    etransitivity; [exact (le_lo w {| wm := m'; pub := pub' |} _ Hw Hle A)|auto].
  - destruct (k_first _ Hw) as (A & B & c & C). split; [apply Hle; auto|]. split.
    + etransitivity; [exact (le_lo w {| wm := m'; pub := pub' |} _ Hw Hle A)|auto].
    + destruct (Lb _ _ C) as (c' & D & _). eauto.
  - intros x c' Hx Hl Hrm. apply R1. destruct (Nat.eq_dec x i) as [->|Hne].
    + unfold leaf in Hl. rewrite Hn' in Hl. inversion Hl; subst.
      destruct (Hc1 c' eq_refl) as (c & _ & _ & _ & D). auto.
    + destruct (Hpub _ Hx) as [Hp|(_ & n & A & B & _)].
      * eapply (k_live _ Hw); eauto.
      * specialize (Hlf _ _ Hl Hne). unfold leaf in Hlf. rewrite A in Hlf. inversion Hlf; subst. discriminate.
  - intros k. destruct (k_cover _ Hw k) as (x & c & A & B & C). destruct (Lb _ _ B) as (c' & D & E & F).
    exists x, c'. split; auto. split; auto. unfold in_range in *. rewrite E, F. auto.
  - intros x y a b Hx Hy Ha Hb'. destruct (Lf _ _ Ha) as (a0 & A1 & A2 & A3). destruct (Lf _ _ Hb') as (b0 & B1 & B2 & B3).
    pose proof (k_uniq _ Hw _ _ _ _ (R2 _ Hx) (R2 _ Hy) A1 B1) as H. unfold before in *.
    rewrite A2, A3, B2, B3. exact H.
Qed.

Lemma lnext_same m m' i p n p' n' : get m i = Some (p, n) -> upd1 m m' i p' n' ->
  is_leaf n' = is_leaf n -> (is_leaf n = true -> nhigh n' = nhigh n) -> forall x, lnext m x = lnext m' x.
Proof.
  intros Hg Hu E1 E2 x. unfold lnext. destruct (Nat.eq_dec x i) as [->|Hne].
  - rewrite (upd1_node _ _ _ _ _ Hu). assert (H : node_of m i = Some n) by (apply node_of_get; eauto).
    rewrite H. destruct n, n'; simpl in *; try discriminate; auto. symmetry; auto.
  - rewrite (upd1_other _ _ _ _ _ _ Hu Hne). auto.
Qed.

Lemma contents_mono m m' : (forall x, reach m x -> reach m' x) ->
  (forall x c k v, reach m x -> leaf m x c -> in_range c k -> lmem c k v ->
     exists c', leaf m' x c' /\ in_range c' k /\ lmem c' k v) ->
  forall k v, contents m k v -> contents m' k v.
Proof.
  intros H1 H2 k v (i & c & A & B & C & D). destruct (H2 _ _ _ _ A B C D) as (c' & E & F & G).
  exists i, c'. split; auto.
Qed.

(** ** An inner page is replaced (possibly publishing a new inner page). *)
Lemma swap_inner w m' (pub' : nat -> Prop) i p c p' c' :
  wok w -> pub w i -> get (wm w) i = Some (p, NInner c) -> is_remove (NInner c) = false ->
  upd1 (wm w) m' i p' (NInner c') -> ilow c' = ilow c ->
  (forall x, pub w x -> pub' x) ->
  (forall x, pub' x -> pub w x \/ (x <> i /\ exists n, node_of (wm w) x = Some n /\ is_leaf n = false /\
     bodyok {| wm := m'; pub := pub' |} n /\ nextok {| wm := m'; pub := pub' |} n)) ->
  bodyok {| wm := m'; pub := pub' |} (NInner c') -> nextok {| wm := m'; pub := pub' |} (NInner c') ->
  wok {| wm := m'; pub := pub' |} /\ same (contents (wm w)) (contents m').
Proof.
  intros Hw Hp Hg Hrm Hu El Hmono Hpub Hb Hn.
  assert (Hle : le w {| wm := m'; pub := pub' |}) by (eapply upd1_le; eauto).
  assert (Hnx : forall x, lnext (wm w) x = lnext m' x).
  { eapply lnext_same; eauto. simpl; discriminate. }
  assert (Hlf : forall x cc, leaf m' x cc <-> leaf (wm w) x cc).
  { intros x cc. unfold leaf. destruct (Nat.eq_dec x i) as [->|Hne].
    - rewrite (upd1_node _ _ _ _ _ Hu). assert (H : node_of (wm w) i = Some (NInner c)) by (apply node_of_get; eauto).
      rewrite H. split; discriminate.
    - rewrite (upd1_other _ _ _ _ _ _ Hu Hne). tauto. }
  split.
  - eapply same_link_ok; eauto.
    + intros x cc H _. apply Hlf; auto.
    + intros cc H; discriminate.
    + intros cc H. exfalso. unfold leaf in H. assert (H' : node_of (wm w) i = Some (NInner c)) by (apply node_of_get; eauto).
      congruence.
  - intros k v. split; apply contents_mono.
    + apply reach_mono; auto.
    + intros x cc k0 v0 _ A B C. exists cc. rewrite Hlf. auto.
    + apply reach_mono; auto.
    + intros x cc k0 v0 _ A B C. exists cc. rewrite <- Hlf. auto.
Qed.

(** ** A leaf page is replaced by one with the same range and neighbour. *)
Lemma swap_leaf w m' i p c p' c' :
  wok w -> pub w i -> get (wm w) i = Some (p, NLeaf c) -> is_remove (NLeaf c) = false ->
  upd1 (wm w) m' i p' (NLeaf c') -> llow c' = llow c -> lhigh c' = lhigh c -> lwfw (lbody c') ->
  let w' := {| wm := m'; pub := pub w |} in
  wok w' /\ le w w' /\
  (forall k v, in_range c k -> (contents m' k v <-> lmem c' k v)) /\
  (forall k v, in_range c k -> (contents (wm w) k v <-> lmem c k v)) /\
  (forall k v, ~ in_range c k -> (contents m' k v <-> contents (wm w) k v)).
Proof.
  intros Hw Hp Hg Hrm Hu El Eh Hwf w'.
  assert (Hl : leaf (wm w) i c) by (apply node_of_get; eauto).
  assert (Hr : reach (wm w) i) by (eapply (k_live _ Hw); eauto).
  assert (Hle : le w w') by (eapply upd1_le; eauto).
  assert (Hnx : forall x, lnext (wm w) x = lnext m' x) by (eapply lnext_same; eauto).
  assert (Hl' : leaf m' i c') by (apply (upd1_node _ _ _ _ _ Hu)).
  assert (Hok : wok w').
  { eapply same_link_ok; eauto.
    - intros x cc H Hne. unfold leaf in *. rewrite (upd1_other _ _ _ _ _ _ Hu Hne) in H. auto.
    - intros cc E. inversion E; subst. exists c. auto.
    - destruct (k_pub _ Hw _ Hp) as (n & A & _ & B). unfold leaf in Hl. rewrite Hl in A. inversion A; subst n.
      intros h j E. apply (nextok_le w w' _ Hw Hle B). simpl in *. congruence. }
  split; auto. split; auto.
  assert (Hr' : reach m' i) by (eapply reach_mono; eauto).
  assert (Hir : forall k, in_range c k <-> in_range c' k) by (intros k; unfold in_range; rewrite El, Eh; tauto).
  split; [intros k v Hk; apply (contents_leaf w' i); auto; apply Hir; auto|].
  split; [intros k v Hk; apply (contents_leaf w i); auto|].
  intros k v Hk. split; intros (x & cc & A & B & C & D).
  - exists x, cc. split; [eapply reach_mono; [|exact A]; auto|]. split; auto.
    destruct (Nat.eq_dec x i) as [->|Hne].
    + rewrite (leaf_fun _ _ _ _ B Hl') in *. exfalso. apply Hk, Hir. auto.
    + unfold leaf in B. rewrite (upd1_other _ _ _ _ _ _ Hu Hne) in B. auto.
  - exists x, cc. split; [eapply reach_mono; [|exact A]; auto|]. split; auto.
    destruct (Nat.eq_dec x i) as [->|Hne].
    + rewrite (leaf_fun _ _ _ _ B Hl) in *. exfalso. apply Hk. auto.
    + rewrite (upd1_other _ _ _ _ _ _ Hu Hne). auto.
Qed.
Lemma in_range_dec c k : {in_range c k} + {~ in_range c k}.
Proof.
  unfold in_range, above, below. destruct (llow c) as [a|], (lhigh c) as [[b ?]|];
    repeat match goal with |- context [klt ?x ?y = ?z] => destruct (klt x y) end;
    try (left; split; auto; reflexivity); right; intros [? ?]; congruence.
Defined.
Lemma swap_leaf_same w m' i p c p' c' :
  wok w -> pub w i -> get (wm w) i = Some (p, NLeaf c) -> is_remove (NLeaf c) = false ->
  upd1 (wm w) m' i p' (NLeaf c') -> llow c' = llow c -> lhigh c' = lhigh c -> lwfw (lbody c') ->
  (forall k v, in_range c k -> (lmem c' k v <-> lmem c k v)) ->
  let w' := {| wm := m'; pub := pub w |} in
  wok w' /\ le w w' /\ same (contents (wm w)) (contents m').
Proof.
  intros Hw Hp Hg Hrm Hu El Eh Hwf Hm w'.
  destruct (swap_leaf _ _ _ _ _ _ _ Hw Hp Hg Hrm Hu El Eh Hwf) as (A & B & C & D & E).
  split; auto. split; auto. intros k v. destruct (in_range_dec c k) as [Hk|Hk].
  - rewrite C, D, Hm; tauto.
  - rewrite E; tauto.
Qed.
Lemma swap_leaf_ins w m' i p c p' k v ix :
  wok w -> pub w i -> get (wm w) i = Some (p, NLeaf c) -> is_remove (NLeaf c) = false ->
  upd1 (wm w) m' i p' (NLeaf (LIns k v ix c)) -> lwfw (LIns k v ix c) ->
  let w' := {| wm := m'; pub := pub w |} in
  wok w' /\ le w w' /\ ~ contents (wm w) k v /\
  (forall k' v', contents m' k' v' <-> contents (wm w) k' v' \/ (k' = k /\ v' = v)).
Proof.
  intros Hw Hp Hg Hrm Hu Hwf w'.
  destruct (swap_leaf _ _ _ _ _ _ _ Hw Hp Hg Hrm Hu eq_refl eq_refl Hwf) as (A & B & C & D & E).
  destruct Hwf as (W1 & W2 & W3 & _).
  split; auto. split; auto. split; [rewrite D; auto|]. intros k' v'. destruct (in_range_dec c k') as [Hk|Hk].
  - rewrite C, D by auto. simpl. tauto.
  - rewrite E by auto. split; auto. intros [|[-> ->]]; tauto.
Qed.
Lemma swap_leaf_del w m' i p c p' k v ix :
  wok w -> pub w i -> get (wm w) i = Some (p, NLeaf c) -> is_remove (NLeaf c) = false ->
  upd1 (wm w) m' i p' (NLeaf (LDel k v ix c)) -> lwfw (LDel k v ix c) ->
  let w' := {| wm := m'; pub := pub w |} in
  wok w' /\ le w w' /\ contents (wm w) k v /\
  (forall k' v', contents m' k' v' <-> contents (wm w) k' v' /\ ~ (k' = k /\ v' = v)).
Proof.
  intros Hw Hp Hg Hrm Hu Hwf w'.
  destruct (swap_leaf _ _ _ _ _ _ _ Hw Hp Hg Hrm Hu eq_refl eq_refl Hwf) as (A & B & C & D & E).
  destruct Hwf as (W1 & W2 & W3 & _).
  split; auto. split; auto. split; [rewrite D; auto|]. intros k' v'. destruct (in_range_dec c k') as [Hk|Hk].
  - rewrite C, D by auto. simpl. tauto.
  - rewrite E by auto. split; [|tauto]. intros H. split; auto. intros [-> ->]; tauto.
Qed.

Lemma reach_uniq_pred w x y cx cy h n : wok w -> reach (wm w) x -> reach (wm w) y ->
  leaf (wm w) x cx -> leaf (wm w) y cy -> lhigh cx = Some (h, n) -> lhigh cy = Some (h, n) -> x = y.
Proof.
  intros Hw Hx Hy Lx Ly Ex Ey.
  destruct (reach_leaf _ _ Hw Hx) as (_ & c1 & L1 & W1). rewrite (leaf_fun _ _ _ _ L1 Lx) in W1.
  destruct (reach_leaf _ _ Hw Hy) as (_ & c2 & L2 & W2). rewrite (leaf_fun _ _ _ _ L2 Ly) in W2.
  apply leaf_range in W1. apply leaf_range in W2.
  destruct (k_uniq _ Hw _ _ _ _ Hx Hy Lx Ly) as [|[H|H]]; auto; exfalso; unfold before in H;
    rewrite ?Ex, ?Ey in *.
  - destruct (llow cy); [|tauto]. simpl in W2. order.
  - destruct (llow cx); [|tauto]. simpl in W1. order.
Qed.

(** ** Leaf split: the sibling [j] is published. *)
Lemma swap_split w m' i p low items high p' k j si :
  let c := LBase low items high in
  wok w -> pub w i -> get (wm w) i = Some (p, NLeaf c) ->
  lsplit_sibling c = Ok (Some (LBase (Some k) si high)) ->
  ~ pub w j -> leaf (wm w) j (LBase (Some k) si high) ->
  upd1 (wm w) m' i p' (NLeaf (LSplit k j (length si) c)) ->
  let w' := {| wm := m'; pub := fun x => pub w x \/ x = j |} in
  wok w' /\ le w w' /\ same (contents (wm w)) (contents m').
Proof.
  intros c Hw Hp Hg Hs Hj Hlj Hu w'.
  assert (Hl : leaf (wm w) i c) by (apply node_of_get; eauto).
  assert (Hr : reach (wm w) i) by (eapply (k_live _ Hw); eauto).
  assert (Hle : le w w') by (eapply upd1_le; eauto; simpl; auto).
  assert (Hij : j <> i) by (intros ->; auto).
  destruct (reach_leaf _ _ Hw Hr) as (_ & c0 & L0 & W0). rewrite (leaf_fun _ _ _ _ L0 Hl) in W0. simpl in W0.
  change (lwfw c) in W0.
  destruct (lsplit_spec _ _ _ _ W0 Hs) as (key & si' & E & Ws & Wsp & M1 & M2 & _). inversion E; subst key si'. clear E.
  specialize (Wsp j).
  assert (Hni : leaf m' i (LSplit k j (length si) c)) by (apply (upd1_node _ _ _ _ _ Hu)).
  assert (Hnj : leaf m' j (LBase (Some k) si high)) by (unfold leaf; rewrite (upd1_other _ _ _ _ _ _ Hu Hij); auto).
  assert (Hno : forall x, x <> i -> node_of m' x = node_of (wm w) x) by (intros; eapply upd1_other; eauto).
  assert (Hbk : below high k /\ match low with None => True | Some l => klt l k = true end) by (simpl in Wsp; tauto).
  destruct Hbk as [Hbk Hlk].
  assert (Rf : forall x, reach (wm w) x -> x <> j).
  { intros x Hx ->. apply Hj. apply (reach_leaf _ _ Hw Hx). }
  assert (R1i : forall x, reach (wm w) x -> reach m' x).
  { intros x. induction 1 as [|y cy h n H IH Hn Hh]; [constructor|].
    destruct (Nat.eq_dec y i) as [->|Hne].
    - unfold leaf in Hl. rewrite Hl in Hn. inversion Hn; subst cy. simpl in Hh. subst high.
      assert (Hjr : reach m' j) by (eapply R_next; [exact IH|exact Hni|simpl; eauto]).
      eapply R_next; [exact Hjr|exact Hnj|simpl; eauto].
    - eapply R_next; [exact IH|rewrite Hno; eauto|eauto]. }
  assert (R1j : reach m' j) by (eapply R_next; [apply R1i; eauto|exact Hni|simpl; eauto]).
  assert (R2 : forall x, reach m' x -> reach (wm w) x \/ x = j).
  { intros x. induction 1 as [|y cy h n H IH Hn Hh]; [left; constructor|].
    destruct (Nat.eq_dec y i) as [->|Hne].
    - unfold leaf in Hni. rewrite Hni in Hn. inversion Hn; subst cy. simpl in Hh. inversion Hh; auto.
    - destruct IH as [IH| ->].
      + left. rewrite Hno in Hn by auto. eapply R_next; eauto.
      + unfold leaf in Hnj. rewrite Hnj in Hn. inversion Hn; subst cy. simpl in Hh. subst high.
        left. eapply R_next; [exact Hr|exact Hl|simpl; eauto]. }
  assert (Hnk : nextok w (NLeaf c)).
  { destruct (k_pub _ Hw _ Hp) as (n & A & _ & B). unfold leaf in Hl. rewrite Hl in A. inversion A; subst n. auto. }
  assert (Hok : wok w').
  { constructor; simpl.
    - apply Hu.
    - intros x Hx. destruct (Nat.eq_dec x i) as [->|Hne].
      + exists (NLeaf (LSplit k j (length si) c)). split; [exact Hni|]. split; [exact Wsp|].
        intros h n E. simpl in E. inversion E; subst h n. simpl. split; auto. split.
        * unfold lo. unfold leaf in Hnj. rewrite Hnj. auto.
        * eexists; split; [exact Hnj|auto].
      + destruct Hx as [Hx| ->].
        * rewrite Hno by auto. destruct (k_pub _ Hw _ Hx) as (n & A & B & C). exists n. split; auto.
          split; [eapply bodyok_le; eauto|eapply nextok_le; eauto].
        * exists (NLeaf (LBase (Some k) si high)). split; [exact Hnj|]. split; [exact Ws|].
          intros h n E. apply (nextok_le w w' _ Hw Hle Hnk). exact E.
    - rewrite (u_root _ _ _ _ _ Hu). destruct (k_root _ Hw) as [A B]. split; auto.
      etransitivity; [exact (le_lo w w' _ Hw Hle A)|auto].
    - destruct (k_first _ Hw) as (A & B & c1 & C). split; auto. split.
      + etransitivity; [exact (le_lo w w' _ Hw Hle A)|auto].
      + destruct (Nat.eq_dec FIRST_LEAF i) as [<-|Hne]; [eauto|]. exists c1. unfold leaf. rewrite Hno; auto.
    - intros x cc Hx Hlx Hrm. destruct Hx as [Hx| ->]; auto. apply R1i.
      destruct (Nat.eq_dec x i) as [->|Hne]; auto.
      eapply (k_live _ Hw); eauto. unfold leaf in *. rewrite Hno in Hlx; auto.
    - intros x. destruct (k_cover _ Hw x) as (y & cy & A & B & C).
      destruct (Nat.eq_dec y i) as [->|Hne].
      + rewrite (leaf_fun _ _ _ _ B Hl) in C. unfold in_range in C. simpl in C.
        destruct (klt x k) eqn:E.
        * exists i, (LSplit k j (length si) c). split; auto. split; auto. unfold in_range; simpl. tauto.
        * exists j, (LBase (Some k) si high). split; auto. split; auto. unfold in_range; simpl. tauto.
      + exists y, cy. split; auto. split; auto. unfold leaf. rewrite Hno; auto.
    - assert (Hold : forall y cy, reach (wm w) y -> leaf (wm w) y cy -> y <> i ->
                 (before cy c \/ before c cy)).
      { intros y cy Hy Ly Hne. destruct (k_uniq _ Hw _ _ _ _ Hy Hr Ly Hl) as [|[|]]; tauto. }
      assert (Hi' : forall y cy, reach (wm w) y -> leaf (wm w) y cy -> y <> i ->
                 before cy (LSplit k j (length si) c) \/ before (LSplit k j (length si) c) cy).
      { intros y cy Hy Ly Hne. destruct (Hold _ _ Hy Ly Hne) as [H|H]; [left; exact H|right].
        unfold before in *; simpl in *. destruct high as [[h ?]|]; [|tauto]. destruct (llow cy); [|tauto].
        simpl in Hbk. order. }
      assert (Hj' : forall y cy, reach (wm w) y -> leaf (wm w) y cy -> y <> i ->
                 before cy (LBase (Some k) si high) \/ before (LBase (Some k) si high) cy).
      { intros y cy Hy Ly Hne. destruct (Hold _ _ Hy Ly Hne) as [H|H]; [left|right; exact H].
        unfold before in *; simpl in *. destruct low; [|destruct (lhigh cy) as [[? ?]|]; tauto].
        destruct (lhigh cy) as [[? ?]|]; [|tauto]. order. }
      assert (Hijb : before (LSplit k j (length si) c) (LBase (Some k) si high)).
      { unfold before; simpl. order. }
      intros x y a b Hx Hy Ha Hb. destruct (Nat.eq_dec x y) as [|Hxy]; auto. right.
      assert (Cx : (x = i /\ a = LSplit k j (length si) c) \/ (x = j /\ a = LBase (Some k) si high) \/
                   (x <> i /\ reach (wm w) x /\ leaf (wm w) x a)).
      { destruct (Nat.eq_dec x i) as [->|Hne]; [left; split; auto; eapply leaf_fun; eauto|right].
        destruct (R2 _ Hx) as [Hx'| ->]; [right|left; split; auto; eapply leaf_fun; eauto].
        split; auto. split; auto. unfold leaf in *. rewrite Hno in Ha; auto. }
      assert (Cy : (y = i /\ b = LSplit k j (length si) c) \/ (y = j /\ b = LBase (Some k) si high) \/
                   (y <> i /\ reach (wm w) y /\ leaf (wm w) y b)).
      { destruct (Nat.eq_dec y i) as [->|Hne]; [left; split; auto; eapply leaf_fun; eauto|right].
        destruct (R2 _ Hy) as [Hy'| ->]; [right|left; split; auto; eapply leaf_fun; eauto].
        split; auto. split; auto. unfold leaf in *. rewrite Hno in Hb; auto. }
      destruct Cx as [[-> ->]|[[-> ->]|(X1 & X2 & X3)]], Cy as [[-> ->]|[[-> ->]|(Y1 & Y2 & Y3)]]; try tauto.
      + destruct (Hi' _ _ Y2 Y3 Y1); tauto.
      + destruct (Hj' _ _ Y2 Y3 Y1); tauto.
      + destruct (Hi' _ _ X2 X3 X1); tauto.
      + destruct (Hj' _ _ X2 X3 X1); tauto.
      + destruct (k_uniq _ Hw _ _ _ _ X2 Y2 X3 Y3); tauto. }
  split; auto. split; auto.
  intros kk v. split.
  - intros (y & cy & A & B & C & D). destruct (Nat.eq_dec y i) as [->|Hne].
    + rewrite (leaf_fun _ _ _ _ B Hl) in C, D. unfold in_range in C. simpl in C, D.
      destruct (klt kk k) eqn:E.
      * exists i, (LSplit k j (length si) c). split; auto. split; auto. split; [unfold in_range; simpl; tauto|].
        simpl. auto.
      * exists j, (LBase (Some k) si high). split; auto. split; auto. split; [unfold in_range; simpl; tauto|].
        simpl. auto.
    + exists y, cy. split; auto. split; auto. rewrite Hno; auto.
  - intros (y & cy & A & B & C & D). destruct (Nat.eq_dec y i) as [->|Hne].
    + rewrite (leaf_fun _ _ _ _ B Hni) in C, D. unfold in_range in C. simpl in C, D.
      exists i, c. split; auto. split; auto. split; [|simpl; tauto].
      destruct C as [C1 C2]. clear Hw Hu. unfold in_range; simpl. split; [tauto|]. destruct high as [[h ?]|]; simpl in *; auto. order.
    + destruct (R2 _ A) as [A'| ->].
      * exists y, cy. split; auto. split; auto. rewrite Hno in B; auto.
      * rewrite (leaf_fun _ _ _ _ B Hnj) in C, D. unfold in_range in C. simpl in C, D.
        exists i, c. split; auto. split; auto. split; [|simpl; apply M2; auto].
        destruct C as [C1 C2]. unfold in_range; simpl. split; [|tauto]. destruct low; simpl; auto. order.
Qed.

(** ** Leaf merge: the removed page [j] is unlinked. *)
Lemma swap_merge w m' i p lc p' mk j rid rc :
  wok w -> pub w i -> get (wm w) i = Some (p, NLeaf lc) -> is_remove (NLeaf lc) = false ->
  lhigh lc = Some (mk, j) -> leaf (wm w) j (LRemove rid rc) ->
  upd1 (wm w) m' i p' (NLeaf (LMerge mk j rc lc)) ->
  let w' := {| wm := m'; pub := pub w |} in
  wok w' /\ le w w' /\ same (contents (wm w)) (contents m').
Proof.
  intros Hw Hp Hg Hrm Eh Hlj Hu w'.
  assert (Hl : leaf (wm w) i lc) by (apply node_of_get; eauto).
  assert (Hr : reach (wm w) i) by (eapply (k_live _ Hw); eauto).
  assert (Hle : le w w') by (eapply upd1_le; eauto; simpl; auto).
  assert (Hrj : reach (wm w) j) by (eapply R_next; eauto).
  assert (Wl : lwfw lc).
  { destruct (reach_leaf _ _ Hw Hr) as (_ & c0 & L0 & W0). rewrite (leaf_fun _ _ _ _ L0 Hl) in W0.
    destruct lc; auto. discriminate. }
  assert (Wr : lwfw rc).
  { destruct (reach_leaf _ _ Hw Hrj) as (_ & c0 & L0 & W0). rewrite (leaf_fun _ _ _ _ L0 Hlj) in W0. auto. }
  assert (Hnk : nextok w (NLeaf lc)).
  { destruct (k_pub _ Hw _ Hp) as (n & A & _ & B). unfold leaf in Hl. rewrite Hl in A. inversion A; subst n. auto. }
  destruct (Hnk _ _ Eh) as (Pj & Lj & _).
  assert (Er : llow rc = Some mk).
  { unfold lo in Lj. unfold leaf in Hlj. rewrite Hlj in Lj. exact Lj. }
  assert (Hnkj : nextok w (NLeaf (LRemove rid rc))).
  { destruct (k_pub _ Hw _ Pj) as (n & A & _ & B). unfold leaf in Hlj. rewrite Hlj in A. inversion A; subst n. auto. }
  assert (Rl : range_ok (llow lc) (lhigh lc)) by (apply lwfw_range; auto).
  assert (Rr : range_ok (llow rc) (lhigh rc)) by (apply lwfw_range; auto).
  rewrite Eh in Rl. rewrite Er in Rr.
  assert (Hij : j <> i).
  { intros ->. rewrite (leaf_fun _ _ _ _ Hl Hlj) in Hrm. discriminate. }
  set (nc := LMerge mk j rc lc) in *.
  assert (Wn : lwfw nc) by (unfold nc; simpl; auto).
  assert (Hni : leaf m' i nc) by (apply (upd1_node _ _ _ _ _ Hu)).
  assert (Hno : forall x, x <> i -> node_of m' x = node_of (wm w) x) by (intros; eapply upd1_other; eauto).
  assert (Hlo2 : FIRST_LEAF <> j).
  { intros E. destruct (k_first _ Hw) as (_ & B & _). rewrite E in B. congruence. }
  assert (Hnj : forall h n, lhigh rc = Some (h, n) -> n <> j).
  { intros h n E ->. destruct (Hnkj _ _ E) as (_ & B & _). rewrite Lj in B. inversion B; subst.
    rewrite E in Rr. simpl in Rr. rewrite klt_irrefl in Rr. discriminate. }
  assert (R1 : forall x, reach (wm w) x -> (x <> j -> reach m' x) /\ (x = j -> reach m' i)).
  { intros x. induction 1 as [|y cy h n H IH Hn Hh].
    - split; [constructor|]. intros E; exfalso; auto.
    - destruct (Nat.eq_dec y j) as [->|Hyj].
      + unfold leaf in Hlj. rewrite Hlj in Hn. inversion Hn; subst cy. simpl in Hh.
        destruct IH as [_ IH]. specialize (IH eq_refl). split.
        * intros _. eapply R_next; [exact IH|exact Hni|unfold nc; simpl; eauto].
        * intros ->. exfalso. eapply Hnj; eauto.
      + destruct IH as [IH _]. specialize (IH Hyj). destruct (Nat.eq_dec y i) as [->|Hyi].
        * unfold leaf in Hl. rewrite Hl in Hn. inversion Hn; subst cy. rewrite Eh in Hh. inversion Hh; subst.
          split; [tauto|auto].
        * split.
          { intros _. eapply R_next; [exact IH|rewrite Hno; eauto|eauto]. }
          { intros ->. exfalso. apply Hyi.
            destruct (k_pub _ Hw _ (proj1 (reach_leaf _ _ Hw H))) as (ny & A & _ & B).
            rewrite Hn in A. inversion A; subst ny. destruct (B _ _ Hh) as (_ & B2 & _).
            rewrite Lj in B2. inversion B2; subst h.
            eapply reach_uniq_pred; [exact Hw|exact H|exact Hr|exact Hn|exact Hl|exact Hh|exact Eh]. } }
  assert (R2 : forall x, reach m' x -> reach (wm w) x /\ x <> j).
  { intros x. induction 1 as [|y cy h n H IH Hn Hh]; [split; [constructor|auto]|].
    destruct IH as [IH Hyj]. destruct (Nat.eq_dec y i) as [->|Hyi].
    - unfold leaf in Hni. rewrite Hni in Hn. inversion Hn; subst cy. unfold nc in Hh. simpl in Hh.
      split; [|eapply Hnj; eauto]. eapply R_next; [exact Hrj|exact Hlj|exact Hh].
    - rewrite Hno in Hn by auto. split; [eapply R_next; eauto|]. intros ->. apply Hyi.
      destruct (k_pub _ Hw _ (proj1 (reach_leaf _ _ Hw IH))) as (ny & A & _ & B).
      rewrite Hn in A. inversion A; subst ny. destruct (B _ _ Hh) as (_ & B2 & _).
      rewrite Lj in B2. inversion B2; subst h.
      eapply reach_uniq_pred; [exact Hw|exact IH|exact Hr|exact Hn|exact Hl|exact Hh|exact Eh]. }
  assert (Ri : reach m' i) by (apply R1; auto).
  assert (Hok : wok w').
  { constructor; simpl.
    - apply Hu.
    - intros x Hx. destruct (Nat.eq_dec x i) as [->|Hne].
      + exists (NLeaf nc). split; [exact Hni|]. split; [exact Wn|].
        intros h n E. apply (nextok_le w w' _ Hw Hle Hnkj). exact E.
      + rewrite Hno by auto. destruct (k_pub _ Hw _ Hx) as (n & A & B & C). exists n. split; auto.
        split; [eapply bodyok_le; eauto|eapply nextok_le; eauto].
    - rewrite (u_root _ _ _ _ _ Hu). destruct (k_root _ Hw) as [A B]. split; auto.
      etransitivity; [exact (le_lo w w' _ Hw Hle A)|auto].
    - destruct (k_first _ Hw) as (A & B & c1 & C). split; auto. split.
      + etransitivity; [exact (le_lo w w' _ Hw Hle A)|auto].
      + destruct (Nat.eq_dec FIRST_LEAF i) as [<-|Hne]; [eauto|]. exists c1. unfold leaf. rewrite Hno; auto.
    - intros x cc Hx Hlx Hrx. destruct (Nat.eq_dec x i) as [->|Hne]; auto.
      unfold leaf in Hlx. rewrite Hno in Hlx by auto. apply R1.
      + eapply (k_live _ Hw); eauto.
      + intros ->. unfold leaf in Hlj. rewrite Hlj in Hlx. inversion Hlx; subst. discriminate.
    - intros x. destruct (k_cover _ Hw x) as (y & cy & A & B & C).
      destruct (Nat.eq_dec y i) as [->|Hne].
      + rewrite (leaf_fun _ _ _ _ B Hl) in C. exists i, nc. split; auto. split; auto. apply (in_rangew_merge_l _ _ _ _ _ Wn C).
      + destruct (Nat.eq_dec y j) as [->|Hyj].
        * rewrite (leaf_fun _ _ _ _ B Hlj) in C. exists i, nc. split; auto. split; auto. apply (in_rangew_merge_r _ _ _ _ _ Wn C).
        * exists y, cy. split; [apply R1; auto|]. split; auto. unfold leaf. rewrite Hno; auto.
    - assert (Hi' : forall y cy, reach (wm w) y -> leaf (wm w) y cy -> y <> i -> y <> j -> before cy nc \/ before nc cy).
      { intros y cy Hy Ly Hyi Hyj.
        destruct (reach_leaf _ _ Hw Hy) as (_ & c1 & L1 & W1). rewrite (leaf_fun _ _ _ _ L1 Ly) in W1. apply leaf_range in W1.
        destruct (k_uniq _ Hw _ _ _ _ Hy Hr Ly Hl) as [|[H|H]]; [tauto|left; exact H|].
        destruct (k_uniq _ Hw _ _ _ _ Hy Hrj Ly Hlj) as [|[H'|H']]; [tauto| |right; exact H'].
        exfalso. unfold before in H, H'. rewrite Eh in H. simpl in H'. rewrite Er in H'.
        destruct (lhigh cy) as [[? ?]|]; [|tauto]. destruct (llow cy); [|tauto]. simpl in W1. order. }
      intros x y a b Hx Hy Ha Hb. destruct (Nat.eq_dec x y) as [|Hxy]; auto. right.
      destruct (R2 _ Hx) as [X1 X2], (R2 _ Hy) as [Y1 Y2].
      destruct (Nat.eq_dec x i) as [->|Hxi].
      + rewrite (leaf_fun _ _ _ _ Ha Hni). unfold leaf in Hb. rewrite Hno in Hb by auto.
        destruct (Hi' _ _ Y1 Hb); auto.
      + unfold leaf in Ha. rewrite Hno in Ha by auto. destruct (Nat.eq_dec y i) as [->|Hyi].
        * rewrite (leaf_fun _ _ _ _ Hb Hni). destruct (Hi' _ _ X1 Ha); auto.
        * unfold leaf in Hb. rewrite Hno in Hb by auto. destruct (k_uniq _ Hw _ _ _ _ X1 Y1 Ha Hb); tauto. }
  split; auto. split; auto. intros k v. split.
  - intros (y & cy & A & B & C & D). destruct (Nat.eq_dec y i) as [->|Hne].
    + rewrite (leaf_fun _ _ _ _ B Hl) in C, D. exists i, nc. split; auto. split; auto.
      split; [apply (in_rangew_merge_l _ _ _ _ _ Wn C)|]. unfold nc; simpl.
      unfold in_range in C. rewrite Eh in C. simpl in C. destruct C as [_ ->]. auto.
    + destruct (Nat.eq_dec y j) as [->|Hyj].
      * rewrite (leaf_fun _ _ _ _ B Hlj) in C, D. exists i, nc. split; auto. split; auto.
        split; [apply (in_rangew_merge_r _ _ _ _ _ Wn C)|]. unfold nc; simpl.
        unfold in_range in C. simpl in C. rewrite Er in C. simpl in C. destruct C as [-> _]. auto.
      * exists y, cy. split; [apply R1; auto|]. split; auto. rewrite Hno; auto.
  - intros (y & cy & A & B & C & D). destruct (R2 _ A) as [A1 A2]. destruct (Nat.eq_dec y i) as [->|Hne].
    + rewrite (leaf_fun _ _ _ _ B Hni) in C, D.
      pose proof (in_rangew_merge _ _ _ _ _ Wn C) as C1.
      unfold nc in D; simpl in D. destruct (klt k mk) eqn:E.
      * exists i, lc. auto.
      * exists j, (LRemove rid rc). auto.
    + exists y, cy. split; auto. split; auto. rewrite Hno in B; auto.
Qed.

(** ** A new, unpublished page. *)
Lemma new_ok w n : wok w -> ~ pub w (nid (wm w)) ->
  let w' := {| wm := new_mem (wm w) n; pub := pub w |} in
  wok w' /\ le w w' /\ same (contents (wm w)) (contents (wm w')).
Proof.
  intros Hw Hnp w'.
  assert (Hu : upd1 (wm w) (wm w') (nid (wm w)) (nptr (wm w)) n) by (apply new_upd1; apply Hw).
  assert (Hno : forall x, x <> nid (wm w) -> node_of (wm w') x = node_of (wm w) x) by (intros; eapply upd1_other; eauto).
  assert (Hne : forall x, pub w x -> x <> nid (wm w)) by (intros x Hx ->; auto).
  assert (Hle : le w w').
  { constructor; simpl; auto.
    - apply Hu.
    - intros i p a Hi Ha. exists p, a. split; auto. rewrite (u_other _ _ _ _ _ Hu); auto. }
  assert (R1 : forall x, reach (wm w) x -> reach (wm w') x /\ x <> nid (wm w)).
  { intros x Hx. split; [|apply Hne; apply (reach_leaf _ _ Hw Hx)].
    induction Hx as [|y cy h n0 H IH Hn Hh]; [constructor|]. eapply R_next; [exact IH| |exact Hh].
    rewrite Hno; auto. apply Hne. apply (reach_leaf _ _ Hw H). }
  assert (R2 : forall x, reach (wm w') x -> reach (wm w) x).
  { intros x. induction 1 as [|y cy h n0 H IH Hn Hh]; [constructor|]. eapply R_next; [exact IH| |exact Hh].
    rewrite Hno in Hn; auto. apply Hne. apply (reach_leaf _ _ Hw IH). }
  assert (Hlf : forall x c, reach (wm w) x -> (leaf (wm w') x c <-> leaf (wm w) x c)).
  { intros x c Hx. unfold leaf. rewrite Hno; [tauto|]. apply R1; auto. }
  split; [constructor; simpl|].
  - apply Hu.
  - intros x Hx. destruct (k_pub _ Hw _ Hx) as (a & A & B & C). exists a. split; [rewrite Hno; auto|].
    split; [eapply bodyok_le; eauto|eapply nextok_le; eauto].
  - destruct (k_root _ Hw) as [A B]. split; auto. etransitivity; [exact (le_lo w w' _ Hw Hle A)|auto].
  - destruct (k_first _ Hw) as (A & B & c1 & C). split; auto. split.
    + etransitivity; [exact (le_lo w w' _ Hw Hle A)|auto].
    + exists c1. unfold leaf. rewrite Hno; auto.
  - intros x c Hx Hl Hrm. apply R1. eapply (k_live _ Hw); eauto. unfold leaf in *. rewrite Hno in Hl; auto.
  - intros k. destruct (k_cover _ Hw k) as (x & c & A & B & C). exists x, c. split; [apply R1; auto|].
    split; auto. apply Hlf; auto.
  - intros x y a b Hx Hy Ha Hb. apply R2 in Hx. apply R2 in Hy. apply (Hlf _ _ Hx) in Ha. apply (Hlf _ _ Hy) in Hb.
    apply (k_uniq _ Hw x y); auto.
  - split; auto. intros k v. split; apply contents_mono.
    + intros x Hx. apply R1; auto.
    + intros x c k0 v0 Hx A B C. exists c. rewrite Hlf; auto.
    + auto.
    + intros x c k0 v0 Hx A B C. exists c. rewrite <- Hlf; auto.
Qed.

(** ** A new root. *)
Lemma root_ok w i k sib r : wok w -> pub w i -> pub w sib -> lo (wm w) sib = Some k -> root (wm w) = i ->
  ~ pub w r -> node_of (wm w) r = Some (NInner (IBase 0 None i [(kdef, i); (k, sib)] None)) ->
  let w' := {| wm := root_mem (wm w) r; pub := fun x => pub w x \/ x = r |} in
  wok w' /\ le w w' /\ same (contents (wm w)) (contents (wm w')).
Proof.
  intros Hw Hpi Hps Els Er Hnr Hn w'.
  assert (Hget : forall x, get (wm w') x = get (wm w) x) by reflexivity.
  assert (Hno : forall x, node_of (wm w') x = node_of (wm w) x) by reflexivity.
  assert (Hlo : forall x, lo (wm w') x = lo (wm w) x) by reflexivity.
  assert (Hle : le w w').
  { constructor; simpl; auto. intros x p a _ Ha. exists p, a. auto. }
  assert (R : forall x, reach (wm w') x <-> reach (wm w) x) by (intros; split; apply reach_mono; reflexivity).
  split; [constructor; simpl|].
  - destruct (k_bound _ Hw) as [A B]. constructor; auto.
  - intros x [Hx| ->].
    + destruct (k_pub _ Hw _ Hx) as (a & A & B & C). exists a. split; auto.
      split; [eapply (bodyok_le w w'); eauto|eapply (nextok_le w w'); eauto].
    + eexists. split; [exact Hn|]. split.
      * split.
        { exists [(k, sib)]. split; [reflexivity|]. split; [repeat constructor|]. split.
          - destruct (k_root _ Hw) as [_ B]. rewrite Er in B. exact B.
          - split; [exact I|]. intros s x [E|[]]. inversion E; subst. simpl. auto. }
        { intros x Hx. simpl in Hx. split; [|exact I]. simpl. left.
          destruct Hx as [->|[<-|[<-|[]]]]; auto. }
      * intros h x E. discriminate.
  - split; auto. unfold lo. rewrite Hno, Hn. auto.
  - apply (k_first w) in Hw as (A & B & C). split; auto.
  - intros x c [Hx| ->] Hl Hrm; [apply R; eapply (k_live w); eauto|].
    unfold leaf in Hl. rewrite Hno, Hn in Hl. discriminate.
  - intros kk. destruct (k_cover _ Hw kk) as (x & c & A & B & C). exists x, c. split; [apply R; auto|auto].
  - intros x y a b Hx Hy. apply R in Hx. apply R in Hy. apply (k_uniq _ Hw x y); auto.
  - split; auto. intros kk v. split; apply contents_mono.
    + intros; apply R; auto.
    + intros x c k0 v0 Hx A B C. exists c. auto.
    + intros; apply R; auto.
    + intros x c k0 v0 Hx A B C. exists c. auto.
Qed.

(** ** The initial state. *)
Definition winit : world := {| wm := minit; pub := fun i => i = 1 \/ i = 2 |}.
Lemma init_reach x : reach minit x -> x = 2.
Proof.
  induction 1 as [|i c h n H IH Hn Hh]; auto. subst i. unfold node_of in Hn. simpl in Hn. inversion Hn; subst.
  discriminate.
Qed.
Lemma wok_init : wok winit.
Proof.
  constructor; simpl.
  - constructor; simpl.
    + intros p Hp. destruct p as [|[p|p|]]; auto; lia.
    + intros i p. destruct i as [|[|[|i]]]; simpl; try discriminate; intros H; inversion H; subst; simpl;
        split; try lia; split; try lia; discriminate.
  - intros i [-> | ->].
    + eexists. split; [reflexivity|]. split.
      * split.
        { exists []. split; [reflexivity|]. split; [constructor|]. split; [reflexivity|].
          split; [exact I|]. intros s i []. }
        { intros j Hj. simpl in Hj. split; [|exact I]. simpl. destruct Hj as [->|[<-|[]]]; auto. }
      * intros h j E. discriminate.
    + eexists. split; [reflexivity|]. split.
      * simpl. split; [|constructor]. split; [constructor|]. split; [intros x []|exact I].
      * intros h j E. discriminate.
  - auto.
  - split; auto. split; auto. exists (LBase None [] None). reflexivity.
  - intros i c [-> | ->] Hl _; [discriminate|constructor].
  - intros k. exists 2, (LBase None [] None). split; [constructor|]. split; [reflexivity|split; exact I].
  - intros i j a b Hi Hj _ _. apply init_reach in Hi. apply init_reach in Hj. left; congruence.
Qed.
Lemma contents_init k v : ~ contents minit k v.
Proof.
  intros (i & c & Hr & Hl & _ & Hm). apply init_reach in Hr. subst i. unfold node_of in Hl. simpl in Hl.
  inversion Hl; subst. exact Hm.
Qed.
End TreeInv.
