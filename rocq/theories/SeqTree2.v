(** The restructuring steps of a single-threaded run, seen on the tree:
    rebuilding a page, splitting it, telling the parent about a split, merging
    two neighbours, growing a new root. *)
From Coq Require Import List Arith Lia Bool ZArith Sorted.
From Verif Require Import Base Leaf LeafSpec LeafProofs LeafProofs2 Inner InnerSpec InnerProofs InnerProofs2 Tree TreeSpec TreeInv TreeProg SeqTree.
Import ListNotations.

Section SeqTree2.
Context {P : Params}.

(** * Pages *)

Lemma linked_same N N' i c c' C : N i = Some (NInner c) -> N' i = Some (NInner c') -> mono N N' ->
  ilid (ibody c') = ilid (ibody c) -> (forall x j, seps (ibody c') x j <-> seps (ibody c) x j) ->
  good N C -> linked N i C -> linked N' i C.
Proof.
  intros E E' Hm E1 E2 [Ha _] (c0 & o0 & g' & E0 & -> & Hs). rewrite E in E0. injection E0 as <-.
  exists c', o0, g'. split; auto. split; [congruence|]. intros x j. rewrite E2, Hs.
  assert (forall o, In (j, o) g' -> nlo N' j = nlo N j). { intros o Ho. apply Hm. apply (Ha j o). simpl; auto. }
  split; intros [(o & Ho) Hl]; (split; [eauto|]); specialize (H o Ho); congruence.
Qed.

(** The inner part of replacing page [n] by [n']. *)
Definition samekids (n n' : node) : Prop :=
  match n, n' with
  | NLeaf _, NLeaf _ => True
  | NInner c, NInner c' => ilid (ibody c') = ilid (ibody c) /\ forall x j, seps (ibody c') x j <-> seps (ibody c) x j
  | _, _ => False
  end.
Lemma below_one N N' h i n n' C : N i = Some n -> N' i = Some n' -> mono N N' -> nodeok N h n -> 0 < h ->
  samekids n n' -> good N C -> linked N i C -> linked N' i C.
Proof.
  intros E E' Hm [Hn _] Hh Hk Hg HL. destruct n as [c|c]; [simpl in Hn; lia|]. destruct n' as [c'|c']; [destruct Hk|].
  destruct Hk. apply (linked_same N N' i c c'); auto.
Qed.

Lemma local_page N N' h X i n n' :
  N i = Some n -> N' i = Some n' -> (forall j, j <> i -> ~ In j X -> N' j = N j) -> mono N N' ->
  nodeok N h n -> nlow n' = nlow n -> nhigh n' = nhigh n -> nodeok N' h n' -> samekids n n' ->
  (forall c, n' = NInner c -> rem N' (ilid (ibody c)) = false) ->
  local N N' h X [(i, None)] [(i, None)].
Proof.
  intros E E' Hf Hm Hn0 El Eh Hn Hk Hr. constructor; auto; simpl.
  - intros j H1 H2 _. apply Hf; auto.
  - intros lo hi (n0 & E0 & Hl & Hh). rewrite E in E0. injection E0 as <-. exists n'. split; auto. split; congruence.
  - intros j [<-|[]]. eauto.
  - intros a s [H|[]]. discriminate.
  - intros Hh C HC HL. apply link_one_inv in HL. apply link_one. apply (below_one N N' h i n n'); auto.
  - intros R c Hh [<-|[]] ER. rewrite E' in ER. injection ER as ->. apply Hr; auto.
  - split; auto. discriminate.
Qed.

Lemma local_post N N' h X i s n n' ns :
  N i = Some n -> N' i = Some n' -> N s = Some ns -> N' s = Some ns -> s <> i -> (forall j, j <> i -> ~ In j X -> N' j = N j) -> mono N N' ->
  nodeok N h n -> nodeok N h ns -> nlow n' = nlow n -> nhigh n' = nhigh n -> nodeok N' h n' -> samekids n n' ->
  (forall c, n' = NInner c -> rem N' (ilid (ibody c)) = false) ->
  (forall c, ns = NInner c -> rem N' (ilid (ibody c)) = false) ->
  local N N' h X [(i, Some s)] [(i, None); (s, None)].
Proof.
  intros E E' Es Es' Hne Hf Hm Hn0 Hns El Eh Hn Hk Hr Hrs. constructor; auto; simpl.
  - intros j H1 H2 _. apply Hf; auto.
  - intros lo hi (n0 & E0 & Hl & k & Ek & n1 & E1 & Hl1 & Hh1). rewrite E in E0. injection E0 as <-.
    exists n'. split; auto. split; [congruence|]. exists k. split; [congruence|]. exists n1. split; [congruence|]. auto.
  - intros j [<-|[<-|[]]]; eauto. exists ns. split; auto. eapply nodeok_mono; eauto.
  - intros a b [H|[H|[]]]; discriminate.
  - intros Hh C HC HL. change [i; s] with ([i] ++ [s]) in *. apply link_split in HL as (C1 & C2 & -> & L1 & L2).
    apply good_app in HC as [G1 G2]. apply link_one_inv in L1, L2. apply link_app; apply link_one.
    + apply (below_one N N' h i n n'); auto.
    + apply (below_one N N' h s ns ns); auto. destruct ns; simpl; auto. split; auto. tauto.
  - intros R c Hh [<-|[<-|[]]] ER.
    + rewrite E' in ER. injection ER as ->. apply Hr; auto.
    + rewrite Es' in ER. injection ER as ->. apply Hrs; auto.
  - split; auto. discriminate.
Qed.

Lemma local_split N N' h X i s n n' ns k :
  N i = Some n -> N' i = Some n' -> N s = None -> N' s = Some ns -> (forall j, j <> i -> j <> s -> ~ In j X -> N' j = N j) -> mono N N' ->
  nodeok N h n -> nlow n' = nlow n -> nhigh n' = Some (k, s) -> nlow ns = Some k -> nhigh ns = nhigh n ->
  nodeok N' h n' -> nodeok N' h ns -> pending N' i s ->
  (0 < h -> forall C, good N C -> linked N i C -> exists C1 C2, C = C1 ++ C2 /\ linked N' i C1 /\ linked N' s C2) ->
  (forall c, n' = NInner c -> rem N' (ilid (ibody c)) = false) ->
  (forall c, ns = NInner c -> rem N' (ilid (ibody c)) = false) ->
  local N N' h X [(i, None)] [(i, Some s)].
Proof.
  intros E E' Es Es' Hf Hm Hn0 El Eh El2 Eh2 Hn Hns Hp Hk Hr Hrs. constructor; auto; simpl.
  - intros j H1 H2 H3. apply Hf; auto.
  - intros j [<-|[<-|[]]]; auto.
  - intros j [<-|[]]; auto.
  - intros lo hi (n0 & E0 & Hl & Hh). rewrite E in E0. injection E0 as <-.
    exists n'. split; auto. split; [congruence|]. exists k. split; auto. exists ns. split; auto. split; congruence.
  - intros j [<-|[<-|[]]]; eauto.
  - intros a b [H|[]]. injection H as <- <-. auto.
  - intros Hh C HC HL. apply link_one_inv in HL. destruct (Hk Hh C HC HL) as (C1 & C2 & -> & L1 & L2).
    change [i; s] with ([i] ++ [s]). apply link_app; apply link_one; auto.
  - intros R c Hh [<-|[<-|[]]] ER.
    + rewrite E' in ER. injection ER as ->. apply Hr; auto.
    + rewrite Es' in ER. injection ER as ->. apply Hrs; auto.
  - split; auto. discriminate.
Qed.

Lemma local_merge N N' h X i s n n' ns :
  N i = Some n -> N' i = Some n' -> N s = Some ns -> (forall j, j <> i -> ~ In j X -> N' j = N j) -> mono N N' -> s <> i -> ~ In s X ->
  nlow n' = nlow n -> nhigh n' = nhigh ns -> nodeok N' h n' -> is_remove ns = true ->
  (0 < h -> forall C1 C2, good N (C1 ++ C2) -> linked N i C1 -> linked N s C2 -> linked N' i (C1 ++ C2)) ->
  (forall c, n' = NInner c -> rem N' (ilid (ibody c)) = false) ->
  local N N' h X [(i, None); (s, None)] [(i, None)].
Proof.
  intros E E' Es Hf Hm Hne HX El Eh Hn Hd Hk Hr. constructor; auto; simpl.
  - intros j H1 H2 _. apply Hf; auto.
  - intros j [<-|[]]; auto.
  - intros j [<-|[<-|[]]]; auto. right. apply (mono_rem N N'); auto. unfold rem. rewrite Es. auto.
  - intros lo hi (n0 & E0 & Hl & k & Ek & n1 & E1 & Hl1 & Hh1). rewrite E in E0. injection E0 as <-.
    rewrite Es in E1. injection E1 as <-. exists n'. split; auto. split; congruence.
  - intros j [<-|[]]; eauto.
  - intros a b [H|[]]; discriminate.
  - intros Hh C HC HL. change [i; s] with ([i] ++ [s]) in HL. apply link_split in HL as (C1 & C2 & -> & L1 & L2).
    apply link_one_inv in L1, L2. apply link_one. auto.
  - intros R c Hh [<-|[]] ER. rewrite E' in ER. injection ER as ->. apply Hr; auto.
  - split; auto. discriminate.
Qed.

(** Splitting and joining the children. *)
Lemma ids_sub (a b : list cell) (Pr : nat -> Prop) : (forall j, In j (ids (a ++ b)) -> Pr j) -> (forall j, In j (ids a) -> Pr j) /\ (forall j, In j (ids b) -> Pr j).
Proof. intros H. split; intros j Hj; apply H; rewrite in_ids_app; auto. Qed.
Lemma good_order N a i o b : good N (a ++ (i, o) :: b) ->
  (forall j o', In (j, o') a -> lolt (nlo N j) (nlo N i)) /\ (forall j o', In (j, o') b -> lolt (nlo N i) (nlo N j)).
Proof.
  intros [_ Hs]. rewrite ids_app in Hs. apply ss_app in Hs as (_ & S2 & S3). split; intros j o' Hj.
  - apply S3; [eapply ids_in; eauto|]. simpl; auto.
  - change (ids ((i, o) :: b)) with (cids (i, o) ++ ids b) in S2. apply ss_app in S2 as (_ & _ & S2). apply S2; [simpl; auto|]. eapply ids_in; eauto.
Qed.
Lemma linked_split N N' i s d low lid items high k n lid' rest' C :
  let c := IBase d low lid items high in
  N i = Some (NInner c) -> N' i = Some (NInner (ISplit k s n c)) -> N' s = Some (NInner (IBase 0 (Some k) lid' ((k, lid') :: rest') high)) ->
  mono N N' -> iwf (nlo N) c -> In (k, lid') (tl items) ->
  (forall x j, In (x, j) rest' <-> In (x, j) (tl items) /\ klt k x = true) ->
  good N C -> linked N i C -> exists C1 C2, C = C1 ++ C2 /\ linked N' i C1 /\ linked N' s C2.
Proof.
  intros c E E' Es Hm Hw Hin Hr HC (c0 & o0 & g' & E0 & -> & Hs). rewrite E in E0. injection E0 as <-. cbn [ibody c ilid] in *.
  change (forall x j, In (x, j) (tl items) <-> (exists o, In (j, o) g') /\ nlo N j = Some x) in Hs.
  destruct (proj1 (Hs k lid') Hin) as [(o & Ho) Hk]. apply in_split in Ho as (ga & gb & ->).
  change ((lid, o0) :: ga ++ (lid', o) :: gb) with (((lid, o0) :: ga) ++ (lid', o) :: gb) in *.
  destruct (good_order _ _ _ _ _ HC) as [O1 O2]. destruct HC as [Ha _].
  assert (Hlo : forall j o', In (j, o') ga \/ In (j, o') gb -> nlo N' j = nlo N j).
  { intros j o' Hj. apply Hm. apply (Ha j o'). rewrite in_app_iff. simpl. tauto. }
  exists ((lid, o0) :: ga), ((lid', o) :: gb). split; auto. split.
  - exists (ISplit k s n c), o0, ga. split; auto. split; auto. intros x j. cbn [ibody seps]. change (seps c x j) with (In (x, j) (tl items)). rewrite (Hs x j). split.
    + intros (Hx & (o' & Ho) & Hl). rewrite in_app_iff in Ho. simpl in Ho. destruct Ho as [Ho|[Ho|Ho]].
      * split; eauto. rewrite (Hlo j o'); auto.
      * injection Ho as -> ->. rewrite Hk in Hl. injection Hl as ->. exfalso; order.
      * apply O2 in Ho. rewrite Hl, Hk in Ho. simpl in Ho. exfalso; order.
    + intros [(o' & Ho) Hl]. rewrite (Hlo j o') in Hl; auto. pose proof (O1 j o' (or_intror Ho)) as Hx. rewrite Hl, Hk in Hx.
      split; auto. split; auto. exists o'. apply in_app_iff; auto.
  - exists (IBase 0 (Some k) lid' ((k, lid') :: rest') high), o, gb. split; auto. split; auto. intros x j. cbn [ibody seps tl].
    rewrite Hr, (Hs x j). split.
    + intros ([(o' & Ho) Hl] & Hx). rewrite in_app_iff in Ho. simpl in Ho. destruct Ho as [Ho|[Ho|Ho]].
      * pose proof (O1 j o' (or_intror Ho)) as Hy. rewrite Hl, Hk in Hy. simpl in Hy. exfalso; order.
      * injection Ho as -> ->. rewrite Hk in Hl. injection Hl as ->. exfalso; order.
      * split; eauto. rewrite (Hlo j o'); auto.
    + intros [(o' & Ho) Hl]. rewrite (Hlo j o') in Hl; auto. pose proof (O2 j o' Ho) as Hx. rewrite Hl, Hk in Hx.
      split; auto. split; auto. exists o'. apply in_app_iff; simpl; auto.
Qed.
Lemma linked_merge N N' i s c r mk c' C1 C2 :
  N i = Some (NInner c) -> N s = Some (NInner r) -> N' i = Some (NInner c') -> mono N N' ->
  iwf (nlo N) (ibody c) -> iwf (nlo N) (ibody r) -> ilow (ibody r) = Some mk -> (exists x, ihigh (ibody c) = Some (mk, x)) ->
  ilid (ibody c') = ilid (ibody c) -> (forall x j, seps (ibody c') x j <-> seps (IMerge mk s (ibody r) (ibody c)) x j) ->
  good N (C1 ++ C2) -> linked N i C1 -> linked N s C2 -> linked N' i (C1 ++ C2).
Proof.
  intros E Es E' Hm Hw1 Hw2 Hlo (x0 & Hhi) Hlid Hsep HC (c0 & o0 & g1 & E0 & -> & Hs1) (c1 & o1 & g2 & E1 & -> & Hs2).
  rewrite E in E0. injection E0 as <-. rewrite Es in E1. injection E1 as <-. destruct HC as [Ha _].
  assert (Hl : forall j o', In (j, o') (g1 ++ (ilid (ibody r), o1) :: g2) -> nlo N' j = nlo N j).
  { intros j o' Hj. apply Hm. apply (Ha j o'). simpl. right. auto. }
  exists c', o0, (g1 ++ (ilid (ibody r), o1) :: g2). split; auto. split. { rewrite Hlid. reflexivity. }
  intros x j. rewrite Hsep. cbn [seps]. split.
  - destruct (klt x mk) eqn:Ex.
    + intros Hx. destruct (proj1 (Hs1 x j) Hx) as [(o & Ho) Hj]. assert (Hi : In (j, o) (g1 ++ (ilid (ibody r), o1) :: g2)) by (apply in_app_iff; auto).
      split; eauto. rewrite (Hl j o); auto.
    + intros [[-> ->]|Hx].
      * assert (Hi : In (ilid (ibody r), o1) (g1 ++ (ilid (ibody r), o1) :: g2)) by apply in_elt. split; eauto.
        rewrite (Hl _ o1); auto. rewrite (iwf_lid _ _ Hw2). auto.
      * destruct (proj1 (Hs2 x j) Hx) as [(o & Ho) Hj]. assert (Hi : In (j, o) (g1 ++ (ilid (ibody r), o1) :: g2)) by (apply in_app_iff; simpl; auto).
        split; eauto. rewrite (Hl j o); auto.
  - intros [(o & Ho) Hj]. rewrite (Hl j o) in Hj; auto. rewrite in_app_iff in Ho. simpl in Ho. destruct Ho as [Ho|[Ho|Ho]].
    + assert (Hx : seps (ibody c) x j) by (apply Hs1; eauto). destruct (seps_range _ _ Hw1 _ _ Hx) as (_ & Hb & _). rewrite Hhi in Hb. simpl in Hb. rewrite Hb. auto.
    + injection Ho as <- <-. rewrite (iwf_lid _ _ Hw2), Hlo in Hj. injection Hj as ->. rewrite (klt_ir x). auto.
    + assert (Hx : seps (ibody r) x j) by (apply Hs2; eauto). destruct (seps_range _ _ Hw2 _ _ Hx) as (Hb & _ & _). rewrite Hlo in Hb. simpl in Hb.
      destruct (klt x mk) eqn:Ex; [exfalso; order|]. auto.
Qed.

(** * The parent *)
Lemma linked_post N N' Q c ga i s gb k nx loc :
  N Q = Some (NInner c) -> ibody c = c -> N' Q = Some (NInner (IIns (k, s) nx loc c)) -> mono N N' -> N s <> None -> nlo N s = Some k ->
  good N (ga ++ (i, Some s) :: gb) -> linked N Q (ga ++ (i, Some s) :: gb) -> linked N' Q (ga ++ (i, None) :: (s, None) :: gb).
Proof.
  intros E Eb E' Hm Hns Hk [Ha Hs] (c0 & o0 & g' & E0 & Eg & Hsep). rewrite E in E0. injection E0 as <-. rewrite Eb in *.
  assert (Hlo : forall j o, In (j, o) (ga ++ (i, Some s) :: gb) -> nlo N' j = nlo N j) by (intros j o Hj; apply Hm; eapply Ha; eauto).
  assert (Hls : nlo N' s = Some k) by (rewrite <- Hk; apply Hm; auto).
  assert (Hx : exists o0' g1, ga ++ (i, None) :: (s, None) :: gb = (ilid c, o0') :: g1 /\ In (s, None) g1 /\
     (forall j, j <> s -> (exists o, In (j, o) g1) <-> exists o, In (j, o) g')).
  { destruct ga as [|[l0 ol0] ga]; simpl in Eg; [injection Eg as -> <- <-|injection Eg as -> -> <-].
    - exists None, ((s, None) :: gb). split; auto. split; [simpl; auto|]. intros j Hj. split; intros (o & Ho).
      + destruct Ho as [Ho|Ho]; [congruence|eauto].
      + exists o. simpl; auto.
    - exists o0, (ga ++ (i, None) :: (s, None) :: gb). split; auto. split; [apply in_app_iff; simpl; auto|]. intros j Hj. split; intros (o & Ho); rewrite in_app_iff in Ho; simpl in Ho.
      + destruct Ho as [Ho|[Ho|[Ho|Ho]]]; [exists o; apply in_app_iff; auto| |congruence|exists o; apply in_app_iff; simpl; auto].
        injection Ho as -> _. exists (Some s). apply in_app_iff; simpl; auto.
      + destruct Ho as [Ho|[Ho|Ho]]; [exists o; apply in_app_iff; auto| |exists o; apply in_app_iff; simpl; auto].
        injection Ho as -> _. exists None. apply in_app_iff; simpl; auto. }
  destruct Hx as (o0' & g1 & Eg1 & Hsg & Hiff).
  exists (IIns (k, s) nx loc c), o0', g1. split; auto. split; auto. intros x j. cbn [ibody seps].
  assert (Hall : forall o, In (j, o) g' -> nlo N' j = nlo N j /\ In j (ids (ga ++ (i, Some s) :: gb))).
  { intros o Ho. assert (In (j, o) (ga ++ (i, Some s) :: gb)) by (rewrite Eg; simpl; auto). split; [eapply Hlo; eauto|eapply ids_in; eauto]. }
  split.
  - intros [[-> ->]|[Hx Hj]]; [split; eauto|]. destruct (proj1 (Hsep x j) Hj) as [(o & Ho) Hl]. destruct (Hall o Ho) as [H1 H2].
    assert (j <> s) by (intros ->; congruence). split; [apply Hiff; eauto|congruence].
  - intros [Ho Hl]. destruct (Nat.eq_dec j s) as [->|Hj]. { left. split; auto. congruence. }
    right. apply Hiff in Ho as (o & Ho); auto. destruct (Hall o Ho) as [H1 H2]. split.
    + intros ->. apply Hj. eapply (sorted_inj N); eauto; [|congruence]. eapply ids_sib. apply in_elt.
    + apply Hsep. split; eauto. congruence.
Qed.
Lemma linked_drop N N' Q c ga i s gb mk prev nx loc :
  N Q = Some (NInner c) -> ibody c = c -> N' Q = Some (NInner (IDel (mk, s) prev nx loc c)) -> mono N N' -> nlo N s = Some mk ->
  good N (ga ++ (i, None) :: (s, None) :: gb) -> linked N Q (ga ++ (i, None) :: (s, None) :: gb) -> linked N' Q (ga ++ (i, None) :: gb).
Proof.
  intros E Eb E' Hm Hk [Ha Hs] (c0 & o0 & g' & E0 & Eg & Hsep). rewrite E in E0. injection E0 as <-. rewrite Eb in *.
  assert (Hlo : forall j o, In (j, o) (ga ++ (i, None) :: (s, None) :: gb) -> nlo N' j = nlo N j) by (intros j o Hj; apply Hm; eapply Ha; eauto).
  assert (Hx : exists g1, ga ++ (i, None) :: gb = (ilid c, o0) :: g1 /\ (exists l1, g' = l1 ++ (s, None) :: gb /\ g1 = l1 ++ gb)).
  { destruct ga as [|[l0 ol0] ga]; simpl in Eg; [injection Eg as -> <- <-|injection Eg as -> -> <-].
    - exists gb. split; auto. exists []. auto.
    - exists (ga ++ (i, None) :: gb). split; auto. exists (ga ++ [(i, None)]). rewrite <- !app_assoc. auto. }
  destruct Hx as (g1 & Eg1 & l1 & -> & ->).
  exists (IDel (mk, s) prev nx loc c), o0, (l1 ++ gb). split; auto. split; auto. intros x j. cbn [ibody seps].
  rewrite Eg in *. split.
  - intros [Hx Hj]. destruct (proj1 (Hsep x j) Hj) as [(o & Ho) Hl]. rewrite in_app_iff in Ho. simpl in Ho.
    assert (Hl' : nlo N' j = Some x). { rewrite (Hlo j o); auto. simpl. right. apply in_app_iff. simpl. tauto. }
    split; auto. destruct Ho as [Ho|[Ho|Ho]]; [exists o; apply in_app_iff; auto| |exists o; apply in_app_iff; auto]. injection Ho as -> _. congruence.
  - intros [(o & Ho) Hl]. rewrite in_app_iff in Ho.
    assert (Hi : In (j, o) (l1 ++ (s, None) :: gb)) by (rewrite in_app_iff; simpl; tauto).
    rewrite (Hlo j o) in Hl by (simpl; auto). split; [|apply Hsep; eauto].
    intros ->. assert (j = s). { eapply (sorted_inj N); eauto; [| |congruence]; eapply ids_in; right; eauto. apply in_elt. }
    subst j. change ((ilid c, o0) :: l1 ++ (s, None) :: gb) with (((ilid c, o0) :: l1) ++ (s, None) :: gb) in Hs.
    rewrite ids_app in Hs. apply ss_app in Hs as (_ & S2 & S3). change (ids ((s, None) :: gb)) with ([s] ++ ids gb) in *. apply ss_app in S2 as (_ & _ & S2).
    apply (lolt_irr (nlo N s)). destruct Ho as [Ho|Ho].
    + apply S3; [eapply ids_in; right; eauto|simpl; auto].
    + apply S2; [simpl; auto|eapply ids_in; eauto].
Qed.

(** Neighbouring separators as recorded in the deltas. *)
Lemma last_in {A} (a : list A) y b : In y (a ++ y :: b). Proof. apply in_elt. Qed.
Lemma group_next N c Q ga mid y gb k ny lo hi : N Q = Some (NInner c) -> ibody c = c -> linked N Q (ga ++ mid ++ gb) ->
  good N (ga ++ mid ++ gb) -> seg N lo (ids (ga ++ mid ++ gb)) hi -> rangeok N (ids (ga ++ mid ++ gb)) ->
  match hi, ihigh c with None, None => True | Some (a, _), Some (b, _) => a = b | _, _ => False end ->
  (exists p, ids mid = p ++ [y]) -> N y = Some ny ->
  (forall j o, In (j, o) (ga ++ mid) -> ~ lolt (Some k) (nlo N j)) -> (forall j o, In (j, o) gb -> lolt (Some k) (nlo N j)) ->
  next_of c k (nhigh ny).
Proof.
  intros E Eb (c0 & o0 & g' & E0 & Eg & Hsep) HG Hs Hr Hhi (p & Ep) Ey H1 H2. rewrite E in E0. injection E0 as <-. rewrite Eb in *.
  assert (Hpost : forall x j, seps c x j -> exists o, In (j, o) (ga ++ mid ++ gb) /\ nlo N j = Some x).
  { intros x j Hj. destruct (proj1 (Hsep x j) Hj) as [(o & Ho) Hl]. exists o. rewrite Eg. simpl; auto. }
  rewrite !ids_app, Ep in Hs. rewrite !ids_app, Ep in Hr. rewrite <- app_assoc in Hs, Hr. simpl app in Hs, Hr. rewrite app_assoc in Hs, Hr.
  destruct (seg_mid _ _ _ _ _ _ Hs Hr) as (n & En & Hn). rewrite Ey in En. injection En as <-.
  destruct gb as [|[j0 oj] gb].
  - right. simpl in Hn. split.
    + intros x j Hj. destruct (Hpost _ _ Hj) as (o & Ho & Hl). rewrite app_nil_r in Ho. specialize (H1 j o Ho). rewrite Hl in H1. simpl in H1. destruct (klt k x); auto. destruct H1; auto.
    + rewrite Hn. destruct hi as [[a ?]|]; auto. destruct (ihigh c) as [[b ?]|]; auto. subst. order.
  - left. simpl in Hn. destruct Hn as (k0 & Hn & Hl0). exists k0, j0, j0. split; auto.
    assert (Hne : exists x0 g0, ga ++ mid = x0 :: g0).
    { destruct (ga ++ mid) eqn:Em; eauto. apply app_eq_nil in Em as [-> ->]. destruct p; discriminate. }
    destruct Hne as (x0 & g0 & Em). rewrite app_assoc, Em in Eg. simpl in Eg. injection Eg as -> <-.
    split. { apply Hsep. split; auto. exists oj. apply in_elt. }
    split. { specialize (H2 j0 oj (or_introl eq_refl)). rewrite Hl0 in H2. exact H2. }
    intros s' j' Hj Hlt. destruct (Hpost _ _ Hj) as (o & Ho & Hl). rewrite app_assoc in Ho. apply in_app_iff in Ho as [Ho|Ho].
    + specialize (H1 _ _ Ho). rewrite Hl in H1. destruct (H1 Hlt).
    + destruct Ho as [Ho|Ho]. { injection Ho as <- <-. rewrite Hl0 in Hl. injection Hl as ->. order. }
      rewrite app_assoc in HG. destruct (good_order _ _ _ _ _ HG) as [_ O2]. specialize (O2 _ _ Ho). rewrite Hl0, Hl in O2. simpl in O2. order.
Qed.
Lemma group_left N c Q ga i oi s os gb k : N Q = Some (NInner c) -> ibody c = c ->
  linked N Q (ga ++ (i, oi) :: (s, os) :: gb) -> good N (ga ++ (i, oi) :: (s, os) :: gb) -> nlo N s = Some k -> left_of c k i.
Proof.
  intros E Eb (c0 & o0 & g' & E0 & Eg & Hsep) HG Hk. rewrite E in E0. injection E0 as <-. rewrite Eb in *.
  assert (HG2 : good N ((ga ++ [(i, oi)]) ++ (s, os) :: gb)) by (rewrite <- app_assoc; auto).
  destruct (good_order _ _ _ _ _ HG) as [O1 O2]. destruct (good_order _ _ _ _ _ HG2) as [O3 O4].
  destruct ga as [|[l0 ol0] ga]; simpl in Eg; [injection Eg as -> <- <-|injection Eg as -> -> <-].
  - right. split; auto. intros x j Hj. destruct (proj1 (Hsep x j) Hj) as [(o & Ho) Hl]. destruct Ho as [Ho|Ho].
    + injection Ho as <- <-. rewrite Hk in Hl. injection Hl as ->. order.
    + specialize (O4 _ _ Ho). rewrite Hk, Hl in O4. simpl in O4. order.
  - left. assert (Hi : lolt (nlo N i) (nlo N s)) by (apply (O3 i oi); apply in_app_iff; simpl; auto).
    assert (Hp : exists x, nlo N i = Some x).
    { destruct (nlo N i) eqn:Ei; eauto. specialize (O1 _ _ (or_introl eq_refl)). simpl in O1. destruct O1. }
    destruct Hp as (x & Hx). exists x. split. { apply Hsep. split; auto. exists oi. apply in_elt. }
    split. { rewrite Hx, Hk in Hi. exact Hi. }
    intros s' j Hj Hlt. destruct (proj1 (Hsep s' j) Hj) as [(o & Ho) Hl]. rewrite in_app_iff in Ho. simpl in Ho. destruct Ho as [Ho|[Ho|[Ho|Ho]]].
    + specialize (O1 j o (or_intror Ho)). rewrite Hx, Hl in O1. simpl in O1. order.
    + injection Ho as <- <-. rewrite Hx in Hl. injection Hl as ->. order.
    + injection Ho as <- <-. rewrite Hk in Hl. injection Hl as ->. exfalso; order.
    + specialize (O4 _ _ Ho). rewrite Hk, Hl in O4. simpl in O4. exfalso; order.
Qed.
Lemma left_of_fun lowof c k i j : iwf lowof c -> left_of c k i -> left_of c k j -> i = j.
Proof.
  intros Hw [(s & H1 & H2 & H3)|(-> & H3)] [(t & G1 & G2 & G3)|(-> & G3)]; auto.
  - assert (s = t). { specialize (H3 _ _ G1 G2). specialize (G3 _ _ H1 H2). order. } subst. eapply seps_fun; eauto.
  - rewrite (G3 _ _ H1) in H2. discriminate.
  - rewrite (H3 _ _ G1) in G2. discriminate.
Qed.
End SeqTree2.
