(** C11-C14, C19 and the inner part of C30: inner pages. *)
From Coq Require Import List Arith Lia Bool ZArith NArith Sorted.
From Verif Require Import Base SmallSet Leaf LeafSpec Inner InnerSpec InnerProofs InnerProofs2 Inst.
Import ListNotations.

(** C12.  Routing picks the child with the greatest separator not exceeding
    the key; windows and recorded neighbours never change the answer. *)
Theorem C12_routing : forall {P : Params} lowof (c : ichain) (k : K),
  ibuilt true lowof c -> iin_range c k ->
  exists i, inavigate k c = Ok i /\ routes c k i /\ forall j, routes c k j -> j = i.
Proof.
  intros P lowof c k Hb Hr. pose proof (ibuilt_iwf lowof true c Hb) as Hw.
  destruct (nav_routes lowof k c Hw (ibuilt_exact lowof c Hb) Hr) as (i & E & H).
  exists i. rewrite (inavigate_nav lowof k c Hw). split; auto. split; auto.
  intros j Hj. eapply routes_fun; eauto.
Qed.
Print Assumptions C12_routing.

(** C12.  Without any assumption on recorded neighbours, the child chosen
    still never starts above the search key (so that following right links
    from it reaches the key). *)
Theorem C12_routing_sound : forall {P : Params} lowof (c : ichain) (k : K),
  ibuilt false lowof c -> above (ilow c) k -> exists i, inavigate k c = Ok i /\ above (lowof i) k.
Proof.
  intros P lowof c k Hb Hr. pose proof (ibuilt_iwf lowof false c Hb) as Hw.
  rewrite (inavigate_nav lowof k c Hw). apply nav_sound; auto.
Qed.
Print Assumptions C12_routing_sound.

(** C13.  Rebuilding an inner page. *)
Theorem C13_consolidate : forall {P : Params} ex lowof (c : ichain) (d : nat), ibuilt ex lowof c ->
  exists rest items, iconsolidate d c = Ok (IBase d (ilow c) (ilid c) items (ihigh c)) /\
    items = (rawlow (ilow c), ilid c) :: rest /\ strict rest /\
    (forall s i, In (s, i) rest <-> seps c s i) /\
    Z.of_nat (length items) = icount c.
Proof.
  intros P ex lowof c d Hb. destruct (iconsolidate_spec lowof c d (ibuilt_iwf _ _ _ Hb)) as (rest & E & H1 & H2 & H3 & _).
  eexists; eexists. split; [exact E|]. split; [reflexivity|]. split; auto. split; auto. simpl length. lia.
Qed.
Print Assumptions C13_consolidate.
Theorem C13_same_routing : forall {P : Params} lowof (c c' : ichain) (d : nat) (k : K), ibuilt true lowof c ->
  iconsolidate d c = Ok c' -> iin_range c k ->
  inavigate k c' = inavigate k c /\ (forall i, routes c' k i <-> routes c k i).
Proof.
  intros P lowof c c' d k Hb E Hr. pose proof (ibuilt_iwf _ _ _ Hb) as Hw.
  destruct (iconsolidate_spec lowof c d Hw) as (rest & E' & H1 & H2 & H3 & Hw').
  rewrite E in E'. inversion E'; subst c'; clear E'.
  set (c' := IBase d (ilow c) (ilid c) ((rawlow (ilow c), ilid c) :: rest) (ihigh c)) in *.
  assert (Hrt : forall i, routes c' k i <-> routes c k i).
  { intros i. split; apply routes_ext; auto; intros s j; cbn [c' seps tl]; rewrite H2; tauto. }
  split; auto. destruct (C12_routing lowof c k Hb Hr) as (i & -> & Hi & _).
  rewrite (inavigate_nav lowof k c' Hw').
  destruct (nav_routes lowof k c' Hw' I) as (j & -> & Hj); [exact Hr|].
  f_equal. apply (routes_fun lowof c k); auto. apply Hrt; auto.
Qed.
Print Assumptions C13_same_routing.

(** C11.  Splitting an inner page in the middle. *)
Theorem C11_split : forall {P : Params} ex lowof d low lid items high,
  ibuilt ex lowof (IBase d low lid items high) -> 2 <= length items ->
  exists k rid l r, 
    isplit_sibling (IBase d low lid items high) = Ok (IBase 0 (Some k) rid ((k, rid) :: r) high) /\
    items = l ++ (k, rid) :: r /\ length l = Nat.div2 (length items) /\
    (forall x, In x (tl l) -> klt (fst x) k = true) /\ (forall x, In x r -> klt k (fst x) = true).
Proof.
  intros P ex lowof d low lid items high Hb Hlen.
  destruct (isplit_spec lowof d low lid items high (ibuilt_iwf _ _ _ Hb) Hlen)
    as (k & rid & r & E & H1 & H2 & H3 & H4 & H5 & H6 & _).
  exists k, rid, (firstn (Nat.div2 (length items)) items), r.
  assert (Hd : Nat.div2 (length items) < length items) by (apply Nat.lt_div2; lia).
  assert (Hsk : skipn (Nat.div2 (length items)) items = (k, rid) :: r).
  { unfold isplit_sibling in E. destruct (2 <=? length items); [|discriminate].
    destruct (nth_error items (Nat.div2 (length items))); [|discriminate]. inversion E; auto. }
  split; auto. split; [rewrite <- Hsk; symmetry; apply firstn_skipn|].
  split; [rewrite firstn_length; lia|].
  apply ibuilt_iwf in Hb. destruct Hb as (rest & Ei & Hs & _). split.
  - rewrite Ei in *. simpl length in *. destruct (Nat.div2 (S (length rest))) as [|j] eqn:Ej; [simpl; tauto|].
    cbn [firstn tl skipn] in *. intros x Hx. rewrite <- (firstn_skipn j rest), Hsk in Hs.
    apply SmallProofs.SSorted_app_inv in Hs as (_ & _ & Hs). apply (Hs x (k, rid)); simpl; auto.
  - intros [s i] Hx. apply H6 in Hx. tauto.
Qed.
Print Assumptions C11_split.
Theorem C11_same_routing : forall {P : Params} ex lowof d low lid items high k rid ritems sib,
  ibuilt ex lowof (IBase d low lid items high) ->
  isplit_sibling (IBase d low lid items high) = Ok (IBase 0 (Some k) rid ritems high) ->
  forall x, inavigate x (IBase d low lid items high) =
    if klt x k then inavigate x (ISplit k sib (length ritems) (IBase d low lid items high))
    else inavigate x (IBase 0 (Some k) rid ritems high).
Proof.
  intros P ex lowof d low lid items high k rid ritems sib Hb E x. pose proof (ibuilt_iwf _ _ _ Hb) as Hw.
  destruct (klt x k) eqn:Ex; [reflexivity|].
  assert (Hlen : 2 <= length items).
  { unfold isplit_sibling in E. destruct (2 <=? length items) eqn:El; [apply Nat.leb_le; auto|discriminate]. }
  destruct (isplit_spec lowof d low lid items high Hw Hlen) as (k0 & r0 & rest' & E' & H1 & H2 & H3 & H4 & H5 & H6 & Hw' & _).
  rewrite E in E'. inversion E'; subst k0 r0 ritems; clear E'.
  (* navigation on base pages does not depend on the high key: compare pages without one *)
  assert (Hgen : forall d low lid items high rest, base_part lowof low lid items rest high -> above low x ->
     exists i, inavigate x (IBase d low lid items high) = Ok i /\
     ((exists s, In (s, i) rest /\ klt x s = false /\ forall s' j, In (s', j) rest -> klt x s' = false -> klt s s' = false) \/
      (i = lid /\ forall s j, In (s, j) rest -> klt x s = true))).
  { intros d1 low1 lid1 items1 high1 rest1 (-> & B2 & B3 & B4 & B5) Ha.
    set (c := IBase d1 low1 lid1 ((rawlow low1, lid1) :: rest1) None).
    assert (Hwc : iwf lowof c).
    { exists rest1. split; auto. split; auto. split; auto. split; [destruct low1; exact I|].
      intros s i Hs. destruct (B5 _ _ Hs) as (? & ? & ?). simpl. auto. }
    destruct (nav_routes lowof x c Hwc I) as (i & Ei & Hi); [split; [exact Ha|exact I]|].
    exists i. rewrite <- (inavigate_nav lowof x c Hwc) in Ei. split; [exact Ei|]. exact Hi. }
  destruct Hw as (rest & Hbp). destruct Hw' as (rest2 & Hbp').
  assert (Hr2 : rest2 = rest') by (destruct Hbp' as (? & _); congruence). subst rest2.
  assert (Ei : tl items = rest) by (destruct Hbp as (-> & _); auto). rewrite Ei in *.
  assert (Hkin : above low x).
  { destruct low; simpl in *; auto. order. }
  destruct (Hgen d low lid items high rest Hbp Hkin) as (i & E1 & Hi).
  destruct (Hgen 0 (Some k) rid ((k, rid) :: rest') high rest' Hbp') as (j & E2 & Hj); [simpl; auto|].
  rewrite E1, E2. f_equal.
  assert (Hfun : forall s a b, In (s, a) rest -> In (s, b) rest -> a = b).
  { intros s a b. apply strict_fun. apply Hbp. }
  destruct Hi as [(s & I1 & I2 & I3)|[_ I2]]; [|specialize (I2 _ _ H2); congruence].
  destruct Hj as [(s2 & J1 & J2 & J3)|[-> J2]].
  - apply H6 in J1 as [J1 J1']. pose proof (I3 _ _ J1 J2) as G1.
    assert (klt k s = true) by order. 
    assert (G2 : klt s2 s = false) by (apply (J3 s i); auto; apply H6; auto).
    assert (s = s2) by order. subst. eapply Hfun; eauto.
  - pose proof (I3 _ _ H2 Ex) as G1. destruct (klt k s) eqn:Eks.
    + assert (In (s, i) rest') as Hs by (apply H6; auto). apply J2 in Hs. congruence.
    + assert (s = k) by order. subst. eapply Hfun; eauto.
Qed.
Print Assumptions C11_same_routing.

(** C14.  The neighbour found for the child at separator [k].  A merge delta
    makes the code rebuild the page first ([ileft] returns [None]); the rebuilt
    page is again covered. *)
Theorem C14_left_sibling : forall {P : Params} ex lowof (c : ichain) (k : K) j,
  ibuilt ex lowof c -> seps c k j ->
  (imerge_free c -> exists i, ileft k c = Ok (Some i) /\ left_of c k i) /\
  (forall d, exists c' i, iconsolidate d c = Ok c' /\ ileft k c' = Ok (Some i) /\ left_of c k i).
Proof.
  intros P ex lowof c k j Hb Hk. pose proof (ibuilt_iwf _ _ _ Hb) as Hw. split.
  - intros Hm. apply (ileft_spec lowof c k j); auto.
  - intros d. destruct (iconsolidate_spec lowof c d Hw) as (rest & E & H1 & H2 & H3 & Hw').
    set (c' := IBase d (ilow c) (ilid c) ((rawlow (ilow c), ilid c) :: rest) (ihigh c)) in *.
    destruct (ileft_spec lowof c' k j Hw' I) as (i & Ei & Hi); [apply H2; auto|].
    exists c', i. split; auto. split; auto. destruct Hi as [(s & G1 & G2 & G3)|[G1 G2]].
    + left. exists s. split; [apply H2; auto|]. split; auto. intros s' j' Hs'. apply (G3 s' j'). apply H2; auto.
    + right. split; auto. intros s j' Hs. apply (G2 s j'). apply H2; auto.
Qed.
Print Assumptions C14_left_sibling.

(** C30, inner pages. *)
Theorem C30_inner_scratch : forall {P : Params},
  (forall k c, ileft k c <> Er EOverrun) /\
  (forall ex lowof c d, ibuilt ex lowof c -> iconsolidate d c <> Er EOverrun).
Proof.
  intros P. split.
  - intros k c. apply ileft_room.
  - intros ex lowof c d Hb. destruct (iconsolidate_spec lowof c d (ibuilt_iwf _ _ _ Hb)) as (rest & -> & _). discriminate.
Qed.
Print Assumptions C30_inner_scratch.

(** C19, the part that holds: unless the leftmost page is searched for the
    value of the default-constructed key, backward routing stays inside the
    page and the child chosen starts below the key. *)
Theorem C19_backward_search_partial : forall {P : Params} ex lowof (c : ichain) (k : K),
  ibuilt ex lowof c -> sabove (ilow c) k -> (ilow c = None -> k <> kdef) ->
  exists i, inavBI k c = Ok i /\ sabove (lowof i) k.
Proof. intros P ex lowof c k Hb. apply inavBI_sound. eapply ibuilt_iwf; eauto. Qed.
Print Assumptions C19_backward_search_partial.

#[local] Existing Instance natP.

(** Example pages.  Children 2, 3, 4, 5 start at (nothing), 50, 80, 60. *)
Definition exlow (i : nat) : option nat := match i with 3 => Some 50 | 4 => Some 80 | 5 => Some 60 | _ => None end.
Definition ex0 : ichain := IBase 0 None 2 [(0, 2); (50, 3)] None.
Definition ex1 : ichain := IIns (80, 4) None 2 ex0.
Definition ex2 : ichain := IIns (60, 5) (Some (80, 4)) 2 ex1.
Definition ex3 : ichain := IDel (50, 3) (0, 2) (Some (60, 5)) 1 ex2.
Definition exL : ichain := IBase 0 None 2 [(0, 2); (60, 5); (80, 4)] None.
Definition exS : ichain := ISplit 60 9 2 exL.
Definition exR : ichain := IBase 0 (Some 60) 5 [(60, 5); (80, 4)] None.
Definition exM : ichain := IMerge 60 9 exR exS.
Definition exD : ichain := IDel (80, 4) (60, 5) None 1 exM.

Lemma ex0_built : ibuilt true exlow ex0. Proof. exact (IB_root true exlow 2 50 3 eq_refl eq_refl). Qed.
Lemma ex1_built : ibuilt true exlow ex1.
Proof.
  refine (IB_ins true exlow ex0 80 4 None 2 _ _ _ _ _ _); [exact ex0_built|exact I|exact I|reflexivity|reflexivity|]. intros _. right. split; [|exact I].
  intros s j [H|[]]. inversion H; subst. reflexivity.
Qed.
Lemma ex2_built : ibuilt true exlow ex2.
Proof.
  refine (IB_ins true exlow ex1 60 5 (Some (80, 4)) 2 _ _ _ _ _ _); [exact ex1_built|exact I|exact I|reflexivity|reflexivity|]. intros _. left.
  exists 80, 4, 4. split; auto. split; [left; auto|]. split; [reflexivity|].
  intros s j [[-> ->]|[_ [H|[]]]] Hlt; [reflexivity|]. inversion H; subst. discriminate.
Qed.
Lemma ex3_built : ibuilt true exlow ex3.
Proof.
  refine (IB_del true exlow ex2 50 3 (0, 2) (Some (60, 5)) 1 _ _ _ _ _ _); [exact ex2_built|exact I|exact I|reflexivity|intros x Hx; discriminate|]. intros _. split.
  - left. exists 60, 5, 5. split; auto. split; [left; auto|]. split; [reflexivity|].
    intros s j [[-> ->]|[_ [[-> ->]|[_ [H|[]]]]]] Hlt; try reflexivity. inversion H; subst. discriminate.
  - right. split; auto. intros s j [[-> ->]|[_ [[-> ->]|[_ [H|[]]]]]]; try reflexivity. inversion H; subst. reflexivity.
Qed.
Lemma exL_built : ibuilt true exlow exL.
Proof. apply (IB_consolidate _ _ ex3 _ 0 ex3_built). reflexivity. Qed.
Lemma exS_built : ibuilt true exlow exS.
Proof. refine (IB_split true exlow 0 None 2 _ None 0 60 5 [(60, 5); (80, 4)] 9 exL_built _). reflexivity. Qed.
Lemma exR_built : ibuilt true exlow exR.
Proof. apply (IB_sibling _ _ exL _ exL_built). reflexivity. Qed.
Lemma exM_built : ibuilt true exlow exM.
Proof. apply IB_merge; [exact exS_built|exact exR_built|reflexivity|reflexivity]. Qed.
Lemma exD_built : ibuilt true exlow exD.
Proof.
  refine (IB_del true exlow exM 80 4 (60, 5) None 1 _ _ _ _ _ _); [exact exM_built|exact I|exact I|reflexivity|intros x [= <-]; reflexivity|]. intros _. split.
  - right. split; [|exact I]. intros s j Hs. cbn [exM seps exS exL exR tl] in Hs. destruct (klt s 60) eqn:E.
    + destruct Hs as [_ [H|[H|[]]]]; inversion H; subst; reflexivity.
    + destruct Hs as [[-> _]|[H|[]]]; [reflexivity|]. inversion H; subst. reflexivity.
  - left. exists 60. split; [left; auto|]. split; [reflexivity|]. intros s j Hs Hlt.
    cbn [exM seps exS exL exR tl] in Hs. destruct (klt s 60) eqn:E.
    + apply Nat.ltb_lt in E. apply Nat.ltb_ge. lia.
    + destruct Hs as [[-> _]|[H|[]]]; [reflexivity|]. inversion H; subst. discriminate.
Qed.

(** C12 on pages with pending inserts, deletes, a split and a merge. *)
Example C12_example : map (fun k => inavigate k ex3) [10; 55; 60; 79; 80] = [Ok 2; Ok 2; Ok 5; Ok 5; Ok 4] /\
  map (fun k => inavigate k exD) [10; 59; 60; 79; 90] = [Ok 2; Ok 2; Ok 5; Ok 5; Ok 5] /\
  (exists i, inavigate (90 : K) exD = Ok i /\ routes exD (90 : K) i /\ forall j, routes exD (90 : K) j -> j = i).
Proof.
  split; [vm_compute; reflexivity|]. split; [vm_compute; reflexivity|].
  apply (@C12_routing natP exlow exD 90 exD_built). split; exact I.
Qed.
Example C13_example : iconsolidate 3 exD = Ok (IBase 3 None 2 [(0, 2); (60, 5)] None) /\ icount exD = 2%Z /\
  iconsolidate 0 ex3 = Ok exL.
Proof. split; [|split]; vm_compute; reflexivity. Qed.
Example C11_example : isplit_sibling exL = Ok exR /\
  map (fun k => inavigate k exL) [59; 60; 100] = [inavigate (59 : K) exS; inavigate (60 : K) exR; inavigate (100 : K) exR].
Proof. split; vm_compute; reflexivity. Qed.
Example C14_example : ileft (80 : K) ex3 = Ok (Some 5) /\ ileft (60 : K) ex3 = Ok (Some 2) /\
  ileft (60 : K) exM = Ok None /\ seps ex3 60 5.
Proof.
  split; [vm_compute; reflexivity|]. split; [vm_compute; reflexivity|]. split; [vm_compute; reflexivity|].
  split; [discriminate|]. left. auto.
Qed.
Example C19_example : inavBI (50 : K) ex0 = Ok 2 /\ inavBI (51 : K) ex0 = Ok 3 /\ inavBI (7 : K) ex0 = Ok 2.
Proof. split; [|split]; vm_compute; reflexivity. Qed.

(** C19 is false: the backward search compares the unused key of the first
    element, so that searching the leftmost page for the default-constructed
    key runs into the assertion that guards the read before the first element. *)
Theorem C19_refuted : exists lowof (c : ichain) (k : K),
  ibuilt true lowof c /\ iin_range c k /\ sabove (ilow c) k /\ inavBI k c = Er EAssert.
Proof.
  exists exlow, ex0, 0. split; [exact ex0_built|]. split; [split; exact I|]. split; [exact I|]. vm_compute. reflexivity.
Qed.
Print Assumptions C19_refuted.
