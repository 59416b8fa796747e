(** Shape of the index between the steps of a single-threaded run: levels of
    pages, their links, and the effect of restructuring one group of
    siblings. *)
From Coq Require Import List Arith Lia Bool ZArith Sorted.
From Verif Require Import Base Leaf LeafSpec LeafProofs LeafProofs2 Inner InnerSpec InnerProofs InnerProofs2 Tree TreeSpec TreeInv TreeProg.
Import ListNotations.

Section SeqTree.
Context {P : Params}.

Definition nmap := nat -> option node.
Definition nlo (N : nmap) (i : nat) : option K := match N i with Some n => nlow n | None => None end.
Definition rem (N : nmap) (i : nat) : bool := match N i with Some n => is_remove n | None => false end.
Definition ibody (c : ichain) : ichain := match c with IRemove _ c' => c' | _ => c end.
(** The pages deleted by the updates of an inner page. *)
Fixpoint idels (c : ichain) (j : nat) : Prop :=
  match c with
  | IBase _ _ _ _ _ => False
  | IDel (_, i) _ _ _ c => j = i \/ idels c j
  | IIns _ _ _ c | ISplit _ _ _ c | IRemove _ c | IAbort _ c => idels c j
  | IMerge _ _ r c => idels r j \/ idels c j
  end.

(** A page, with its right sibling if that is not yet known to the parent. *)
Definition cell := (nat * option nat)%type.
Definition cids (c : cell) : list nat := fst c :: match snd c with None => [] | Some s => [s] end.
Definition ids (l : list cell) : list nat := flat_map cids l.

Definition nsize (n : node) : nat :=
  match n with NLeaf c => Z.to_nat (lcount c) | NInner c => Z.to_nat (icount c) end.
Definition nodeok (N : nmap) (h : nat) (n : node) : Prop :=
  match n with
  | NLeaf c => h = 0 /\ lwf (lbody c) /\ no_merge (lbody c)
  | NInner c => 0 < h /\ iwf (nlo N) (ibody c) /\ iexact (ibody c) /\ imerge_free (ibody c) /\
                (forall j, irefs (ibody c) j -> N j <> None) /\ forall j, idels (ibody c) j -> rem N j = true
  end /\ (is_remove n = true -> nsize n <= 32).

(** Pages linked from left to right. *)
Fixpoint seg (N : nmap) (low : option K) (l : list nat) (hi : option (K * nat)) : Prop :=
  match l with
  | [] => False
  | i :: r => exists n, N i = Some n /\ nlow n = low /\
      match r with
      | [] => nhigh n = hi
      | j :: _ => exists k, nhigh n = Some (k, j) /\ seg N (Some k) r hi
      end
  end.

(** The children of [Q] are the cells [g]. *)
Definition linked (N : nmap) (Q : nat) (g : list cell) : Prop :=
  exists c o0 g', N Q = Some (NInner c) /\ g = (ilid (ibody c), o0) :: g' /\
    forall x j, seps (ibody c) x j <-> (exists o, In (j, o) g') /\ nlo N j = Some x.
Inductive link (N : nmap) : list nat -> list cell -> Prop :=
| L_nil : link N [] []
| L_cons Q g Qs C : linked N Q g -> link N Qs C -> link N (Q :: Qs) (g ++ C).

(** The sibling of an unfinished split is untouched, and neither half is small. *)
Definition pending (N : nmap) (i s : nat) : Prop :=
  match N i, N s with
  | Some (NLeaf (LSplit k s' n c)), Some (NLeaf (LBase _ items high)) =>
      s' = s /\ n = length items /\ 32 < n /\ 32 < nsize (NLeaf (LSplit k s' n c)) /\ high = lhigh c
  | Some (NInner (ISplit k s' n c)), Some (NInner (IBase _ _ _ items high)) =>
      s' = s /\ n = length items /\ 32 < n /\ 32 < nsize (NInner (ISplit k s' n c)) /\ high = ihigh c
  | _, _ => False
  end.

Record tree (N : nmap) (r : nat) (lev : nat -> list cell) (H : nat) : Prop := {
  t_H : 0 < H;
  t_ok : forall h i, h <= H -> In i (ids (lev h)) -> exists n, N i = Some n /\ nodeok N h n;
  t_seg : forall h, h <= H -> seg N None (ids (lev h)) None;
  t_link : forall h, h < H -> link N (ids (lev (S h))) (lev h);
  t_cell : forall h i s, h <= H -> In (i, Some s) (lev h) -> pending N i s;
  t_first : forall h Q c, 0 < h <= H -> In Q (ids (lev h)) -> N Q = Some (NInner c) -> rem N (ilid (ibody c)) = false;
  t_top : exists o, lev H = [(r, o)];
  t_live : rem N r = false;
  t_dist : forall h h' i, h <= H -> h' <= H -> In i (ids (lev h)) -> In i (ids (lev h')) -> h = h';
  t_leaf : hd_error (ids (lev 0)) = Some FIRST_LEAF;
  t_all : forall i, N i <> None -> rem N i = true \/ exists h, h <= H /\ In i (ids (lev h))
}.

(** * Lists of cells *)
Lemma ids_app a b : ids (a ++ b) = ids a ++ ids b.
Proof. apply flat_map_app. Qed.
Lemma ids_in i o l : In (i, o) l -> In i (ids l).
Proof. intros H. apply in_flat_map. exists (i, o). split; auto. simpl; auto. Qed.
Lemma ids_sib i s l : In (i, Some s) l -> In s (ids l).
Proof. intros H. apply in_flat_map. exists (i, Some s). split; auto. simpl; auto. Qed.
Lemma in_ids j l : In j (ids l) -> exists i o, In (i, o) l /\ (j = i \/ o = Some j).
Proof.
  intros H. apply in_flat_map in H as ((i & o) & H1 & H2). exists i, o. split; auto.
  unfold cids in H2. simpl in H2. destruct H2 as [->|H2]; auto. destruct o; simpl in H2; [|tauto]. destruct H2 as [->|[]]; auto.
Qed.
Lemma ids_nil l : ids l = [] -> l = [].
Proof. destruct l; auto. discriminate. Qed.

(** * Segments *)
Lemma seg_hd N low i l hi : seg N low (i :: l) hi -> nlo N i = low.
Proof. intros (n & E & Hl & _). unfold nlo. rewrite E. auto. Qed.
Lemma seg_app N low a j b hi : a <> [] ->
  seg N low (a ++ j :: b) hi <-> exists k, seg N low a (Some (k, j)) /\ seg N (Some k) (j :: b) hi.
Proof.
  revert low. induction a as [|i a IH]; intros low Ha; [congruence|]. destruct a as [|i' a].
  - simpl app. split.
    + intros (n & E & Hl & k & E2 & Hs). exists k. split; auto. exists n. auto.
    + intros (k & (n & E & Hl & E2) & Hs). exists n. split; auto. split; auto. exists k. auto.
  - change ((i :: i' :: a) ++ j :: b) with (i :: (i' :: a) ++ j :: b). split.
    + intros (n & E & Hl & Hr). simpl app in Hr. destruct Hr as (k & E2 & Hs).
      apply (proj1 (IH (Some k) ltac:(discriminate))) in Hs as (k' & H1 & H2). exists k'. split; auto. exists n. split; auto. split; auto. exists k. auto.
    + intros (k' & (n & E & Hl & k & E2 & Hs) & H2). exists n. split; auto. split; auto. simpl app. exists k. split; auto.
      apply (proj2 (IH (Some k) ltac:(discriminate))). exists k'. auto.
Qed.
Lemma seg_ext N N' low l hi :
  (forall i n, In i l -> N i = Some n -> exists n', N' i = Some n' /\ nlow n' = nlow n /\ nhigh n' = nhigh n) ->
  seg N low l hi -> seg N' low l hi.
Proof.
  revert low. induction l as [|i l IH]; intros low He Hs; auto. destruct Hs as (n & E & Hl & Hr).
  destruct (He i n) as (n' & E' & E1 & E2); simpl; auto. exists n'. split; auto. split; [congruence|].
  destruct l as [|j l]; [congruence|]. destruct Hr as (k & E3 & Hs). exists k. split; [congruence|].
  apply IH; auto. intros. apply He; simpl; auto.
Qed.
Lemma seg_in N low l hi i : seg N low l hi -> In i l -> exists n, N i = Some n.
Proof.
  revert low. induction l as [|j l IH]; simpl; [tauto|]. intros low (n & E & _ & Hr) [->|Hi]; eauto.
  destruct l as [|j' l]; [destruct Hi|]. destruct Hr as (k & _ & Hs). eauto.
Qed.

Definition lolt (a b : option K) : Prop :=
  match b with None => False | Some y => match a with None => True | Some x => klt x y = true end end.
Lemma lolt_irr a : ~ lolt a a.
Proof. destruct a; simpl; auto. intros; order. Qed.
Lemma lolt_trans a b c : lolt a b -> lolt b c -> lolt a c.
Proof. destruct a, b, c; simpl; auto; try tauto. intros; order. Qed.
Lemma lolt_above a b k : lolt a b -> above b k -> above a k.
Proof. destruct a, b; simpl; auto; try tauto. intros; order. Qed.

Definition rangeok (N : nmap) (l : list nat) : Prop :=
  forall i n, In i l -> N i = Some n -> range_ok (nlow n) (nhigh n).
Lemma seg_sorted N low l hi : seg N low l hi -> rangeok N l ->
  StronglySorted (fun i j => lolt (nlo N i) (nlo N j)) l /\ Forall (fun j => nlo N j = low \/ lolt low (nlo N j)) l.
Proof.
  revert low. induction l as [|i l IH]; intros low Hs Hr; [destruct Hs|].
  pose proof (seg_hd _ _ _ _ _ Hs) as E0. destruct Hs as (n & E & Hl & Hs). destruct l as [|j l].
  { split; repeat constructor. auto. }
  destruct Hs as (k & E2 & Hs). destruct (IH _ Hs) as [S1 S2]. { intros ? ? ?. apply Hr. simpl; auto. }
  assert (Hk : lolt low (Some k)).
  { specialize (Hr i n (or_introl eq_refl) E). rewrite E2, Hl in Hr. destruct low; simpl in *; auto. }
  assert (Hf : Forall (fun j => lolt low (nlo N j)) (j :: l)).
  { eapply Forall_impl; [|exact S2]. intros a [->|Ha]; auto. eapply lolt_trans; eauto. }
  split.
  - constructor; auto. rewrite E0. exact Hf.
  - constructor; auto. eapply Forall_impl; [|exact Hf]. auto.
Qed.
Lemma ss_app {A} (R : A -> A -> Prop) a b : StronglySorted R (a ++ b) ->
  StronglySorted R a /\ StronglySorted R b /\ forall x y, In x a -> In y b -> R x y.
Proof.
  induction a as [|x a IH]; simpl; intros Hs.
  - split; [constructor|]. split; auto. tauto.
  - inversion Hs; subst. destruct (IH H1) as (A1 & A2 & A3). rewrite Forall_app in H2. destruct H2 as [F1 F2].
    split; [constructor; auto|]. split; auto. intros u v [->|Hu] Hv; auto. rewrite Forall_forall in F2. auto.
Qed.
Lemma seg_NoDup N low l hi : seg N low l hi -> rangeok N l -> NoDup l.
Proof.
  intros Hs Hr. destruct (seg_sorted _ _ _ _ Hs Hr) as [S1 _]. clear Hs Hr. induction S1 as [|i l S1 IH Hf]; constructor; auto.
  intros Hi. rewrite Forall_forall in Hf. apply (lolt_irr (nlo N i)). auto.
Qed.
Lemma sorted_inj N l i j : StronglySorted (fun i j => lolt (nlo N i) (nlo N j)) l -> In i l -> In j l -> nlo N i = nlo N j -> i = j.
Proof.
  induction 1 as [|a l S1 IH Hf]; [intros []|]. rewrite Forall_forall in Hf. intros [->|Hi] [->|Hj] E; auto.
  - destruct (lolt_irr (nlo N j)). rewrite <- E at 1. auto.
  - destruct (lolt_irr (nlo N i)). rewrite E at 1. auto.
Qed.
Lemma seg_mid N low pre i post hi : seg N low (pre ++ i :: post) hi -> rangeok N (pre ++ i :: post) -> 
  exists n, N i = Some n /\ match post with [] => nhigh n = hi | j :: _ => exists k, nhigh n = Some (k, j) /\ nlo N j = Some k end.
Proof.
  intros Hs _. assert (Hx : exists low', seg N low' (i :: post) hi).
  { destruct pre as [|p pre]; [simpl in Hs; eauto|]. apply seg_app in Hs as (k & _ & Hs); [eauto|discriminate]. }
  destruct Hx as (low' & n & E & _ & Hx). exists n. split; auto. destruct post as [|j post]; auto.
  destruct Hx as (k & E2 & Hs2). exists k. split; auto. eapply seg_hd; eauto.
Qed.
(** A page of the segment with a right neighbour. *)
Lemma seg_next N low l hi i n k j : seg N low l hi -> In i l -> N i = Some n -> nhigh n = Some (k, j) ->
  (exists a b, l = a ++ i :: j :: b) \/ (hi = Some (k, j) /\ exists a, l = a ++ [i]).
Proof.
  intros Hs Hi E Eh. apply in_split in Hi as (a & b & ->). destruct b as [|j' b].
  - right. split; [|eauto]. assert (Hx : exists low', seg N low' [i] hi).
    { destruct a as [|p a]; [eauto|]. apply seg_app in Hs as (k0 & _ & Hs); [eauto|discriminate]. }
    destruct Hx as (low' & n' & E' & _ & Hx). congruence.
  - left. exists a, b. assert (Hx : exists low', seg N low' (i :: j' :: b) hi).
    { destruct a as [|p a]; [eauto|]. apply seg_app in Hs as (k0 & _ & Hs); [eauto|discriminate]. }
    destruct Hx as (low' & n' & E' & _ & k' & E2 & _). rewrite E in E'. injection E' as <-. rewrite Eh in E2. injection E2 as _ <-. auto.
Qed.
(** Replacing the middle of a segment. *)
Lemma seg_cut N low pre i mid post hi : seg N low (pre ++ (i :: mid) ++ post) hi ->
  exists lo1 hi1, seg N lo1 (i :: mid) hi1 /\
    (match post with [] => hi1 = hi | j :: _ => exists k, hi1 = Some (k, j) /\ nlo N j = Some k end) /\
    forall N' mid', seg N' lo1 (i :: mid') hi1 ->
      (forall x n, In x (pre ++ post) -> N x = Some n -> exists n', N' x = Some n' /\ nlow n' = nlow n /\ nhigh n' = nhigh n) ->
      seg N' low (pre ++ (i :: mid') ++ post) hi.
Proof.
  intros Hs.
  assert (Hr : exists lo1, seg N lo1 ((i :: mid) ++ post) hi /\
    forall N' l', seg N' lo1 (i :: l') hi ->
      (forall x n, In x pre -> N x = Some n -> exists n', N' x = Some n' /\ nlow n' = nlow n /\ nhigh n' = nhigh n) ->
      seg N' low (pre ++ i :: l') hi).
  { destruct pre as [|p pre].
    - exists low. split; auto.
    - change ((i :: mid) ++ post) with (i :: (mid ++ post)) in Hs. apply seg_app in Hs as (k & H1 & H2); [|discriminate].
      exists (Some k). split; auto. intros N' l' H3 Hx. apply (proj2 (seg_app N' low (p :: pre) i l' hi ltac:(discriminate))).
      exists k. split; auto. eapply seg_ext; eauto. }
  destruct Hr as (lo1 & H1 & H2). exists lo1. destruct post as [|j post].
  - rewrite app_nil_r in H1. exists hi. split; auto. split; auto. intros N' mid' H3 Hx. rewrite app_nil_r.
    apply H2; auto. intros. apply Hx; auto. rewrite app_nil_r; auto.
  - apply seg_app in H1 as (k & H1 & H3); [|discriminate]. exists (Some (k, j)). split; auto.
    split. { exists k. split; auto. eapply seg_hd; eauto. }
    intros N' mid' H4 Hx. apply (H2 N' (mid' ++ j :: post)).
    + change (i :: mid' ++ j :: post) with ((i :: mid') ++ j :: post).
      apply (proj2 (seg_app N' lo1 (i :: mid') j post hi ltac:(discriminate))). exists k. split; auto.
      eapply seg_ext; [|exact H3]. intros x n Hi. apply Hx. apply in_app_iff; auto.
    + intros x n Hi. apply Hx. apply in_app_iff; auto.
Qed.

(** * Links *)
Lemma link_app N A pre B post : link N A pre -> link N B post -> link N (A ++ B) (pre ++ post).
Proof. induction 1; simpl; intros; auto. rewrite <- app_assoc. constructor; auto. Qed.
Lemma link_split N A B C : link N (A ++ B) C -> exists pre post, C = pre ++ post /\ link N A pre /\ link N B post.
Proof.
  revert C. induction A as [|a A IH]; simpl; intros C HL.
  - exists [], C. split; auto. split; auto. constructor.
  - inversion HL; subst. destruct (IH _ H3) as (pre & post & -> & H4 & H5). exists (g ++ pre), post.
    rewrite app_assoc. split; auto. split; auto. constructor; auto.
Qed.
Lemma link_focus N A Q B C : link N (A ++ Q :: B) C ->
  exists pre g post, C = pre ++ g ++ post /\ link N A pre /\ linked N Q g /\ link N B post.
Proof.
  intros HL. apply link_split in HL as (pre & post & -> & H1 & H2). inversion H2; subst. exists pre, g, C. auto.
Qed.
Lemma link_one N Q g : linked N Q g -> link N [Q] g.
Proof. intros HL. rewrite <- (app_nil_r g). constructor; auto. constructor. Qed.
Lemma link_one_inv N Q g : link N [Q] g -> linked N Q g.
Proof. intros HL. inversion HL; subst. inversion H3; subst. rewrite app_nil_r. auto. Qed.
Lemma linked_ext N N' Q g : N' Q = N Q -> (forall j, N j <> None -> nlo N' j = nlo N j) ->
  (forall j o, In (j, o) g -> N j <> None) -> (forall c, N Q = Some (NInner c) -> forall j, irefs (ibody c) j -> N j <> None) ->
  linked N Q g -> linked N' Q g.
Proof.
  intros E1 E2 E3 E4 (c & o0 & g' & HQ & -> & Hs). exists c, o0, g'. split; [congruence|]. split; auto.
  intros x j. rewrite Hs. split; intros [(o & Ho) Hl]; (split; [eauto|]).
  - rewrite E2; auto. eapply E3. right; eauto.
  - rewrite <- E2; auto. eapply E3. right; eauto.
Qed.
Lemma link_ext N N' Qs C : (forall Q, In Q Qs -> N' Q = N Q) -> (forall j, N j <> None -> nlo N' j = nlo N j) ->
  (forall j o, In (j, o) C -> N j <> None) -> (forall Q c, In Q Qs -> N Q = Some (NInner c) -> forall j, irefs (ibody c) j -> N j <> None) ->
  link N Qs C -> link N' Qs C.
Proof.
  intros E1 E2 E3 E4 HL. induction HL as [|Q g Qs C H1 H2 IH]; constructor.
  - apply (linked_ext N N' Q g); auto. { apply E1; simpl; auto. } { intros j o Ho. apply (E3 j o). apply in_app_iff; auto. } { intros c. apply E4. simpl; auto. }
  - apply IH. { intros; apply E1; simpl; auto. } { intros j o Ho. apply (E3 j o). apply in_app_iff; auto. } { intros Q' c Hq. apply E4. simpl; auto. }
Qed.

Lemma node_range N h n : nodeok N h n -> range_ok (nlow n) (nhigh n).
Proof.
  intros [Hn _]. destruct n as [c|c]; simpl.
  - destruct Hn as (_ & Hw & _). apply lwf_range in Hw. destruct c; auto.
  - destruct Hn as (_ & Hw & _). apply iwf_range in Hw. destruct c; auto.
Qed.
(** Pages keep existing, keep their low key and stay removed. *)
Definition mono (N N' : nmap) : Prop :=
  forall j, N j <> None -> N' j <> None /\ nlo N' j = nlo N j /\ (rem N j = true -> rem N' j = true).
Lemma mono_rem N N' j : mono N N' -> rem N j = true -> rem N' j = true.
Proof. intros E Hr. apply E; auto. unfold rem in Hr. destruct (N j); congruence. Qed.
Lemma nodeok_mono N N' h n : mono N N' -> nodeok N h n -> nodeok N' h n.
Proof.
  intros E [Hn Hz]. split; auto. destruct n as [c|c]; auto. destruct Hn as (H1 & H2 & H3 & H4 & H5 & H6).
  split; auto. split. { eapply iwf_ext; [|exact H2]. intros j Hj. symmetry. apply E. auto. }
  split; auto. split; auto. split; intros j Hj; [apply E; auto|eapply mono_rem; eauto].
Qed.
Lemma nodeok_low N h n : nodeok N h n -> nlow n = match n with NLeaf c => llow (lbody c) | NInner c => ilow (ibody c) end.
Proof. intros _. destruct n as [c|c]; destruct c; auto. Qed.

(** * Facts about a tree *)
Lemma tree_ranges N r lev H h : tree N r lev H -> h <= H -> rangeok N (ids (lev h)).
Proof. intros T Hh i n Hi E. destruct (t_ok _ _ _ _ T h i Hh Hi) as (n' & E' & Hn). rewrite E in E'. injection E' as <-. eapply node_range; eauto. Qed.
Lemma tree_sorted N r lev H h : tree N r lev H -> h <= H -> StronglySorted (fun i j => lolt (nlo N i) (nlo N j)) (ids (lev h)).
Proof. intros T Hh. eapply seg_sorted; [apply (t_seg _ _ _ _ T h Hh)|]. eapply tree_ranges; eauto. Qed.
Lemma tree_nodup N r lev H h : tree N r lev H -> h <= H -> NoDup (ids (lev h)).
Proof. intros T Hh. eapply seg_NoDup; [apply (t_seg _ _ _ _ T h Hh)|]. eapply tree_ranges; eauto. Qed.
Lemma tree_some N r lev H h i : tree N r lev H -> h <= H -> In i (ids (lev h)) -> N i <> None.
Proof. intros T Hh Hi. destruct (t_ok _ _ _ _ T h i Hh Hi) as (n & E & _). congruence. Qed.
Lemma tree_refs N r lev H h i c : tree N r lev H -> h <= H -> In i (ids (lev h)) -> N i = Some (NInner c) ->
  forall j, irefs (ibody c) j -> N j <> None.
Proof.
  intros T Hh Hi E. destruct (t_ok _ _ _ _ T h i Hh Hi) as (n & E' & Hn & _). rewrite E in E'. injection E' as <-. apply Hn.
Qed.

Definition setl (lev : nat -> list cell) (h : nat) (l : list cell) : nat -> list cell := fun x => if x =? h then l else lev x.
Lemma setl_eq lev h l : setl lev h l h = l.
Proof. unfold setl. rewrite Nat.eqb_refl. auto. Qed.
Lemma setl_ne lev h l x : x <> h -> setl lev h l x = lev x.
Proof. unfold setl. intros E. apply Nat.eqb_neq in E. rewrite E. auto. Qed.

(** The children of [Q] at level [h] are the cells [g]. *)
Definition focus (N : nmap) (lev : nat -> list cell) (h : nat) (A : list nat) (Q : nat) (B : list nat) (pre g post : list cell) : Prop :=
  ids (lev (S h)) = A ++ Q :: B /\ lev h = pre ++ g ++ post /\ link N A pre /\ linked N Q g /\ link N B post.
Lemma focus_ex N r lev H h Q : tree N r lev H -> h < H -> In Q (ids (lev (S h))) -> exists A B pre g post, focus N lev h A Q B pre g post.
Proof.
  intros T Hh Hi. apply in_split in Hi as (A & B & E). pose proof (t_link _ _ _ _ T h Hh) as HL. rewrite E in HL.
  apply link_focus in HL as (pre & g & post & E2 & H1 & H2 & H3). exists A, B, pre, g, post. split; auto.
Qed.
Lemma linked_hd N Q c g : linked N Q g -> N Q = Some (NInner c) -> hd_error (ids g) = Some (ilid (ibody c)).
Proof. intros (c' & o0 & g' & E & -> & _) E'. rewrite E in E'. injection E' as <-. reflexivity. Qed.

(** The range of a group is that of its parent. *)
Lemma focus_range N r lev H h A Q B pre g post c : tree N r lev H -> h < H -> focus N lev h A Q B pre g post ->
  N Q = Some (NInner c) ->
  exists hi, seg N (ilow (ibody c)) (ids g) hi /\
    match hi, ihigh c with None, None => True | Some (a, _), Some (b, _) => a = b | _, _ => False end.
Proof.
  intros T Hh (E1 & E2 & L1 & L2 & L3) EQ.
  pose proof (t_seg _ _ _ _ T h ltac:(lia)) as Hs. rewrite E2, !ids_app in Hs.
  pose proof (linked_hd _ _ _ _ L2 EQ) as Hd.
  destruct (ids g) as [|i0 mid] eqn:Eg; [discriminate|]. simpl in Hd. injection Hd as ->.
  destruct (seg_cut _ _ _ _ _ _ _ Hs) as (lo1 & hi1 & S1 & S2 & _).
  assert (Hlo : lo1 = ilow (ibody c)).
  { pose proof (seg_hd _ _ _ _ _ S1) as E. rewrite <- E.
    destruct (t_ok _ _ _ _ T (S h) Q Hh) as (n & En & Hn & _). { rewrite E1. apply in_elt. }
    rewrite EQ in En. injection En as <-. destruct Hn as (_ & Hw & _). apply (iwf_lid _ _ Hw). }
  subst lo1. exists hi1. split; auto.
  pose proof (t_seg _ _ _ _ T (S h) Hh) as HsQ. rewrite E1 in HsQ.
  destruct (seg_mid _ _ _ _ _ _ HsQ) as (n & En & HB). { rewrite <- E1. eapply tree_ranges; eauto. }
  rewrite EQ in En. injection En as <-. cbn [nhigh] in HB.
  destruct B as [|Q' B].
  - inversion L3; subst. simpl in S2. rewrite HB, S2. auto.
  - inversion L3 as [|? g1 ? C1 L4 L5]; subst. destruct HB as (k' & HB & Hlo').
    destruct (t_ok _ _ _ _ T (S h) Q' Hh) as (n' & En' & Hn' & _). { rewrite E1. apply in_elt_inv || (apply in_app_iff; simpl; auto). }
    destruct L4 as (c' & o0 & g' & EQ' & -> & _). rewrite EQ' in En'. injection En' as <-.
    destruct Hn' as (_ & Hw' & _). simpl in S2. destruct S2 as (k & -> & Hk). rewrite HB.
    rewrite (iwf_lid _ _ Hw') in Hk. unfold nlo in Hlo'. rewrite EQ' in Hlo'. cbn [nlow] in Hlo'.
    assert (ilow (ibody c') = ilow c') by (destruct c'; auto). congruence.
Qed.

Lemma in_ids_app j a b : In j (ids (a ++ b)) <-> In j (ids a) \/ In j (ids b).
Proof. rewrite ids_app. apply in_app_iff. Qed.
Lemma nodup_disj {A} (a b : list A) x : NoDup (a ++ b) -> In x a -> In x b -> False.
Proof.
  induction a as [|y a IH]; simpl; [tauto|]. intros Hn [->|Ha] Hb; inversion Hn; subst; auto.
  apply H1. apply in_app_iff; auto.
Qed.
Lemma nodup_r {A} (a b : list A) : NoDup (a ++ b) -> NoDup b.
Proof. induction a; simpl; auto. intros Hn; inversion Hn; auto. Qed.
Lemma link_first N Qs C Q c : link N Qs C -> In Q Qs -> N Q = Some (NInner c) -> In (ilid (ibody c)) (ids C).
Proof.
  induction 1 as [|Q' g Qs C (c' & o0 & g' & E & -> & Hs) H2 IH]; [intros []|]. intros [->|Hi] E'.
  - rewrite E in E'. injection E' as <-. simpl. auto.
  - rewrite ids_app. apply in_app_iff. right. auto.
Qed.

Definition good (N : nmap) (C : list cell) : Prop :=
  (forall j o, In (j, o) C -> N j <> None) /\ StronglySorted (fun i j => lolt (nlo N i) (nlo N j)) (ids C).
Lemma good_app N a b : good N (a ++ b) -> good N a /\ good N b.
Proof.
  intros [H1 H2]. rewrite ids_app in H2. apply ss_app in H2 as (S1 & S2 & _).
  split; split; auto; intros j o Hj; apply (H1 j o), in_app_iff; auto.
Qed.
Lemma tree_good N r lev H h : tree N r lev H -> h <= H -> good N (lev h).
Proof.
  intros T Hh. split; [|eapply tree_sorted; eauto]. intros j o Hj. eapply tree_some; eauto. eapply ids_in; eauto.
Qed.

Lemma cell_uniq l : NoDup (ids l) -> forall c1 c2 j, In c1 l -> In c2 l -> In j (cids c1) -> In j (cids c2) -> c1 = c2.
Proof.
  induction l as [|c l IH]; intros Hn c1 c2 j H1 H2 J1 J2; [destruct H1|]. change (ids (c :: l)) with (cids c ++ ids l) in Hn.
  assert (Hl : forall c', In c' l -> In j (cids c') -> In j (ids l)). { intros c' Hc Hj. apply in_flat_map. eauto. }
  destruct H1 as [<-|H1], H2 as [<-|H2]; auto.
  - destruct (nodup_disj _ _ j Hn); eauto.
  - destruct (nodup_disj _ _ j Hn); eauto.
  - apply nodup_r in Hn. eauto.
Qed.

(** * Replacing a group of siblings *)
Record regroup (N N' : nmap) (h : nat) (Q : nat) (g g' : list cell) : Prop := {
  g_frame : forall j, j <> Q -> ~ In j (ids g) -> ~ In j (ids g') -> N' j = N j;
  g_new : forall j, In j (ids g') -> In j (ids g) \/ N j = None;
  g_mono : mono N N';
  g_gone : forall j, In j (ids g) -> In j (ids g') \/ rem N' j = true;
  g_par : forall c, N Q = Some (NInner c) -> exists c', N' Q = Some (NInner c') /\
     ilow c' = ilow c /\ ihigh c' = ihigh c /\ nodeok N' (S h) (NInner c') /\
     is_remove (NInner c') = is_remove (NInner c) /\ rem N' (ilid (ibody c')) = false /\ ilid (ibody c') = ilid (ibody c);
  g_linked : linked N' Q g';
  g_seg : forall lo hi, seg N lo (ids g) hi -> seg N' lo (ids g') hi;
  g_ok : forall j, In j (ids g') -> exists n, N' j = Some n /\ nodeok N' h n;
  g_cell : forall i s, In (i, Some s) g' -> pending N' i s;
  g_below : 0 < h -> forall C, good N C -> link N (ids g) C -> link N' (ids g') C;
  g_first : forall R c, 0 < h -> In R (ids g') -> N' R = Some (NInner c) -> rem N' (ilid (ibody c)) = false
}.

Lemma regroup_tree N N' r lev H h A Q B pre g post g' :
  tree N r lev H -> h < H -> focus N lev h A Q B pre g post -> In (Q, None) (lev (S h)) ->
  regroup N N' h Q g g' -> tree N' r (setl lev h (pre ++ g' ++ post)) H.
Proof.
  intros T Hh Hf HQ G. pose proof Hf as (E1 & E2 & L1 & L2 & L3).
  assert (HiQ : In Q (ids (lev (S h)))) by (rewrite E1; apply in_elt).
  assert (Hcg : exists c, N Q = Some (NInner c)) by (destruct L2 as (c & ? & ? & ? & _); eauto).
  destruct Hcg as (c & EQ).
  destruct (g_par _ _ _ _ _ _ G c EQ) as (c' & EQ' & P1 & P2 & P3 & P4 & P5 & P6).
  assert (Hd : hd_error (ids g') = hd_error (ids g)).
  { rewrite (linked_hd _ _ _ _ L2 EQ), (linked_hd _ _ _ _ (g_linked _ _ _ _ _ _ G) EQ'). congruence. }
  (* pages of other levels and other groups *)
  assert (Nd : NoDup (ids pre ++ ids g ++ ids post)).
  { rewrite <- !ids_app, <- E2. eapply tree_nodup; eauto. lia. }
  assert (Hfresh : forall x j, x <= H -> In j (ids (lev x)) -> In j (ids g') -> In j (ids g)).
  { intros x j Hx Hi Hj. destruct (g_new _ _ _ _ _ _ G j Hj) as [|Hn]; auto. destruct (tree_some _ _ _ _ x j T Hx Hi Hn). }
  assert (Hg : forall j, In j (ids g) -> In j (ids (lev h))) by (intros j Hj; rewrite E2, !ids_app, !in_app_iff; auto).
  assert (Hsame : forall x j, x <= H -> In j (ids (lev x)) -> j <> Q -> ~ In j (ids g) -> N' j = N j).
  { intros x j Hx Hi Hj Hn. apply (g_frame _ _ _ _ _ _ G); auto. intros Hj'. apply Hn. eapply Hfresh; eauto. }
  assert (Hlev : forall x j, x <= H -> x <> h -> In j (ids (lev x)) -> ~ In j (ids g)).
  { intros x j Hx Hne Hi Hj. apply Hne. eapply (t_dist _ _ _ _ T); eauto. lia. }
  assert (HQh : ~ In Q (ids (lev h))).
  { intros Hi. assert (S h = h) by (eapply (t_dist _ _ _ _ T); eauto; lia). lia. }
  assert (Hpp : forall j, In j (ids (pre ++ post)) -> N' j = N j /\ In j (ids (lev h))).
  { intros j Hj. rewrite ids_app, in_app_iff in Hj.
    assert (Hi : In j (ids (lev h))) by (rewrite E2, !ids_app, !in_app_iff; tauto). split; auto.
    apply (Hsame h); auto. lia. { intros ->; auto. }
    intros Hg'. destruct Hj as [Hj|Hj].
    - eapply (nodup_disj (ids pre)); eauto. apply in_app_iff; auto.
    - apply nodup_r in Nd. eapply (nodup_disj (ids g)); eauto. }
  assert (Hsig : forall x j n, x <= H -> x <> h -> In j (ids (lev x)) -> N j = Some n ->
            exists n', N' j = Some n' /\ nlow n' = nlow n /\ nhigh n' = nhigh n).
  { intros x j n Hx Hne Hi En. destruct (Nat.eq_dec j Q) as [->|Hj].
    - rewrite EQ in En. injection En as <-. exists (NInner c'). simpl. auto.
    - exists n. rewrite (Hsame x); auto. eapply Hlev; eauto. }
  assert (Hrem : forall x j, x <= H -> In j (ids (lev x)) -> ~ In j (ids g) -> rem N' j = rem N j).
  { intros x j Hx Hi Hn. unfold rem. destruct (Nat.eq_dec j Q) as [->|Hj].
    - rewrite EQ, EQ'. auto.
    - rewrite (Hsame x); auto. }
  assert (Hmono : forall j, N j <> None -> nlo N' j = nlo N j) by (intros; apply (g_mono _ _ _ _ _ _ G); auto).
  assert (Hal : forall x j o, x <= H -> In (j, o) (lev x) -> N j <> None).
  { intros x j o Hx Hi. eapply tree_some; eauto. eapply ids_in; eauto. }
  assert (Hsub : forall j o, In (j, o) (pre ++ post) -> In (j, o) (lev h)).
  { intros j o. rewrite E2, !in_app_iff. tauto. }
  constructor.
  - apply T.
  - intros x i Hx Hi. destruct (Nat.eq_dec x h) as [->|Hne].
    + rewrite setl_eq in Hi. rewrite !in_ids_app in Hi.
      assert (Hi' : In i (ids g') \/ In i (ids (pre ++ post))) by (rewrite in_ids_app; tauto).
      destruct Hi' as [Hi'|Hi']; [apply (g_ok _ _ _ _ _ _ G); auto|].
      destruct (Hpp _ Hi') as [E Hi2]. destruct (t_ok _ _ _ _ T h i Hx Hi2) as (n & En & Hn).
      exists n. split; [congruence|]. apply (nodeok_mono N N'); auto. apply (g_mono _ _ _ _ _ _ G).
    + rewrite setl_ne in Hi; auto. destruct (Nat.eq_dec i Q) as [->|Hj].
      * assert (x = S h) by (eapply (t_dist _ _ _ _ T); eauto). subst x. exists (NInner c'). auto.
      * destruct (t_ok _ _ _ _ T x i Hx Hi) as (n & En & Hn). exists n. rewrite (Hsame x); auto; [|eapply Hlev; eauto].
        split; auto. apply (nodeok_mono N N'); auto. apply (g_mono _ _ _ _ _ _ G).
  - intros x Hx. destruct (Nat.eq_dec x h) as [->|Hne].
    + rewrite setl_eq, !ids_app. pose proof (t_seg _ _ _ _ T h Hx) as Hs. rewrite E2, !ids_app in Hs.
      destruct (ids g) as [|i0 mid] eqn:Eg; [destruct L2 as (? & ? & ? & _ & -> & _); discriminate|].
      destruct (ids g') as [|i0' mid'] eqn:Eg'; [discriminate|]. simpl in Hd. injection Hd as ->.
      destruct (seg_cut _ _ _ _ _ _ _ Hs) as (lo1 & hi1 & S1 & _ & S2). apply S2.
      * rewrite <- Eg'. apply (g_seg _ _ _ _ _ _ G). rewrite Eg. auto.
      * intros y n Hy En. exists n. rewrite <- ids_app in Hy. rewrite (proj1 (Hpp y Hy)). auto.
    + rewrite setl_ne; auto. eapply seg_ext; [|apply (t_seg _ _ _ _ T x Hx)]. intros i n Hi En. eapply Hsig; eauto.
  - intros x Hx. destruct (Nat.eq_dec x h) as [->|Hne].
    + rewrite setl_eq, setl_ne by lia. rewrite E1. apply link_app; [|constructor].
      * eapply link_ext; [..|exact L1]; auto.
        { intros R Hr. apply (Hsame (S h)); auto. rewrite E1; apply in_app_iff; auto.
          - intros ->. pose proof (tree_nodup _ _ _ _ (S h) T Hx) as Hn. rewrite E1 in Hn. apply NoDup_remove_2 in Hn. apply Hn. apply in_app_iff; auto.
          - eapply Hlev; [| |rewrite E1; apply in_app_iff; left; exact Hr]; lia. }
        { intros j o Hj. apply (Hal h _ o); [lia|]. apply Hsub. apply in_app_iff; auto. }
        { intros R cR Hr. eapply (tree_refs _ _ _ _ (S h)); eauto. rewrite E1; apply in_app_iff; auto. }
      * apply G.
      * eapply link_ext; [..|exact L3]; auto.
        { intros R Hr. apply (Hsame (S h)); auto. rewrite E1; apply in_app_iff; simpl; auto.
          - intros ->. pose proof (tree_nodup _ _ _ _ (S h) T Hx) as Hn. rewrite E1 in Hn. apply NoDup_remove_2 in Hn. apply Hn. apply in_app_iff; auto.
          - eapply Hlev; [| |rewrite E1; apply in_app_iff; right; right; exact Hr]; lia. }
        { intros j o Hj. apply (Hal h _ o); [lia|]. apply Hsub. apply in_app_iff; auto. }
        { intros R cR Hr. eapply (tree_refs _ _ _ _ (S h)); eauto. rewrite E1; apply in_app_iff; simpl; auto. }
    + destruct (Nat.eq_dec (S x) h) as [<-|Hne2].
      * rewrite setl_eq, setl_ne by lia. pose proof (t_link _ _ _ _ T x Hx) as HL. rewrite E2, !ids_app in HL.
        apply link_split in HL as (Ca & Cb & Ec & La & Lb). apply link_split in Lb as (Cg & Cc & -> & Lb & Lc).
        rewrite Ec, !ids_app. assert (Hal' : forall j o, In (j, o) (Ca ++ Cg ++ Cc) -> N j <> None) by (rewrite <- Ec; intros j o; apply Hal; lia).
        apply link_app; [|apply link_app].
        { eapply link_ext; [..|exact La]; auto.
          - intros R Hr. apply Hpp. rewrite in_ids_app; auto.
          - intros j o Hj. apply (Hal' _ o). apply in_app_iff; auto.
          - intros R cR Hr. apply (tree_refs _ _ _ _ (S x) R cR T); [lia|]. apply Hpp. rewrite in_ids_app; auto. }
        { apply (g_below _ _ _ _ _ _ G); auto; try lia. pose proof (tree_good _ _ _ _ x T ltac:(lia)) as Hgd. rewrite Ec in Hgd. apply good_app in Hgd as [_ Hgd]. apply good_app in Hgd as [Hgd _]. auto. }
        { eapply link_ext; [..|exact Lc]; auto.
          - intros R Hr. apply Hpp. rewrite in_ids_app; auto.
          - intros j o Hj. apply (Hal' _ o). rewrite !in_app_iff; auto.
          - intros R cR Hr. apply (tree_refs _ _ _ _ (S x) R cR T); [lia|]. apply Hpp. rewrite in_ids_app; auto. }
      * rewrite !setl_ne by auto. destruct (Nat.eq_dec x (S h)) as [->|Hne3].
        { (* Q is a child here *)
          eapply link_ext; [..|apply (t_link _ _ _ _ T (S h) Hx)]; auto.
          - intros R Hr. apply (Hsame (S (S h))); auto. { intros ->. assert (S (S h) = S h) by (eapply (t_dist _ _ _ _ T); eauto; lia). lia. }
            eapply Hlev; [| |exact Hr]; lia.
          - intros j o. apply Hal; lia.
          - intros R cR Hr. eapply (tree_refs _ _ _ _ (S (S h))); eauto. }
        { destruct (Nat.eq_dec x h); [lia|].
          eapply link_ext; [..|apply (t_link _ _ _ _ T x Hx)]; auto.
          - intros R Hr. apply (Hsame (S x)); auto. { intros ->. assert (S x = S h) by (eapply (t_dist _ _ _ _ T); eauto; lia). lia. }
            eapply Hlev; [| |exact Hr]; lia.
          - intros j o. apply Hal; lia.
          - intros R cR Hr. eapply (tree_refs _ _ _ _ (S x)); eauto. }
  - intros x i s Hx Hi.
    assert (Hkeep : forall y, y <= H -> In (i, Some s) (lev y) -> N' i = N i -> N' s = N s -> pending N' i s).
    { intros y Hy Hi' Ei Es. unfold pending. rewrite Ei, Es. apply (t_cell _ _ _ _ T y i s Hy Hi'). }
    destruct (Nat.eq_dec x h) as [->|Hne].
    + rewrite setl_eq, !in_app_iff in Hi. assert (Hi' : In (i, Some s) g' \/ In (i, Some s) (pre ++ post)) by (rewrite in_app_iff; tauto).
      destruct Hi' as [Hi'|Hi']; [apply (g_cell _ _ _ _ _ _ G); auto|].
      apply (Hkeep h); auto. { apply Hpp. eapply ids_in; eauto. } { apply Hpp. eapply ids_sib; eauto. }
    + rewrite setl_ne in Hi; auto.
      assert (HQx : forall j, In j (cids (i, Some s)) -> j <> Q).
      { intros j Hj ->. assert (x = S h). { eapply (t_dist _ _ _ _ T); eauto. apply in_flat_map. eauto. } subst x.
        assert ((i, Some s) = (Q, None)); [|discriminate]. eapply cell_uniq; eauto. { eapply tree_nodup; eauto. } simpl; auto. }
      apply (Hkeep x); auto.
      * apply (Hsame x); auto. { eapply ids_in; eauto. } { apply HQx; simpl; auto. } eapply Hlev; eauto. eapply ids_in; eauto.
      * apply (Hsame x); auto. { eapply ids_sib; eauto. } { apply HQx; simpl; auto. } eapply Hlev; eauto. eapply ids_sib; eauto.
  - intros x R cR Hx Hi ER.
    assert (Hold : forall y, 0 < y <= H -> In R (ids (lev y)) -> N' R = N R -> (y = S h -> R <> Q) -> rem N' (ilid (ibody cR)) = false).
    { intros y Hy Hi' E Hyq. rewrite E in ER. rewrite <- (t_first _ _ _ _ T y R cR Hy Hi' ER).
      destruct y as [|y]; [lia|]. pose proof (t_link _ _ _ _ T y ltac:(lia)) as HL.
      destruct (Nat.eq_dec y h) as [->|Hyh].
      - specialize (Hyq eq_refl). assert (Hab : In R A \/ In R B) by (rewrite E1, in_app_iff in Hi'; simpl in Hi'; destruct Hi' as [?|[?|?]]; auto; congruence).
        assert (Hp : In (ilid (ibody cR)) (ids (pre ++ post))).
        { rewrite in_ids_app. destruct Hab; [left|right]; eapply link_first; eauto. }
        unfold rem. rewrite (proj1 (Hpp _ Hp)). auto.
      - apply (Hrem y); try lia. { eapply link_first; eauto. } eapply Hlev; [| |eapply link_first; eauto]; lia. }
    destruct (Nat.eq_dec x h) as [->|Hne].
    + rewrite setl_eq in Hi. rewrite !in_ids_app in Hi. assert (Hi' : In R (ids g') \/ In R (ids (pre ++ post))) by (rewrite in_ids_app; tauto).
      destruct Hi' as [Hi'|Hi']; [eapply (g_first _ _ _ _ _ _ G); eauto; lia|].
      destruct (Hpp _ Hi') as [E Hi2]. apply (Hold h); auto. lia.
    + rewrite setl_ne in Hi; auto. destruct (Nat.eq_dec R Q) as [->|Hj].
      * rewrite EQ' in ER. injection ER as <-. auto.
      * apply (Hold x); auto. apply (Hsame x); auto; [lia|]. apply (Hlev x); auto. lia.
  - destruct (t_top _ _ _ _ T) as (o & E). exists o. rewrite setl_ne by lia. auto.
  - rewrite (Hrem H); auto; [apply T| |]; destruct (t_top _ _ _ _ T) as (o & E); [rewrite E; simpl; auto|].
    eapply Hlev; [| |rewrite E; simpl; auto]; lia.
  - intros x y i Hx Hy Hi Hj.
    assert (Hold : forall z, z <= H -> In i (ids (setl lev h (pre ++ g' ++ post) z)) -> In i (ids (lev z)) \/ (z = h /\ In i (ids g') /\ N i = None)).
    { intros z Hz Hi'. destruct (Nat.eq_dec z h) as [->|Hne]; [|rewrite setl_ne in Hi'; auto].
      rewrite setl_eq in Hi'. rewrite !in_ids_app in Hi'. destruct Hi' as [Hi'|[Hi'|Hi']].
      - left. rewrite E2, !in_ids_app; auto.
      - destruct (g_new _ _ _ _ _ _ G i Hi') as [|Hn]; auto.
      - left. rewrite E2, !in_ids_app; auto. }
    destruct (Hold x Hx Hi) as [Hi'|(-> & _ & Hn)], (Hold y Hy Hj) as [Hj'|(-> & _ & Hn')]; auto.
    + eapply (t_dist _ _ _ _ T); eauto.
    + destruct (tree_some _ _ _ _ x i T Hx Hi' Hn').
    + destruct (tree_some _ _ _ _ y i T Hy Hj' Hn).
  - rewrite <- (t_leaf _ _ _ _ T). destruct h as [|h]; [|rewrite setl_ne; auto]. rewrite setl_eq, E2, !ids_app.
    destruct (ids pre); auto. simpl. destruct (ids g) eqn:Eg; [destruct L2 as (? & ? & ? & _ & -> & _); discriminate|].
    destruct (ids g'); [discriminate|]. simpl in *. congruence.
  - intros i Hi. destruct (in_dec Nat.eq_dec i (ids g')) as [Hg'|Hg'].
    { right. exists h. rewrite setl_eq, !in_ids_app. split; [lia|auto]. }
    destruct (in_dec Nat.eq_dec i (ids g)) as [Hg0|Hg0].
    { destruct (g_gone _ _ _ _ _ _ G i Hg0); auto. }
    destruct (Nat.eq_dec i Q) as [->|Hne]. { right. exists (S h). rewrite setl_ne by lia. auto. }
    rewrite (g_frame _ _ _ _ _ _ G) in Hi; auto. destruct (t_all _ _ _ _ T i Hi) as [Hr|(x & Hx & Hix)].
    { left. unfold rem. rewrite (g_frame _ _ _ _ _ _ G); auto. }
    right. exists x. split; auto. destruct (Nat.eq_dec x h) as [->|Hxh]; [|rewrite setl_ne; auto].
    rewrite setl_eq. rewrite E2 in Hix. rewrite !in_ids_app in *. tauto.
Qed.

(** * Replacing a few neighbouring pages *)
Record local (N N' : nmap) (h : nat) (X : list nat) (g g' : list cell) : Prop := {
  c_frame : forall j, ~ In j X -> ~ In j (ids g) -> ~ In j (ids g') -> N' j = N j;
  c_new : forall j, In j (ids g') -> In j (ids g) \/ N j = None;
  c_mono : mono N N';
  c_gone : forall j, In j (ids g) -> In j (ids g') \/ rem N' j = true;
  c_seg : forall lo hi, seg N lo (ids g) hi -> seg N' lo (ids g') hi;
  c_ok : forall j, In j (ids g') -> exists n, N' j = Some n /\ nodeok N' h n;
  c_cell : forall i s, In (i, Some s) g' -> pending N' i s;
  c_below : 0 < h -> forall C, good N C -> link N (ids g) C -> link N' (ids g') C;
  c_first : forall R c, 0 < h -> In R (ids g') -> N' R = Some (NInner c) -> rem N' (ilid (ibody c)) = false;
  c_hd : hd_error (ids g') = hd_error (ids g) /\ g <> []
}.

Lemma regroup_intro N N' r lev H h A Q B pre ga mid gb post mid' c c' :
  tree N r lev H -> h < H -> focus N lev h A Q B pre (ga ++ mid ++ gb) post ->
  local N N' h [Q] mid mid' ->
  N Q = Some (NInner c) -> N' Q = Some (NInner c') ->
  ilow c' = ilow c -> ihigh c' = ihigh c -> nodeok N' (S h) (NInner c') ->
  is_remove (NInner c') = is_remove (NInner c) -> rem N' (ilid (ibody c')) = false -> ilid (ibody c') = ilid (ibody c) ->
  linked N' Q (ga ++ mid' ++ gb) -> regroup N N' h Q (ga ++ mid ++ gb) (ga ++ mid' ++ gb).
Proof.
  intros T Hh (E1 & E2 & L1 & L2 & L3) G EQ EQ' P1 P2 P3 P4 P5 P6 HL.
  assert (HiQ : In Q (ids (lev (S h)))) by (rewrite E1; apply in_elt).
  assert (Hin : forall j, In j (ids (ga ++ mid ++ gb)) -> In j (ids (lev h))) by (intros j Hj; rewrite E2, !in_ids_app in *; tauto).
  assert (Nd : NoDup (ids ga ++ ids mid ++ ids gb)).
  { pose proof (tree_nodup _ _ _ _ h T ltac:(lia)) as Nd. rewrite E2, !ids_app in Nd. apply nodup_r in Nd. rewrite <- !ids_app, !app_assoc in Nd.
    rewrite ids_app in Nd. rewrite <- !ids_app, !app_assoc. clear - Nd. induction (ids ((ga ++ mid) ++ gb)); constructor; inversion Nd; auto.
    intros Hi. apply H1. apply in_app_iff; auto. }
  assert (Hout : forall j, In j (ids (ga ++ gb)) -> In j (ids (lev h)) /\ ~ In j (ids mid) /\ ~ In j (ids mid') /\ j <> Q /\ N' j = N j).
  { intros j Hj. assert (Hi : In j (ids (lev h))) by (apply Hin; rewrite !in_ids_app in *; tauto).
    assert (H1 : ~ In j (ids mid)).
    { intros Hm. rewrite in_ids_app in Hj. destruct Hj as [Hj|Hj].
      - eapply (nodup_disj (ids ga)); eauto. apply in_app_iff; auto.
      - apply nodup_r in Nd. eapply (nodup_disj (ids mid)); eauto. }
    assert (H2 : ~ In j (ids mid')).
    { intros Hm. destruct (c_new _ _ _ _ _ _ G j Hm) as [|Hn]; auto. apply (tree_some _ _ _ _ h j T); auto. lia. }
    assert (H3 : j <> Q). { intros ->. assert (S h = h) by (eapply (t_dist _ _ _ _ T); eauto; lia). lia. }
    split; auto. split; auto. split; auto. split; auto. apply (c_frame _ _ _ _ _ _ G); auto. simpl. intros [?|[]]; congruence. }
  assert (Hsplit : forall j, In j (ids (ga ++ mid' ++ gb)) -> In j (ids mid') \/ In j (ids (ga ++ gb))) by (intros j; rewrite !in_ids_app; tauto).
  constructor; auto.
  - intros j H1 H2 H3. apply (c_frame _ _ _ _ _ _ G).
    + simpl. intros [?|[]]; congruence.
    + intros Hj. apply H2. rewrite !in_ids_app; auto.
    + intros Hj. apply H3. rewrite !in_ids_app; auto.
  - intros j Hj. destruct (Hsplit _ Hj) as [Hj'|Hj'].
    + destruct (c_new _ _ _ _ _ _ G j Hj'); auto. left. rewrite !in_ids_app; auto.
    + left. rewrite !in_ids_app in *; tauto.
  - apply (c_mono _ _ _ _ _ _ G).
  - intros j Hj. rewrite !in_ids_app in *. destruct Hj as [Hj|[Hj|Hj]]; auto. destruct (c_gone _ _ _ _ _ _ G j Hj); auto.
  - intros c0 E. rewrite EQ in E. injection E as <-. exists c'. repeat (split; auto).
  - intros lo hi Hs. rewrite !ids_app in Hs. rewrite !ids_app. destruct (c_hd _ _ _ _ _ _ G) as [Hd Hne].
    destruct (ids mid) as [|i0 m0] eqn:Em; [destruct Hne; apply ids_nil; auto|].
    destruct (ids mid') as [|i1 m1] eqn:Em'; [discriminate|]. simpl in Hd. injection Hd as ->.
    destruct (seg_cut _ _ _ _ _ _ _ Hs) as (lo1 & hi1 & S1 & _ & S2). apply S2.
    + rewrite <- Em'. apply (c_seg _ _ _ _ _ _ G). rewrite Em. auto.
    + intros x n Hx En. exists n. rewrite <- ids_app in Hx. destruct (Hout x Hx) as (_ & _ & _ & _ & ->). auto.
  - intros j Hj. destruct (Hsplit _ Hj) as [Hj'|Hj']; [apply (c_ok _ _ _ _ _ _ G); auto|].
    destruct (Hout _ Hj') as (Hi & _ & _ & _ & E). destruct (t_ok _ _ _ _ T h j ltac:(lia) Hi) as (n & En & Hn).
    exists n. split; [congruence|]. apply (nodeok_mono N N'); auto. apply (c_mono _ _ _ _ _ _ G).
  - intros i s Hi. assert (Hi' : In (i, Some s) mid' \/ In (i, Some s) (ga ++ gb)) by (rewrite !in_app_iff in *; tauto).
    destruct Hi' as [Hi'|Hi']; [apply (c_cell _ _ _ _ _ _ G); auto|].
    assert (Hc : In (i, Some s) (lev h)) by (rewrite E2, !in_app_iff in *; tauto).
    pose proof (t_cell _ _ _ _ T h i s ltac:(lia) Hc) as Hp. unfold pending, rem in *.
    destruct (Hout _ (ids_in _ _ _ Hi')) as (_ & _ & _ & _ & ->). destruct (Hout _ (ids_sib _ _ _ Hi')) as (_ & _ & _ & _ & ->). auto.
  - intros H0 C [Hal Hss] HC. rewrite !ids_app in HC. rewrite !ids_app. apply link_split in HC as (Ca & Cb & -> & K1 & K2). apply link_split in K2 as (Cm & Cc & -> & K2 & K3).
    apply link_app; [|apply link_app].
    + eapply link_ext; [..|exact K1].
      * intros R Hr. apply Hout. rewrite in_ids_app; auto.
      * intros j Hj. apply (c_mono _ _ _ _ _ _ G); auto.
      * intros j o Hj. apply (Hal j o). rewrite !in_app_iff; auto.
      * intros R cR Hr. apply (tree_refs _ _ _ _ h R cR T); [lia|]. apply Hout. rewrite in_ids_app; auto.
    + apply (c_below _ _ _ _ _ _ G); auto. pose proof (conj Hal Hss : good N _) as Hgd. apply good_app in Hgd as [_ Hgd]. apply good_app in Hgd as [Hgd _]. auto.
    + eapply link_ext; [..|exact K3].
      * intros R Hr. apply Hout. rewrite in_ids_app; auto.
      * intros j Hj. apply (c_mono _ _ _ _ _ _ G); auto.
      * intros j o Hj. apply (Hal j o). rewrite !in_app_iff; auto.
      * intros R cR Hr. apply (tree_refs _ _ _ _ h R cR T); [lia|]. apply Hout. rewrite in_ids_app; auto.
  - intros R cR H0 Hr ER. destruct (Hsplit _ Hr) as [Hr'|Hr']; [eapply (c_first _ _ _ _ _ _ G); eauto|].
    destruct (Hout _ Hr') as (Hi & _ & _ & _ & E). rewrite E in ER. rewrite <- (t_first _ _ _ _ T h R cR ltac:(lia) Hi ER).
    destruct h as [|h]; [lia|]. pose proof (link_first _ _ _ _ _ (t_link _ _ _ _ T h ltac:(lia)) Hi ER) as Hf.
    unfold rem. rewrite (c_frame _ _ _ _ _ _ G); auto.
    + simpl. intros [Eq|[]]. rewrite <- Eq in Hf. assert (S (S h) = h) by (eapply (t_dist _ _ _ _ T); eauto; lia). lia.
    + intros Hj. assert (S h = h). { apply (t_dist _ _ _ _ T (S h) h (ilid (ibody cR))); auto; try lia. apply Hin. rewrite !in_ids_app; auto. } lia.
    + intros Hj. destruct (c_new _ _ _ _ _ _ G _ Hj) as [Hj'|Hn].
      * assert (S h = h). { apply (t_dist _ _ _ _ T (S h) h (ilid (ibody cR))); auto; try lia. apply Hin. rewrite !in_ids_app; auto. } lia.
      * apply (tree_some _ _ _ _ h _ T ltac:(lia) Hf Hn).
Qed.

Lemma retop_tree N N' r lev H o o' :
  tree N r lev H -> lev H = [(r, o)] -> local N N' H [] [(r, o)] [(r, o')] -> rem N' r = false ->
  tree N' r (setl lev H [(r, o')]) H.
Proof.
  intros T E2 G Hl.
  assert (Hfresh : forall x j, x <= H -> In j (ids (lev x)) -> In j (ids [(r, o')]) -> In j (ids (lev H))).
  { intros x j Hx Hi Hj. rewrite E2. destruct (c_new _ _ _ _ _ _ G j Hj) as [|Hn]; auto. destruct (tree_some _ _ _ _ x j T Hx Hi Hn). }
  assert (Hsame : forall x j, x < H -> In j (ids (lev x)) -> N' j = N j).
  { intros x j Hx Hi. apply (c_frame _ _ _ _ _ _ G); auto.
    - rewrite <- E2. intros Hj. assert (x = H) by (eapply (t_dist _ _ _ _ T); eauto; lia). lia.
    - intros Hj. assert (Hj' : In j (ids (lev H))) by (apply (Hfresh x); auto; lia). assert (x = H) by (apply (t_dist _ _ _ _ T x H j); auto; lia). lia. }
  assert (Hmono : forall j, N j <> None -> nlo N' j = nlo N j) by (intros; apply (c_mono _ _ _ _ _ _ G); auto).
  assert (Hal : forall x j o, x <= H -> In (j, o) (lev x) -> N j <> None).
  { intros x j oj Hx Hi. eapply tree_some; eauto. eapply ids_in; eauto. }
  constructor.
  - apply T.
  - intros x i Hx Hi. destruct (Nat.eq_dec x H) as [->|Hne].
    + rewrite setl_eq in Hi. apply (c_ok _ _ _ _ _ _ G); auto.
    + rewrite setl_ne in Hi; auto. destruct (t_ok _ _ _ _ T x i Hx Hi) as (n & En & Hn). exists n. rewrite (Hsame x); auto; [|lia].
      split; auto. apply (nodeok_mono N N'); auto. apply (c_mono _ _ _ _ _ _ G).
  - intros x Hx. destruct (Nat.eq_dec x H) as [->|Hne].
    + rewrite setl_eq. apply (c_seg _ _ _ _ _ _ G). rewrite <- E2. apply T; auto.
    + rewrite setl_ne; auto. eapply seg_ext; [|apply (t_seg _ _ _ _ T x Hx)]. intros i n Hi En. exists n. rewrite (Hsame x); auto. lia.
  - intros x Hx. rewrite (setl_ne lev H _ x) by lia. destruct (Nat.eq_dec (S x) H) as [<-|Hne].
    + rewrite setl_eq. apply (c_below _ _ _ _ _ _ G); [lia| |]. { eapply tree_good; eauto; lia. }
      rewrite <- E2. apply (t_link _ _ _ _ T x Hx).
    + rewrite setl_ne by auto. eapply link_ext; [..|apply (t_link _ _ _ _ T x Hx)]; auto.
      * intros R Hr. apply (Hsame (S x)); auto. lia.
      * intros j oj. apply Hal; lia.
      * intros R cR Hr. apply (tree_refs _ _ _ _ (S x) R cR T); auto.
  - intros x i s Hx Hi. destruct (Nat.eq_dec x H) as [->|Hne].
    + rewrite setl_eq in Hi. apply (c_cell _ _ _ _ _ _ G); auto.
    + rewrite setl_ne in Hi; auto. unfold pending, rem. rewrite (Hsame x i), (Hsame x s); try lia. apply (t_cell _ _ _ _ T x i s Hx Hi).
      eapply ids_sib; eauto. eapply ids_in; eauto.
  - intros x R cR Hx Hi ER. destruct (Nat.eq_dec x H) as [->|Hne].
    + rewrite setl_eq in Hi. eapply (c_first _ _ _ _ _ _ G); eauto. lia.
    + rewrite setl_ne in Hi; auto. rewrite (Hsame x) in ER; auto; [|lia]. rewrite <- (t_first _ _ _ _ T x R cR Hx Hi ER).
      destruct x as [|x]; [lia|]. pose proof (link_first _ _ _ _ _ (t_link _ _ _ _ T x ltac:(lia)) Hi ER) as Hf.
      unfold rem. rewrite (Hsame x); auto. lia.
  - exists o'. rewrite setl_eq. auto.
  - auto.
  - intros x y i Hx Hy Hi Hj.
    assert (Hold : forall z, z <= H -> In i (ids (setl lev H [(r, o')] z)) -> In i (ids (lev z)) \/ (z = H /\ N i = None)).
    { intros z Hz Hi'. destruct (Nat.eq_dec z H) as [->|Hne]; [|rewrite setl_ne in Hi'; auto].
      rewrite setl_eq in Hi'. destruct (c_new _ _ _ _ _ _ G i Hi') as [Hn|Hn]; auto. left. rewrite E2; auto. }
    destruct (Hold x Hx Hi) as [Hi'|(-> & Hn)], (Hold y Hy Hj) as [Hj'|(-> & Hn')]; auto.
    + eapply (t_dist _ _ _ _ T); eauto.
    + destruct (tree_some _ _ _ _ x i T Hx Hi' Hn').
    + destruct (tree_some _ _ _ _ y i T Hy Hj' Hn).
  - pose proof (t_H _ _ _ _ T). rewrite setl_ne by lia. apply T.
  - intros i Hi. destruct (in_dec Nat.eq_dec i (ids [(r, o')])) as [Hg'|Hg'].
    { right. exists H. rewrite setl_eq. auto. }
    destruct (in_dec Nat.eq_dec i (ids [(r, o)])) as [Hg0|Hg0].
    { destruct (c_gone _ _ _ _ _ _ G i Hg0); auto. }
    rewrite (c_frame _ _ _ _ _ _ G) in Hi; auto. destruct (t_all _ _ _ _ T i Hi) as [Hr|(x & Hx & Hix)].
    { left. unfold rem. rewrite (c_frame _ _ _ _ _ _ G); auto. }
    right. exists x. split; auto. destruct (Nat.eq_dec x H) as [->|Hxh]; [|rewrite setl_ne; auto].
    rewrite E2 in Hix. tauto.
Qed.
End SeqTree.
