(** Updates of the tree of a single-threaded run: consolidating, removing,
    splitting, posting a split, merging, new root. *)
From Coq Require Import List Arith Lia Bool ZArith Sorted.
From Verif Require Import Base Leaf LeafSpec LeafProofs LeafProofs2 Inner InnerSpec InnerProofs InnerProofs2 Tree TreeSpec TreeInv TreeProg SeqTree SeqTree2 SeqPot.
Import ListNotations.

Section SeqUp.
Context {P : Params}.

Definition inv (N : nmap) (r : nat) (lev : nat -> list cell) (H : nat) (k : K) : Prop :=
  tree N r lev H /\ forall h, h <= H -> remrun N (lev h) k.

(** The group [g] of cells at level [h]: all of the root level, or the
    children of [Q]. *)
Definition place (N : nmap) (r : nat) (lev : nat -> list cell) (H h : nat) (p : option nat) (pre g post : list cell) : Prop :=
  match p with
  | None => h = H /\ lev H = g /\ pre = [] /\ post = [] /\ exists o, g = [(r, o)]
  | Some Q => h < H /\ In (Q, None) (lev (S h)) /\ rem N Q = false /\ exists A B, focus N lev h A Q B pre g post
  end.
Lemma place_lev N r lev H h p pre g post : place N r lev H h p pre g post -> h <= H /\ lev h = pre ++ g ++ post.
Proof.
  destruct p as [Q|]; simpl.
  - intros (Hh & _ & _ & A & B & _ & E & _). split; auto. lia.
  - intros (-> & E & -> & -> & o & ->). rewrite E. auto.
Qed.

Lemma tree_ext N r lev lev' H : (forall h, h <= H -> lev' h = lev h) -> tree N r lev H -> tree N r lev' H.
Proof.
  intros E T. constructor.
  - apply T.
  - intros h i Hh. rewrite E; auto. apply T; auto.
  - intros h Hh. rewrite E; auto. apply T; auto.
  - intros h Hh. rewrite !E; try lia. apply T; auto.
  - intros h i s Hh. rewrite E; auto. apply (t_cell _ _ _ _ T h); auto.
  - intros h Q c Hh. rewrite E; [|lia]. apply (t_first _ _ _ _ T h); auto.
  - rewrite E; auto. apply T.
  - apply T.
  - intros x y i Hx Hy. rewrite !E; auto. apply (t_dist _ _ _ _ T); auto.
  - rewrite E; [apply T|lia].
  - intros i Hi. destruct (t_all _ _ _ _ T i Hi) as [|(h & Hh & Hi')]; auto. right. exists h. rewrite E; auto.
Qed.
Lemma setl_same lev h x : setl lev h (lev h) x = lev x.
Proof. unfold setl. destruct (Nat.eqb_spec x h); congruence. Qed.
Lemma pot_ext N lev lev' H : (forall h, h <= H -> lev' h = lev h) -> pot N lev' H = pot N lev H.
Proof. intros E. apply sumto_ext. intros x Hx. rewrite E; auto. Qed.
Lemma local_weaken N N' h X X' g g' : (forall j, In j X -> In j X') -> local N N' h X g g' -> local N N' h X' g g'.
Proof. intros Hx G. destruct G. constructor; auto. Qed.

Lemma linked_fst N Q g g' : map fst g' = map fst g -> linked N Q g -> linked N Q g'.
Proof.
  intros E (c & o0 & t & EQ & -> & Hs). destruct g' as [|[j o1] t']; [discriminate|]. simpl in E. injection E as -> E.
  exists c, o1, t'. split; auto. split; auto. intros x j. rewrite Hs.
  assert (Hiff : (exists o, In (j, o) t) <-> (exists o, In (j, o) t')).
  { assert (Hm : forall l : list cell, (exists o, In (j, o) l) <-> In j (map fst l)).
    { intros l. rewrite in_map_iff. split; [intros (o & Ho); exists (j, o); auto|intros ([a b] & <- & Hi); exists b; auto]. }
    rewrite !Hm, E. tauto. }
  rewrite Hiff. tauto.
Qed.

Lemma regroup_focus N N' r lev H h A Q B pre g post g' :
  tree N r lev H -> h < H -> focus N lev h A Q B pre g post -> regroup N N' h Q g g' ->
  focus N' (setl lev h (pre ++ g' ++ post)) h A Q B pre g' post.
Proof.
  intros T Hh (E1 & E2 & L1 & L2 & L3) G.
  pose proof (tree_nodup _ _ _ _ (S h) T ltac:(lia)) as Nd. rewrite E1 in Nd.
  assert (Hup : forall R, In R (A ++ B) -> N' R = N R).
  { intros R Hr. assert (Hi : In R (ids (lev (S h)))) by (rewrite E1; rewrite in_app_iff in *; simpl; tauto).
    assert (Hng : ~ In R (ids g)). { intros Hg. assert (S h = h); [|lia]. apply (t_dist _ _ _ _ T (S h) h R); auto; try lia. rewrite E2, !in_ids_app; auto. }
    apply (g_frame _ _ _ _ _ _ G); auto.
    - intros ->. apply NoDup_remove_2 in Nd. auto.
    - intros Hg. destruct (g_new _ _ _ _ _ _ G _ Hg) as [|Hn]; auto. apply (tree_some _ _ _ _ (S h) R T); auto. }
  assert (Hal : forall j o, In (j, o) (lev h) -> N j <> None). { intros j o Hj. apply (tree_some _ _ _ _ h j T); [lia|]. eapply ids_in; eauto. }
  assert (Hrf : forall R c, In R (A ++ B) -> N R = Some (NInner c) -> forall j, irefs (ibody c) j -> N j <> None).
  { intros R c Hr. apply (tree_refs _ _ _ _ (S h) R c T); [lia|]. rewrite E1, in_app_iff in *. simpl. tauto. }
  split; [rewrite setl_ne by lia; auto|]. split; [apply setl_eq|]. split; [|split; [apply G|]].
  - eapply link_ext; [..|exact L1].
    + intros R Hr. apply Hup. apply in_app_iff; auto.
    + intros j Hj. apply (g_mono _ _ _ _ _ _ G); auto.
    + intros j o Hj. apply (Hal j o). rewrite E2, !in_app_iff; auto.
    + intros R c Hr. apply Hrf. apply in_app_iff; auto.
  - eapply link_ext; [..|exact L3].
    + intros R Hr. apply Hup. apply in_app_iff; auto.
    + intros j Hj. apply (g_mono _ _ _ _ _ _ G); auto.
    + intros j o Hj. apply (Hal j o). rewrite E2, !in_app_iff; auto.
    + intros R c Hr. apply Hrf. apply in_app_iff; auto.
Qed.

(** Frame: other levels keep their pages and which of them are removed. *)
Definition others (N N' : nmap) (lev lev' : nat -> list cell) (H h : nat) : Prop :=
  forall y, y <> h -> y <= H -> lev' y = lev y /\ forall j, In j (ids (lev y)) -> rem N' j = rem N j /\ nlo N' j = nlo N j.
Lemma others_rem N N' lev lev' H h k : others N N' lev lev' H h -> (forall y, y <= H -> remrun N (lev y) k) ->
  remrun N' (lev' h) k -> forall y, y <= H -> remrun N' (lev' y) k.
Proof.
  intros Ho Hr Hh y Hy. destruct (Nat.eq_dec y h) as [->|Hne]; auto. destruct (Ho y Hne Hy) as [E Hj].
  rewrite E. eapply remrun_ext; [| |apply Hr; eauto]; auto. intros [i o] Hc. apply Hj. eapply ids_in; eauto.
Qed.

Lemma up_group N N' r lev H h Q pre ga mid gb post mid' c c' :
  tree N r lev H -> place N r lev H h (Some Q) pre (ga ++ mid ++ gb) post ->
  local N N' h [Q] mid mid' ->
  N Q = Some (NInner c) -> N' Q = Some (NInner c') ->
  ilow c' = ilow c -> ihigh c' = ihigh c -> nodeok N' (S h) (NInner c') ->
  is_remove (NInner c') = is_remove (NInner c) -> rem N' (ilid (ibody c')) = false -> ilid (ibody c') = ilid (ibody c) ->
  linked N' Q (ga ++ mid' ++ gb) ->
  let lev' := setl lev h (pre ++ (ga ++ mid' ++ gb) ++ post) in
  tree N' r lev' H /\ place N' r lev' H h (Some Q) pre (ga ++ mid' ++ gb) post /\
  pot N' lev' H + wt (NInner c) + lw N h mid = pot N lev H + wt (NInner c') + lw N' h mid' /\ others N N' lev lev' H h.
Proof.
  intros T (Hh & HQ & Hrem & A & B & Hf) G EQ EQ' P1 P2 P3 P4 P5 P6 HL lev'.
  pose proof (regroup_intro _ _ _ _ _ _ _ _ _ _ _ _ _ _ _ _ _ T Hh Hf G EQ EQ' P1 P2 P3 P4 P5 P6 HL) as RG.
  assert (Hfr : forall j, j <> Q -> ~ In j (ids mid) -> N j <> None -> N' j = N j).
  { intros j Hj Hm Hn. apply (c_frame _ _ _ _ _ _ G); auto.
    - simpl. intros [?|[]]; congruence.
    - intros Hm'. destruct (c_new _ _ _ _ _ _ G j Hm'); auto. }
  split; [|split; [|split]].
  - apply (regroup_tree N N' r lev H h A Q B pre (ga ++ mid ++ gb)); auto.
  - split; auto. split. { unfold lev'. rewrite setl_ne by lia. auto. } split. { unfold rem in *. rewrite EQ', EQ in *. congruence. }
    exists A, B. eapply regroup_focus; eauto.
  - pose proof (pot_regroup _ N' _ _ _ _ _ _ _ _ _ _ _ _ mid' T Hh Hf Hfr) as Hp. unfold pw in Hp. rewrite EQ, EQ' in Hp. exact Hp.
  - intros y Hy Hy'. unfold lev'. rewrite setl_ne by auto. split; auto. intros j Hj. pose proof (tree_some _ _ _ _ y j T Hy' Hj) as Hn.
    split; [|apply (c_mono _ _ _ _ _ _ G); auto]. destruct (Nat.eq_dec j Q) as [->|Hne].
    + unfold rem. rewrite EQ, EQ'. auto.
    + unfold rem. rewrite Hfr; auto. intros Hm. apply Hy. apply (t_dist _ _ _ _ T y h j); auto; [lia|]. destruct Hf as (_ & E2 & _). rewrite E2, !in_ids_app; auto.
Qed.
Lemma up_root N N' r lev H o o' pre post :
  tree N r lev H -> place N r lev H H None pre [(r, o)] post -> local N N' H [] [(r, o)] [(r, o')] -> rem N' r = false ->
  let lev' := setl lev H [(r, o')] in
  tree N' r lev' H /\ place N' r lev' H H None pre [(r, o')] post /\
  pot N' lev' H + lw N H [(r, o)] = pot N lev H + lw N' H [(r, o')] /\ others N N' lev lev' H H.
Proof.
  intros T (_ & E & -> & -> & _) G Hr lev'.
  assert (Hfr : forall j, ~ In j (ids [(r, o)]) -> N j <> None -> N' j = N j).
  { intros j Hj Hn. apply (c_frame _ _ _ _ _ _ G); auto. intros Hm'. destruct (c_new _ _ _ _ _ _ G j Hm'); auto. }
  split; [|split; [|split]].
  - eapply retop_tree; eauto.
  - repeat split; auto. { apply setl_eq. } exists o'. auto.
  - apply (pot_retop N N' r lev H o o' T); auto.
  - intros y Hy Hy'. unfold lev'. rewrite setl_ne by auto. split; auto. intros j Hj. pose proof (tree_some _ _ _ _ y j T Hy' Hj) as Hn.
    split; [|apply (c_mono _ _ _ _ _ _ G); auto]. unfold rem. rewrite Hfr; auto. rewrite <- E. intros Hm. apply Hy. apply (t_dist _ _ _ _ T y H j); auto.
Qed.
Lemma place_ext N r lev lev' H h p pre g post : (forall y, y <= H -> lev' y = lev y) -> place N r lev H h p pre g post -> place N r lev' H h p pre g post.
Proof.
  intros E. destruct p as [Q|]; simpl.
  - intros (Hh & HQ & Hr & A & B & F). rewrite (E (S h)) by lia. split; auto. split; auto. split; auto. exists A, B. unfold focus in *. rewrite !E by lia. auto.
  - intros (-> & E' & Hx). rewrite E; auto.
Qed.
Lemma others_ext N N' lev lev1 lev2 H h : (forall y, y <= H -> lev2 y = lev1 y) -> others N N' lev lev1 H h -> others N N' lev lev2 H h.
Proof. intros E Ho y Hy Hy'. rewrite E; auto. Qed.

Lemma samekids_first N N' h i n n' r lev H : tree N r lev H -> h <= H -> In i (ids (lev h)) -> N i = Some n -> (forall j, j <> i -> N' j = N j) -> samekids n n' ->
  forall c, n' = NInner c -> rem N' (ilid (ibody c)) = false.
Proof.
  intros T Hh Hi E Hf Hk c ->. destruct n as [|c0]; [destruct Hk|]. destruct Hk as [Hk _]. rewrite Hk.
  destruct (t_ok _ _ _ _ T h i Hh Hi) as (n & E' & Hn). rewrite E in E'. injection E' as <-. destruct Hn as [[H0 _] _].
  rewrite <- (t_first _ _ _ _ T h i c0 ltac:(lia) Hi E). unfold rem. rewrite Hf; auto. intros Eq.
  destruct h as [|h]; [lia|]. pose proof (link_first _ _ _ _ _ (t_link _ _ _ _ T h ltac:(lia)) Hi E) as Hl. rewrite Eq in Hl.
  assert (S h = h); [|lia]. apply (t_dist _ _ _ _ T (S h) h i); auto. lia.
Qed.

(** One page is replaced by one with the same bounds and children. *)
Lemma up_page N N' r lev H h p pre ga i gb post n n' k :
  inv N r lev H k -> place N r lev H h p pre (ga ++ (i, None) :: gb) post ->
  N i = Some n -> N' i = Some n' -> (forall j, j <> i -> N' j = N j) ->
  nlow n' = nlow n -> nhigh n' = nhigh n -> nodeok N h n' -> samekids n n' -> is_remove n = false ->
  (is_remove n' = false \/
   (is_remove n' = true /\ (exists Q c, p = Some Q /\ N Q = Some (NInner c) /\ ilid (ibody c) <> i) /\ mayrem N k i (gb ++ post))) ->
  inv N' r lev H k /\ place N' r lev H h p pre (ga ++ (i, None) :: gb) post /\
  pot N' lev H + wt n = pot N lev H + wt n' /\ others N N' lev lev H h.
Proof.
  intros [T R] Pl E E' Hf Hlo Hhi Hok Hk Hl Hcase.
  destruct (place_lev _ _ _ _ _ _ _ _ _ Pl) as [Hh Elev].
  assert (Hi : In i (ids (lev h))) by (apply ids_in with None; rewrite Elev, !in_app_iff; simpl; auto).
  assert (Hm : mono N N'). { intros j Hj. destruct (Nat.eq_dec j i) as [->|Hne]; [unfold nlo, rem; rewrite E, E'; split; [|split]; congruence|unfold nlo, rem; rewrite Hf; auto]. }
  destruct (t_ok _ _ _ _ T h i Hh Hi) as (n0 & E0 & Hn). rewrite E in E0. injection E0 as <-.
  assert (G : local N N' h [] [(i, None)] [(i, None)]).
  { apply (local_page N N' h [] i n n'); auto.
    - apply (nodeok_mono N N'); auto.
    - eapply samekids_first; eauto. }
  assert (Hmain : tree N' r lev H /\ place N' r lev H h p pre (ga ++ (i, None) :: gb) post /\ pot N' lev H + wt n = pot N lev H + wt n' /\ others N N' lev lev H h).
  { assert (Hw : forall X, lw X h [(i, None)] = pw X i) by (intros X; unfold lw, cw; simpl; lia).
    assert (Hpw : pw N i = wt n /\ pw N' i = wt n') by (unfold pw; rewrite E, E'; auto). destruct Hpw as [Hp1 Hp2].
    destruct p as [Q|].
    - pose proof Pl as (Hh' & HQ & Hrem & A & B & (E1 & E2 & L1 & L2 & L3)).
      pose proof L2 as (c & _ & _ & EQ & _).
      assert (HiQ : In Q (ids (lev (S h)))) by (eapply ids_in; eauto).
      assert (HQi : Q <> i). { intros ->. assert (S h = h); [|lia]. apply (t_dist _ _ _ _ T (S h) h i); auto. }
      assert (EQ' : N' Q = Some (NInner c)) by (rewrite Hf; auto).
      pose proof (up_group N N' r lev H h Q pre ga [(i, None)] gb post [(i, None)] c c T Pl) as Hu.
      destruct (t_ok _ _ _ _ T (S h) Q ltac:(lia) HiQ) as (nQ & EnQ & HnQ). rewrite EQ in EnQ. injection EnQ as <-.
      destruct Hu as (T' & Pl' & Hp & Ho); auto.
      + eapply local_weaken; [|exact G]. intros j [].
      + apply (nodeok_mono N N'); auto.
      + pose proof (t_first _ _ _ _ T (S h) Q c ltac:(lia) HiQ EQ) as Hfst.
        destruct Hcase as [Hc|(_ & (Q0 & c0 & EQ0 & EN0 & Hne) & _)].
        * destruct (Nat.eq_dec (ilid (ibody c)) i) as [->|Hne]; unfold rem in *; [rewrite E'; auto|rewrite Hf; auto].
        * injection EQ0 as <-. rewrite EQ in EN0. injection EN0 as <-. unfold rem in *. rewrite Hf; auto.
      + apply (linked_ext N N'); auto.
        * apply Hm.
        * intros j o Hj. apply (tree_some _ _ _ _ h j T Hh). apply ids_in with o. rewrite in_app_iff in Hj. rewrite E2, !in_app_iff. simpl in *. tauto.
        * intros c0 Ec0. apply (tree_refs _ _ _ _ (S h) Q c0 T); auto.
      + assert (Hs : forall y, y <= H -> setl lev h (pre ++ (ga ++ [(i, None)] ++ gb) ++ post) y = lev y).
        { intros y _. unfold setl. destruct (Nat.eqb_spec y h) as [->|]; [symmetry; exact Elev|reflexivity]. }
        split; [|split; [|split]].
        * eapply tree_ext; [|exact T']. intros y Hy. symmetry. apply Hs; auto.
        * eapply place_ext; [|exact Pl']. intros y Hy. symmetry. apply Hs; auto.
        * rewrite (pot_ext N' lev) in Hp by apply Hs. rewrite !Hw in Hp. lia.
        * eapply others_ext; [|exact Ho]. intros y Hy. symmetry. apply Hs; auto.
    - pose proof Pl as (-> & EH & Ep & Epo & o & Eg). destruct ga as [|? [|? ?]]; try discriminate. simpl in Eg. injection Eg as -> <- ->.
      destruct (up_root N N' r lev H None None pre post T Pl G) as (T' & Pl' & Hp & Ho).
      { unfold rem. rewrite E'. destruct Hcase as [|(_ & (Q0 & c0 & EQ0 & _) & _)]; auto. discriminate. }
      assert (Hs : forall y, y <= H -> setl lev H [(r, None)] y = lev y). { intros y _. unfold setl. destruct (Nat.eqb_spec y H) as [->|]; [symmetry; exact EH|reflexivity]. }
      split; [|split; [|split]].
      + eapply tree_ext; [|exact T']. intros y Hy. symmetry. apply Hs; auto.
      + eapply place_ext; [|exact Pl']. intros y Hy. symmetry. apply Hs; auto.
      + rewrite (pot_ext N' lev) in Hp by apply Hs. rewrite !Hw in Hp. lia.
      + eapply others_ext; [|exact Ho]. intros y Hy. symmetry. apply Hs; auto. }
  destruct Hmain as (T' & Pl' & Hp & Ho). split; auto. split; auto.
  apply (others_rem N N' lev lev H h k Ho R). pose proof (R h Hh) as Rh.
  destruct Hcase as [Hc|(Hc & _ & Hmay)].
  - eapply remrun_ext; [| |exact Rh]; auto. intros [j o] Hj. assert (Hn' : N j <> None) by (apply (tree_some _ _ _ _ h j T Hh); eapply ids_in; eauto).
    simpl. split; [|apply Hm; auto]. unfold rem. destruct (Nat.eq_dec j i) as [->|Hne]; [rewrite E, E'; congruence|rewrite Hf; auto].
  - rewrite Elev in Rh |- *. rewrite <- app_assoc in Rh |- *. simpl in Rh |- *. rewrite app_assoc in Rh |- *.
    assert (Elev' : lev h = (pre ++ ga) ++ (i, None) :: gb ++ post) by (rewrite Elev, <- !app_assoc; auto).
    pose proof (tree_good _ _ _ _ h T Hh) as Hg. rewrite Elev' in Hg. apply good_order in Hg as Hord. destruct Hord as [Ho1 Ho2].
    apply (remrun_remove N N'); auto.
    + unfold rem. rewrite E. auto.
    + unfold rem. rewrite E'. auto.
    + intros [j o] Hj. simpl. unfold rem. rewrite Hf; auto. intros ->. apply in_app_iff in Hj as [Hj|Hj].
      * eapply lolt_irr. eapply Ho1. eauto.
      * eapply lolt_irr. eapply Ho2. eauto.
    + intros [j o] Hj. simpl. apply Hm. apply Hg with o. auto.
    + intros [j o] Hj. eapply Ho2. eauto.
Qed.

(** A page is split; the parent does not know yet. *)
Lemma up_split N N' r lev H h p pre ga i gb post n n' s ns k key :
  inv N r lev H key -> place N r lev H h p pre (ga ++ (i, None) :: gb) post ->
  N i = Some n -> N' i = Some n' -> N s = None -> N' s = Some ns -> (forall j, j <> i -> j <> s -> N' j = N j) ->
  nlow n' = nlow n -> nhigh n' = Some (k, s) -> nlow ns = Some k -> nhigh ns = nhigh n ->
  nodeok N' h n' -> nodeok N' h ns -> pending N' i s ->
  (0 < h -> forall C, good N C -> linked N i C -> exists C1 C2, C = C1 ++ C2 /\ linked N' i C1 /\ linked N' s C2) ->
  (forall c, n' = NInner c -> rem N' (ilid (ibody c)) = false) ->
  (forall c, ns = NInner c -> rem N' (ilid (ibody c)) = false) ->
  is_remove n = false -> is_remove n' = false ->
  exists lev', inv N' r lev' H key /\ pot N' lev' H + wt n = pot N lev H + wt n' + bq h + wt ns.
Proof.
  intros [T R] Pl E E' Es Es' Hf Hlo Hhi Hlos Hhis Hok Hoks Hpend Hkids Hf1 Hf2 Hl Hl'.
  destruct (place_lev _ _ _ _ _ _ _ _ _ Pl) as [Hh Elev].
  assert (Hi : In i (ids (lev h))) by (apply ids_in with None; rewrite Elev, !in_app_iff; simpl; auto).
  assert (Hsf : forall y j, y <= H -> In j (ids (lev y)) -> j <> s). { intros y j Hy Hj ->. apply (tree_some _ _ _ _ y s T); auto. }
  assert (Hm : mono N N'). { intros j Hj. destruct (Nat.eq_dec j i) as [->|Hne]; [unfold nlo, rem; rewrite E, E'; split; [|split]; congruence|unfold nlo, rem; rewrite Hf; auto; congruence]. }
  destruct (t_ok _ _ _ _ T h i Hh Hi) as (n0 & E0 & Hn). rewrite E in E0. injection E0 as <-.
  assert (G : local N N' h [] [(i, None)] [(i, Some s)]) by (apply (local_split N N' h [] i s n n' ns k); auto).
  assert (Hw : lw N h [(i, None)] = wt n) by (unfold lw, cw, pw; simpl; rewrite E; lia).
  assert (Hw' : lw N' h [(i, Some s)] = wt n' + bq h + wt ns) by (unfold lw, cw, pw; simpl; rewrite E', Es'; lia).
  assert (Hrr : forall lev', map fst (lev' h) = map fst (lev h) -> others N N' lev lev' H h -> forall y, y <= H -> remrun N' (lev' y) key).
  { intros lev' Em Ho. apply (others_rem N N' lev lev' H h key Ho R). eapply remrun_ext; [exact Em| |apply (R h Hh)].
    intros [j o] Hj. assert (Hn' : N j <> None) by (apply (tree_some _ _ _ _ h j T Hh); eapply ids_in; eauto).
    simpl. split; [|apply Hm; auto]. unfold rem. destruct (Nat.eq_dec j i) as [->|Hne]; [rewrite E, E'; congruence|rewrite Hf; auto; congruence]. }
  destruct p as [Q|].
  - pose proof Pl as (Hh' & HQ & Hrem & A & B & (E1 & E2 & L1 & L2 & L3)).
    pose proof L2 as (c & _ & _ & EQ & _).
    assert (HiQ : In Q (ids (lev (S h)))) by (eapply ids_in; eauto).
    assert (HQi : Q <> i). { intros ->. assert (S h = h); [|lia]. apply (t_dist _ _ _ _ T (S h) h i); auto. }
    assert (EQ' : N' Q = Some (NInner c)) by (rewrite Hf; auto; eapply Hsf; eauto).
    destruct (t_ok _ _ _ _ T (S h) Q ltac:(lia) HiQ) as (nQ & EnQ & HnQ). rewrite EQ in EnQ. injection EnQ as <-.
    destruct (up_group N N' r lev H h Q pre ga [(i, None)] gb post [(i, Some s)] c c T Pl) as (T' & Pl' & Hp & Ho); auto.
    + eapply local_weaken; [|exact G]. intros j [].
    + apply (nodeok_mono N N'); auto.
    + pose proof (t_first _ _ _ _ T (S h) Q c ltac:(lia) HiQ EQ) as Hfst.
      destruct (Nat.eq_dec (ilid (ibody c)) i) as [->|Hne]; unfold rem in *; [rewrite E'; auto|rewrite Hf; auto].
      eapply (Hsf h); auto. eapply link_first; [apply (t_link _ _ _ _ T h Hh')| |]; eauto.
    + apply (linked_fst _ _ (ga ++ [(i, None)] ++ gb)); [rewrite !map_app; auto|]. apply (linked_ext N N'); auto.
      * congruence.
      * apply Hm.
      * intros j o Hj. apply (tree_some _ _ _ _ h j T Hh). apply ids_in with o. rewrite in_app_iff in Hj. rewrite E2, !in_app_iff. simpl in *. tauto.
      * intros c0 Ec0. apply (tree_refs _ _ _ _ (S h) Q c0 T); auto.
    + eexists. split; [split; [exact T'|]|rewrite Hw, Hw' in Hp; lia]. apply Hrr; auto. rewrite setl_eq, Elev, !map_app. auto.
  - pose proof Pl as (-> & EH & Ep & Epo & o & Eg). destruct ga as [|? [|? ?]]; try discriminate. simpl in Eg. injection Eg as -> <- ->.
    destruct (up_root N N' r lev H None (Some s) pre post T Pl G) as (T' & Pl' & Hp & Ho).
    { unfold rem. rewrite E'. auto. }
    eexists. split; [split; [exact T'|]|rewrite Hw, Hw' in Hp; lia]. apply Hrr; auto. rewrite setl_eq, EH. auto.
Qed.

(** A split is posted to the parent and the page consolidated. *)
Lemma up_post N N' r lev H h Q pre ga i s gb post n n' ns c nx loc k key :
  inv N r lev H key -> place N r lev H h (Some Q) pre (ga ++ (i, Some s) :: gb) post ->
  N i = Some n -> N' i = Some n' -> N s = Some ns -> N Q = Some (NInner c) -> N' Q = Some (NInner (IIns (k, s) nx loc c)) ->
  (forall j, j <> i -> j <> Q -> N' j = N j) ->
  nlow n' = nlow n -> nhigh n' = nhigh n -> nodeok N h n' -> samekids n n' -> nlow ns = Some k ->
  nodeok N (S h) (NInner (IIns (k, s) nx loc c)) ->
  is_remove n = false -> is_remove n' = false -> is_remove ns = false ->
  exists lev', inv N' r lev' H key /\ place N' r lev' H h (Some Q) pre (ga ++ (i, None) :: (s, None) :: gb) post /\
    pot N' lev' H + wt n + bq h <= pot N lev H + wt n' + 4 /\ others N N' lev lev' H h.
Proof.
  intros [T R] Pl E E' Es EQ EQ' Hf Hlo Hhi Hok Hk Hlos HokQ Hl Hl' Hls.
  destruct (place_lev _ _ _ _ _ _ _ _ _ Pl) as [Hh Elev].
  assert (Hic : In (i, Some s) (lev h)). { rewrite Elev, !in_app_iff. simpl. auto. }
  assert (Hi : In i (ids (lev h))) by (eapply ids_in; eauto).
  assert (Hsi : In s (ids (lev h))) by (eapply ids_sib; eauto).
  pose proof Pl as (Hh' & HQ & Hrem & A & B & (E1 & E2 & L1 & L2 & L3)).
  assert (HiQ : In Q (ids (lev (S h)))) by (eapply ids_in; eauto).
  assert (Hdis : forall j, In j (ids (lev h)) -> j <> Q). { intros j Hj ->. assert (S h = h); [|lia]. apply (t_dist _ _ _ _ T (S h) h Q); auto. }
  assert (HQi : i <> Q) by auto. assert (HQs : s <> Q) by auto.
  pose proof (tree_good _ _ _ _ h T Hh) as Hg.
  assert (Hgg : good N (ga ++ (i, Some s) :: gb)) by (rewrite Elev in Hg; apply good_app in Hg as [_ Hg]; apply good_app in Hg as [Hg _]; auto).
  assert (Hsne : s <> i).
  { intros ->. destruct Hgg as [_ Hss]. rewrite ids_app in Hss. apply ss_app in Hss as (_ & Hss & _). simpl in Hss. inversion Hss as [|? ? _ Hall]; subst. inversion Hall; subst. eapply lolt_irr; eauto. }
  assert (Hlt : lolt (nlo N i) (nlo N s)).
  { destruct Hgg as [_ Hss]. rewrite ids_app in Hss. apply ss_app in Hss as (_ & Hss & _). simpl in Hss. inversion Hss as [|? ? _ Hall]; subst. inversion Hall; subst. auto. }
  assert (Hm : mono N N').
  { intros j Hj. destruct (Nat.eq_dec j i) as [->|Hne]; [unfold nlo, rem; rewrite E, E'; split; [|split]; congruence|].
    destruct (Nat.eq_dec j Q) as [->|Hne']; [rewrite EQ'; unfold nlo; rewrite EQ, EQ'; split; [|split]; simpl; congruence|]. unfold nlo, rem; rewrite Hf; auto. }
  destruct (t_ok _ _ _ _ T h i Hh Hi) as (n0 & E0 & Hn). rewrite E in E0. injection E0 as <-.
  destruct (t_ok _ _ _ _ T h s Hh Hsi) as (n0 & E0 & Hns). rewrite Es in E0. injection E0 as <-.
  assert (Es' : N' s = Some ns) by (rewrite Hf; auto).
  assert (Ebody : ibody c = c). { unfold rem in Hrem. rewrite EQ in Hrem. destruct c; auto; discriminate. }
  assert (Hkid : forall j cj, 0 < h -> In j (ids (lev h)) -> N j = Some (NInner cj) -> rem N' (ilid (ibody cj)) = false).
  { intros j cj H0 Hj Ej. rewrite <- (t_first _ _ _ _ T h j cj ltac:(lia) Hj Ej). destruct h as [|h]; [lia|].
    pose proof (link_first _ _ _ _ _ (t_link _ _ _ _ T h ltac:(lia)) Hj Ej) as Hx. unfold rem. rewrite Hf; auto.
    - intros Eq. rewrite Eq in Hx. assert (S h = h); [|lia]. apply (t_dist _ _ _ _ T (S h) h i); auto. lia.
    - intros Eq. rewrite Eq in Hx. assert (S (S h) = h); [|lia]. apply (t_dist _ _ _ _ T (S (S h)) h Q); auto. lia. }
  assert (G : local N N' h [Q] [(i, Some s)] [(i, None); (s, None)]).
  { apply (local_post N N' h [Q] i s n n' ns); auto.
    - intros j Hj Hx. apply Hf; auto. intros ->. apply Hx. simpl; auto.
    - apply (nodeok_mono N N'); auto.
    - intros c0 ->. destruct n as [|c1]; [destruct Hk|]. destruct Hk as [Hk _]. rewrite Hk. destruct Hn as [[H0 _] _]. apply (Hkid i c1); auto.
    - intros c0 ->. destruct Hns as [[H0 _] _]. apply (Hkid s c0); auto. }
  destruct (up_group N N' r lev H h Q pre ga [(i, Some s)] gb post [(i, None); (s, None)] c (IIns (k, s) nx loc c) T Pl) as (T' & Pl' & Hp & Ho); auto.
  - apply (nodeok_mono N N'); auto.
  - unfold rem in Hrem. rewrite EQ in Hrem. simpl. destruct c; auto; discriminate.
  - simpl. pose proof (t_first _ _ _ _ T (S h) Q c ltac:(lia) HiQ EQ) as Hfst. rewrite Ebody in Hfst.
    destruct (Nat.eq_dec (ilid c) i) as [->|Hne]; unfold rem in *; [rewrite E'; auto|rewrite Hf; auto].
    apply Hdis. rewrite <- Ebody. eapply link_first; [apply (t_link _ _ _ _ T h Hh')| |]; eauto.
  - simpl. rewrite Ebody. auto.
  - apply (linked_post N N' Q c ga i s gb k nx loc); auto; [congruence|]. unfold nlo. rewrite Es. auto.
  - eexists. split; [split; [exact T'|]|split; [exact Pl'|split; [|exact Ho]]].
    + apply (others_rem _ _ _ _ _ _ key Ho R). rewrite setl_eq. pose proof (R h Hh) as Rh.
      assert (Rh' : remrun N' (lev h) key).
      { eapply remrun_ext; [| |exact Rh]; auto. intros [j o] Hj. assert (Hn' : N j <> None) by (apply (tree_some _ _ _ _ h j T Hh); eapply ids_in; eauto).
        simpl. split; [|apply Hm; auto]. unfold rem. destruct (Nat.eq_dec j i) as [->|Hne]; [rewrite E, E'; congruence|rewrite Hf; auto].
        apply Hdis. eapply ids_in; eauto. }
      rewrite Elev in Rh'. rewrite <- app_assoc in Rh' |- *. simpl in Rh' |- *. rewrite app_assoc in Rh' |- *.
      eapply remrun_post; [..|exact Rh'].
      * unfold rem. rewrite E'. auto.
      * unfold rem. rewrite Es'. auto.
      * rewrite (proj1 (proj2 (Hm i ltac:(congruence)))), (proj1 (proj2 (Hm s ltac:(congruence)))). auto.
    + assert (Hw : lw N h [(i, Some s)] = wt n + bq h + wt ns) by (unfold lw, cw, pw; simpl; rewrite E, Es; lia).
      assert (Hw' : lw N' h [(i, None); (s, None)] = wt n' + wt ns) by (unfold lw, cw, pw; simpl; rewrite E', Es'; lia).
      rewrite Hw, Hw' in Hp. assert (Hwt : wt (NInner (IIns (k, s) nx loc c)) <= wt (NInner c) + 4).
      { unfold wt, nsize. assert (Hr : is_remove (NInner c) = false) by (unfold rem in Hrem; rewrite EQ in Hrem; auto). rewrite Hr. simpl.
        assert (Hz : Z.to_nat (icount c + 1) = S (Z.to_nat (icount c)) \/ Z.to_nat (icount c + 1) = Z.to_nat (icount c)) by lia.
        destruct Hz as [->| ->]; [|lia]. pose proof (fi_S (Z.to_nat (icount c))). lia. }
      lia.
Qed.

(** A removed page is merged into its left neighbour and forgotten by the parent. *)
Lemma up_merge N N' r lev H h Q pre ga i s gb post n n' ns c prev nx loc k key :
  inv N r lev H key -> place N r lev H h (Some Q) pre (ga ++ (i, None) :: (s, None) :: gb) post ->
  N i = Some n -> N' i = Some n' -> N s = Some ns -> N Q = Some (NInner c) -> N' Q = Some (NInner (IDel (k, s) prev nx loc c)) ->
  (forall j, j <> i -> j <> Q -> N' j = N j) ->
  nlow n' = nlow n -> nhigh n' = nhigh ns -> nodeok N h n' ->
  (0 < h -> forall C1 C2, good N (C1 ++ C2) -> linked N i C1 -> linked N s C2 -> linked N' i (C1 ++ C2)) ->
  (forall c, n' = NInner c -> exists c0, n = NInner c0 /\ ilid (ibody c) = ilid (ibody c0)) -> nlow ns = Some k ->
  nodeok N (S h) (NInner (IDel (k, s) prev nx loc c)) ->
  is_remove n = false -> is_remove n' = false -> is_remove ns = true ->
  exists lev', inv N' r lev' H key /\ place N' r lev' H h (Some Q) pre (ga ++ (i, None) :: gb) post /\
    pot N' lev' H + wt n + wt ns <= pot N lev H + wt n' + 6 /\ others N N' lev lev' H h.
Proof.
  intros [T R] Pl E E' Es EQ EQ' Hf Hlo Hhi Hok Hkids Hlid Hlos HokQ Hl Hl' Hls.
  destruct (place_lev _ _ _ _ _ _ _ _ _ Pl) as [Hh Elev].
  assert (Hic : In (i, None) (lev h)). { rewrite Elev, !in_app_iff. simpl. auto. }
  assert (Hsc : In (s, None) (lev h)). { rewrite Elev, !in_app_iff. simpl. tauto. }
  assert (Hi : In i (ids (lev h))) by (eapply ids_in; eauto).
  assert (Hsi : In s (ids (lev h))) by (eapply ids_in; eauto).
  pose proof Pl as (Hh' & HQ & Hrem & A & B & (E1 & E2 & L1 & L2 & L3)).
  assert (HiQ : In Q (ids (lev (S h)))) by (eapply ids_in; eauto).
  assert (Hdis : forall j, In j (ids (lev h)) -> j <> Q). { intros j Hj ->. assert (S h = h); [|lia]. apply (t_dist _ _ _ _ T (S h) h Q); auto. }
  assert (HQi : i <> Q) by auto. assert (HQs : s <> Q) by auto.
  pose proof (tree_good _ _ _ _ h T Hh) as Hg.
  assert (Hgg : good N (ga ++ (i, None) :: (s, None) :: gb)) by (rewrite Elev in Hg; apply good_app in Hg as [_ Hg]; apply good_app in Hg as [Hg _]; auto).
  assert (Hlt : lolt (nlo N i) (nlo N s)). { apply good_order in Hgg as [_ Hx]. apply (Hx s None). simpl; auto. }
  assert (Hsne : s <> i) by (intros ->; eapply lolt_irr; eauto).
  assert (Hm : mono N N').
  { intros j Hj. destruct (Nat.eq_dec j i) as [->|Hne]; [unfold nlo, rem; rewrite E, E'; split; [|split]; congruence|].
    destruct (Nat.eq_dec j Q) as [->|Hne']; [rewrite EQ'; unfold nlo; rewrite EQ, EQ'; split; [|split]; simpl; congruence|]. unfold nlo, rem; rewrite Hf; auto. }
  destruct (t_ok _ _ _ _ T h i Hh Hi) as (n0 & E0 & Hn). rewrite E in E0. injection E0 as <-.
  assert (Es' : N' s = Some ns) by (rewrite Hf; auto).
  assert (Ebody : ibody c = c). { unfold rem in Hrem. rewrite EQ in Hrem. destruct c; auto; discriminate. }
  assert (Hkid : forall j cj, 0 < h -> In j (ids (lev h)) -> N j = Some (NInner cj) -> rem N' (ilid (ibody cj)) = false).
  { intros j cj H0 Hj Ej. rewrite <- (t_first _ _ _ _ T h j cj ltac:(lia) Hj Ej). destruct h as [|h]; [lia|].
    pose proof (link_first _ _ _ _ _ (t_link _ _ _ _ T h ltac:(lia)) Hj Ej) as Hx. unfold rem. rewrite Hf; auto.
    - intros Eq. rewrite Eq in Hx. assert (S h = h); [|lia]. apply (t_dist _ _ _ _ T (S h) h i); auto. lia.
    - intros Eq. rewrite Eq in Hx. assert (S (S h) = h); [|lia]. apply (t_dist _ _ _ _ T (S (S h)) h Q); auto. lia. }
  assert (G : local N N' h [Q] [(i, None); (s, None)] [(i, None)]).
  { apply (local_merge N N' h [Q] i s n n' ns); auto.
    - intros j Hj Hx. apply Hf; auto. intros ->. apply Hx. simpl; auto.
    - simpl. intros [?|[]]; congruence.
    - apply (nodeok_mono N N'); auto.
    - intros c0 Ec. destruct (Hlid c0 Ec) as (c1 & Ec1 & ->). rewrite Ec1 in *. destruct Hn as [[H0 _] _]. apply (Hkid i c1); auto. }
  destruct (up_group N N' r lev H h Q pre ga [(i, None); (s, None)] gb post [(i, None)] c (IDel (k, s) prev nx loc c) T Pl) as (T' & Pl' & Hp & Ho); auto.
  - apply (nodeok_mono N N'); auto.
  - unfold rem in Hrem. rewrite EQ in Hrem. simpl. destruct c; auto; discriminate.
  - simpl. pose proof (t_first _ _ _ _ T (S h) Q c ltac:(lia) HiQ EQ) as Hfst. rewrite Ebody in Hfst.
    destruct (Nat.eq_dec (ilid c) i) as [->|Hne]; unfold rem in *; [rewrite E'; auto|rewrite Hf; auto].
    apply Hdis. rewrite <- Ebody. eapply link_first; [apply (t_link _ _ _ _ T h Hh')| |]; eauto.
  - simpl. rewrite Ebody. auto.
  - apply (linked_drop N N' Q c ga i s gb k prev nx loc); auto. unfold nlo. rewrite Es. auto.
  - eexists. split; [split; [exact T'|]|split; [exact Pl'|split; [|exact Ho]]].
    + apply (others_rem _ _ _ _ _ _ key Ho R). rewrite setl_eq. pose proof (R h Hh) as Rh.
      assert (Rh' : remrun N' (lev h) key).
      { eapply remrun_ext; [| |exact Rh]; auto. intros [j o] Hj. assert (Hn' : N j <> None) by (apply (tree_some _ _ _ _ h j T Hh); eapply ids_in; eauto).
        simpl. split; [|apply Hm; auto]. unfold rem. destruct (Nat.eq_dec j i) as [->|Hne]; [rewrite E, E'; congruence|rewrite Hf; auto].
        apply Hdis. eapply ids_in; eauto. }
      rewrite Elev in Rh'. rewrite <- app_assoc in Rh' |- *. simpl in Rh' |- *. rewrite app_assoc in Rh' |- *.
      eapply remrun_merge; [..|exact Rh'].
      * unfold rem. rewrite E'. auto.
      * unfold rem. rewrite Es'. auto.
    + assert (Hw : lw N h [(i, None); (s, None)] = wt n + wt ns) by (unfold lw, cw, pw; simpl; rewrite E, Es; lia).
      assert (Hw' : lw N' h [(i, None)] = wt n') by (unfold lw, cw, pw; simpl; rewrite E'; lia).
      rewrite Hw, Hw' in Hp. assert (Hwt : wt (NInner (IDel (k, s) prev nx loc c)) <= wt (NInner c) + 6).
      { unfold wt, nsize. assert (Hr : is_remove (NInner c) = false) by (unfold rem in Hrem; rewrite EQ in Hrem; auto). rewrite Hr. simpl.
        destruct prev. simpl.
        assert (Hz : Z.to_nat (icount c) = S (Z.to_nat (icount c - 1)) \/ Z.to_nat (icount c - 1) = Z.to_nat (icount c)) by lia.
        destruct Hz as [Hz|Hz]; [|rewrite Hz; lia]. pose proof (fi_P (Z.to_nat (icount c - 1))) as Hq. rewrite <- Hz in Hq. lia. }
      lia.
Qed.

(** A new root over a split one. *)
Lemma up_newroot N N' r lev H o s r' k key :
  inv N r lev H key -> lev H = [(r, Some s)] -> nlo N s = Some k -> N r' = None ->
  N' r' = Some (NInner (IBase 0 None r [(kdef, r); (k, s)] None)) -> (forall j, j <> r' -> N' j = N j) -> o = s ->
  exists lev', inv N' r' lev' (S H) key /\ pot N' lev' (S H) < pot N lev H.
Proof.
  intros [T R] E Hk Hn En Hf _. eexists. split; [split|].
  - eapply newroot_tree; eauto.
  - assert (Hs : forall x j, x <= H -> In j (ids (lev x)) -> N' j = N j).
    { intros x j Hx Hj. apply Hf. intros ->. apply (tree_some _ _ _ _ x r' T); auto. }
    assert (Rr : forall y, y <= H -> remrun N' (lev y) key).
    { intros y Hy. eapply remrun_ext; [| |apply (R y Hy)]; auto. intros [j oj] Hj. simpl. unfold rem, nlo. rewrite (Hs y); auto. eapply ids_in; eauto. }
    intros y Hy. destruct (Nat.eq_dec y (S H)) as [->|H1]; [|rewrite setl_ne by auto; destruct (Nat.eq_dec y H) as [->|H2]].
    + rewrite setl_eq. exists [(r', None)], [], []. repeat split; auto. constructor; auto. unfold live, rem. simpl. rewrite En. auto.
    + rewrite setl_eq. specialize (Rr H (le_n _)). rewrite E in Rr. apply (remrun_post N' [] r (Some s) s [] key); auto.
      * unfold rem. rewrite (Hs H); auto; [apply T|]. rewrite E. simpl; auto.
      * assert (Hp : pending N r s) by (apply (t_cell _ _ _ _ T H); auto; rewrite E; simpl; auto).
        unfold rem. rewrite (Hs H); auto; [|rewrite E; simpl; auto]. unfold pending in Hp. destruct (N r) as [[[]|[]]|], (N s) as [[[]|[]]|]; try contradiction; auto.
      * pose proof (tree_sorted _ _ _ _ H T (le_n _)) as Hss. rewrite E in Hss. simpl in Hss. inversion Hss as [|? ? _ Hall]; subst. inversion Hall; subst.
        unfold nlo in *. rewrite !(Hs H) by (auto; rewrite E; simpl; auto). auto.
    + rewrite setl_ne by auto. apply Rr. lia.
  - eapply pot_newroot; eauto.
Qed.
End SeqUp.
