(** Safety of the index operations, continued: help-along of splits and
    merges, JumpToNodeID, LoadNodeID. *)
From Coq Require Import NArith List Arith Lia Bool ZArith.
From Verif Require Import Base Leaf LeafSpec LeafProofs LeafWeak LeafProofs2 Inner InnerSpec InnerProofs InnerProofs2 Tree TreeSpec TreeInv TreeSafe TreeProg TreeProg2.
Import ListNotations.

Section TreeProg3.
Context {P : Params}.
Notation hist := (list world).

Ltac ext := match goal with
  | H : hext ?o ?a ?b, G : hgood ?a, S : snap_ok ?a ?s |- snap_ok ?b ?s => exact (snap_ext o a b s G H S)
  | H : hext ?o ?a ?b, G : hgood ?a, S : ctx_ok ?a ?s |- ctx_ok ?b ?s => exact (ctx_ext o a b s G H S)
  | H : hext ?o ?a ?b, G : hgood ?a, S : par_ok ?a ?l ?s |- par_ok ?b ?l ?s => exact (par_ext o a b l s G H S)
  end.

(** * FindLeftSibling *)
Definition found (ps : snap) (f : nat * snap) (h : hist) : Prop :=
  snap_ok h (snd f) /\ settled (s_node (snd f)) /\ is_leaf (s_node (snd f)) = false /\
  nlow (s_node (snd f)) = nlow (s_node ps) /\ pub (now h) (fst f) /\ lole (nlow (s_node ps)) (lo (wm (now h)) (fst f)).
Lemma found_ext own h h' ps f : hgood h -> hext own h h' -> found ps f h -> found ps f h'.
Proof.
  intros Hg Hx (A & B & C & D & E & F). split; [ext|]. split; auto. split; auto. split; auto.
  split; [apply Hx; auto|]. rewrite (le_lo _ _ _ (now_ok _ Hg) (x_le _ _ _ Hx)); auto.
Qed.
Lemma find_left_safe h k ps : hgood h -> snap_ok h ps -> settled (s_node ps) ->
  safe ND None (find_left k ps) (found ps) h.
Proof.
  intros Hg Hs Hset. unfold find_left, parent_inner. destruct (s_node ps) as [c|c] eqn:En; [exact I|].
  cbn [pbind]. destruct (ileft k c) as [[i|]|] eqn:El; cbn [lift pbind]; [| |exact I].
  - apply safe_ret. intros h' Hx. pose proof (snap_ext _ _ _ _ Hg Hx Hs) as Hs'.
    pose proof (s_body _ _ Hs') as Hb. rewrite En in Hb. destruct (settled_body_inner _ _ Hb Hset) as [_ Hr].
    destruct (Hr _ (ileft_refs _ _ _ El)) as [A B]. unfold found. cbn [fst snd]. rewrite En. auto 10.
  - destruct (iconsolidate _ c) as [c'|] eqn:Ec; cbn [lift pbind]; [|exact I].
    cbn [safe]. intros h' Hx. cbn zeta. pose proof (snap_ext _ _ _ _ Hg Hx Hs) as Hs'. pose proof (x_good _ _ _ Hx) as Hg'.
    pose proof (s_body _ _ Hs') as Hb. rewrite En in Hb. pose proof (settled_body_inner _ _ Hb Hset) as Hi.
    destruct (consolidated_inner _ _ _ _ Hi Ec) as (Hi2 & El2 & Eh2 & Hrefs).
    split.
    + intros _. destruct (ileft k c') as [[i|]|] eqn:El'; cbn [lift pbind]; try exact I.
      intros h2 Hx2. apply (found_ext _ _ _ _ _ Hg' Hx2).
      destruct (proj2 Hi _ (Hrefs _ (ileft_refs _ _ _ El'))) as [A B]. unfold found. cbn [fst snd]. rewrite En. auto 10.
    + intros Ht. split; [apply Hs'|]. exists (pub (now h')).
      destruct (inner_step None h' ps c c' Hg' Hs' En Hset Ht El2) as (A & B & C).
      { apply inner_body; auto. }
      { pose proof (s_next _ _ Hs') as Hn. rewrite En in Hn. intros a b Hab. apply Hn. simpl in *. congruence. }
      split; [exact A|]. left. split; [exact B|].
      destruct (ileft k c') as [[i|]|] eqn:El'; cbn [lift pbind]; try exact I.
      intros h2 Hx2. pose proof (hgood_cons _ _ _ Hg' A) as Hg2. apply (found_ext _ _ _ _ _ Hg2 Hx2).
      destruct (proj2 Hi _ (Hrefs _ (ileft_refs _ _ _ El'))) as [D F]. unfold found. cbn [fst snd s_node].
      split; [exact C|]. split; [apply (proj2 (inner_body _ _ Hi2))|]. split; auto. rewrite En. split; [exact El2|].
      split; [exact D|]. cbn [now hd wm].
      match goal with A : guar _ _ ?w |- _ => 
        replace (lo (cas_mem (wm (now h')) (s_id ps) (NInner c')) i) with (lo (wm w) i) by reflexivity;
        rewrite (le_lo _ w _ (now_ok _ Hg') (g_le _ _ _ A) D) end. exact F.
Qed.

(** * Help-along, given a safe JumpToNodeID *)
Definition jumped (i : nat) (x : ctx) (o : option ctx) (h : hist) : Prop :=
  match o with
  | None => True
  | Some x' => ctx_ok h x' /\ settled (s_node (cur x')) /\ key x' = key x /\
      lole (nlow (s_node (cur x'))) (lo (wm (now h)) i) /\ is_leaf (s_node (cur x')) = is_leaf (s_node (cur x))
  end.
Definition jump_ok (jump : nat -> ctx -> prog (option ctx)) : Prop := forall i x h,
  hgood h -> pub (now h) i -> par_ok h (lo (wm (now h)) i) (prt x) -> safe ND None (jump i x) (jumped i x) h.

Lemma next_ext own h h' n : hgood h -> hext own h h' -> nextok (now h) n -> nextok (now h') n.
Proof. intros Hg Hx. apply nextok_le; [apply now_ok; auto|apply Hx]. Qed.

Section Jump.
Variable jump : nat -> ctx -> prog (option ctx).
Hypothesis Hjump : jump_ok jump.

Definition lefted (x : ctx) (o : option ctx) (h : hist) : Prop :=
  match o with
  | None => True
  | Some x' => ctx_ok h x' /\ settled (s_node (cur x')) /\ key x' = key x /\
      is_leaf (s_node (cur x')) = is_leaf (s_node (cur x)) /\
      exists k, nhigh (s_node (cur x')) = Some (k, s_id (cur x))
  end.
Lemma jump_left_safe h x : hgood h -> ctx_ok h x -> safe ND None (jump_left jump x) (lefted x) h.
Proof.
  intros Hg Hx. unfold jump_left. destruct (prt x) as [| |ps] eqn:Ep; [exact I|exact I|].
  destruct Hx as [Hs Hp]. rewrite Ep in Hp. destruct Hp as (Hps & Hset & Hin & Hlo).
  unfold parent_inner. destruct (s_node ps) as [c|c] eqn:En; [exact I|]. cbn [pbind].
  destruct (_ =? _); [intros h' _; exact I|]. cbn [safe]. intros h' Hh. split; [apply Hh, Hps|]. intros y Hy.
  destruct (N.eqb _ _); [|intros h2 _; exact I].
  pose proof (x_good _ _ _ Hh) as Hg'.
  eapply safe_bind; [auto|apply find_left_safe; [exact Hg'|ext|rewrite En; exact Hset]|].
  intros f h1 Hh1 (A & B & C & D & E & F). pose proof (x_good _ _ _ Hh1) as Hg1.
  eapply safe_bind; [exact Hg1|apply Hjump; [exact Hg1|exact E|]|].
  { simpl. rewrite <- D in F. auto. }
  intros o h2 Hh2 Hj. destruct o as [x'|]; [|intros h3 _; exact I].
  destruct (nhigh (s_node (cur x'))) as [[hk n]|] eqn:Eh; [|intros h3 _; exact I].
  destruct (n =? s_id (cur x)) eqn:Ei; [|intros h3 _; exact I]. apply Nat.eqb_eq in Ei. subst n.
  intros h3 Hh3. destruct Hj as (J1 & J2 & J3 & J4 & J5). simpl in J3, J5. simpl.
  split; [eapply ctx_ext; [|exact Hh3|exact J1]; apply Hh2|]. split; auto. split; auto. split; auto. eauto.
Qed.

(** sabove of the low key and not beyond: the merge or split key of a page. *)
Lemma range_sabove n k i : range_ok (nlow n) (nhigh n) -> nhigh n = Some (k, i) -> sabove (nlow n) k.
Proof. intros H E. rewrite E in H. destruct (nlow n); simpl in *; auto. Qed.

Lemma par_move h l l' p : lole l l' -> par_ok h l p -> par_ok h l' p.
Proof.
  destruct p as [| |s]; simpl; auto. intros H (A & B & C & D). split; auto. split; auto. split; auto.
  eapply lole_trans; eauto.
Qed.

Lemma finish_merge_safe h x dk di nx : hgood h -> ctx_ok h x -> settled (s_node (cur x)) ->
  sabove (nlow (s_node (cur x))) dk ->
  safe ND None (finish_merge x dk di nx) (moved x) h.
Proof.
  intros Hg Hx Hset Hdk. unfold finish_merge. destruct (prt x) as [| |ps] eqn:Ep; [exact I|exact I|].
  cbn [safe]. intros h1 Hh1. split; [apply Hh1; destruct Hx as [_ Hp]; rewrite Ep in Hp; apply Hp|]. intros y Hy. pose proof (x_good _ _ _ Hh1) as Hg1.
  destruct (N.eqb _ _); [|intros h2 _; exact I].
  destruct (s_node ps) as [c|c] eqn:En; unfold parent_inner; rewrite En; [exact I|]. cbn [pbind].
  pose proof (ctx_ext _ _ _ _ Hg Hh1 Hx) as Hx1.
  assert (Hps : snap_ok h1 ps /\ settled (s_node ps) /\ is_leaf (s_node ps) = false /\ lole (nlow (s_node ps)) (nlow (s_node (cur x)))).
  { destruct Hx1 as [_ Hp]. rewrite Ep in Hp. exact Hp. }
  destruct Hps as (Hps & Hps2 & _ & Hps4).
  pose proof (s_body _ _ Hps) as Hb. rewrite En in Hb, Hps2, Hps4. pose proof (settled_body_inner _ _ Hb Hps2) as Hi.
  assert (Hsa : sabove (ilow c) dk) by (eapply lole_sabove; eauto).
  destruct (isearch dk c) as [[r loc]|] eqn:Es; [|exact I]. cbn [lift pbind].
  assert (Hbe : below (ihigh c) dk).
  { unfold isearch in Es. destruct (ihigh c) as [[hh ?]|]; simpl; auto. destruct (klt dk hh); [auto|discriminate]. }
  destruct (isearch_spec _ dk c (proj1 Hi) Hsa Hbe) as (r' & loc' & Es' & Hloc & Hloc1 & Hr).
  rewrite Es' in Es. inversion Es; subst r' loc'. clear Es.
  destruct r as [[s0 fi]|].
  2:{ intros h2 Hh2. apply moved_self; auto. ext. }
  destruct (fi =? di) eqn:Efi; [|exact I]. apply Nat.eqb_eq in Efi. subst fi.
  destruct Hr as [-> Hsep].
  set (c' := IDel _ _ _ _ _).
  cbn [safe]. intros h2 Hh2. cbn zeta. pose proof (x_good _ _ _ Hh2) as Hg2.
  split; [intros _ h3 _; exact I|]. intros Ht.
  pose proof (snap_ext _ _ _ _ Hg1 Hh2 Hps) as Hps'. split; [apply Hps'|]. exists (pub (now h2)). pose proof (ctx_ext _ _ _ _ Hg1 Hh2 Hx1) as Hx2.
  pose proof (s_body _ _ Hps') as Hb2. rewrite En in Hb2. pose proof (settled_body_inner _ _ Hb2 Hps2) as Hi2.
  pose proof (s_next _ _ Hps') as Hn2. rewrite En in Hn2.
  destruct Hx2 as [Hcx Hpx].
  assert (Hi' : innerok (now h2) c').
  { destruct Hi2 as [W R]. split.
    - simpl. split; auto. split; auto. split; auto. split; [exact Hsep|]. split; [|auto].
      intros z Hz. rewrite (s_lo _ _ Hcx) in Hz. rewrite Hz. auto.
    - simpl. intros j [->|[->|Hj]].
      + apply R. eapply seps_refs; eauto.
      + split; [apply Hcx|]. rewrite (s_lo _ _ Hcx). exact Hps4.
      + apply R; auto. }
  destruct (inner_step None h2 ps c c' Hg2 Hps' En Hps2 Ht eq_refl) as (A & B & C).
  { apply inner_body; auto. } { intros a b Hab. apply Hn2. exact Hab. }
  split; [exact A|]. left. split; [exact B|]. 
  pose proof (hgood_cons _ _ _ Hg2 A) as Hg3.
  match goal with C : snap_ok ?hh _ |- _ => set (h3 := hh) in * end.
  intros h4 Hh4. split.
  { apply Hh4. simpl. apply (proj2 Hi2). eapply seps_refs; eauto. }
  intros g Hgt. destruct (is_remove (snd g)); [|exact I].
  pose proof (x_good _ _ _ Hh4) as Hg4.
  assert (Hcx4 : snap_ok h4 (cur x)) by (eapply snap_ext; [exact Hg3|exact Hh4|]; eapply snap_cons; eauto).
  eapply safe_bind; [auto|apply consolidate_safe; auto|].
  intros s h5 Hh5 Hl. pose proof (x_good _ _ _ Hh5) as Hg5. apply safe_ret. intros h6 Hh6.
  apply (moved_ext _ _ _ _ _ Hg5 Hh6). pose proof (snap_ext _ _ _ _ Hg3 Hh4 C) as C4.
  pose proof (snap_ext _ _ _ _ Hg4 Hh5 C4) as C5.
  destruct Hl as (L1 & L2 & L3 & L4 & L5 & L6). unfold moved, ctx_ok. cbn [cur set_cur set_par key prt].
  split; [split; [exact L1|]|].
  - cbn [par_ok]. split; [exact C5|]. cbn [s_node]. rewrite L4.
    split; [apply (inner_body _ _ Hi')|]. split; auto.
  - rewrite L4. auto using lole_refl.
Qed.

Lemma root_guar h i r : (forall x, get (root_mem (wm (now h)) r) x = get (wm (now h)) x) ->
  let w' := {| wm := root_mem (wm (now h)) r; pub := fun x => pub (now h) x \/ x = r |} in
  wok w' -> le (now h) w' -> i = r -> guar (Some i) (now h) w'.
Proof.
  intros Hget w' Hw Hl ->. constructor; auto. intros j Hj _ Hn. split; [|apply Hget].
  simpl. intros [H| ->]; auto.
Qed.

Lemma finish_split_safe h x k sib nx : hgood h -> ctx_ok h x -> settled (s_node (cur x)) ->
  nhigh (s_node (cur x)) = Some (k, sib) ->
  safe ND None (finish_split x k sib nx) (moved x) h.
Proof.
  intros Hg Hx Hset Hk. unfold finish_split. pose proof (proj1 Hx) as Hs.
  pose proof (range_sabove _ _ _ (body_range _ _ (s_body _ _ Hs)) Hk) as Hsab.
  destruct (prt x) as [| |ps] eqn:Ep; [exact I| |].
  - cbn zeta. cbn [safe]. intros h1 Hh1. cbn zeta. intros h2 Hh2. cbn zeta.
    pose proof (x_good _ _ _ Hh1) as Hg1. destruct (fresh_kept _ _ _ Hg1 Hh2) as [Hr Hnr].
    split; [intros _ h3 _; exact I|]. intros Hroot. eexists.
    assert (Hh2' : hext None h h2).
    { eapply hext_trans; [exact Hh1|]. eapply hext_trans; [apply new_hgood; auto|]. eapply hext_none; exact Hh2. }
    pose proof (snap_ext _ _ _ _ Hg Hh2' Hs) as Hs2. pose proof (x_good _ _ _ Hh2) as Hg2.
    destruct (s_next _ _ Hs2 _ _ Hk) as (N1 & N2 & _).
    destruct (root_ok (now h2) (s_id (cur x)) k sib _ (now_ok _ Hg2) (s_pub _ _ Hs2) N1 N2 Hroot Hr Hnr) as (A & B & C).
    split; [|left; split; [exact C|intros h3 _; exact I]].
    apply root_guar; auto.
  - unfold parent_inner. destruct (s_node ps) as [c|c] eqn:En; [exact I|]. cbn [pbind].
    assert (Hr : forall h', hext None h h' -> safe ND None (Ret (Some x)) (moved x) h').
    { intros h' Hh. apply safe_ret. intros h2 Hh2. apply moved_self; auto.
      eapply ctx_ext; [|exact Hh2|]; [apply Hh|ext]. }
    match goal with |- context [if ?b then _ else _] => destruct b eqn:Ehi end; [apply Hr; apply hext_refl; auto|].
    assert (Hbe : below (ihigh c) k).
    { destruct (ihigh c) as [[hh ?]|]; simpl; auto. unfold kge in Ehi. destruct (klt k hh); auto. }
    assert (Hps : snap_ok h ps /\ settled (s_node ps) /\ is_leaf (s_node ps) = false /\ lole (nlow (s_node ps)) (nlow (s_node (cur x)))).
    { destruct Hx as [_ Hp]. rewrite Ep in Hp. exact Hp. }
    destruct Hps as (Hps & Hps2 & _ & Hps4).
    pose proof (s_body _ _ Hps) as Hb. rewrite En in Hb, Hps2, Hps4. pose proof (settled_body_inner _ _ Hb Hps2) as Hi.
    assert (Hsa : sabove (ilow c) k) by (eapply lole_sabove; eauto).
    destruct (isearch_spec _ k c (proj1 Hi) Hsa Hbe) as (r & loc & Es & Hloc & Hloc1 & Hr').
    rewrite Es. cbn [lift pbind]. destruct r as [[s0 fi]|].
    { destruct (_ =? _); [apply Hr; apply hext_refl; auto|intros h2 _; exact I]. }
    set (c' := IIns _ _ _ _).
    cbn [safe]. intros h2 Hh2. cbn zeta. pose proof (x_good _ _ _ Hh2) as Hg2.
    split; [intros _ h3 _; exact I|]. intros Ht.
    pose proof (snap_ext _ _ _ _ Hg Hh2 Hps) as Hps'. split; [apply Hps'|]. exists (pub (now h2)). pose proof (ctx_ext _ _ _ _ Hg Hh2 Hx) as Hx2.
    pose proof (s_body _ _ Hps') as Hb2. rewrite En in Hb2. pose proof (settled_body_inner _ _ Hb2 Hps2) as Hi2.
    pose proof (s_next _ _ Hps') as Hn2. rewrite En in Hn2.
    destruct Hx2 as [Hcx Hpx]. destruct (s_next _ _ Hcx _ _ Hk) as (N1 & N2 & _).
    assert (Hi' : innerok (now h2) c').
    { destruct Hi2 as [W R]. split.
      - simpl. auto 10.
      - simpl. intros j [->|Hj]; [|apply R; auto]. split; auto. rewrite N2. apply sabove_lole; auto. }
    destruct (inner_step None h2 ps c c' Hg2 Hps' En Hps2 Ht eq_refl) as (A & B & C).
    { apply inner_body; auto. } { intros a b Hab. apply Hn2. exact Hab. }
    split; [exact A|]. left. split; [exact B|]. 
    pose proof (hgood_cons _ _ _ Hg2 A) as Hg3.
    match goal with C : snap_ok ?hh _ |- _ => set (h3 := hh) in * end.
    assert (Hcx3 : snap_ok h3 (cur x)) by (eapply snap_cons; eauto).
    eapply safe_bind; [auto|apply consolidate_safe; auto|].
    intros s h5 Hh5 Hl. pose proof (x_good _ _ _ Hh5) as Hg5. apply safe_ret. intros h6 Hh6.
    apply (moved_ext _ _ _ _ _ Hg5 Hh6). pose proof (snap_ext _ _ _ _ Hg3 Hh5 C) as C5.
    destruct Hl as (L1 & L2 & L3 & L4 & L5 & L6). unfold moved, ctx_ok. cbn [cur set_cur set_par key prt].
    split; [split; [exact L1|]|].
    + cbn [par_ok]. split; [exact C5|]. cbn [s_node]. rewrite L4.
      split; [apply (inner_body _ _ Hi')|]. split; auto.
    + rewrite L4. auto using lole_refl.
Qed.

Lemma strip_ok h s : snap_ok h s -> snap_ok h (strip_snap s) /\ s_id (strip_snap s) = s_id s /\
  nlow (s_node (strip_snap s)) = nlow (s_node s) /\ is_leaf (s_node (strip_snap s)) = is_leaf (s_node s) /\
  (is_remove (s_node (strip_snap s)) = false -> settled (s_node (strip_snap s))).
Proof.
  intros Hs. unfold strip_snap. destruct (s_node s) as [c|c] eqn:En.
  { split; auto. split; auto. rewrite En. split; auto. split; auto. destruct c; simpl; try tauto. discriminate. }
  assert (Ha : (exists p c0, c = IAbort p c0) \/ strip (s_ptr s) c = (s_ptr s, c)) by (destruct c; simpl; eauto).
  destruct Ha as [(p & c0 & ->)|Ea].
  - destruct Hs as [A B C D F G W R]. rewrite En in *. simpl in C. destruct C as [Ci Ch].
    assert (Es : strip (s_ptr s) (IAbort p c0) = (p, c0)).
    { simpl. destruct c0; auto; destruct Ci as [[] _]. }
    rewrite Es. cbn [s_id s_node]. split; [|split; [auto|split; [auto|split; [auto|]]]].
    + constructor; cbn [s_id s_ptr s_node]; auto; try discriminate.
      * apply inner_body; auto.
      * destruct c0; destruct Ci as [X _]; simpl in X; try tauto; discriminate.
    + intros _. apply (inner_body _ _ Ci).
  - rewrite Ea. assert (E : {| s_id := s_id s; s_ptr := s_ptr s; s_node := NInner c |} = s) by (destruct s; simpl in *; congruence).
    rewrite E, En. split; auto. split; auto. split; auto. split; auto.
    destruct c; simpl; try tauto; try discriminate. simpl in Ea. exfalso.
    pose proof (s_body _ _ Hs) as C. rewrite En in C. simpl in C. destruct C as [Ci Ch].
    destruct c; destruct Ci as [X _]; simpl in X; try tauto; simpl in Ea; inversion Ea.
Qed.

Lemma finish_smo_safe h x : hgood h -> ctx_ok h x -> safe ND None (finish_smo jump x) (moved x) h.
Proof.
  intros Hg Hx0. unfold finish_smo. destruct (strip_ok _ _ (proj1 Hx0)) as (T1 & T2 & T3 & T4 & T5).
  set (y := set_cur x (strip_snap (cur x))).
  assert (Hx : ctx_ok h y) by (split; simpl; auto; rewrite T3; apply Hx0).
  assert (Hmv : forall p, safe ND None p (moved y) h -> safe ND None p (moved x) h).
  { intros p. apply safe_mono; auto. intros o h'. apply moved_trans; simpl; auto. rewrite T3. apply lole_refl. }
  apply Hmv. clear Hmv. change (strip_snap (cur x)) with (cur y) in T1, T2, T3, T4, T5. clearbody y.
  clear x Hx0 T1 T2 T3 T4. rename y into x. rename T5 into Hst.
  pose proof (proj1 Hx) as Hs.
  assert (Hr : is_remove (s_node (cur x)) = false -> safe ND None (Ret (Some x)) (moved x) h).
  { intros Hn. apply safe_ret. intros h2 Hh2. apply moved_self; auto. ext. }
  pose proof (s_body _ _ Hs) as Hb.
  destruct (s_node (cur x)) as [c|c] eqn:En.
  - destruct c as [low items high|k v ix c|k v ix c|sk sib n c|rid rc|mk i r c]; try (apply Hr; reflexivity).
    + apply finish_split_safe; auto; rewrite En; auto. 
    + (* remove *)
      eapply safe_bind; [auto|apply jump_left_safe; auto|].
      intros o h1 Hh1 Ho. pose proof (x_good _ _ _ Hh1) as Hg1. destruct o as [x'|]; [|intros h2 _; exact I].
      destruct Ho as (O1 & O2 & O3 & O4 & k & O5). rewrite En in O4.
      destruct (s_node (cur x')) as [lc|] eqn:En'; [|exact I]. simpl in O5.
      rewrite O5. cbn [safe]. intros h2 Hh2. cbn zeta. pose proof (x_good _ _ _ Hh2) as Hg2.
      split; [intros _ h3 _; exact I|]. intros Ht.
      pose proof (ctx_ext _ _ _ _ Hg1 Hh2 O1) as [Hc2 Hp2]. split; [apply Hc2|]. exists (pub (now h2)).
      pose proof (snap_ext _ _ _ _ Hg1 Hh2 (snap_ext _ _ _ _ Hg Hh1 Hs)) as Hs2.
      pose proof (s_rem _ _ Hs2) as Hrem. rewrite En in Hrem. specialize (Hrem eq_refl).
      pose proof (cas_get _ _ Hc2 Ht) as Hget. rewrite En' in Hget. pose proof (now_ok _ Hg2) as Hw.
      assert (Hu : upd1 (wm (now h2)) (cas_mem (wm (now h2)) (s_id (cur x')) (NLeaf (LMerge k (s_id (cur x)) rc lc)))
                 (s_id (cur x')) (nptr (wm (now h2))) (NLeaf (LMerge k (s_id (cur x)) rc lc))).
      { apply cas_upd1; [apply Hw|apply pub_bound; auto; apply Hc2]. }
      destruct (swap_merge (now h2) _ (s_id (cur x')) _ lc _ k (s_id (cur x)) rid rc Hw (s_pub _ _ Hc2) Hget (settled_live _ O2) O5 Hrem Hu)
        as (A & B & C).
      assert (G : guar None (now h2) {| wm := cas_mem (wm (now h2)) (s_id (cur x')) (NLeaf (LMerge k (s_id (cur x)) rc lc)); pub := pub (now h2) |}).
      { eapply upd_guar; [apply Hc2|exact Hu| |exact A|exact B]. auto. }
      split; [exact G|]. left. split; [exact C|].
      pose proof (hgood_cons _ _ _ Hg2 G) as Hg3.
      match type of Hg3 with hgood ?hh => set (h3 := hh) in * end.
      assert (Hc3 : snap_ok h3 {| s_id := s_id (cur x'); s_ptr := nptr (wm (now h2)); s_node := NLeaf (LMerge k (s_id (cur x)) rc lc) |}).
      { apply snap_load; [exact Hg3|apply Hc2|apply Hu]. }
      set (x'' := set_cur _ _).
      assert (Hx'' : ctx_ok h3 x'').
      { split; [exact Hc3|]. simpl. eapply par_ext; [exact Hg2|eapply (hext_cons None None); [exact Hg2|exact G|auto]|].
        rewrite En' in Hp2. exact Hp2. }
      assert (Hlk : sabove (llow lc) k).
      { pose proof (body_range _ _ (s_body _ _ Hc2)) as Hrg. rewrite En' in Hrg.
        apply (range_sabove (NLeaf lc) k (s_id (cur x)) Hrg). exact O5. }
      eapply safe_mono; [| | |apply (finish_merge_safe h3 x'' k (s_id (cur x)) (lhigh rc) Hg3 Hx'')].
      * auto.
      * intros o h4. apply moved_trans; simpl; auto; rewrite ?En; auto.
        destruct (s_next _ _ Hc2 k (s_id (cur x))) as (_ & Nx & _); [rewrite En'; exact O5|].
        rewrite (s_lo _ _ Hs2), En in Nx. simpl in Nx |- *. rewrite Nx. apply sabove_lole; auto.
      * auto.
      * exact I.
      * exact Hlk.
    + destruct Hb as (W1 & W2 & W3 & W4).
      apply finish_merge_safe; auto; [rewrite En; auto|]. rewrite En. simpl.
      pose proof (lwfw_range _ W1) as Hrg. rewrite W4 in Hrg. destruct (llow c); simpl in *; auto.
  - destruct c as [d low lid items high|it nx loc c|it pv nx loc c|sk sib n c|rid rc|mk i r c|p c]; try (apply Hr; reflexivity).
    + apply finish_split_safe; auto; rewrite En; auto.
    + (* remove *)
      eapply safe_bind; [auto|apply jump_left_safe; auto|].
      intros o h1 Hh1 Ho. pose proof (x_good _ _ _ Hh1) as Hg1. destruct o as [x'|]; [|intros h2 _; exact I].
      destruct Ho as (O1 & O2 & O3 & O4 & k & O5). rewrite En in O4.
      destruct (s_node (cur x')) as [|lc] eqn:En'; [exact I|]. simpl in O5.
      rewrite O5. cbn [safe]. intros h2 Hh2. cbn zeta. pose proof (x_good _ _ _ Hh2) as Hg2.
      split; [intros _ h3 _; exact I|]. intros Ht.
      pose proof (ctx_ext _ _ _ _ Hg1 Hh2 O1) as [Hc2 Hp2]. split; [apply Hc2|]. exists (pub (now h2)).
      pose proof (snap_ext _ _ _ _ Hg1 Hh2 (snap_ext _ _ _ _ Hg Hh1 Hs)) as Hs2.
      pose proof (s_body _ _ Hc2) as Hbl. rewrite En' in Hbl. pose proof (settled_body_inner _ _ Hbl O2) as Hil.
      pose proof (s_body _ _ Hs2) as Hbr. rewrite En in Hbr. simpl in Hbr.
      destruct (s_next _ _ Hc2 k (s_id (cur x))) as (_ & Nx & _); [rewrite En'; exact O5|].
      rewrite (s_lo _ _ Hs2), En in Nx. simpl in Nx.
      assert (Hlk : sabove (ilow lc) k).
      { pose proof (body_range _ _ Hbl) as Hrg.
        apply (range_sabove (NInner lc) k (s_id (cur x)) Hrg). exact O5. }
      assert (Hi' : innerok (now h2) (IMerge k (s_id (cur x)) rc lc)).
      { destruct Hil as [X1 X2], Hbr as [Y1 Y2]. split; [simpl; auto|]. simpl. intros j [Hj|Hj]; [|apply X2; auto].
        destruct (Y2 _ Hj) as [Z1 Z2]. split; auto. eapply lole_trans; [|exact Z2]. rewrite Nx. apply sabove_lole; auto. }
      destruct (inner_step None h2 (cur x') lc (IMerge k (s_id (cur x)) rc lc) Hg2 Hc2 En' O2 Ht eq_refl) as (A & B & Hc3).
      { apply inner_body; auto. }
      { pose proof (s_next _ _ Hs2) as Hn. rewrite En in Hn. intros a b Hab. apply Hn. exact Hab. }
      split; [exact A|]. left. split; [exact B|].
      pose proof (hgood_cons _ _ _ Hg2 A) as Hg3.
      match type of Hg3 with hgood ?hh => set (h3 := hh) in * end.
      set (x'' := set_cur _ _).
      assert (Hx'' : ctx_ok h3 x'').
      { split; [exact Hc3|]. simpl. eapply par_ext; [exact Hg2|eapply (hext_cons None None); [exact Hg2|exact A|auto]|].
        rewrite En' in Hp2. exact Hp2. }
      eapply safe_mono; [| | |apply (finish_merge_safe h3 x'' k (s_id (cur x)) (ihigh rc) Hg3 Hx'')].
      * auto.
      * intros o h4. apply moved_trans; simpl; auto; rewrite ?En; auto.
        simpl. rewrite Nx. apply sabove_lole; auto.
      * auto.
      * exact I.
      * exact Hlk.
    + destruct Hb as ((W1 & W2 & W3 & W4) & _).
      apply finish_merge_safe; auto; [rewrite En; auto|]. rewrite En. simpl.
      pose proof (iwf_range _ _ W1) as Hrg. rewrite W3 in Hrg. destruct (ilow c); simpl in *; auto.
Qed.

Lemma settle_safe h x : hgood h -> ctx_ok h x -> safe ND None (settle jump x) (moved x) h.
Proof.
  intros Hg Hx. unfold settle. eapply safe_bind; [auto|apply finish_smo_safe; auto|].
  intros o h1 Hh1 Ho. pose proof (x_good _ _ _ Hh1) as Hg1. destruct o as [x'|]; [|intros h2 _; exact I].
  destruct Ho as (O1 & O2 & O3 & O4 & O5).
  eapply safe_bind; [auto|apply try_consolidate_safe; auto|].
  intros x2 h2 Hh2 (R1 & R2 & R3 & R4 & R5). pose proof (x_good _ _ _ Hh2) as Hg2.
  eapply safe_mono; [| | |apply adjust_safe; auto]; auto.
  intros o h3. apply moved_trans; [eapply lole_trans; eauto|congruence|congruence].
Qed.
End Jump.

Lemma jump_to_ok fuel : jump_ok (jump_to fuel).
Proof.
  induction fuel as [|f IH]; intros i x h Hg Hp Hpar; [exact I|].
  cbn [jump_to safe]. intros h1 Hh1. split; [apply Hh1, Hp|]. intros y Hy. destruct y as [p n]. cbn [fst snd].
  pose proof (x_good _ _ _ Hh1) as Hg1. pose proof (l_pub _ _ (x_le _ _ _ Hh1) _ Hp) as Hp1.
  destruct (Bool.eqb _ _ && _) eqn:Ek; [|exact I]. apply andb_prop in Ek as [Ek _]. apply Bool.eqb_prop in Ek.
  set (s := {| s_id := i; s_ptr := p; s_node := n |}).
  assert (Hs : snap_ok h1 s) by (apply snap_load; auto).
  assert (Hn : node_of (wm (now h1)) i = Some n) by (apply node_of_get; eauto).
  assert (Hx : ctx_ok h1 (set_cur x s)).
  { split; [exact Hs|]. simpl. rewrite <- (lo_node _ _ _ Hn).
    rewrite (le_lo _ _ _ (now_ok _ Hg) (x_le _ _ _ Hh1) Hp). ext. }
  pose proof (settle_safe (jump_to f) IH h1 (set_cur x s) Hg1 Hx) as Hset. apply safe_hext in Hset; auto.
  eapply safe_mono; [| | |exact Hset]; auto.
  intros o h2 [Hh2 Ho]. destruct o as [x'|]; [|exact I]. destruct Ho as (O1 & O2 & O3 & O4 & O5).
  split; auto. split; auto. split; auto. simpl in O4, O5. split; [|congruence].
  rewrite (le_lo _ _ _ (now_ok _ Hg1) (x_le _ _ _ Hh2) Hp1), (lo_node _ _ _ Hn). exact O4.
Qed.
Definition loaded (k : K) (i : nat) (o : option ctx) (h : hist) : Prop :=
  match o with
  | None => True
  | Some x' => ctx_ok h x' /\ settled (s_node (cur x')) /\ key x' = k /\
      lole (nlow (s_node (cur x'))) (lo (wm (now h)) i)
  end.
Lemma load_node_safe fuel h k p i : hgood h -> pub (now h) i -> par_ok h (lo (wm (now h)) i) p ->
  safe ND None (load_node fuel k p i) (loaded k i) h.
Proof.
  intros Hg Hp Hpar. unfold load_node. cbn [safe]. intros h1 Hh1. split; [apply Hh1, Hp|]. intros y Hy. destruct y as [q n]. cbn [fst snd].
  pose proof (x_good _ _ _ Hh1) as Hg1. pose proof (l_pub _ _ (x_le _ _ _ Hh1) _ Hp) as Hp1.
  set (s := {| s_id := i; s_ptr := q; s_node := n |}). set (x := {| key := k; cur := s; prt := p |}).
  assert (Hs : snap_ok h1 s) by (apply snap_load; auto).
  assert (Hn : node_of (wm (now h1)) i = Some n) by (apply node_of_get; eauto).
  assert (Hx : ctx_ok h1 x).
  { split; [exact Hs|]. simpl. rewrite <- (lo_node _ _ _ Hn).
    rewrite (le_lo _ _ _ (now_ok _ Hg) (x_le _ _ _ Hh1) Hp). ext. }
  pose proof (settle_safe (jump_to fuel) (jump_to_ok fuel) h1 x Hg1 Hx) as Hset. apply safe_hext in Hset; auto.
  eapply safe_mono; [| | |exact Hset]; auto.
  intros o h2 [Hh2 Ho]. destruct o as [x'|]; [|exact I]. destruct Ho as (O1 & O2 & O3 & O4 & O5).
  split; auto. split; auto. split; auto. simpl in O4.
  rewrite (le_lo _ _ _ (now_ok _ Hg1) (x_le _ _ _ Hh2) Hp1), (lo_node _ _ _ Hn). exact O4.
Qed.
End TreeProg3.
