(** Safety of the index operations, continued: size adjustment, help-along,
    page loading. *)
From Coq Require Import List Arith Lia Bool ZArith.
From Verif Require Import Base Leaf LeafSpec LeafProofs LeafWeak LeafProofs2 Inner InnerSpec InnerProofs InnerProofs2 Tree TreeSpec TreeInv TreeSafe TreeProg.
Import ListNotations.

Section TreeProg2.
Context {P : Params}.
Notation hist := (list world).

(** * Merge preparation (PostAbortOnParent etc.) *)
Lemma ptr_step own h s c p0 c0 : hgood h -> snap_ok h s -> s_node s = NInner c -> is_remove (NInner c) = false ->
  tab (wm (now h)) (s_id s) = Some (s_ptr s) -> heap (wm (now h)) p0 = Some (NInner c0) ->
  ilow c0 = ilow c -> bodyok (now h) (NInner c0) -> nextok (now h) (NInner c0) ->
  let w' := {| wm := ptr_mem (wm (now h)) (s_id s) p0; pub := pub (now h) |} in
  guar own (now h) w' /\ same (contents (wm (now h))) (contents (wm w')).
Proof.
  intros Hg Hs En Hset Ht Hp0 El Hb Hn w'. pose proof (now_ok _ Hg) as Hw.
  pose proof (cas_get _ _ Hs Ht) as Hget. rewrite En in Hget. pose proof (s_pub _ _ Hs) as Hp.
  assert (Hu : upd1 (wm (now h)) (wm w') (s_id s) p0 (NInner c0)).
  { apply ptr_upd1; [apply Hw|apply pub_bound; auto|auto]. }
  assert (Hle : le (now h) w') by (eapply upd1_le; eauto).
  destruct (swap_inner (now h) (wm w') (pub w') (s_id s) _ _ _ c0 Hw Hp Hget Hset Hu El) as [A B]; auto.
  { eapply (bodyok_le _ w'); eauto. }
  { eapply (nextok_le _ w'); eauto. }
  split; auto. eapply upd_guar; eauto.
Qed.
Definition removal (s : snap) : node :=
  match s_node s with NLeaf c => NLeaf (LRemove (s_id s) c) | NInner c => NInner (IRemove (s_id s) c) end.
Lemma remove_step own h s : hgood h -> snap_ok h s -> settled (s_node s) ->
  tab (wm (now h)) (s_id s) = Some (s_ptr s) ->
  let w' := {| wm := cas_mem (wm (now h)) (s_id s) (removal s); pub := pub (now h) |} in
  guar own (now h) w' /\ same (contents (wm (now h))) (contents (wm w')).
Proof.
  intros Hg Hs Hset Ht. unfold removal. pose proof (s_body _ _ Hs) as Hb. destruct (s_node s) as [c|c] eqn:En.
  - destruct (leaf_step own h s c (LRemove (s_id s) c) Hg Hs En Hset Ht eq_refl eq_refl) as (A & B & _); auto.
    + simpl. eapply settled_body_leaf; eauto.
    + simpl; tauto.
  - pose proof (settled_body_inner _ _ Hb Hset) as Hi.
    destruct (inner_step own h s c (IRemove (s_id s) c) Hg Hs En Hset Ht eq_refl) as (A & B & _); auto.
    pose proof (s_next _ _ Hs) as Hn. rewrite En in Hn. intros a b Hab. apply Hn. exact Hab.
Qed.
Lemma post_remove_safe h ps s : hgood h -> snap_ok h ps -> settled (s_node ps) -> snap_ok h s -> settled (s_node s) ->
  safe ND None (post_remove ps s (removal s)) (fun o _ => o = None) h.
Proof.
  intros Hg Hps Hst Hs Hst2. unfold post_remove, parent_inner.
  destruct (s_node ps) as [c|c] eqn:En; [exact I|]. simpl.
  intros h1 Hx1. pose proof (x_good _ _ _ Hx1) as Hg1.
  pose proof (snap_ext _ _ _ _ Hg Hx1 Hps) as Hps1. pose proof (snap_ext _ _ _ _ Hg Hx1 Hs) as Hs1.
  split; [intros _ h2 _; auto|]. intros Ht. split; [apply Hps1|]. exists (pub (now h1)).
  pose proof (s_body _ _ Hps1) as Hb. rewrite En in Hb. pose proof (settled_body_inner _ _ Hb Hst) as Hi.
  pose proof (s_next _ _ Hps1) as Hn. pose proof (s_heap _ _ Hps1) as Hh. rewrite En in Hn, Hh.
  destruct (inner_step None h1 ps c (IAbort (s_ptr ps) c) Hg1 Hps1 En Hst Ht eq_refl) as (A & B & C).
  { simpl. auto. } { intros a b Hab. apply Hn. exact Hab. }
  split; [exact A|]. left. split; [exact B|]. clear B.
  match goal with C : snap_ok (?x :: _) ?y |- _ => set (w1 := x) in *; set (as_ := y) in * end.
  pose proof (hgood_cons _ _ _ Hg1 A) as Hg2.
  pose proof (snap_cons _ _ _ _ Hg1 A Hs1) as Hs2. pose proof (snap_cons _ _ _ _ Hg1 A Hps1) as Hps2.
  assert (Hfin : forall h3, hgood h3 -> snap_ok h3 as_ -> snap_ok h3 ps ->
    safe ND None (CasPtr (s_id ps) (nptr (wm (now h1))) (s_ptr ps) (fun ok => if ok then Ret None else Err EAssert))
      (fun (o : option ctx) _ => o = None) h3).
  { intros h3 Hg3 Ha Hp. simpl. intros h4 Hx4. pose proof (x_good _ _ _ Hx4) as Hg4. split; [intros; exact I|].
    intros Ht4. exists (pub (now h4)).
    pose proof (snap_ext _ _ _ _ Hg3 Hx4 Ha) as Ha4. pose proof (snap_ext _ _ _ _ Hg3 Hx4 Hp) as Hp4.
    pose proof (s_body _ _ Hp4) as Hb4. pose proof (s_next _ _ Hp4) as Hn4. pose proof (s_heap _ _ Hp4) as Hh4.
    rewrite En in Hb4, Hn4, Hh4.
    destruct (ptr_step None h4 as_ _ (s_ptr ps) c Hg4 Ha4 eq_refl eq_refl Ht4 Hh4 eq_refl Hb4 Hn4) as (X & Y).
    split; [exact X|]. left. split; [exact Y|]. intros; auto. }
  simpl. intros h2 Hx2. pose proof (x_good _ _ _ Hx2) as Hg3.
  split.
  - intros _. refine (Hfin h2 Hg3 _ _); apply (snap_ext _ _ _ _ Hg2 Hx2); auto.
  - intros Ht2. pose proof (snap_ext _ _ _ _ Hg2 Hx2 Hs2) as Hs3. split; [apply Hs3|]. exists (pub (now h2)).
    destruct (remove_step None h2 s Hg3 Hs3 Hst2 Ht2) as (X & Y).
    split; [exact X|]. left. split; [exact Y|]. refine (Hfin _ _ _ _).
    + eapply hgood_cons; eauto.
    + apply (snap_cons _ _ _ _ Hg3 X). apply (snap_ext _ _ _ _ Hg2 Hx2); auto.
    + apply (snap_cons _ _ _ _ Hg3 X). apply (snap_ext _ _ _ _ Hg2 Hx2); auto.
Qed.

(** * AdjustNodeSize *)
(** A fresh page stays private and unchanged. *)
Lemma fresh_kept h0 n h : hgood h0 ->
  let j := nid (wm (now h0)) in
  let h1 := {| wm := new_mem (wm (now h0)) n; pub := pub (now h0) |} :: h0 in
  hext (Some j) h1 h -> ~ pub (now h) j /\ node_of (wm (now h)) j = Some n.
Proof.
  intros Hg j h1 Hx. pose proof (now_ok _ Hg) as Hw.
  assert (Hn : ~ pub (now h1) j).
  { simpl. intros Hp. apply (pub_bound _ _ Hw) in Hp. unfold j in Hp. lia. }
  destruct (x_keep _ _ _ Hx Hn) as [A B]. split; auto. unfold node_of. rewrite B.
  pose proof (new_upd1 (wm (now h0)) n (k_bound _ Hw)) as Hu. apply (upd1_node _ _ _ _ _ Hu).
Qed.
Lemma new_hgood h n : hgood h -> hext None h ({| wm := new_mem (wm (now h)) n; pub := pub (now h) |} :: h).
Proof. intros Hg. eapply hext_cons; [auto|apply (new_guar None); apply now_ok; auto|auto]. Qed.

Lemma isplit_step h s d low lid items high j k lid' rest' : hgood h -> snap_ok h s ->
  let c := IBase d low lid items high in
  let sib := IBase 0 (Some k) lid' ((k, lid') :: rest') high in
  s_node s = NInner c ->
  isplit_sibling c = Ok sib ->
  tab (wm (now h)) (s_id s) = Some (s_ptr s) ->
  ~ pub (now h) j -> node_of (wm (now h)) j = Some (NInner sib) ->
  let w' := {| wm := cas_mem (wm (now h)) (s_id s) (NInner (ISplit k j (S (length rest')) c)); pub := fun x => pub (now h) x \/ x = j |} in
  guar (Some j) (now h) w' /\ same (contents (wm (now h))) (contents (wm w')).
Proof.
  intros Hg Hs c sib En Esp Ht Hj Hnj w'. pose proof (now_ok _ Hg) as Hw.
  pose proof (cas_get _ _ Hs Ht) as Hget. rewrite En in Hget. pose proof (s_pub _ _ Hs) as Hp.
  pose proof (s_body _ _ Hs) as Hb. rewrite En in Hb. simpl in Hb. destruct Hb as [Hwf Href].
  pose proof (s_next _ _ Hs) as Hnx. rewrite En in Hnx.
  assert (Hlen : 2 <= length items).
  { unfold c, isplit_sibling in Esp. destruct (2 <=? length items) eqn:E; [apply Nat.leb_le; auto|discriminate]. }
  destruct (isplit_spec _ d low lid items high Hwf Hlen) as (k0 & lid0 & rest0 & E0 & _ & Hin & Hk1 & Hk2 & _ & Hrest & Hsw & Hspw).
  fold c in E0. rewrite E0 in Esp. unfold sib in Esp. inversion Esp; subst k0 lid0 rest0. clear Esp.
  set (c' := ISplit k j (S (length rest')) c) in *.
  assert (Hu : upd1 (wm (now h)) (wm w') (s_id s) (nptr (wm (now h))) (NInner c')).
  { apply cas_upd1; [apply Hw|apply pub_bound; auto]. }
  assert (Hne : j <> s_id s) by (intros ->; auto).
  assert (Hle : le (now h) w').
  { eapply upd1_le; eauto; simpl; auto. }
  assert (Hj' : node_of (wm w') j = Some (NInner sib)).
  { rewrite (upd1_other _ _ _ _ _ _ Hu); auto. }
  assert (Hib : innerok (now h) c').
  { split; [apply Hspw|]. exact Href. }
  assert (His : innerok (now h) sib).
  { split; [exact Hsw|]. intros x Hx. split; [|eapply (base_refs _ 0 (Some k) lid' ((k, lid') :: rest') high); eauto].
    apply Href. simpl in Hx. simpl. right.
    assert (Ht' : forall y, In y (map snd (tl items)) -> In y (map snd items)).
    { intros y Hy. destruct items; simpl in *; auto. }
    apply Ht'. assert (Hl : In lid' (map snd (tl items))) by (apply in_map_iff; exists (k, lid'); auto).
    destruct Hx as [->|[<-|Hx]]; auto. apply in_map_iff in Hx as ([s0 i0] & <- & Hi). apply (in_map snd). apply Hrest; auto. }
  assert (Hn' : nextok w' (NInner c')).
  { intros a b Hab. simpl in Hab. inversion Hab; subst a b. split; [simpl; auto|]. split; [rewrite (lo_node _ _ _ Hj'); auto|].
    eexists; split; [exact Hj'|auto]. }
  assert (Hb' : bodyok w' (NInner c')).
  { eapply bodyok_le; [exact Hw|exact Hle|exact Hib]. }
  destruct (swap_inner (now h) (wm w') (pub w') (s_id s) _ _ _ c' Hw Hp Hget eq_refl Hu eq_refl) as [A B]; auto.
  { simpl; auto. }
  { simpl. intros x [Hx| ->]; auto. right. split; auto. eexists. split; [exact Hnj|]. split; auto.
    split; [eapply (bodyok_le _ w'); [exact Hw|exact Hle|exact His]|].
    apply (nextok_le _ w' _ Hw Hle). intros a b Hab. apply Hnx. exact Hab. }
  split; auto. eapply upd_guar; eauto. simpl. intros x [Hx| ->]; auto.
Qed.

Lemma adjust_safe h x : hgood h -> ctx_ok h x -> settled (s_node (cur x)) ->
  safe ND None (adjust x) (moved x) h.
Proof.
  intros Hg Hx Hset.
  assert (Hr : forall own h', hext own h h' -> safe ND own (Ret (Some x)) (moved x) h').
  { intros own h' Hh. apply safe_ret. intros h2 Hh2. apply moved_self; auto.
    eapply ctx_ext; [|exact Hh2|]; [apply Hh|eapply ctx_ext; eauto]. }
  assert (Hr0 : safe ND None (Ret (Some x)) (moved x) h) by (apply (Hr None); apply hext_refl; auto).
  assert (Hrm : forall ps rem, prt x = PNode ps -> rem = removal (cur x) ->
     safe ND None (pbind (parent_inner ps) (fun c' => if ilid c' =? s_id (cur x) then Ret (Some x) else post_remove ps (cur x) rem)) (moved x) h).
  { intros ps rem Ep ->. unfold parent_inner. destruct Hx as [Hs Hp]. rewrite Ep in Hp. destruct Hp as (A & B & _).
    destruct (s_node ps) eqn:En; [exact I|]. cbn [pbind]. destruct (_ =? _); [exact Hr0|].
    eapply safe_mono; [| | |apply post_remove_safe; auto].
    - auto.
    - intros a h' ->. exact I.
    - auto.
    - rewrite En. exact B. }
  pose proof (proj1 Hx) as Hs.
  unfold adjust. destruct (s_node (cur x)) as [c|c] eqn:En.
  - destruct c as [low items high| | | | |]; try exact Hr0. cbn zeta.
    pose proof (s_body _ _ Hs) as Hb. rewrite En in Hb. simpl in Hb. 
    destruct (_ <=? _).
    + destruct (lsplit_sibling _) as [[sc|]|] eqn:Esp; cbn [lift pbind]; [|exact Hr0|exact I].
      destruct (lsplit_spec low items high sc Hb Esp) as (k & si & -> & _).
      cbn [safe]. intros h1 Hx1. cbn zeta. intros h2 Hx2. cbn zeta.
      pose proof (x_good _ _ _ Hx1) as Hg1. pose proof (new_hgood h1 (NLeaf (LBase (Some k) si high)) Hg1) as Hn1.
      assert (Hx2' : hext None h h2).
      { eapply hext_trans; [exact Hx1|]. eapply hext_trans; [exact Hn1|]. eapply hext_none; exact Hx2. }
      destruct (fresh_kept _ _ _ Hg1 Hx2) as [Hj Hnj]. pose proof (x_good _ _ _ Hx2) as Hg2.
      split; [intros _; apply (Hr None); auto|]. intros Ht.
      pose proof (snap_ext _ _ _ _ Hg Hx2' Hs) as Hs2. pose proof (now_ok _ Hg2) as Hw.
      pose proof (cas_get _ _ Hs2 Ht) as Hget. rewrite En in Hget. pose proof (s_pub _ _ Hs2) as Hp.
      split; [exact Hp|]. eexists.
      destruct (swap_split (now h2) (cas_mem (wm (now h2)) (s_id (cur x)) (NLeaf (LSplit k (nid (wm (now h1))) (length si) (LBase low items high))))
         (s_id (cur x)) _ low items high (nptr (wm (now h2))) k (nid (wm (now h1))) si Hw Hp Hget Esp Hj Hnj) as (A & B & C).
      { apply cas_upd1; [apply Hw|apply pub_bound; auto]. }
      split; [|left; split; [exact C|intros; exact I]].
      eapply upd_guar; [exact Hp|apply cas_upd1; [apply Hw|apply pub_bound; auto]| |exact A|exact B].
      intros y [Hy| ->]; auto.
    + destruct (_ <=? _); [|exact Hr0]. destruct (prt x) as [| |ps] eqn:Ep; try exact I.
      apply Hrm; auto. unfold removal. rewrite En. auto.
  - destruct c as [d low lid items high| | | | | |]; try exact Hr0. cbn zeta.
    pose proof (s_body _ _ Hs) as Hb. rewrite En in Hb. simpl in Hb. 
    destruct (_ <=? _).
    + destruct (isplit_sibling _) as [sc|] eqn:Esp; cbn [lift pbind]; [|exact I].
      assert (Hlen : 2 <= length items).
      { unfold isplit_sibling in Esp. destruct (2 <=? length items) eqn:E; [apply Nat.leb_le; auto|discriminate]. }
      destruct (isplit_spec _ d low lid items high (proj1 Hb) Hlen) as (k & lid' & rest' & E0 & _ & Hin & _).
      rewrite E0 in Esp. inversion Esp; subst sc. clear Esp.
      cbn [safe]. intros h0 Hx0. split.
      { apply Hx0. apply Hb. simpl. right. apply in_map_iff. exists (k, lid'). split; auto. destruct items; simpl in *; auto. }
      intros y Hy. destruct (is_remove (snd y)); [apply (Hr None); auto|].
      cbn [safe]. intros h1 Hx1. cbn zeta. intros h2 Hx2. cbn zeta.
      pose proof (x_good _ _ _ Hx1) as Hg1. 
      pose proof (new_hgood h1 (NInner (IBase 0 (Some k) lid' ((k, lid') :: rest') high)) Hg1) as Hn1.
      assert (Hx2' : hext None h h2).
      { eapply hext_trans; [exact Hx0|]. eapply hext_trans; [exact Hx1|].
        eapply hext_trans; [exact Hn1|]. eapply hext_none; exact Hx2. }
      destruct (fresh_kept _ _ _ Hg1 Hx2) as [Hj Hnj]. pose proof (x_good _ _ _ Hx2) as Hg2.
      split; [intros _; apply (Hr None); auto|]. intros Ht.
      pose proof (snap_ext _ _ _ _ Hg Hx2' Hs) as Hs2.
      split; [apply Hs2|]. eexists. destruct (isplit_step h2 (cur x) d low lid items high _ k lid' rest' Hg2 Hs2 En E0 Ht Hj Hnj) as (A & B).
      split; [exact A|]. left. split; [exact B|]. intros; exact I.
    + destruct (_ <=? _); [|exact Hr0]. destruct (prt x) as [| |ps] eqn:Ep; [exact I|exact Hr0|].
      apply Hrm; auto. unfold removal. rewrite En. auto.
Qed.
End TreeProg2.
