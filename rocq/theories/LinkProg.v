(** The operations keep the invariant of Links. *)
From Coq Require Import NArith List Arith Lia Bool ZArith.
From Verif Require Import Base Leaf LeafSpec LeafProofs LeafWeak LeafProofs2 Inner InnerSpec InnerProofs InnerProofs2 Tree TreeSpec TreeInv TreeSafe TreeProg TreeLin TreeRoom MarkerSpec Marker GarbageSpec Garbage LinkSpec Links.
Import ListNotations.

Section LinkProg.
Context {P : Params}.

(** * Contexts *)
Definition nl (x : gst) (i : nat) (n : node) : Prop :=
  (forall h d, nhigh n = Some (h, d) -> pub (gw x) d /\ lo (gm x) d = Some h /\ lev x d = lev x i) /\
  (forall d, nref n d -> pub (gw x) d /\ lev x i = S (lev x d)).
Record sk (x : gst) (s : snap) : Prop := {
  y_pub : pub (gw x) (s_id s);
  y_cell : heap (gm x) (s_ptr s) = Some (s_node s);
  y_ver : ver x (s_id s) (s_ptr s);
  y_mark : forall p c, s_node s = NInner (IAbort p c) -> ver x (s_id s) p;
  y_nl : nl x (s_id s) (s_node s);
  y_wf : wfn (s_node s);
  y_gone : is_remove (s_node s) = true -> get (gm x) (s_id s) = Some (s_ptr s, s_node s)
}.
Definition pk (x : gst) (l : nat) (p : par) : Prop := match p with PNode ps => sk x ps /\ lev x (s_id ps) = S l | _ => True end.
Definition xk (x : gst) (c : ctx) : Prop := sk x (cur c) /\ pk x (lev x (s_id (cur c))) (prt c).
Lemma nl_le x x' i n : gok x -> gle x x' -> pub (gw x) i -> nl x i n -> nl x' i n.
Proof.
  intros H [L1 L2 L3 L4 L5] Hp [N1 N2]. pose proof (o_ok _ H) as Hok. pose proof (pub_nid _ _ Hok Hp). split.
  - intros h d E. destruct (N1 _ _ E) as (A1 & A2 & A3). pose proof (pub_nid _ _ Hok A1). split; [apply L1; auto|]. split; [unfold gm; rewrite (le_lo (gw x) (gw x')); auto|]. unfold gm in *. rewrite !L3; auto.
  - intros d Hd. destruct (N2 _ Hd) as (A1 & A2). pose proof (pub_nid _ _ Hok A1). split; [apply L1; auto|]. unfold gm in *. rewrite !L3; auto.
Qed.
Lemma sk_le x x' s : gok x -> gle x x' -> sk x s -> sk x' s.
Proof.
  intros H F [S1 S2 S3 S4 S5 S7 S6]. constructor.
  - apply (e_le _ _ F). auto.
  - apply (e_le _ _ F). auto.
  - apply (e_ver _ _ F). auto.
  - intros p c E. apply (e_ver _ _ F). eauto.
  - eapply nl_le; eauto.
  - exact S7.
  - intros E. specialize (S6 E). destruct (l_node _ _ (e_le _ _ F) _ _ _ S1 S6) as (p' & n' & G & _ & _ & R). destruct (R E) as [-> ->]. exact G.
Qed.
Lemma pk_le x x' l p : gok x -> gle x x' -> pk x l p -> pk x' l p.
Proof. intros H F. destruct p as [| |ps]; simpl; auto. intros [A B]. split; [eapply sk_le; eauto|]. rewrite (e_lev _ _ F); auto. apply (pub_nid _ _ (o_ok _ H)). apply A. Qed.
Lemma lev_le x x' s : gok x -> gle x x' -> sk x s -> lev x' (s_id s) = lev x (s_id s).
Proof. intros H F Hs. apply (e_lev _ _ F). apply (pub_nid _ _ (o_ok _ H)). apply Hs. Qed.
Lemma xk_le x x' c : gok x -> gle x x' -> xk x c -> xk x' c.
Proof. intros H F [A B]. split; [eapply sk_le; eauto|]. rewrite (lev_le _ _ _ H F A). eapply pk_le; eauto. Qed.
Lemma sk_load x i q n : gok x -> pub (gw x) i -> get (gm x) i = Some (q, n) -> sk x {| s_id := i; s_ptr := q; s_node := n |}.
Proof.
  intros H Hp Hg. destruct (get_tab _ _ _ _ Hg) as [Ht Hh]. assert (Hn : node_of (gm x) i = Some n) by (apply node_of_get; eauto). constructor; cbn [s_id s_ptr s_node]; auto.
  - left. auto.
  - intros p c ->. right. left. exists q. split; eauto.
  - destruct (k_pub _ (o_ok _ H) _ Hp) as (n1 & Hn1 & Hb & Hx). fold (gm x) in Hn1. rewrite Hn in Hn1. injection Hn1 as <-. split.
    + intros h d E. destruct (Hx _ _ E) as (A1 & A2 & _). split; auto. split; auto. eapply o_lnx; eauto. exists n, h. auto.
    + intros d Hd. split; [eapply nref_pub; eauto|eapply o_lref; eauto].
  - destruct (k_pub _ (o_ok _ H) _ Hp) as (n1 & Hn1 & Hb & _). fold (gm x) in Hn1. rewrite Hn in Hn1. injection Hn1 as <-. eapply bodyok_wfn; eauto.
Qed.

(** * Programs *)
Definition post (x : gst) (i : nat) (n : node) : Prop := exists w', wm w' = cas_mem (gm x) i n /\ wok w' /\ pub w' i /\ le (gw x) w'.
Fixpoint lk {A} (p : prog A) (own : option (nat * node)) (Q : gst -> A -> Prop) (x : gst) : Prop :=
  match p with
  | Ret a => own = None /\ forall x', gle x x' -> gok x' -> Q x' a
  | Err e => True
  | PLoad i k => own = None /\ forall x' q n, gle x x' -> gok x' -> pub (gw x') i -> get (gm x') i = Some (q, n) -> lk (k (q, n)) None Q x'
  | Cas i o n k => forall x', gle x x' -> gok x' -> holds own x' -> lk (k None) None Q x' /\
      forall no, tab (gm x') i = Some o -> pub (gw x') i -> heap (gm x') o = Some no -> live no -> post x' i n ->
        kind x' own i no n /\
        forall x2, gle x' x2 -> gok x2 -> sk x2 {| s_id := i; s_ptr := nptr (gm x'); s_node := n |} -> lk (k (Some (nptr (gm x')))) None Q x2
  | CasPtr i o n k => own = None /\ forall x' b, gle x x' -> gok x' -> lk (k b) None Q x'
  | LoadRoot k => own = None /\ forall x', gle x x' -> gok x' -> lk (k (root (gm x'))) None Q x'
  | CasRoot o r k => forall x', gle x x' -> gok x' -> holds own x' -> (root (gm x') = o -> rootkind x' own o r) /\
      forall b x2, gle x' x2 -> gok x2 -> lk (k b) None Q x2
  | NewNode n k => own = None /\ forall x', gle x x' -> gok x' -> exists l, forall x2, gle x' x2 -> gok x2 -> nid (gm x') < nid (gm x2) -> lev x2 (nid (gm x')) = l ->
      lk (k (nid (gm x'))) (Some (nid (gm x'), n)) Q x2
  end.
Ltac fl := solve [assumption | apply gle_refl | eapply gle_trans; [| eassumption |]; [assumption|]; fl | (eapply gle_trans; [|eassumption|eassumption]; assumption)].
Lemma lk_le {A} (p : prog A) own Q x x' : gok x -> gle x x' -> lk p own Q x -> lk p own Q x'.
Proof.
  intros G F. assert (T : forall x2, gle x' x2 -> gle x x2) by (intros; eapply gle_trans; eauto). destruct p; simpl; auto.
  - intros [E H]. split; auto.
  - intros [E H]. split; auto.
  - intros [E H]. split; auto.
  - intros [E H]. split; auto.
  - intros [E H]. split; auto.
Qed.
Lemma lk_bind {A B} (p : prog A) (f : A -> prog B) Q Q' : forall own x, gok x -> lk p own Q x ->
  (forall x' a, gle x x' -> gok x' -> Q x' a -> lk (f a) None Q' x') -> lk (pbind p f) own Q' x.
Proof.
  induction p as [a|e|i k IH|i old n k IH|i old n k IH|k IH|old n k IH|n k IH]; simpl; intros own x G H Hf; auto.
  - destruct H as [-> H]. apply Hf; auto; [apply gle_refl|]. apply H; auto. apply gle_refl.
  - destruct H as [-> H]. split; auto. intros x' q n F G' Hp Hg. apply IH; auto. intros. apply Hf; auto. eapply gle_trans; eauto.
  - intros x' F G' Ho. destruct (H x' F G' Ho) as [H1 H2]. split; [apply IH; auto; intros; apply Hf; auto; eapply gle_trans; eauto|].
    intros no A1 A2 A3 A4 A5. destruct (H2 no A1 A2 A3 A4 A5) as [H3 H4]. split; auto. intros x2 F2 G2 Hs. apply IH; auto. intros. apply Hf; auto. eapply gle_trans; [|exact F|eapply gle_trans; eauto]; auto.
  - destruct H as [-> H]. split; auto. intros x' b F G'. apply IH; auto. intros. apply Hf; auto. eapply gle_trans; eauto.
  - destruct H as [-> H]. split; auto. intros x' F G'. apply IH; auto. intros. apply Hf; auto. eapply gle_trans; eauto.
  - intros x' F G' Ho. destruct (H x' F G' Ho) as [H1 H2]. split; auto. intros b x2 F2 G2. apply IH; auto. intros. apply Hf; auto. eapply gle_trans; [|exact F|eapply gle_trans; eauto]; auto.
  - destruct H as [-> H]. split; auto. intros x' F G'. destruct (H x' F G') as [l Hl]. exists l. intros x2 F2 G2 A1 A2. apply IH; auto. intros. apply Hf; auto. eapply gle_trans; [|exact F|eapply gle_trans; eauto]; auto.
Qed.
Lemma lk_lift {A B} (r : res A) (f : A -> prog B) Q x : (forall a, r = Ok a -> lk (f a) None Q x) -> lk (pbind (lift r) f) None Q x.
Proof. intros H. destruct r; simpl; auto. Qed.
Lemma lk_parent {A} s (f : ichain -> prog A) Q x : (forall c, s_node s = NInner c -> lk (f c) None Q x) -> lk (pbind (parent_inner s) f) None Q x.
Proof. intros Hf. unfold parent_inner. destruct (s_node s); simpl; auto. Qed.
Ltac up := match goal with
  | H : sk ?a ?s |- sk ?b ?s => apply (sk_le a b s); [assumption|fl|exact H]
  | H : xk ?a ?s |- xk ?b ?s => apply (xk_le a b s); [assumption|fl|exact H]
  | H : pk ?a ?l ?s |- pk ?b ?l ?s => apply (pk_le a b l s); [assumption|fl|exact H]
  end.
Definition ok {A} (X : gst -> A -> Prop) (x : gst) (o : option A) : Prop := match o with Some y => X x y | None => True end.
Lemma none_lk {A} (X : gst -> A -> Prop) x : lk (Ret None) None (ok X) x. Proof. split; auto. intros; exact I. Qed.
Lemma xk_lk x c : gok x -> xk x c -> lk (Ret (Some c)) None (ok xk) x. Proof. intros G H. split; auto. intros x' F _. eapply xk_le; eauto. Qed.

(** * Kinds of update *)
Lemma old_node x s no : sk x s -> heap (gm x) (s_ptr s) = Some no -> no = s_node s.
Proof. intros H E. pose proof (y_cell _ _ H). congruence. Qed.
Lemma cur_body x i o no : gok x -> tab (gm x) i = Some o -> pub (gw x) i -> heap (gm x) o = Some no -> live no -> kept (gw x) i /\ node_of (gm x) i = Some no /\ bodyok (gw x) no.
Proof.
  intros G Ht Hp Hh Hl. assert (Hn : node_of (gm x) i = Some no) by (apply node_of_get; exists o; apply get_intro; auto). split; [eapply live_kept; eauto; apply Hl|]. split; auto.
  destruct (k_pub _ (o_ok _ G) _ Hp) as (n1 & Hn1 & Hb & _). fold (gm x) in Hn1. congruence.
Qed.
Lemma live_inner x c : live (NInner c) -> bodyok (gw x) (NInner c) -> innerok (gw x) c.
Proof. intros [H1 H2]. destruct c; simpl in *; auto; contradiction || discriminate. Qed.
Lemma kind_keep x i o no n : gok x -> tab (gm x) i = Some o -> pub (gw x) i -> heap (gm x) o = Some no -> live no -> nhigh n = nhigh no -> (forall d, ~ merges n d) -> (forall d, ~ cuts n d) ->
  (forall d, kid n d -> kid no d) -> (forall d, nref n d -> nref no d) -> kind x None i no n.
Proof.
  intros G Ht Hp Hh Hl E1 E2 E3 E4 E5. destruct (cur_body _ _ _ _ G Ht Hp Hh Hl) as (Hk & Hn & _). constructor; auto.
  - apply L_keep; auto.
  - intros d Hd. split; auto. eapply o_kid; eauto.
  - intros d Hd. destruct (E3 _ Hd).
Qed.
Lemma icons_kid f c dep c' : iwf f c -> iconsolidate dep c = Ok c' -> nhigh (NInner c') = nhigh (NInner c) /\ is_delta (NInner c') = false /\
  (forall d, kid (NInner c') d -> kid (NInner c) d) /\ (forall d, nref (NInner c') d -> nref (NInner c) d).
Proof.
  intros Hw E. destruct (iconsolidate_spec f c dep Hw) as (rest & E' & _ & Hin & _). rewrite E' in E. injection E as <-. split; auto. split; auto. split.
  - intros d [->|[s Hs]]; [left; auto|right]. exists s. apply Hin. exact Hs.
  - intros d. simpl. intros [->|[<-|Hd]]; try apply lid_refs. apply in_map_iff in Hd as ([s i] & <- & Hi). eapply seps_refs. apply Hin. exact Hi.
Qed.
Lemma icons_ref c dep c' : wfn (NInner c) -> iconsolidate dep c = Ok c' -> forall d, nref (NInner c') d -> nref (NInner c) d.
Proof.
  intros [f Hw] E. assert (H1 : ibody c = c \/ (exists i c', c = IRemove i c') \/ (exists i c', c = IAbort i c')) by (destruct c; simpl; eauto).
  destruct H1 as [E1|[(i & c1 & ->)|(i & c1 & ->)]]; try discriminate E. rewrite E1 in Hw. apply (icons_kid _ _ _ _ Hw E).
Qed.
Lemma lcons_high c c' : lconsolidate c = Ok c' -> lhigh c' = lhigh c /\ is_delta (NLeaf c') = false.
Proof.
  unfold lconsolidate. destruct (lcollect _ _ _ _ _) as [[[out ?] ?]|]; cbn [bind]; [|discriminate]. destruct (Z.ltb _ _); [discriminate|]. destruct (Z.eqb _ _); [|discriminate].
  intros E. injection E as <-. auto.
Qed.
Lemma base_no n : is_delta n = false -> (forall d, ~ merges n d) /\ (forall d, ~ cuts n d).
Proof. destruct n as [[]|[]]; simpl; try discriminate; intros _; split; auto. Qed.

Lemma cons_lk s x : gok x -> sk x s -> lk (consolidate s) None (fun x' s' => sk x' s' /\ s_id s' = s_id s) x.
Proof.
  intros G Hs. unfold consolidate.
  eapply lk_bind with (Q := fun _ n => (exists c c', s_node s = NLeaf c /\ lconsolidate c = Ok c' /\ n = NLeaf c') \/ (exists c c', s_node s = NInner c /\ iconsolidate 0 c = Ok c' /\ n = NInner c')); auto.
  - destruct (s_node s) as [c|c] eqn:En; apply lk_lift; intros c' E; split; auto; intros; [left|right]; eauto.
  - intros x1 n F1 G1 Hn x2 F2 G2 _. assert (F : gle x x2) by fl. pose proof (sk_le _ _ _ G F Hs) as Hs2. split; [split; auto; intros x3 F3 G3; split; auto; up|].
    intros no Ht Hp Hh Hl _. pose proof (old_node _ _ _ Hs2 Hh) as ->. split.
    + destruct (cur_body _ _ _ _ G2 Ht Hp Hh Hl) as (_ & _ & Hb). destruct Hn as [(c & c' & En & E & ->)|(c & c' & En & E & ->)]; rewrite En in *.
      * destruct (lcons_high _ _ E) as [E1 E2]. destruct (base_no _ E2). eapply kind_keep; eauto.
      * destruct (live_inner _ _ Hl Hb) as [Hw _]. destruct (icons_kid _ _ _ _ Hw E) as (E1 & E2 & E3 & E4). destruct (base_no _ E2). eapply kind_keep; eauto.
    + intros x3 F3 G3 Hs3. split; auto. intros x4 F4 G4. split; auto. up.
Qed.
Lemma try_lk x c : gok x -> xk x c -> lk (try_consolidate c) None xk x.
Proof.
  intros G H. unfold try_consolidate. assert (S0 : lk (Ret c) None xk x) by (split; auto; intros x' F _; up). destruct (is_delta _); [|exact S0].
  destruct (match s_node (cur c) with NLeaf c => _ | NInner c => _ end); [|exact S0]. destruct H as [H1 H2].
  eapply lk_bind; auto; [apply cons_lk; auto|]. intros x1 s F1 G1 [Hs Es]. split; auto. intros x2 F2 G2. assert (F : gle x x2) by fl. split; simpl; [up|]. rewrite Es.
  rewrite (lev_le _ _ _ G F H1). up.
Qed.

Lemma post_remove_lk ps s rm (Q : gst -> option ctx -> Prop) x : gok x -> sk x ps -> sk x s -> nhigh rm = nhigh (s_node s) -> (forall d, ~ merges rm d) -> (forall d, ~ cuts rm d) ->
  (forall d, kid rm d -> kid (s_node s) d) -> (forall d, nref rm d -> nref (s_node s) d) -> (forall x', Q x' None) -> lk (post_remove ps s rm) None Q x.
Proof.
  intros G Hp Hs E1 E2 E3 E4 E5 HQ. unfold post_remove. apply lk_parent. intros c Ec. intros x1 F1 G1 _. split; [split; auto|].
  intros no Ht Hpi Hh Hl _. assert (Hp1 : sk x1 ps) by up. pose proof (old_node _ _ _ Hp1 Hh) as ->. split; [eapply kind_keep; eauto; rewrite ?Ec; simpl; auto|].
  intros x2 F2 G2 _ x3 F3 G3 _. assert (Hx : forall x', gok x' -> forall b : bool, lk (if b then Ret None else Err EAssert) None Q x') by (intros x' G' []; simpl; auto).
  assert (F0 : gle x x3) by (eapply gle_trans; [| exact F1 | fl]; assumption).
  split; [split; auto|]. intros no' Ht' Hpi' Hh' Hl' _. assert (Hs3 : sk x3 s) by up. pose proof (old_node _ _ _ Hs3 Hh') as ->.
  split; [eapply kind_keep; eauto|]. intros x4 F4 G4 _. split; auto.
Qed.
Lemma isplit_kid f d low lid items high d' low' lid' si h' : iwf f (IBase d low lid items high) -> isplit_sibling (IBase d low lid items high) = Ok (IBase d' low' lid' si h') ->
  h' = high /\ (forall j, kid (NInner (IBase d' low' lid' si h')) j -> kid (NInner (IBase d low lid items high)) j) /\
  (forall j, nref (NInner (IBase d' low' lid' si h')) j -> nref (NInner (IBase d low lid items high)) j).
Proof.
  intros Hw E. assert (Hlen : 2 <= length items). { unfold isplit_sibling in E. destruct (2 <=? length items) eqn:El; [apply Nat.leb_le; auto|discriminate]. }
  destruct (isplit_spec f _ _ _ _ _ Hw Hlen) as (k & l1 & rest' & E' & _ & Hin & _ & _ & _ & Hr & _). rewrite E' in E. injection E as <- <- <- <- <-. split; auto.
  assert (Hk : forall j, kid (NInner (IBase 0 (Some k) l1 ((k, l1) :: rest') high)) j -> kid (NInner (IBase d low lid items high)) j).
  { intros j [->|[s Hs]]; right; [exists k; exact Hin|]. exists s. simpl in Hs. apply Hr in Hs. apply Hs. }
  split; auto. intros j Hj. apply kid_ref, Hk. destruct Hj as [->|[<-|Hj]]; [left; auto|left; auto|]. right. apply in_map_iff in Hj as ([s i] & <- & Hi). exists s. exact Hi.
Qed.
Lemma adjust_lk x c : gok x -> xk x c -> lk (adjust c) None (ok xk) x.
Proof.
  intros G Hx. pose proof (xk_lk _ _ G Hx) as Hsame. unfold adjust. destruct Hx as [Hc Hp].
  destruct (s_node (cur c)) as [[low items high| | | | |]|[d low lid items high| | | | | |]] eqn:En; try exact Hsame.
  - destruct (LEAF_SIZE_UPPER <=? length items).
    + apply lk_lift. intros [[[kk|] si hh| | | | |]|] Es; try exact I; [|exact Hsame].
      assert (hh = high) as ->. { simpl in Es. destruct (find_split_point items) as [[j|]|]; simpl in Es; try discriminate. destruct (nth_error items j); [|discriminate]. congruence. }
      split; auto. intros x1 F1 G1. exists (lev x1 (s_id (cur c))). intros x2 F2 G2 Hn2 Hl2 x3 F3 G3 Ho. assert (Hc1 : sk x1 (cur c)) by up. assert (F0 : gle x1 x3) by fl. assert (F : gle x x3) by (eapply gle_trans; eauto).
      split; [apply (lk_le _ _ _ x x3); auto|].
      intros no Ht Hpi Hh Hl _. assert (Hc3 : sk x3 (cur c)) by up. pose proof (old_node _ _ _ Hc3 Hh) as ->. split; [|intros; apply none_lk]. rewrite En in *.
      constructor; try (simpl; tauto). eapply L_split; eauto; try (simpl; tauto).
      rewrite (lev_le _ _ _ G1 F0 Hc1). rewrite <- Hl2. apply (e_lev _ _ F3). exact Hn2.
    + destruct (length items <=? LEAF_SIZE_LOWER); [|exact Hsame]. destruct (prt c) as [| |ps] eqn:Ep; try exact I.
      apply lk_parent. intros c' _. destruct (ilid c' =? s_id (cur c)); [exact Hsame|]. apply post_remove_lk; auto; try (rewrite ?En; simpl; auto; fail). apply Hp.
  - destruct (INNER_SIZE_UPPER <=? length items).
    + apply lk_lift. intros [d' [kk|] first si hh| | | | | |] Es; try exact I. split; auto. intros x0 q nf F0 G0 _ _. cbn [snd]. destruct (is_remove nf); [apply (lk_le _ _ _ x x0); auto|].
      split; auto. intros x1 F1 G1. exists (lev x1 (s_id (cur c))). intros x2 F2 G2 Hn2 Hl2 x3 F3 G3 Ho. assert (Hc1 : sk x1 (cur c)) by up. assert (F13 : gle x1 x3) by fl.
      assert (F : gle x x3) by (eapply gle_trans; [| exact F0 |]; [assumption|]; eapply gle_trans; eauto).
      split; [apply (lk_le _ _ _ x x3); auto|].
      intros no Ht Hpi Hh Hl _. assert (Hc3 : sk x3 (cur c)) by up. pose proof (old_node _ _ _ Hc3 Hh) as ->. split; [|intros; apply none_lk]. rewrite En in *.
      destruct (cur_body _ _ _ _ G3 Ht Hpi Hh Hl) as (Hk & Hn & Hb). destruct (live_inner _ _ Hl Hb) as [Hw _]. destruct (isplit_kid _ _ _ _ _ _ _ _ _ _ _ Hw Es) as (-> & K1 & K2).
      assert (Hks : forall e, kid (NInner (ISplit kk (nid (gm x1)) (length si) (IBase d low lid items high))) e -> kid (NInner (IBase d low lid items high)) e).
      { intros e [->|[s [_ Hs]]]; [left; auto|right; exists s; auto]. }
      constructor.
      * eapply L_split; eauto; try (simpl; tauto). rewrite (lev_le _ _ _ G1 F13 Hc1). rewrite <- Hl2. apply (e_lev _ _ F3). exact Hn2.
      * intros e He. left. exact He.
      * intros e He. split; [eapply (o_kid _ G3); eauto|simpl; auto].
      * simpl. tauto.
    + destruct (length items <=? INNER_SIZE_LOWER); [|exact Hsame]. destruct (prt c) as [| |ps] eqn:Ep; [exact I|exact Hsame|].
      apply lk_parent. intros c' _. destruct (ilid c' =? s_id (cur c)); [exact Hsame|]. apply post_remove_lk; auto; try (rewrite ?En; simpl; auto; fail). apply Hp.
Qed.
Lemma find_left_lk k ps x : gok x -> sk x ps -> lk (find_left k ps) None (fun x' f => sk x' (snd f) /\ s_id (snd f) = s_id ps /\ lev x' (s_id ps) = S (lev x' (fst f)) /\ pub (gw x') (fst f)) x.
Proof.
  intros G Hp. unfold find_left. apply lk_parent. intros c Ec. apply lk_lift. intros [i|] E.
  { split; auto. intros x1 F1 G1. cbn [fst snd]. assert (Hp1 : sk x1 ps) by up. split; auto. split; auto. destruct (y_nl _ _ Hp1) as [_ N2]. destruct (N2 i); auto. rewrite Ec. simpl. eapply ileft_refs; eauto. }
  apply lk_lift. intros c' E'. intros x1 F1 G1 _. assert (Hp1 : sk x1 ps) by up. split.
  - apply lk_lift. intros [i|] El; [|exact I]. split; auto. intros x2 F2 G2. cbn [fst snd]. split; [up|]. split; auto.
    assert (Hp2 : sk x2 ps) by up. destruct (y_nl _ _ Hp2) as [_ N2]. destruct (N2 i); auto. rewrite Ec. pose proof (y_wf _ _ Hp2) as Hwf. rewrite Ec in Hwf. eapply icons_ref; eauto. simpl. eapply ileft_refs; eauto.
  - intros no Ht Hpi Hh Hl _. pose proof (old_node _ _ _ Hp1 Hh) as ->. destruct (cur_body _ _ _ _ G1 Ht Hpi Hh Hl) as (Hk & Hn & Hb). rewrite Ec in *. destruct (live_inner _ _ Hl Hb) as [Hw _].
    destruct (icons_kid _ _ _ _ Hw E') as (E1 & E2 & E3 & E4). destruct (base_no _ E2). split; [eapply kind_keep; eauto|].
    intros x2 F2 G2 Hs2. apply lk_lift. intros [i|] El; [|exact I]. split; auto. intros x3 F3 G3. cbn [fst snd s_id]. assert (Hs3 : sk x3 {| s_id := s_id ps; s_ptr := nptr (gm x1); s_node := NInner c' |}) by up.
    split; auto. split; auto. destruct (y_nl _ _ Hs3) as [_ N2]. destruct (N2 i); auto. simpl. eapply ileft_refs; eauto.
Qed.
Definition jk (jump : nat -> ctx -> prog (option ctx)) : Prop := forall x i c, gok x -> pub (gw x) i -> pk x (lev x i) (prt c) -> lk (jump i c) None (ok xk) x.
Definition onto_left (j : nat) (x : gst) (c : ctx) : Prop := xk x c /\ exists h, nhigh (s_node (cur c)) = Some (h, j).
Lemma jump_left_lk jump x c l : jk jump -> gok x -> pk x l (prt c) -> lk (jump_left jump c) None (ok (onto_left (s_id (cur c)))) x.
Proof.
  intros Hj G Hp. unfold jump_left. destruct (prt c) as [| |ps] eqn:Ep; try exact I. apply lk_parent. intros c' _. destruct (ilid c' =? s_id (cur c)); [apply none_lk|].
  split; auto. intros x1 p n F1 G1 _ _. destruct (N.eqb (fst (p, n)) (s_ptr ps)); [|apply none_lk]. destruct Hp as [Hp _].
  eapply lk_bind; auto; [apply find_left_lk; auto; up|]. intros x2 f F2 G2 (Hf1 & Hf2 & Hf3 & Hf4). eapply lk_bind; auto; [apply Hj; auto; split; auto; rewrite Hf2; auto|].
  intros x3 [c3|] F3 G3 Hx'; [|apply none_lk]. destruct (nhigh (s_node (cur c3))) as [[h m]|] eqn:Eh; [|apply none_lk]. destruct (m =? s_id (cur c)) eqn:Em; [|apply none_lk].
  apply Nat.eqb_eq in Em. subst m. split; auto. intros x4 F4 G4. simpl in Hx'. split; [up|eauto].
Qed.
Lemma post_body x i n : post x i n -> pub (gw x) i -> gok x -> exists w', wok w' /\ le (gw x) w' /\ bodyok w' n /\ nextok w' n.
Proof.
  intros (w' & Em & Hok & Hp & Hle) Hpi G. exists w'. split; auto. split; auto. destruct (k_pub _ Hok _ Hp) as (n1 & Hn1 & Hb).
  rewrite Em in Hn1. rewrite (upd1_node _ _ _ _ _ (cas_upd1 (gm x) i n (k_bound _ (o_ok _ G)) (pub_nid _ _ (o_ok _ G) Hpi))) in Hn1. injection Hn1 as <-. exact Hb.
Qed.
Lemma merged_le x x' d : gle x x' -> merged (gm x) d -> merged (gm x') d.
Proof. intros F (p & n & Hp & Hn). exists p, n. split; auto. apply (l_heap _ _ (e_le _ _ F)). auto. Qed.
Lemma finish_merge_lk x c dk di nx : gok x -> xk x c -> merged (gm x) di -> lk (finish_merge c dk di nx) None (ok xk) x.
Proof.
  intros G Hx Hm. unfold finish_merge. destruct (prt c) as [| |ps] eqn:Ep; try exact I. pose proof Hx as [Hc Hp]. rewrite Ep in Hp. destruct Hp as [Hp Hl]. split; auto. intros x1 q n F1 G1 _ _.
  destruct (N.eqb (fst (q, n)) (s_ptr ps)); [|apply none_lk]. apply lk_parent. intros c1 Ec. apply lk_lift. intros [[[a fi]|] loc] _; [|apply xk_lk; auto; up].
  destruct (fi =? di); [|exact I]. intros x2 F2 G2 _. split; [apply none_lk|]. intros no Ht Hpi Hh Hlv Hpost. assert (F : gle x x2) by fl. assert (Hp2 : sk x2 ps) by up. assert (Hc2 : sk x2 (cur c)) by up.
  pose proof (old_node _ _ _ Hp2 Hh) as ->. rewrite Ec in *. destruct (cur_body _ _ _ _ G2 Ht Hpi Hh Hlv) as (Hk & Hn & Hb). destruct (live_inner _ _ Hlv Hb) as [Hw _].
  assert (Hl2 : lev x2 (s_id ps) = S (lev x2 (s_id (cur c)))) by (rewrite (lev_le _ _ _ G F Hp), (lev_le _ _ _ G F Hc); exact Hl). split.
  - destruct (post_body _ _ _ Hpost Hpi G2) as (w' & _ & _ & Hb' & _). destruct Hb' as [(_ & _ & _ & Hsep & _) _].
    destruct (seps_range _ _ Hw _ _ Hsep) as (R1 & R2 & R3). constructor.
    + apply L_keep; simpl; auto.
    + intros e [->|[->|He]]; [left; simpl; eapply seps_refs; eauto|right; exact Hl2|left; exact He].
    + intros e He. assert (Hke : kid (NInner c1) e /\ e <> di).
      { destruct He as [->|[s [Hne Hs]]].
        - split; [left; auto|]. intros E. pose proof (iwf_lid _ _ Hw) as Hlid. simpl in E. rewrite E, R3 in Hlid. rewrite <- Hlid in R1. simpl in R1. order.
        - split; [right; exists s; exact Hs|]. intros ->. destruct (seps_range _ _ Hw _ _ Hs) as (_ & _ & R4). congruence. }
      split; [eapply (o_kid _ G2); eauto; apply Hke|]. simpl. apply Hke.
    + intros e He. simpl in He. subst e. split; [eapply merged_le; eauto|]. split; [right; exists dk; exact Hsep|]. exists dk. exact R3.
  - intros x3 F3 G3 Hs3. split; auto. intros x4 p' n' F4 G4 _ _. cbn [snd]. destruct (is_remove n'); [|exact I]. assert (Hc4 : sk x4 (cur c)) by up.
    eapply lk_bind; auto; [apply cons_lk; auto|]. intros x5 s F5 G5 [Hs Es]. split; auto. intros x6 F6 G6. split; simpl; [up|]. assert (F26 : gle x2 x6) by (eapply gle_trans; [|exact F3|]; [assumption|]; fl). rewrite Es. split; [up|].
    cbn [s_id]. rewrite (lev_le _ _ _ G2 F26 Hp2), (lev_le _ _ _ G2 F26 Hc2). exact Hl2.
Qed.
Lemma finish_split_lk x c k sib nx : gok x -> xk x c -> nhigh (s_node (cur c)) = Some (k, sib) -> ~ cut (gm x) sib -> lk (finish_split c k sib nx) None (ok xk) x.
Proof.
  intros G Hx Eh Hcut. unfold finish_split. pose proof Hx as [Hc Hp]. destruct (proj1 (y_nl _ _ Hc) _ _ Eh) as (Hps & Hls & Hlv). destruct (prt c) as [| |ps] eqn:Ep; [exact I| |].
  - split; auto. intros x1 F1 G1. exists (S (lev x1 (s_id (cur c)))). intros x2 F2 G2 Hn2 Hl2 x3 F3 G3 Ho. split; [|intros; apply none_lk]. intros _. exists k, sib. split; auto.
    assert (Hc1 : sk x1 (cur c)) by up. assert (F13 : gle x1 x3) by fl. assert (Hc3 : sk x3 (cur c)) by up.
    split; [|apply (proj1 (y_nl _ _ Hc3) _ _ Eh)]. rewrite (lev_le _ _ _ G1 F13 Hc1). rewrite <- Hl2. apply (e_lev _ _ F3). exact Hn2.
  - apply lk_parent. intros c1 Ec. destruct (match ihigh c1 with Some (h, _) => kge k h | None => false end); [apply xk_lk; auto|]. apply lk_lift.
    intros [[[a fi]|] loc] _; [destruct (fi =? sib); [apply xk_lk; auto|apply none_lk]|]. destruct Hp as [Hp Hl]. intros x1 F1 G1 _. split; [apply none_lk|]. intros no Ht Hpi Hh Hlive Hpost.
    assert (Hp1 : sk x1 ps) by up. assert (Hc1 : sk x1 (cur c)) by up. pose proof (old_node _ _ _ Hp1 Hh) as ->. rewrite Ec in *. destruct (cur_body _ _ _ _ G1 Ht Hpi Hh Hlive) as (Hk & Hn & Hb). destruct (live_inner _ _ Hlive Hb) as [Hw _].
    assert (Hl1 : lev x1 (s_id ps) = S (lev x1 (s_id (cur c)))) by (rewrite (lev_le _ _ _ G F1 Hp), (lev_le _ _ _ G F1 Hc); exact Hl). split.
    + destruct (post_body _ _ _ Hpost Hpi G1) as (w' & _ & _ & Hb' & _). destruct Hb' as [(_ & R1 & R2 & _) _].
      assert (Hnc : ~ cut (gm x1) sib).
      { intros Hct. apply (o_cur _ G1 _ _ Ht). revert Hct. change (late x1 sib (s_ptr ps)). eapply (e_late _ _ F1) with (i := s_id ps) (n := NInner c1) (k := k); auto.
        - apply Hp.
        - apply Hp.
        - rewrite <- Ec. apply Hp.
        - rewrite Hl. congruence.
        - simpl. apply sabove_above. exact R1.
        - intros Hct. destruct (Hcut Hct). }
      constructor.
      * apply L_keep; simpl; auto.
      * intros e [->|He]; [right|left; exact He]. rewrite Hl1. f_equal. symmetry. apply (proj1 (y_nl _ _ Hc1) _ _ Eh).
      * intros e He. split; [|simpl; auto]. destruct He as [->|[s [[_ ->]|[_ Hs]]]]; auto; eapply (o_kid _ G1); eauto; [left; auto|right; eauto].
      * simpl. tauto.
    + intros x3 F3 G3 Hs3. assert (Hc3 : sk x3 (cur c)) by up. eapply lk_bind; auto; [apply cons_lk; auto|]. intros x5 s F5 G5 [Hs Es]. split; auto. intros x6 F6 G6. split; simpl; [up|].
      assert (F26 : gle x1 x6) by (eapply gle_trans; [|exact F3|]; [assumption|]; fl). rewrite Es. split; [up|]. cbn [s_id]. rewrite (lev_le _ _ _ G1 F26 Hp1), (lev_le _ _ _ G1 F26 Hc1). exact Hl1.
Qed.
Lemma sk_strip x s : gok x -> sk x s -> sk x (strip_snap s).
Proof.
  intros G H. destruct s as [i p n]. unfold strip_snap. cbn [s_node s_ptr s_id]. destruct n as [c|c]; [exact H|]. destruct c as [| | | | | |p' c]; cbn [strip]; try exact H.
  pose proof (o_mark _ G _ _ (y_cell _ _ H)) as Hm. cbn [markok s_node] in Hm. destruct Hm as [Hc Hu]. pose proof (o_mlive _ G _ _ _ (y_cell _ _ H)) as Hr.
  assert (Es : strip p' c = (p', c)) by (destruct c; auto; contradiction). rewrite Es. destruct H as [S1 S2 S3 S4 S5 S7 S6]. cbn [s_id s_ptr s_node] in *. constructor; cbn [s_id s_ptr s_node]; auto.
  - apply (S4 _ _ eq_refl).
  - intros q c' E. injection E as ->. contradiction.
  - destruct S7 as [f Hf]. exists f. destruct c; simpl in *; auto; contradiction || discriminate.
  - congruence.
Qed.
Lemma strip_nhigh x s : gok x -> sk x s -> nhigh (s_node (strip_snap s)) = nhigh (s_node s) /\ is_remove (s_node (strip_snap s)) = is_remove (s_node s) /\ s_id (strip_snap s) = s_id s.
Proof.
  intros G H. destruct s as [i p n]. unfold strip_snap. cbn [s_node s_ptr s_id]. destruct n as [c|c]; auto. destruct c as [| | | | | |p' c]; cbn [strip]; auto.
  pose proof (o_mark _ G _ _ (y_cell _ _ H)) as Hm. cbn [markok s_node] in Hm. destruct Hm as [Hc Hu]. pose proof (o_mlive _ G _ _ _ (y_cell _ _ H)) as Hr.
  assert (Es : strip p' c = (p', c)) by (destruct c; auto; contradiction). rewrite Es. auto.
Qed.
Lemma uncut x i q n h d : gok x -> pub (gw x) i -> get (gm x) i = Some (q, n) -> is_remove n = false -> nhigh n = Some (h, d) -> ~ cut (gm x) d.
Proof.
  intros G Hp Hg Hr Eh Hc. assert (Hn : node_of (gm x) i = Some n) by (apply node_of_get; eauto). apply (o_next _ G i d); [eapply live_kept; eauto|exists n, h; auto|apply o_cut; auto].
Qed.
Lemma merge_kind x s del no n q rn mk : gok x -> sk x s -> heap (gm x) (s_ptr s) = Some no -> tab (gm x) (s_id s) = Some (s_ptr s) -> live no -> nhigh no = Some (mk, del) ->
  pub (gw x) del -> get (gm x) del = Some (q, rn) -> nl x del rn -> absorbs n del rn -> nhigh n = nhigh rn ->
  (forall d, nref n d -> nref no d \/ nref rn d) -> (forall d, kid n d -> kid no d \/ kid rn d) -> (forall d, ~ cuts n d) -> kind x None (s_id s) no n.
Proof.
  intros G Hs Hh Ht Hl Eh Hpd Hg Hnl Ha Ehn Hr Hk Hc. destruct (cur_body _ _ _ _ G Ht (y_pub _ _ Hs) Hh Hl) as (Hki & Hn & _). pose proof (old_node _ _ _ Hs Hh) as ->.
  destruct (proj1 (y_nl _ _ Hs) _ _ Eh) as (_ & _ & El). constructor.
  - eapply L_merge; eauto.
  - intros d Hd. destruct (Hr _ Hd) as [Hd'|Hd']; auto. right. rewrite <- El. apply (proj2 Hnl _ Hd').
  - intros d Hd. split; auto. destruct (Hk _ Hd) as [Hd'|Hd']; [eapply (o_kid _ G); eauto|]. apply (o_kid _ G del rn); auto; [|apply node_of_get; eauto].
    split; auto. apply (o_next _ G (s_id s) del); auto. exists (s_node s), mk. auto.
  - intros d Hd. destruct (Hc _ Hd).
Qed.
Lemma finish_smo_lk jump x c : jk jump -> gok x -> xk x c -> get (gm x) (s_id (cur c)) = Some (s_ptr (cur c), s_node (cur c)) -> lk (finish_smo jump c) None (ok xk) x.
Proof.
  intros Hj G [Hs Hp] Hg. pose proof (sk_strip _ _ G Hs) as Hs'. pose proof (strip_nhigh _ _ G Hs) as (En1 & En2 & En3). unfold finish_smo.
  assert (Hun : is_remove (s_node (cur (set_cur c (strip_snap (cur c))))) = false -> forall h d, nhigh (s_node (cur (set_cur c (strip_snap (cur c))))) = Some (h, d) -> ~ cut (gm x) d).
  { cbn [cur set_cur]. intros Hr h d Eh. rewrite En1 in Eh. rewrite En2 in Hr. eapply uncut; eauto. apply Hs. }
  assert (Hy : xk x (set_cur c (strip_snap (cur c)))) by (split; auto; simpl; rewrite En3; exact Hp).
  set (y := set_cur c (strip_snap (cur c))) in *. clearbody y. clear Hs Hp Hg En1 En2 En3 Hs'. destruct Hy as [Hs Hp].
  assert (Hx : xk x y) by (split; auto).
  assert (Hmg : forall n d, s_node (cur y) = n -> merges n d -> merged (gm x) d) by (intros n d E Hd; exists (s_ptr (cur y)), n; split; auto; rewrite <- E; apply Hs).
  destruct (s_node (cur y)) as [lcc|icc] eqn:En; [destruct lcc as [| | | |id0 rc|]|destruct icc as [| | | |id0 rc| |]];
    try (apply xk_lk; auto; fail); try (apply finish_merge_lk; auto; eapply Hmg; [reflexivity|simpl; auto]; fail).
  - apply finish_split_lk; auto; [rewrite En; auto|]. eapply Hun; reflexivity.
  - eapply lk_bind; auto; [eapply jump_left_lk; eauto|]. intros x1 [c'|] F1 G1 Hx'; [|apply none_lk]. destruct (s_node (cur c')) as [lc|] eqn:El; [|exact I]. destruct (lhigh lc) as [[mk z]|] eqn:Eh; [|exact I].
    destruct Hx' as [[Hc' Hp'] [h Eh']]. rewrite El in Eh'. simpl in Eh'. rewrite Eh in Eh'. injection Eh' as <- ->.
    intros x2 F2 G2 _. split; [apply none_lk|]. intros no Ht Hpi Hh Hl _. assert (F : gle x x2) by fl. assert (Hc2 : sk x2 (cur c')) by up. assert (Hy2 : sk x2 (cur y)) by up.
    pose proof (old_node _ _ _ Hc2 Hh) as Eno. rewrite El in Eno. pose proof (y_gone _ _ Hy2) as Hgy. rewrite En in Hgy. split.
    + apply (merge_kind x2 (cur c') (s_id (cur y)) no _ (s_ptr (cur y)) (NLeaf (LRemove id0 rc)) mk); auto; rewrite ?Eno; simpl; try tauto; auto; try apply Hy2. pose proof (y_nl _ _ Hy2) as Hnl. rewrite En in Hnl. exact Hnl.
    + intros x3 F3 G3 Hs3. apply finish_merge_lk; auto.
      * split; [exact Hs3|]. simpl. rewrite (lev_le _ _ _ G1 (gle_trans _ _ _ G1 F2 F3) Hc'). eapply pk_le; [| |exact Hp']; auto. fl.
      * eexists _, _. split; [apply (y_cell _ _ Hs3)|]. reflexivity.
  - apply finish_split_lk; auto; [rewrite En; auto|]. eapply Hun; reflexivity.
  - eapply lk_bind; auto; [eapply jump_left_lk; eauto|]. intros x1 [c'|] F1 G1 Hx'; [|apply none_lk]. destruct (s_node (cur c')) as [|lc] eqn:El; [exact I|]. destruct (ihigh lc) as [[mk z]|] eqn:Eh; [|exact I].
    destruct Hx' as [[Hc' Hp'] [h Eh']]. rewrite El in Eh'. simpl in Eh'. rewrite Eh in Eh'. injection Eh' as <- ->.
    intros x2 F2 G2 _. split; [apply none_lk|]. intros no Ht Hpi Hh Hl _. assert (F : gle x x2) by fl. assert (Hc2 : sk x2 (cur c')) by up. assert (Hy2 : sk x2 (cur y)) by up.
    pose proof (old_node _ _ _ Hc2 Hh) as Eno. rewrite El in Eno. pose proof (y_gone _ _ Hy2) as Hgy. rewrite En in Hgy. split.
    + apply (merge_kind x2 (cur c') (s_id (cur y)) no _ (s_ptr (cur y)) (NInner (IRemove id0 rc)) mk); auto; rewrite ?Eno; simpl; try tauto; auto; try apply Hy2.
      * pose proof (y_nl _ _ Hy2) as Hnl. rewrite En in Hnl. exact Hnl.
      * intros d [->|[s Hsep]]; [left; auto|]. destruct (klt s mk); [left; right; eauto|]. destruct Hsep as [[_ ->]|Hsep]; right; [left; auto|right; eauto].
    + intros x3 F3 G3 Hs3. apply finish_merge_lk; auto.
      * split; [exact Hs3|]. simpl. rewrite (lev_le _ _ _ G1 (gle_trans _ _ _ G1 F2 F3) Hc'). eapply pk_le; [| |exact Hp']; auto. fl.
      * eexists _, _. split; [apply (y_cell _ _ Hs3)|]. reflexivity.
Qed.
Lemma settle_lk jump x c : jk jump -> gok x -> xk x c -> get (gm x) (s_id (cur c)) = Some (s_ptr (cur c), s_node (cur c)) -> lk (settle jump c) None (ok xk) x.
Proof.
  intros Hj G Hx Hg. unfold settle. eapply lk_bind; auto; [apply finish_smo_lk; auto|]. intros x1 [c'|] F1 G1 Hx'; [|apply none_lk]. eapply lk_bind; auto; [apply try_lk; auto|]. intros x2 c2 F2 G2 Hx2. apply adjust_lk; auto.
Qed.
Lemma jump_lk f : jk (jump_to f).
Proof.
  induction f as [|f IH]; intros x i c G Hi Hp; [exact I|]. split; auto. intros x1 p n F1 G1 Hpi Hg. cbn [fst snd]. destruct (_ && _); [|exact I].
  apply settle_lk; auto. split; [apply sk_load; auto|]. simpl. rewrite (e_lev _ _ F1); [up|]. apply (pub_nid _ _ (o_ok _ G)); auto.
Qed.
Lemma load_lk f k p i x : gok x -> pub (gw x) i -> pk x (lev x i) p -> lk (load_node f k p i) None (ok xk) x.
Proof.
  intros G Hi Hp. split; auto. intros x1 q n F1 G1 Hpi Hg. cbn [fst snd]. apply settle_lk; auto; [apply jump_lk|]. split; [apply sk_load; auto|]. simpl.
  rewrite (e_lev _ _ F1); [up|]. apply (pub_nid _ _ (o_ok _ G)); auto.
Qed.
Lemma chain_lk go f : forall x c, gok x -> xk x c -> lk (sibling_chain go f c) None (ok xk) x.
Proof.
  induction f as [|f IH]; intros x c G Hx; [exact I|]. cbn [sibling_chain]. destruct (nhigh (s_node (cur c))) as [[h n]|] eqn:Eh; [|apply xk_lk; auto]. destruct (go (key c) h); [|apply xk_lk; auto].
  destruct Hx as [Hc Hp]. destruct (proj1 (y_nl _ _ Hc) _ _ Eh) as (A1 & A2 & A3).
  eapply lk_bind; auto; [apply jump_lk; auto; rewrite A3; auto|]. intros x1 [c'|] F1 G1 Hx'; [|apply none_lk]. apply IH; auto.
Qed.
Definition navs (nav : K -> ichain -> res nat) : Prop := forall k c i, nav k c = Ok i -> irefs c i.
Lemma nav_lk go nav f x c : navs nav -> gok x -> xk x c -> lk (nav_inner go nav f c) None (ok (fun x' y => xk x' (snd y) /\ pub (gw x') (fst y) /\ lev x' (s_id (cur (snd y))) = S (lev x' (fst y)))) x.
Proof.
  intros Hn G Hx. unfold nav_inner. eapply lk_bind; auto; [apply chain_lk; auto|]. intros x1 [c'|] F1 G1 Hx'; [|apply none_lk]. destruct (s_node (cur c')) as [|cc] eqn:En; [exact I|]. apply lk_lift. intros i Ei.
  split; auto. intros x2 F2 G2. simpl. simpl in Hx'. assert (Hx2 : xk x2 c') by up. split; auto. apply (proj2 (y_nl _ _ (proj1 Hx2))). rewrite En. simpl. eapply Hn; eauto.
Qed.
Lemma descend_lk go nav f : navs nav -> forall x c, gok x -> xk x c -> lk (descend go nav f c) None (ok xk) x.
Proof.
  intros Hn. induction f as [|f IH]; intros x c G Hx; [exact I|]. cbn [descend]. eapply lk_bind; auto; [apply nav_lk; auto|]. intros x1 [[i c']|] F1 G1 Hx'; [|apply none_lk]. destruct Hx' as (Hx' & Hi & El). cbn [fst snd] in *.
  eapply lk_bind; auto; [apply load_lk; auto; split; auto; apply Hx'|]. intros x2 [y|] F2 G2 Hy; [|apply none_lk]. destruct (is_leaf _); [apply xk_lk; auto|]. apply IH; auto.
Qed.
Lemma attempt_lk go nav f k x : navs nav -> gok x -> lk (attempt go nav f k) None (ok xk) x.
Proof.
  intros Hn G. split; auto. intros x1 F1 G1. eapply lk_bind; auto; [apply load_lk; auto; [apply (k_root _ (o_ok _ G1))|exact I]|]. intros x2 [c|] F2 G2 Hx; [|apply none_lk].
  eapply lk_bind; auto; [apply descend_lk; auto|]. intros x3 [z|] F3 G3 Hz; [|apply none_lk]. apply chain_lk; auto.
Qed.
Lemma traverse_lk go nav f : navs nav -> forall k x, gok x -> lk (traverse_with go nav f k) None xk x.
Proof.
  intros Hn. induction f as [|f IH]; intros k x G; [exact I|]. cbn [traverse_with]. eapply lk_bind; auto; [apply attempt_lk; auto|]. intros x1 [c|] F1 G1 Hx; [|apply IH; auto]. split; auto. intros x2 F2 G2. simpl in Hx. up.
Qed.
Lemma leaf_lk {A} c (f : lchain -> prog A) Q x : (forall l, s_node (cur c) = NLeaf l -> lk (f l) None Q x) -> lk (pbind (leaf_of c) f) None Q x.
Proof. intros Hf. unfold leaf_of. destruct (s_node (cur c)); simpl; auto. Qed.
Definition anyk {A} (x : gst) (a : A) : Prop := True.
Lemma inav_navs : navs inavigate.
Proof. intros k c i E. unfold inavigate in E. eapply inav_refs; eauto. Qed.
Lemma inavBI_navs : navs inavBI. Proof. intros k c i E. eapply inavBI_refs; eauto. Qed.
Lemma leaf_kind x s no c n : gok x -> sk x s -> s_node s = NLeaf c -> heap (gm x) (s_ptr s) = Some no -> tab (gm x) (s_id s) = Some (s_ptr s) -> live no -> lhigh n = lhigh c ->
  (forall d, ~ merges (NLeaf n) d) -> kind x None (s_id s) no (NLeaf n).
Proof. intros G Hs En Hh Ht Hl Eh Hm. pose proof (old_node _ _ _ Hs Hh) as ->. eapply kind_keep; eauto; try apply Hs; rewrite ?En; simpl; auto. Qed.
Lemma insert_lk f k v : forall x, gok x -> lk (insert f k v) None anyk x.
Proof.
  induction f as [|f IH]; intros x G; [exact I|]. cbn [insert]. eapply lk_bind; auto; [apply traverse_lk; auto; apply inav_navs|]. intros x1 c F1 G1 [Hx _]. apply leaf_lk. intros l El. apply lk_lift. intros r _.
  destruct (fst r); [split; auto; intros; exact I|]. intros x2 F2 G2 _. split; [apply IH; auto|]. intros no Ht Hpi Hh Hl _. split; [|intros; split; auto; intros; exact I]. assert (Hx2 : sk x2 (cur c)) by up.
  eapply leaf_kind; eauto.
Qed.
Lemma delete_lk f k v : forall x, gok x -> lk (delete f k v) None anyk x.
Proof.
  induction f as [|f IH]; intros x G; [exact I|]. cbn [delete]. eapply lk_bind; auto; [apply traverse_lk; auto; apply inav_navs|]. intros x1 c F1 G1 [Hx _]. apply leaf_lk. intros l El. apply lk_lift. intros r _.
  destruct (fst r); [|split; auto; intros; exact I]. intros x2 F2 G2 _. split; [apply IH; auto|]. intros no Ht Hpi Hh Hl _. split; [|intros; split; auto; intros; exact I]. assert (Hx2 : sk x2 (cur c)) by up.
  eapply leaf_kind; eauto.
Qed.
Lemma cond_lk f k v pred : forall x, gok x -> lk (cond_insert f k v pred) None anyk x.
Proof.
  induction f as [|f IH]; intros x G; [exact I|]. cbn [cond_insert]. eapply lk_bind; auto; [apply traverse_lk; auto; apply inav_navs|]. intros x1 c F1 G1 [Hx _]. apply leaf_lk. intros l El. apply lk_lift. intros [| |ix] _; try (split; auto; intros; exact I).
  intros x2 F2 G2 _. split; [apply IH; auto|]. intros no Ht Hpi Hh Hl _. split; [|intros; split; auto; intros; exact I]. assert (Hx2 : sk x2 (cur c)) by up.
  eapply leaf_kind; eauto.
Qed.
Lemma load_ro_lk k i x : lk (load_ro k i) None (ok xk) x.
Proof.
  split; auto. intros x1 p n F1 G1 Hp Hg. cbn [fst snd]. pose proof (sk_strip _ _ G1 (sk_load _ _ _ _ G1 Hp Hg)) as Hs. destruct (is_remove _); [apply none_lk|].
  apply xk_lk; auto. split; [exact Hs|exact I].
Qed.
Lemma descend_ro_lk f : forall x c, gok x -> xk x c -> lk (descend_ro f c) None (ok xk) x.
Proof.
  induction f as [|f IH]; intros x c G Hx; [exact I|]. cbn [descend_ro]. eapply lk_bind; auto; [apply nav_lk; auto; apply inav_navs|]. intros x1 [[i c']|] F1 G1 _; [|apply none_lk].
  eapply lk_bind; auto; [apply load_ro_lk|]. intros x2 [y|] F2 G2 Hy; [|apply none_lk]. destruct (is_leaf _); [apply chain_lk; auto|apply IH; auto].
Qed.
Lemma get_lk f k : forall x, gok x -> lk (get_value f k) None anyk x.
Proof.
  induction f as [|f IH]; intros x G; [exact I|]. cbn [get_value]. split; auto. intros x1 F1 G1. eapply lk_bind; auto; [apply load_ro_lk|]. intros x2 [c|] F2 G2 Hx; [|apply IH; auto].
  eapply lk_bind; auto; [apply descend_ro_lk; auto|]. intros x3 [y|] F3 G3 Hy; [|apply IH; auto]. apply leaf_lk. intros l El. destruct (lvalues k l); simpl; auto. split; auto. intros; exact I.
Qed.
Lemma page_lk c x : lk (pbind (lift (lconsolidate c)) page_resp) None anyk x.
Proof. apply lk_lift. intros [] _; simpl; auto. split; auto. intros; exact I. Qed.
Lemma fetch_lk go nav f k x : navs nav -> gok x -> lk (fetch (traverse_with go nav) f k) None anyk x.
Proof. intros Hn G. unfold fetch. eapply lk_bind; auto; [apply traverse_lk; auto|]. intros x1 c F1 G1 Hx. apply leaf_lk. intros l El. apply page_lk. Qed.
Lemma code_lk f o x : gok x -> lk (code f o) None anyk x.
Proof.
  intros G. destruct o as [k v|k v|k v pred|k|k|k|]; unfold code.
  - eapply lk_bind; auto; [apply insert_lk; auto|]. intros x1 b F1 G1 _. split; auto. intros; exact I.
  - eapply lk_bind; auto; [apply delete_lk; auto|]. intros x1 b F1 G1 _. split; auto. intros; exact I.
  - eapply lk_bind; auto; [apply cond_lk; auto|]. intros x1 b F1 G1 _. split; auto. intros; exact I.
  - eapply lk_bind; auto; [apply get_lk; auto|]. intros x1 b F1 G1 _. split; auto. intros; exact I.
  - apply fetch_lk; auto. apply inav_navs.
  - apply fetch_lk; auto. apply inavBI_navs.
  - split; auto. intros x1 p n F1 G1 _ _. cbn [snd]. destruct n; [apply page_lk|exact I].
Qed.
End LinkProg.
