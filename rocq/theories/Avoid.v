(** Operations avoid the pages that had been taken out of their parent when the
    operation began, as long as no page routes to a page that is not its child. *)
From Coq Require Import NArith List Arith Lia Bool ZArith.
From Verif Require Import Base SmallSet Bloom SmallProofs Leaf LeafSpec LeafProofs LeafWeak LeafProofs2 Inner InnerSpec InnerProofs InnerProofs2 Tree TreeSpec TreeInv TreeSafe TreeProg TreeLin TreeRoom MarkerSpec Marker GarbageSpec Garbage LinkSpec Links LinkProg FateSpec ReleaseSpec.
Import ListNotations.

Section Avoid.
Context {P : Params}.

(** * FindLeftSibling yields children *)
Lemma ileft_loop_none x0 rest fuel : forall i1 s counter left out F r,
  1 <= i1 -> i1 <= S (length rest) ->
  gmerge rgt F (rev (firstn (i1 - 1) rest)) s = Ok out -> length s + counter <= fuel ->
  match counter with
  | O => True
  | S c => nth_error (out ++ [x0]) c = None -> ileft_loop fuel (x0 :: rest) i1 s counter left = Ok r -> False
  end.
Proof.
  induction fuel as [|f IH]; intros i1 s counter left out F r Hi1 Hi2 Hg Hf; destruct counter as [|cn]; auto; [lia|].
  intros Hx. cbn [ileft_loop]. destruct i1 as [|j]; [lia|].
  assert (Hstep : forall j s out F y left', 1 <= j -> j <= S (length rest) -> gmerge rgt F (rev (firstn (j - 1) rest)) s = Ok out ->
     length s + cn <= f -> nth_error (y :: out ++ [x0]) cn = None ->
     left' = Some y -> ileft_loop f (x0 :: rest) j s cn left' = Ok r -> False).
  { intros j' s' out' F' y left' G1 G2 G3 G4 G5 ->. destruct cn as [|cn].
    - simpl in G5. discriminate.
    - specialize (IH j' s' (S cn) (Some y) out' F' r G1 G2 G3 G4). simpl in IH. apply IH. auto. }
  assert (Hsame : forall j s out F left', 1 <= j -> j <= S (length rest) -> gmerge rgt F (rev (firstn (j - 1) rest)) s = Ok out ->
     length s + S cn <= f -> nth_error (out ++ [x0]) cn = None -> ileft_loop f (x0 :: rest) j s (S cn) left' = Ok r -> False).
  { intros j' s' out' F' left' G1 G2 G3 G4 G5. apply (IH j' s' (S cn) left' out' F' r G1 G2 G3 G4). auto. }
  destruct s as [|d s].
  - destruct j as [|j].
    + cbn [nth_error]. replace (S 0 - 1) with 0 in Hg by lia. simpl in Hg.
      assert (out = []) by (destruct F; simpl in Hg; congruence). subst out. destruct cn as [|cn]; [discriminate|]. destruct f; discriminate.
    + cbn [nth_error]. destruct (nth_some rest j ltac:(lia)) as (y & Hy). rewrite Hy.
      simpl Nat.sub in Hg. rewrite ?Nat.sub_0_r in Hg. rewrite (firstn_snoc _ _ _ Hy), rev_app_distr in Hg. simpl in Hg.
      assert (out = y :: rev (firstn j rest)) by (destruct F; simpl in Hg; congruence). subst out.
      apply (Hstep (S j) [] (rev (firstn j rest)) F y); auto; try lia.
      simpl Nat.sub. rewrite Nat.sub_0_r. destruct F; simpl; destruct (rev (firstn j rest)); auto.
  - destruct j as [|j].
    + simpl Nat.sub in Hg. simpl in Hg. destruct F as [|F]; [discriminate|]. simpl in Hg.
      destruct (gmerge rgt F [] s) as [r'|] eqn:Er; [|discriminate]. simpl in Hg. inversion Hg; subst; clear Hg.
      simpl in Hf. destruct (s_ins d).
      * apply (Hstep 1 s r' F (s_item d)); auto; lia.
      * apply (Hsame 1 s r' F); auto; lia.
    + cbn [nth_error]. destruct (nth_some rest j ltac:(lia)) as (y & Hy). rewrite Hy.
      simpl Nat.sub in Hg. rewrite ?Nat.sub_0_r in Hg. pose proof Hg as Hg0.
      rewrite (firstn_snoc _ _ _ Hy), rev_app_distr in Hg. simpl in Hg. simpl in Hf.
      destruct F as [|F]; [discriminate|].
      assert (Hg1 : (if klt (fst (s_item d)) (fst y)
                     then do r <- gmerge rgt F (rev (firstn j rest)) (d :: s); Ok (y :: r)
                     else if klt (fst y) (fst (s_item d))
                     then do r <- gmerge rgt F (y :: rev (firstn j rest)) s; Ok (if s_ins d then s_item d :: r else r)
                     else do r <- gmerge rgt F (rev (firstn j rest)) s; Ok (if s_ins d then s_item d :: r else r)) = Ok out) by exact Hg.
      clear Hg. rename Hg1 into Hg.
      destruct (keq (fst (s_item d)) (fst y)) eqn:Ek.
      * apply keq_spec in Ek. rewrite Ek, !klt_ir in Hg.
        destruct (gmerge rgt F (rev (firstn j rest)) s) as [r'|] eqn:Er; [|discriminate]. simpl in Hg. inversion Hg; subst; clear Hg.
        destruct (s_ins d).
        -- apply (Hstep (S j) s r' F (s_item d)); auto; try lia. simpl Nat.sub. rewrite Nat.sub_0_r. auto.
        -- apply (Hsame (S j) s r' F); auto; try lia. simpl Nat.sub. rewrite Nat.sub_0_r. auto.
      * destruct (klt (fst (s_item d)) (fst y)) eqn:El.
        -- destruct (gmerge rgt F (rev (firstn j rest)) (d :: s)) as [r'|] eqn:Er; [|discriminate]. simpl in Hg. inversion Hg; subst; clear Hg.
           apply (Hstep (S j) (d :: s) r' F y); auto; try (simpl; lia). simpl Nat.sub. rewrite Nat.sub_0_r. auto.
        -- assert (klt (fst y) (fst (s_item d)) = true) as Hlt by order. rewrite Hlt in Hg.
           destruct (gmerge rgt F (y :: rev (firstn j rest)) s) as [r'|] eqn:Er; [|discriminate]. simpl in Hg. inversion Hg; subst; clear Hg.
           assert (Er' : gmerge rgt F (rev (firstn (S (S j) - 1) rest)) s = Ok r').
           { simpl Nat.sub. rewrite (firstn_snoc _ _ _ Hy), rev_app_distr. auto. }
           destruct (s_ins d).
           ++ apply (Hstep (S (S j)) s r' F (s_item d)); auto; lia.
           ++ apply (Hsame (S (S j)) s r' F); auto; lia.
Qed.
Section Left.
Variable lowof : nat -> option K.
Notation iwf := (iwf lowof).
Lemma ileft_base_in cap k d low lid items high s i : iwf (IBase d low lid items high) ->
  gsorted rgt (fun d => fst (s_item d)) s -> (forall d, In d s -> klt k (fst (s_item d)) = false) ->
  ileft_rec cap k (IBase d low lid items high) s = Ok (Some i) ->
  i = lid \/ exists x, klt k x = false /\ InnerProofs.upd s (fun x i => In (x, i) (tl items)) x i.
Proof.
  intros (rest & -> & Hs & _) Hss Hk E. pose proof (strict_asc _ Hs) as Ha. pose proof (ub_le rest k) as Hu.
  cbn [tl]. set (a := rev (firstn (ub k rest) rest)).
  assert (Hsa : gsorted rgt (fun x : sep => fst x) a).
  { unfold a, gsorted, rgt. apply (SSorted_rev (fun a b => klt (fst a) (fst b) = true)).
    rewrite <- (firstn_skipn (ub k rest) rest) in Hs. apply SSorted_app_inv in Hs. tauto. }
  destruct (gmerge_spec rgt rgt_ir rgt_tr rgt_tot (length a + length s) a s Hsa Hss (le_n _)) as (out & Eo & Hso & Ho).
  cbn [ileft_rec skipn] in E. rewrite upper_bound_ub in E by auto.
  destruct (ileft_loop _ _ _ _ _ _) as [r|] eqn:El; cbn [bind] in E; [|discriminate]. injection E as ->.
  destruct (nth_error (out ++ [(rawlow low, lid)]) 1) as [[x j]|] eqn:En.
  - pose proof (ileft_loop_spec lowof (rawlow low, lid) rest (length s + 3) (1 + ub k rest) s 2 None out (length a + length s)) as G. cbv beta iota in G.
    replace (1 + ub k rest - 1) with (ub k rest) in G by lia. specialize (G ltac:(lia) ltac:(lia) Eo ltac:(lia) _ En). rewrite G in El. injection El as <-.
    apply nth_error_In in En. apply in_app_iff in En. destruct En as [Hi|[Hi|[]]]; [|injection Hi as _ <-; auto].
    right. exists x. apply Ho in Hi. revert Hi. unfold InnerProofs.upd. intros [(e & H1 & H2 & H3)|[H1 H2]]; [specialize (Hk _ H1); rewrite H2 in Hk; split; eauto|].
    unfold a in H2. apply in_rev in H2. split.
    + apply In_nth_error in H2 as (p & Hp). assert (p < ub k rest) by (assert (p < length (firstn (ub k rest) rest)) by (apply nth_error_Some; congruence); rewrite firstn_length in *; lia).
      rewrite firstn_nth in Hp by auto. apply (ub_before rest k p (x, j)); auto.
    + right. split; auto. cbn [tl]. rewrite <- (firstn_skipn (ub k rest) rest). apply in_app_iff. auto.
  - exfalso. pose proof (ileft_loop_none (rawlow low, lid) rest (length s + 3) (1 + ub k rest) s 2 None out (length a + length s) i) as G. cbv beta iota in G.
    apply G; auto; try lia. replace (1 + ub k rest - 1) with (ub k rest) by lia. auto.
Qed.
Lemma ileft_rec_in cap k c : iwf c -> below (ihigh c) k -> forall s i,
  gsorted rgt (fun d => fst (s_item d)) s -> (forall d, In d s -> klt k (fst (s_item d)) = false) -> length s + idepth c <= cap ->
  ileft_rec cap k c s = Ok (Some i) -> i = ilid c \/ exists x, klt k x = false /\ InnerProofs.upd s (seps c) x i.
Proof.
  induction c as [d low lid0 items high|[sk i0] nx loc c IH|[sk i0] [ps pi] nx loc c IH|sk sib n c IH|id c IH|mk id r IHr c IHc|p c IH];
    intros Hw Hb s i Hs Hk Hlen E; try discriminate E.
  - eapply ileft_base_in; eauto.
  - destruct Hw as (Hw & Hsa & Hbe & Hlw & Hns & _). cbn [ileft_rec ihigh ilid idepth fst] in *.
    unfold kle in E. destruct (klt k sk) eqn:Ek; simpl negb in E; cbv iota in E.
    + destruct (IH Hw Hb s i Hs Hk ltac:(lia) E) as [->|(x & Hkx & Hx)]; auto. right. exists x. split; auto. revert Hx. unfold InnerProofs.upd. intros [H|[H1 H2]]; auto. right. split; auto. cbn [seps]. right. split; auto. intros ->. eapply Hns; eauto.
    + set (d0 := {| s_ins := true; s_item := (sk, i0) |}) in *.
      destruct (gset_insert rgt rgt_ir rgt_tr rgt_tot d0 s (seps c) Hs) as (G1 & G2 & G3 & G4 & G5).
      rewrite sinsert_ok in E by (rewrite ?sgt_glt; auto; lia). cbn [bind] in E. rewrite sgt_glt in E.
      destruct (IH Hw Hb (SmallSet.insert (glt rgt) seq_ d0 s) i) as [->|(x & Hkx & Hx)]; auto; [|lia|].
      * intros d Hd. apply G3 in Hd as [->|Hd]; auto.
      * right. exists x. split; auto. apply G5 in Hx. revert Hx. refine (proj1 (upd_ext lowof s (app_delta d0 (seps c)) _ x i _)). unfold app_delta. cbn [seps s_ins s_item fst d0]. split.
        -- intros [[_ H]|H]; auto. inversion H; auto.
        -- intros [[-> ->]|H]; auto.
  - destruct Hw as (Hw & Hsa & Hbe & Hse & Hpr & _). cbn [ileft_rec ihigh ilid idepth fst] in *.
    unfold kle in E. destruct (klt k sk) eqn:Ek; simpl negb in E; cbv iota in E.
    + destruct (IH Hw Hb s i Hs Hk ltac:(lia) E) as [->|(x & Hkx & Hx)]; auto. right. exists x. split; auto. revert Hx. unfold InnerProofs.upd. intros [H|[H1 H2]]; auto. right. split; auto. cbn [seps]. split; auto. congruence.
    + set (d0 := {| s_ins := false; s_item := (sk, i0) |}) in *.
      destruct (gset_insert rgt rgt_ir rgt_tr rgt_tot d0 s (seps c) Hs) as (G1 & G2 & G3 & G4 & G5).
      rewrite sinsert_ok in E by (rewrite ?sgt_glt; auto; lia). cbn [bind] in E. rewrite sgt_glt in E.
      destruct (IH Hw Hb (SmallSet.insert (glt rgt) seq_ d0 s) i) as [->|(x & Hkx & Hx)]; auto; [|lia|].
      * intros d Hd. apply G3 in Hd as [->|Hd]; auto.
      * right. exists x. split; auto. apply G5 in Hx. revert Hx. refine (proj1 (upd_ext lowof s (app_delta d0 (seps c)) _ x i _)). unfold app_delta. cbn [seps s_ins s_item fst d0]. split.
        -- intros [[? _]|H]; [discriminate|auto].
        -- auto.
  - destruct c as [d low lid0 items high| | | | | |]; simpl in Hw; try tauto. destruct Hw as (Hw & H1 & H2 & _).
    destruct (ileft_base_in cap k d low lid0 items high s i Hw Hs Hk E) as [->|(x & Hkx & Hx)]; auto. right. exists x. split; auto. revert Hx. unfold InnerProofs.upd. intros [H|[G1 G2]]; auto. right. split; auto. cbn [seps]. split; auto. simpl in Hb. order.
Qed.
Lemma ileft_kid k c i : iwf c -> ileft k c = Ok (Some i) -> kid (NInner c) i.
Proof.
  intros Hw E. assert (Hb : below (ihigh c) k /\ ileft_rec (idepth c) k c [] = Ok (Some i)).
  { unfold ileft in E. destruct (ihigh c) as [[h z]|]; simpl; auto. destruct (klt k h) eqn:Ek; [auto|discriminate]. }
  destruct Hb as [Hb E']. destruct (ileft_rec_in (idepth c) k c Hw Hb [] i) as [->|(x & _ & Hx)]; auto; [constructor|intros d []|left; auto|].
  right. exists x. destruct Hx as [(d & [] & _)|[_ H]]; auto.
Qed.
End Left.

(** * Programs *)
Section Av.
Variable D : nat -> Prop.
Variables (k0 : K) (go : K -> K -> bool) (nav : K -> ichain -> res nat).
(** What is known of a node found in the mapping table or installed. *)
Record lf (n : node) : Prop := {
  f_wf : wfn n;
  f_mark : forall p c, n = NInner (IAbort p c) -> live (NInner c);
  f_kid : is_remove n = false -> forall d, kid n d -> ~ D d;
  f_high : is_remove n = false -> forall h d, nhigh n = Some (h, d) -> ~ D d;
  f_nav : is_remove n = false -> forall c j, n = NInner c -> (forall h d, ihigh c = Some (h, d) -> go k0 h = false) -> nav k0 (unmark c) = Ok j -> ~ D j
}.
Fixpoint av {A} (p : prog A) (Q : A -> Prop) : Prop :=
  match p with
  | Ret a => Q a
  | Err _ => True
  | PLoad i k => ~ D i /\ forall q n, lf n -> av (k (q, n)) Q
  | Cas i o n k => av (k None) Q /\ forall p, lf n -> av (k (Some p)) Q
  | CasPtr _ _ _ k => forall b, av (k b) Q
  | LoadRoot k => forall r, ~ D r -> av (k r) Q
  | CasRoot _ _ k => forall b, av (k b) Q
  | NewNode _ k => forall i, ~ D i -> av (k i) Q
  end.
Lemma av_bind {A B} (p : prog A) (f : A -> prog B) Q Q' : av p Q -> (forall a, Q a -> av (f a) Q') -> av (pbind p f) Q'.
Proof.
  induction p as [a|e|i k IH|i old n k IH|i old n k IH|k IH|old n k IH|n k IH]; simpl; intros H Hf; auto.
  - destruct H as [H1 H2]. split; auto.
  - destruct H as [H1 H2]. split; auto.
Qed.
Lemma av_lift {A B} (r : res A) (f : A -> prog B) Q : (forall a, r = Ok a -> av (f a) Q) -> av (pbind (lift r) f) Q.
Proof. intros H. destruct r; simpl; auto. Qed.
Lemma av_parent {A} s (f : ichain -> prog A) Q : (forall c, s_node s = NInner c -> av (f c) Q) -> av (pbind (parent_inner s) f) Q.
Proof. intros Hf. unfold parent_inner. destruct (s_node s); simpl; auto. Qed.
Lemma av_leaf {A} c (f : lchain -> prog A) Q : (forall l, s_node (cur c) = NLeaf l -> av (f l) Q) -> av (pbind (leaf_of c) f) Q.
Proof. intros Hf. unfold leaf_of. destruct (s_node (cur c)); simpl; auto. Qed.
Definition okp {A} (X : A -> Prop) (o : option A) : Prop := match o with Some y => X y | None => True end.

Definition gs (s : snap) : Prop := ~ D (s_id s) /\ lf (s_node s).
Definition ls (s : snap) : Prop := gs s /\ live (s_node s).
Definition lp (p : par) : Prop := match p with PNode ps => ls ps | _ => True end.
Definition gx (x : ctx) : Prop := key x = k0 /\ gs (cur x) /\ lp (prt x).
Definition lx (x : ctx) : Prop := key x = k0 /\ ls (cur x) /\ lp (prt x).

Lemma ls_body c : live (NInner c) -> wfn (NInner c) -> exists f, iwf f c.
Proof. intros [H1 H2] [f Hf]. exists f. destruct c; simpl in *; auto; contradiction || discriminate. Qed.
Lemma base_live n : is_delta n = false -> live n.
Proof. destruct n as [[]|[]]; simpl; intros E; try discriminate; split; simpl; auto. Qed.
Lemma icons_kid' c dep c' : live (NInner c) -> wfn (NInner c) -> iconsolidate dep c = Ok c' -> live (NInner c') /\ (forall d, kid (NInner c') d -> kid (NInner c) d).
Proof. intros Hl Hw E. destruct (ls_body _ Hl Hw) as [f Hf]. destruct (icons_kid _ _ _ _ Hf E) as (_ & A2 & A3 & _). split; auto. apply base_live; auto. Qed.
Lemma cons_av s : ls s -> av (consolidate s) (fun s' => ls s' /\ s_id s' = s_id s).
Proof.
  intros Hs. unfold consolidate. destruct (s_node s) as [c|c] eqn:En.
  - destruct (lconsolidate c) as [c'|] eqn:E; [|exact I]. cbn [pbind lift av]. split; [exact (conj Hs eq_refl)|]. intros p Hf. split; [|reflexivity]. split; [split; [exact (proj1 (proj1 Hs))|exact Hf]|]. cbn [s_node]. apply base_live. apply (lcons_high _ _ E).
  - destruct (iconsolidate 0 c) as [c'|] eqn:E; [|exact I]. cbn [pbind lift av]. split; [exact (conj Hs eq_refl)|]. intros p Hf. split; [|reflexivity]. split; [split; [exact (proj1 (proj1 Hs))|exact Hf]|]. cbn [s_node]. destruct Hs as [[_ Hs] Hl]. rewrite En in *. apply (icons_kid' _ _ _ Hl (f_wf _ Hs) E).
Qed.
Lemma try_av x : lx x -> av (try_consolidate x) lx.
Proof.
  intros Hx. unfold try_consolidate. destruct (is_delta (s_node (cur x))); [|exact Hx]. destruct (match s_node (cur x) with NLeaf c => _ | NInner c => _ end); [|exact Hx].
  destruct Hx as (E & Hs & Hp). eapply av_bind; [apply cons_av; auto|]. intros s' [Hs' _]. split; auto.
Qed.
Lemma post_remove_av ps s rem : av (post_remove ps s rem) (okp lx).
Proof.
  unfold post_remove. apply av_parent. intros c E. split; [exact I|]. intros p _. split; [|intros q _]; intros [|]; exact I.
Qed.
Lemma adjust_av x : lx x -> av (adjust x) (okp lx).
Proof.
  intros Hx. unfold adjust. destruct (s_node (cur x)) as [[| | | | |]|[d low lid items high| | | | | |]] eqn:En; try exact Hx.
  - destruct (LEAF_SIZE_UPPER <=? length items).
    + apply av_lift. intros [[[k|] si h| | | | |]|] _; try exact I; try exact Hx. intros i Hi. split; [exact Hx|]. intros; exact I.
    + destruct (length items <=? LEAF_SIZE_LOWER); [|exact Hx]. destruct (prt x) as [| |ps] eqn:Ep; try exact I.
      apply av_parent. intros c' Ec. destruct (ilid c' =? s_id (cur x)); [exact Hx|]. apply post_remove_av.
  - destruct (INNER_SIZE_UPPER <=? length items).
    + apply av_lift. intros sib Es. destruct sib as [d' [k|] first si h'| | | | | |]; try exact I. destruct Hx as (Ek & [[Hd Hf] Hl] & Hp). rewrite En in *.
      destruct (ls_body _ Hl (f_wf _ Hf)) as [f Hw]. destruct (isplit_kid _ _ _ _ _ _ _ _ _ _ _ Hw Es) as (_ & Hk & _).
      assert (Hx' : lx x) by (split; auto; split; auto; rewrite <- En in *; split; auto; split; auto).
      split.
      * apply (f_kid _ Hf); [reflexivity|]. apply Hk. left. auto.
      * intros q n Hn. cbn [snd]. destruct (is_remove n); [exact Hx'|]. intros i Hi. split; [exact Hx'|]. intros; exact I.
    + destruct (length items <=? INNER_SIZE_LOWER); [|exact Hx]. destruct (prt x) as [| |ps] eqn:Ep; try exact I; try exact Hx.
      apply av_parent. intros c' Ec. destruct (ilid c' =? s_id (cur x)); [exact Hx|]. apply post_remove_av.
Qed.
Lemma find_left_av k ps : ls ps -> av (find_left k ps) (fun r => ~ D (fst r) /\ ls (snd r)).
Proof.
  intros Hs. unfold find_left. apply av_parent. intros c Ec. apply av_lift. intros r Er. pose proof Hs as [[Hd Hf] Hl]. rewrite Ec in Hf, Hl. destruct (ls_body _ Hl (f_wf _ Hf)) as [f Hw]. destruct r as [i|].
  - split; [|exact Hs]. apply (f_kid _ Hf); [apply Hl|]. eapply ileft_kid; eauto.
  - apply av_lift. intros c' E'. destruct (icons_kid _ _ _ _ Hw E') as (_ & A2 & A3 & _). destruct (iconsolidate_spec f c (S (idepth c)) Hw) as (rest & E2 & _ & _ & _ & Hw'). rewrite E2 in E'. injection E' as E'. rewrite E' in *.
    assert (Hk : forall i, ileft k c' = Ok (Some i) -> ~ D i).
    { intros i Ei. apply (f_kid _ Hf); [apply Hl|]. apply A3. eapply ileft_kid; eauto. }
    split.
    + apply av_lift. intros [i|] Ei; [|exact I]. split; [apply Hk; auto|exact Hs].
    + intros p Hf'. apply av_lift. intros [i|] Ei; [|exact I]. split; [apply Hk; auto|]. split; [split; auto|]. apply base_live; auto.
Qed.
Definition ja (jump : nat -> ctx -> prog (option ctx)) : Prop := forall i x, ~ D i -> key x = k0 -> lp (prt x) -> av (jump i x) (okp lx).
Lemma jump_left_av jump x : ja jump -> key x = k0 -> lp (prt x) -> av (jump_left jump x) (okp lx).
Proof.
  intros Hj Ek Hp. unfold jump_left. destruct (prt x) as [| |ps] eqn:Ep; try exact I. simpl in Hp. apply av_parent. intros c Ec. destruct (ilid c =? s_id (cur x)); [exact I|].
  split; [exact (proj1 (proj1 Hp))|]. intros q n _. cbn [fst]. destruct (N.eqb q (s_ptr ps)); [|exact I]. eapply av_bind; [apply find_left_av; auto|]. intros [i ps'] [Hi Hps]. cbn [fst snd] in *.
  eapply av_bind; [apply Hj; auto|]. intros [x'|] Hx; [|exact I]. destruct (nhigh (s_node (cur x'))) as [[h z]|]; [|exact I]. destruct (z =? s_id (cur x)); [exact Hx|exact I].
Qed.
Lemma merge_av x dk di nx : lx x -> av (finish_merge x dk di nx) (okp lx).
Proof.
  intros (Ek & Hs & Hp). unfold finish_merge. destruct (prt x) as [| |ps] eqn:Ep; try exact I. simpl in Hp. split; [exact (proj1 (proj1 Hp))|]. intros q n _. cbn [fst]. destruct (N.eqb q (s_ptr ps)); [|exact I].
  apply av_parent. intros c Ec. apply av_lift. intros [[[xk fi]|] loc] Er; [|simpl; split; auto; rewrite Ep; auto]. destruct (fi =? di) eqn:Ei; [|exact I]. split; [exact I|]. intros p Hf. split.
  - destruct (f_wf _ Hf) as [f Hw]. simpl in Hw. destruct Hw as (_ & _ & _ & Hsep & _). destruct Hp as [[_ Hf'] Hl']. rewrite Ec in *. apply (f_kid _ Hf'); [apply Hl'|]. right. eauto.
  - intros g n' _. cbn [snd]. destruct (is_remove n'); [|exact I]. eapply av_bind; [apply cons_av; auto|]. intros s' [Hs' _]. simpl. split; auto. split; auto. split; [split; [exact (proj1 (proj1 Hp))|exact Hf]|]. split; simpl; auto.
Qed.
Lemma split_av x k sib nx : lx x -> av (finish_split x k sib nx) (okp lx).
Proof.
  intros Hx. pose proof Hx as (Ek & Hs & Hp). unfold finish_split. destruct (prt x) as [| |ps] eqn:Ep; try exact I.
  - intros i _ b. exact I.
  - simpl in Hp. apply av_parent. intros c Ec. destruct (match ihigh c with Some (h, _) => kge k h | None => false end); [exact Hx|]. apply av_lift. intros [[[xk fi]|] loc] Er.
    + destruct (fi =? sib); [exact Hx|exact I].
    + split; [exact I|]. intros p Hf. eapply av_bind; [apply cons_av; auto|]. intros s' [Hs' _]. simpl. split; auto. split; auto. split; [split; [exact (proj1 (proj1 Hp))|exact Hf]|]. split; simpl; auto.
Qed.
Lemma strip_gs s : gs s -> gs (strip_snap s) /\ unmarked (s_node (strip_snap s)).
Proof.
  intros [Hd Hf]. destruct s as [i p n]. unfold strip_snap. cbn [s_node s_ptr s_id] in *. destruct n as [c|c]; [split; simpl; [split|]; auto|]. destruct c as [| | | | | |p' c]; cbn [strip]; try (split; simpl; [split|]; auto; fail).
  destruct (f_mark _ Hf _ _ eq_refl) as [Hu Hr]. assert (Es : strip p' c = (p', c)) by (destruct c; auto; contradiction). rewrite Es. cbn [s_node]. split; [|exact Hu]. split; auto. cbn [s_node]. constructor.
  - destruct (f_wf _ Hf) as [f Hw]. exists f. destruct c; simpl in *; auto; contradiction || discriminate.
  - intros q c' E. injection E as ->. contradiction.
  - intros _ d Hk. apply (f_kid _ Hf); [reflexivity|]. exact Hk.
  - intros _ h d E. eapply (f_high _ Hf); [reflexivity|]. exact E.
  - intros _ c' j E Hh En. injection E as <-. apply (f_nav _ Hf eq_refl (IAbort p' c) j eq_refl); auto. cbn [unmark]. assert (Eu : unmark c = c) by (destruct c; auto; contradiction). rewrite Eu in En. exact En.
Qed.
Lemma finish_smo_av jump x : ja jump -> gx x -> av (finish_smo jump x) (okp lx).
Proof.
  intros Hj (Ek & Hs & Hp). destruct (strip_gs _ Hs) as [Hs' Hu]. unfold finish_smo. assert (Hy : gx (set_cur x (strip_snap (cur x))) /\ unmarked (s_node (cur (set_cur x (strip_snap (cur x)))))) by (split; auto; split; auto).
  set (y := set_cur x (strip_snap (cur x))) in *. clearbody y. clear Hs Hs' Hu Ek Hp. destruct Hy as [(Ek & Hs & Hp) Hu].
  assert (Hlx : is_remove (s_node (cur y)) = false -> lx y) by (intros Hr; split; auto; split; auto; split; auto; split; auto).
  destruct (s_node (cur y)) as [lcc|icc] eqn:En; [destruct lcc as [| | | |id0 rc|]|destruct icc as [| | | |id0 rc| |]]; try (apply Hlx; reflexivity); try (apply merge_av; apply Hlx; reflexivity); try (apply split_av; apply Hlx; reflexivity).
  - eapply av_bind; [apply jump_left_av; auto|]. intros [c'|] Hx'; [|exact I]. simpl in Hx'. destruct Hx' as (Ek' & Hs' & Hp'). destruct (s_node (cur c')) as [lc|] eqn:El; [|exact I]. destruct (lhigh lc) as [[mk z]|] eqn:Eh; [|exact I].
    split; [exact I|]. intros p Hf. apply merge_av. split; auto. split; auto. split; [split; [exact (proj1 (proj1 Hs'))|exact Hf]|split; simpl; auto].
  - eapply av_bind; [apply jump_left_av; auto|]. intros [c'|] Hx'; [|exact I]. simpl in Hx'. destruct Hx' as (Ek' & Hs' & Hp'). destruct (s_node (cur c')) as [|lc] eqn:El; [exact I|]. destruct (ihigh lc) as [[mk z]|] eqn:Eh; [|exact I].
    split; [exact I|]. intros p Hf. apply merge_av. split; auto. split; auto. split; [split; [exact (proj1 (proj1 Hs'))|exact Hf]|split; simpl; auto].
Qed.
Lemma settle_av jump x : ja jump -> gx x -> av (settle jump x) (okp lx).
Proof. intros Hj Hx. unfold settle. eapply av_bind; [apply finish_smo_av; auto|]. intros [c'|] Hx'; [|exact I]. eapply av_bind; [apply try_av; auto|]. intros c2 Hx2. apply adjust_av; auto. Qed.
Lemma jump_av f : ja (jump_to f).
Proof.
  induction f as [|f IH]; intros i x Hi Ek Hp; [exact I|]. split; auto. intros q n Hf. cbn [fst snd]. destruct (_ && _); [|exact I]. apply settle_av; auto. split; auto. split; auto. split; auto.
Qed.
Lemma load_av f k p i : ~ D i -> k = k0 -> lp p -> av (load_node f k p i) (okp lx).
Proof. intros Hi Ek Hp. split; auto. intros q n Hf. cbn [fst snd]. apply settle_av; [apply jump_av|]. split; auto. split; auto. split; auto. Qed.
Definition sx (x : ctx) : Prop := lx x /\ forall h d, nhigh (s_node (cur x)) = Some (h, d) -> go k0 h = false.
Lemma chain_av f : forall x, lx x -> av (sibling_chain go f x) (okp sx).
Proof.
  induction f as [|f IH]; intros x Hx; [exact I|]. cbn [sibling_chain]. pose proof Hx as (Ek & [[Hd Hf] Hl] & Hp). destruct (nhigh (s_node (cur x))) as [[h n]|] eqn:Eh.
  - destruct (go (key x) h) eqn:Eg.
    + eapply av_bind; [apply jump_av; auto; eapply (f_high _ Hf); [apply Hl|exact Eh]|]. intros [x'|] Hx'; [|exact I]. apply IH; auto.
    + split; auto. intros h' d' E. rewrite Eh in E. injection E as <- <-. congruence.
  - split; auto. intros h' d' E. congruence.
Qed.
Lemma nav_av f x : lx x -> av (nav_inner go nav f x) (okp (fun y => lx (snd y) /\ ~ D (fst y))).
Proof.
  intros Hx. unfold nav_inner. eapply av_bind; [apply chain_av; auto|]. intros [x'|] Hx'; [|exact I]. destruct Hx' as [Hx' Hh]. destruct (s_node (cur x')) as [|c] eqn:En; [exact I|]. apply av_lift. intros i Ei.
  split; auto. cbn [fst]. destruct Hx' as (Ek & [[Hd Hf] Hl] & Hp). rewrite En in *. apply (f_nav _ Hf (proj2 Hl) c i eq_refl); auto. assert (Eu : unmark c = c) by (destruct Hl as [Hu _]; destruct c; auto; contradiction). rewrite Eu, <- Ek. exact Ei.
Qed.
Lemma descend_av f : forall x, lx x -> av (descend go nav f x) (okp lx).
Proof.
  induction f as [|f IH]; intros x Hx; [exact I|]. cbn [descend]. eapply av_bind; [apply nav_av; auto|]. intros [[i x']|] Hx'; [|exact I]. destruct Hx' as [Hx' Hi]. cbn [fst snd] in *. pose proof Hx' as (Ek & Hs & Hp).
  eapply av_bind; [apply load_av; auto|]. intros [y|] Hy; [|exact I]. destruct (is_leaf _); [exact Hy|]. apply IH; auto.
Qed.
Lemma okp_sx {A} (p : prog A) (Q Q' : A -> Prop) : av p Q -> (forall a, Q a -> Q' a) -> av p Q'.
Proof.
  intros H HQ. induction p as [a|e|i k IH|i old n k IH|i old n k IH|k IH|old n k IH|n k IH]; simpl in *; auto.
  - destruct H as [H1 H2]. split; auto.
  - destruct H as [H1 H2]. split; auto.
Qed.
Lemma chain_lx f x : lx x -> av (sibling_chain go f x) (okp lx).
Proof. intros Hx. eapply okp_sx; [apply chain_av; auto|]. intros [y|] Hy; [apply Hy|exact I]. Qed.
Lemma attempt_av f : av (attempt go nav f k0) (okp lx).
Proof.
  intros r Hr. eapply av_bind; [apply load_av; auto; exact I|]. intros [x|] Hx; [|exact I]. eapply av_bind; [apply descend_av; auto|]. intros [y|] Hy; [|exact I]. apply chain_lx; auto.
Qed.
Lemma traverse_av f : av (traverse_with go nav f k0) lx.
Proof. induction f as [|f IH]; [exact I|]. cbn [traverse_with]. eapply av_bind; [apply attempt_av|]. intros [x|] Hx; [exact Hx|exact IH]. Qed.
Definition anya {A} (a : A) : Prop := True.
Lemma page_av c : av (pbind (lift (lconsolidate c)) page_resp) anya.
Proof. apply av_lift. intros [] _; simpl; auto. exact I. Qed.
Lemma fetch_av f : av (fetch (traverse_with go nav) f k0) anya.
Proof. unfold fetch. eapply av_bind; [apply traverse_av|]. intros x Hx. apply av_leaf. intros l _. apply page_av. Qed.
End Av.

Section Ops.
Variable D : nat -> Prop.
Variable k : K.
Notation ava p := (av D k kge inavigate p).
Lemma insert_av v f : ava (insert f k v) anya.
Proof.
  induction f as [|f IH]; [exact I|]. cbn [insert]. eapply av_bind; [apply traverse_av|]. intros x Hx. apply av_leaf. intros l El. apply av_lift. intros r _. destruct (fst r); [exact I|]. split; [exact IH|]. intros; exact I.
Qed.
Lemma delete_av v f : ava (delete f k v) anya.
Proof.
  induction f as [|f IH]; [exact I|]. cbn [delete]. eapply av_bind; [apply traverse_av|]. intros x Hx. apply av_leaf. intros l El. apply av_lift. intros r _. destruct (fst r); [|exact I]. split; [exact IH|]. intros; exact I.
Qed.
Lemma cond_av v pred f : ava (cond_insert f k v pred) anya.
Proof.
  induction f as [|f IH]; [exact I|]. cbn [cond_insert]. eapply av_bind; [apply traverse_av|]. intros x Hx. apply av_leaf. intros l El. apply av_lift. intros [| |ix] _; try exact I. split; [exact IH|]. intros; exact I.
Qed.
Notation lx := (lx D k kge inavigate).
Lemma load_ro_av i : ~ D i -> ava (load_ro k i) (okp lx).
Proof.
  intros Hi. split; auto. intros q n Hf. cbn [fst snd]. destruct (strip_gs D k kge inavigate {| s_id := i; s_ptr := q; s_node := n |}) as [Hs Hu]; [split; auto|].
  destruct (is_remove _) eqn:Er; [exact I|]. split; auto. split; [|exact I]. split; auto. split; auto.
Qed.
Lemma descend_ro_av f : forall x, lx x -> ava (descend_ro f x) (okp lx).
Proof.
  induction f as [|f IH]; intros x Hx; [exact I|]. cbn [descend_ro]. eapply av_bind; [apply nav_av; auto|]. intros [[i x']|] Hx'; [|exact I]. destruct Hx' as [Hx' Hi]. cbn [fst snd] in *.
  rewrite (proj1 Hx'). eapply av_bind; [apply load_ro_av; auto|]. intros [y|] Hy; [|exact I]. destruct (is_leaf _); [apply chain_lx; auto|apply IH; auto].
Qed.
Lemma get_av f : ava (get_value f k) anya.
Proof.
  induction f as [|f IH]; [exact I|]. cbn [get_value]. intros r Hr. eapply av_bind; [apply load_ro_av; auto|]. intros [x|] Hx; [|exact IH].
  eapply av_bind; [apply descend_ro_av; auto|]. intros [y|] Hy; [|exact IH]. apply av_leaf. intros l El. destruct (lvalues k l); simpl; auto. exact I.
Qed.
End Ops.

(** The key and the navigation of an operation. *)
Definition okey (o : op) : K := match o with OpIns k _ | OpDel k _ | OpCond k _ _ | OpGet k | OpPage k | OpPageBI k => k | OpFirst => kdef end.
Definition ogo (o : op) : K -> K -> bool := match o with OpPageBI _ => kgt | _ => kge end.
Definition onav (o : op) : K -> ichain -> res nat := match o with OpPageBI _ => inavBI | OpFirst => fun _ _ => Er EAssert | _ => inavigate end.
Definition avo (D : nat -> Prop) (o : op) (p : prog resp) : Prop := av D (okey o) (ogo o) (onav o) p anya.
Definition lfo (D : nat -> Prop) (o : op) (n : node) : Prop := lf D (okey o) (ogo o) (onav o) n.
Lemma code_av D f o : ~ D FIRST_LEAF -> avo D o (code f o).
Proof.
  intros H1. unfold avo. destruct o as [k v|k v|k v pred|k|k|k|]; unfold code; cbn [okey ogo onav].
  - eapply av_bind; [apply insert_av|]. intros; exact I.
  - eapply av_bind; [apply delete_av|]. intros; exact I.
  - eapply av_bind; [apply cond_av|]. intros; exact I.
  - eapply av_bind; [apply get_av|]. intros; exact I.
  - apply fetch_av.
  - apply fetch_av.
  - split; auto. intros q n _. cbn [snd]. destruct n; [apply page_av|exact I].
Qed.
End Avoid.
