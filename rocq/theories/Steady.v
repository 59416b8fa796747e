(** A call other than GetValue reads a parent snapshot that it has not written
    only if the root page was replaced during the call. *)
From Coq Require Import NArith List Arith Lia Bool ZArith.
From Verif Require Import Base SmallSet Bloom Leaf LeafSpec LeafProofs LeafWeak LeafProofs2 Inner InnerSpec InnerProofs InnerProofs2 Tree TreeSpec TreeInv TreeSafe TreeProg TreeProg4 TreeLin Keeps TreeRoom SteadySpec.
Import ListNotations.

Section Steady.
Context {P : Params}.

(** * What is known of the memory *)
(** The root id; the ids other pages may mention; heap cells seen; pages made
    to replace a root; whether the root was replaced since the call began. *)
Record frame := { R : nat; Kn : nat -> Prop; Cell : N -> node -> Prop; Sp : nat -> nat -> Prop; late : bool; apart : ~ Kn R }.
Record fle (w w' : frame) : Prop := {
  le_kn : forall i, Kn w i -> Kn w' i;
  le_hp : forall p n, Cell w p n -> Cell w' p n;
  le_sp : forall r o, Sp w r o -> Sp w' r o;
  le_late : late w = true -> late w' = true;
  le_root : R w' = R w \/ (late w' = true /\ Kn w' (R w)) }.
Lemma fle_refl w : fle w w. Proof. constructor; auto. Qed.
Lemma fle_trans a b c : fle a b -> fle b c -> fle a c.
Proof.
  intros A B. constructor; intros; try (apply B, A; auto; fail). destruct (le_root _ _ A) as [E|[E F]].
  - rewrite <- E. apply B.
  - right. split; [apply B, E|apply B, F].
Qed.
Local Hint Resolve fle_refl : core.
Lemma root_or w w' i : fle w w' -> i = R w \/ Kn w i -> i = R w' \/ Kn w' i.
Proof. intros F [->|H]; [destruct (le_root _ _ F) as [E|[_ H]]; auto|right; apply F, H]. Qed.

(** Ids mentioned by a page. *)
Fixpoint lrefs (c : lchain) (j : nat) : Prop :=
  match c with
  | LBase _ _ high => exists k, high = Some (k, j)
  | LIns _ _ _ c | LDel _ _ _ c => lrefs c j
  | LRemove i c => j = i \/ lrefs c j
  | LSplit _ s _ c => j = s \/ lrefs c j
  | LMerge _ i r c => j = i \/ lrefs r j \/ lrefs c j
  end.
Fixpoint ilinks (c : ichain) (j : nat) : Prop :=
  match c with
  | IBase _ _ _ _ high => exists k, high = Some (k, j)
  | IIns _ _ _ c | IDel _ _ _ _ c | IAbort _ c => ilinks c j
  | IRemove i c => j = i \/ ilinks c j
  | ISplit _ s _ c => j = s \/ ilinks c j
  | IMerge _ i r c => j = i \/ ilinks r j \/ ilinks c j
  end.
Definition nrefs (n : node) (j : nat) : Prop := match n with NLeaf c => lrefs c j | NInner c => irefs c j \/ ilinks c j end.
Definition abok (w : frame) (n : node) : Prop := match n with NInner (IAbort p c) => Cell w p (NInner c) | _ => True end.
Definition known (w : frame) (n : node) : Prop := (forall j, nrefs n j -> Kn w j) /\ abok w n.
(** An inner page without a right neighbour and without merges. *)
Fixpoint flat (c : ichain) : Prop :=
  match c with
  | IBase _ _ _ _ high => high = None
  | IIns _ _ _ c | IDel _ _ _ _ c => flat c
  | _ => False
  end.
Definition flatn (n : node) : Prop := match n with NInner c => flat c | NLeaf _ => False end.
Definition rootshape (n : node) : Prop :=
  match n with
  | NInner (IAbort _ c) | NInner (ISplit _ _ _ c) => flat c
  | _ => flatn n
  end.
Lemma flat_shape n : flatn n -> rootshape n. Proof. destruct n as [c|[]]; simpl; auto; contradiction. Qed.
Lemma flat_high c : flat c -> ihigh c = None. Proof. induction c; simpl; auto; contradiction. Qed.
Lemma known_le w w' n : fle w w' -> known w n -> known w' n.
Proof. intros F [A B]. split; [intros j Hj; apply F, A, Hj|]. destruct n as [|[]]; simpl in *; auto. apply F, B. Qed.
Lemma known_leaf w c : (forall j, lrefs c j -> Kn w j) -> known w (NLeaf c). Proof. split; simpl; auto. Qed.
Lemma lhigh_refs c : forall k j, lhigh c = Some (k, j) -> lrefs c j.
Proof. induction c; cbn [lhigh lrefs]; intros k0 j E; eauto. injection E as <- <-. auto. Qed.
Lemma ihigh_refs c : forall k j, ihigh c = Some (k, j) -> ilinks c j.
Proof. induction c; cbn [ihigh ilinks]; intros k0 j E; eauto. injection E as <- <-. auto. Qed.
Lemma nhigh_refs n k j : nhigh n = Some (k, j) -> nrefs n j.
Proof. destruct n; simpl; intros E; [eapply lhigh_refs; eauto|right; eapply ihigh_refs; eauto]. Qed.
Lemma lcons_refs c c' : lconsolidate c = Ok c' -> forall j, lrefs c' j -> lrefs c j.
Proof.
  unfold lconsolidate. destruct (lcollect _ _ _ _ _) as [[[out ?] ?]|]; cbn [bind]; [|discriminate]. destruct (Z.ltb _ _); [discriminate|]. destruct (Z.eqb _ _); [|discriminate].
  intros E. injection E as <-. intros j (k & Hk). eapply lhigh_refs; eauto.
Qed.
Lemma icons_known w c d c' : known w (NInner c) -> wfn (NInner c) -> iconsolidate d c = Ok c' -> known w (NInner c') /\ (flat c -> flat c').
Proof.
  intros [H _] [f Hw] E. assert (H1 : ibody c = c \/ (exists i c', c = IRemove i c') \/ (exists i c', c = IAbort i c')) by (destruct c; simpl; eauto).
  destruct H1 as [E1|[(i & c1 & ->)|(i & c1 & ->)]]; try discriminate E. rewrite E1 in Hw.
  destruct (iconsolidate_spec f c d Hw) as (rest & E' & _ & Hin & _). rewrite E' in E. injection E as <-.
  split; [|intros F; simpl; apply flat_high, F]. split; [|exact I]. intros j Hj. apply H. simpl in *. destruct Hj as [[->|[<-|Hj]]|(k & Hk)].
  - left. apply lid_refs.
  - left. apply lid_refs.
  - left. apply in_map_iff in Hj as ([x y] & <- & Hi). apply Hin in Hi. eapply seps_refs, Hi.
  - right. eapply ihigh_refs; eauto.
Qed.
Lemma lsplit_known w low items high sib : known w (NLeaf (LBase low items high)) -> lsplit_sibling (LBase low items high) = Ok (Some sib) -> known w (NLeaf sib).
Proof.
  intros [H _] E. cbn [lsplit_sibling] in E. destruct (find_split_point _) as [[p|]|]; simpl in E; try discriminate. destruct (nth_error _ _); try discriminate. injection E as <-.
  apply known_leaf. intros j Hj. apply H. exact Hj.
Qed.
Lemma isplit_known w d low lid items high sib : known w (NInner (IBase d low lid items high)) -> isplit_sibling (IBase d low lid items high) = Ok sib -> known w (NInner sib).
Proof.
  intros [H _] E. unfold isplit_sibling in E. destruct (2 <=? _); [|discriminate]. destruct (nth_error _ _) as [y|] eqn:En; [|discriminate]. injection E as <-.
  split; [|exact I]. intros j Hj. apply H. simpl in *. destruct Hj as [[->|Hj]|Hj]; auto.
  - left. right. apply in_map. eapply nth_error_In; eauto.
  - left. right. apply in_map_iff in Hj as (z & <- & Hz). apply in_map. rewrite <- (firstn_skipn (Nat.div2 (length items)) items). apply in_or_app. auto.
Qed.

(** * Programs *)
Definition idok (w : frame) (i : nat) (n : node) : Prop := (i = R w /\ rootshape n) \/ Kn w i.
Definition spare (w : frame) (n : node) : Prop := flatn n /\ forall j, nrefs n j -> j = R w \/ Kn w j.
Fixpoint st {A} (p : prog A) (Q : frame -> A -> Prop) (w : frame) : Prop :=
  match p with
  | Ret a => forall w', fle w w' -> Q w' a
  | Err e => late w = true \/ e <> EUninit
  | PLoad i k => forall w', fle w w' -> (i = R w' \/ Kn w' i) /\
      forall p n, known w' n -> wfn n -> Cell w' p n -> idok w' i n -> st (k (p, n)) Q w'
  | Cas i o n k => forall w', fle w w' -> known w' n /\ idok w' i n /\ st (k None) Q w' /\
      forall p w2, fle w' w2 -> Cell w2 p n -> wfn n -> st (k (Some p)) Q w2
  | CasPtr i o n k => forall w', fle w w' -> (exists nd, Cell w' n nd /\ idok w' i nd) /\ forall b, st (k b) Q w'
  | LoadRoot k => forall w', fle w w' -> st (k (R w')) Q w'
  | CasRoot o n k => forall w', fle w w' -> (o = R w' /\ Sp w' n o \/ Kn w' o) /\ forall b w2, fle w' w2 -> st (k b) Q w2
  | NewNode n k => forall w', fle w w' ->
      (known w' n /\ forall i w2, fle w' w2 -> Kn w2 i -> st (k i) Q w2) \/
      (spare w' n /\ forall i w2, fle w' w2 -> Sp w2 i (R w') -> st (k i) Q w2)
  end.
Lemma st_le {A} (p : prog A) Q : forall w w', fle w w' -> st p Q w -> st p Q w'.
Proof.
  destruct p; simpl; intros w w' H Hs; try (intros w2 H2; apply Hs; eapply fle_trans; eauto; fail). destruct Hs as [Hs|Hs]; auto. left. apply H, Hs.
Qed.
Ltac fl := repeat (first [assumption | apply fle_refl | eapply fle_trans; [eassumption|]]).
Lemma st_bind {A B} (p : prog A) (f : A -> prog B) Q Q' : forall w, st p Q w ->
  (forall w' a, fle w w' -> Q w' a -> st (f a) Q' w') -> st (pbind p f) Q' w.
Proof.
  induction p as [a|e|i k IH|i old n k IH|i old n k IH|k IH|old n k IH|n k IH]; simpl; intros w Hs Hf; auto.
  - intros w' Hw. destruct (Hs w' Hw) as [H1 H2]. split; auto. intros p n A1 A2 A3 A4. apply IH; auto. intros w5 a H5. apply Hf. fl.
  - intros w' Hw. destruct (Hs w' Hw) as (H1 & H2 & H3 & H4). split; auto. split; auto. split.
    + apply IH; auto. intros w5 a H5. apply Hf. fl.
    + intros p w2 F2 A1 A2. apply IH; auto. intros w5 a H5. apply Hf. fl.
  - intros w' Hw. destruct (Hs w' Hw) as [H1 H2]. split; auto. intros b. apply IH; auto. intros w5 a H5. apply Hf. fl.
  - intros w' Hw. apply IH; auto. intros w5 a H5. apply Hf. fl.
  - intros w' Hw. destruct (Hs w' Hw) as [H1 H2]. split; auto. intros b w2 F2. apply IH; auto. intros w5 a H5. apply Hf. fl.
  - intros w' Hw. destruct (Hs w' Hw) as [[H1 H2]|[H1 H2]]; [left|right]; (split; [exact H1|]); intros i w2 F2 A1; apply IH; auto; intros w5 a H5; apply Hf; fl.
Qed.
Lemma st_lift {A B} (r : res A) (f : A -> prog B) Q w : soft r -> (forall a, r = Ok a -> st (f a) Q w) -> st (pbind (lift r) f) Q w.
Proof. intros Hs H. destruct r; simpl; auto. right. intros ->. apply (Hs _ eq_refl). unfold hard. auto. Qed.
Lemma st_cons {B} c (f : lchain -> prog B) Q w : (forall low items high, lconsolidate c = Ok (LBase low items high) -> st (f (LBase low items high)) Q w) -> st (pbind (lift (lconsolidate c)) f) Q w.
Proof.
  intros Hf. destruct (lconsolidate c) as [c'|e] eqn:E; simpl.
  - destruct (lcons_base _ _ E) as (low & items & high & ->). auto.
  - right. intros ->. apply lconsolidate_weak in E. tauto.
Qed.
Lemma ne_err e : e = EAssert \/ e = EFuel \/ e = ENull \/ e = EKind -> e <> EUninit.
Proof. intros [->|[->|[->| ->]]]; discriminate. Qed.
Ltac er := right; discriminate.

(** * Contexts *)
Definition snapw (w : frame) (s : snap) : Prop :=
  known w (s_node s) /\ wfn (s_node s) /\ Cell w (s_ptr s) (s_node s) /\ idok w (s_id s) (s_node s).
Definition snapok (w : frame) (s : snap) : Prop := snapw w s /\ (flatn (s_node s) \/ Kn w (s_id s)).
Definition pj (w : frame) (p : par) : Prop := match p with PNode ps => snapok w ps | _ => late w = true end.
Definition px (w : frame) (i : nat) (p : par) : Prop :=
  match p with PUninit => late w = true | PRoot => late w = true \/ i = R w | PNode ps => snapok w ps /\ Kn w i end.
Definition sx (w : frame) (x : ctx) : Prop := snapok w (cur x) /\ px w (s_id (cur x)) (prt x).
Definition some {A} (X : frame -> A -> Prop) (w : frame) (o : option A) : Prop := match o with Some x => X w x | None => True end.
Lemma idok_le w w' i n : fle w w' -> idok w i n -> idok w' i n.
Proof. intros F [[-> H]|H]; [|right; apply F, H]. destruct (le_root _ _ F) as [E|[_ E]]; [left; auto|right; exact E]. Qed.
Lemma snapw_le w w' s : fle w w' -> snapw w s -> snapw w' s.
Proof. intros F (A & B & C & D). split; [eapply known_le; [|eassumption]; fl|]. split; auto. split; [apply F, C|eapply idok_le; [|eassumption]; fl]. Qed.
Lemma snapok_le w w' s : fle w w' -> snapok w s -> snapok w' s.
Proof. intros F [A B]. split; [eapply snapw_le; [|eassumption]; fl|]. destruct B as [B|B]; auto. right. apply F, B. Qed.
Lemma pj_le w w' p : fle w w' -> pj w p -> pj w' p.
Proof. intros F. destruct p; simpl; try apply F. apply snapok_le, F. Qed.
Lemma px_le w w' i p : fle w w' -> px w i p -> px w' i p.
Proof.
  intros F. destruct p; simpl; [apply F| |].
  - intros [H| ->]; [left; apply F, H|]. destruct (le_root _ _ F) as [E|[E _]]; auto.
  - intros [A B]. split; [eapply snapok_le; [|eassumption]; fl|apply F, B].
Qed.
Lemma sx_le w w' x : fle w w' -> sx w x -> sx w' x.
Proof. intros F [A B]. split; [eapply snapok_le; [|eassumption]; fl|eapply px_le; [|eassumption]; fl]. Qed.
Lemma px_pj w i p : Kn w i -> px w i p -> pj w p.
Proof. intros H. destruct p; simpl; auto; [|tauto]. intros [E| ->]; auto. destruct (apart w H). Qed.
Lemma pj_px w i p : Kn w i -> pj w p -> px w i p.
Proof. intros H. destruct p; simpl; auto. Qed.
Lemma snap_id w s : snapw w s -> s_id s = R w \/ Kn w (s_id s).
Proof. intros (_ & _ & _ & [[H _]|H]); auto. Qed.

Lemma cons_st s w : snapw w s -> Kn w (s_id s) \/ flatn (s_node s) -> st (consolidate s) (fun w s' => snapok w s' /\ s_id s' = s_id s) w.
Proof.
  intros Hs Hi. unfold consolidate. eapply st_bind with (Q := fun w n => known w n /\ (flatn (s_node s) -> flatn n)).
  - pose proof Hs as (Hk & Hw & _). destruct (s_node s) as [c|c].
    + apply st_cons. intros low items high E w' F. split; [|simpl; tauto]. apply known_leaf. intros j Hj. apply F, Hk. eapply lcons_refs; eauto.
    + apply st_lift; [apply iconsolidate_soft, Hw|]. intros c' E w' F. destruct (icons_known w c 0 c' Hk Hw E). split; auto. eapply known_le; [|eassumption]; fl.
  - intros w1 n F1 [Hk Hf]. simpl. intros w2 F2. pose proof (fle_trans _ _ _ F1 F2) as F.
    assert (Hn : known w2 n) by (eapply known_le; [|eassumption]; fl).
    assert (Hi2 : flatn n \/ Kn w2 (s_id s)). { destruct Hi as [Hi|Hi]; auto. right. apply F, Hi. }
    split; [exact Hn|]. assert (Hid : idok w2 (s_id s) n).
    { destruct (snap_id _ _ (snapw_le _ _ _ F Hs)) as [E|E]; [|right; exact E]. left. split; auto. destruct Hi2 as [Hi2|Hi2]; [apply flat_shape, Hi2|]. rewrite E in Hi2. destruct (apart _ Hi2). }
    split; [exact Hid|]. split.
    + intros w3 F3. split; auto. split; [eapply snapw_le; [|exact Hs]; fl|]. destruct Hi as [Hi|Hi]; auto. right. apply F3, F, Hi.
    + intros p w3 F3 H1 H2 w4 F4. split; auto. pose proof (fle_trans _ _ _ F3 F4) as F5. split.
      * split; [eapply known_le; [|eassumption]; fl|]. split; [exact H2|]. split; [apply F4, H1|]. eapply idok_le; [|eassumption]; fl.
      * simpl. destruct Hi2 as [Hi2|Hi2]; auto. right. apply F5, Hi2.
Qed.
Lemma try_st x w : sx w x -> st (try_consolidate x) sx w.
Proof.
  intros H. unfold try_consolidate. assert (S0 : st (Ret x) sx w) by (intros w' F; eapply sx_le; [|eassumption]; fl). destruct (is_delta _); [|exact S0]. destruct (match s_node (cur x) with NLeaf c => _ | NInner c => _ end); [|exact S0].
  destruct H as [H1 H2]. eapply st_bind; [apply cons_st; [apply H1|destruct H1 as [_ [H1|H1]]; auto]|]. intros w1 s F1 [Hs E] w2 F2. split; simpl; [eapply snapok_le; [|eassumption]; fl|]. rewrite E. eapply px_le; [|exact H2]. fl.
Qed.
Lemma parent_st {A} s (f : ichain -> prog A) Q w : (forall c, s_node s = NInner c -> st (f c) Q w) -> st (pbind (parent_inner s) f) Q w.
Proof. intros Hf. unfold parent_inner. destruct (s_node s); simpl; auto. er. Qed.
Lemma none_st {A} (X : frame -> A -> Prop) w : st (Ret None) (some X) w.
Proof. intros w' _. exact I. Qed.
Lemma sx_st w x : sx w x -> st (Ret (Some x)) (some sx) w.
Proof. intros H w' F. eapply sx_le; [|eassumption]; fl. Qed.

(** A new delta on the parent page. *)
Lemma idok_par w ps n : snapok w ps -> (flatn (s_node ps) -> rootshape n) -> idok w (s_id ps) n.
Proof.
  intros [Hs Hf] H. destruct (snap_id _ _ Hs) as [E|E]; [|right; exact E]. left. split; auto. apply H. destruct Hf as [Hf|Hf]; auto. rewrite E in Hf. destruct (apart _ Hf).
Qed.
Lemma snap_new w ps p n : snapok w ps -> known w n -> Cell w p n -> wfn n -> (flatn (s_node ps) -> flatn n) -> snapok w {| s_id := s_id ps; s_ptr := p; s_node := n |}.
Proof.
  intros Hs Hk Hh Hw Hf. split.
  - split; auto. split; auto. split; auto. apply (idok_par w ps); auto. intros H. apply flat_shape. auto.
  - destruct Hs as [_ [H|H]]; simpl; auto.
Qed.
Lemma post_remove_st ps s rm (Q : frame -> option ctx -> Prop) w : snapok w ps -> Kn w (s_id s) -> known w rm -> (forall w', Q w' None) -> st (post_remove ps s rm) Q w.
Proof.
  intros Hp Hs Hr HQ. unfold post_remove. apply parent_st. intros c Ec. simpl. intros w1 F1. pose proof (snapok_le _ _ _ F1 Hp) as Hp1. pose proof Hp1 as [(Hk & Hw & Hh & _) _]. rewrite Ec in Hk, Hw, Hh.
  split; [split; [exact (proj1 Hk)|exact Hh]|]. split; [apply idok_par; auto; rewrite Ec; simpl; auto|]. split; [intros w2 _; apply HQ|].
  intros p w2 F2 Hh2 _ w3 F3. split; [eapply known_le; [|exact Hr]; fl|]. assert (H3 : Kn w3 (s_id s)) by (apply F3, F2, F1, Hs). split; [right; exact H3|].
  assert (HE : forall w4, fle w3 w4 -> forall w5, fle w4 w5 -> (exists nd, Cell w5 (s_ptr ps) nd /\ idok w5 (s_id ps) nd) /\ forall b : bool, st (if b then Ret None else Err EAssert) Q w5).
  { intros w4 F4 w5 F5. assert (F : fle w1 w5) by fl. split.
    - exists (NInner c). split; [apply F, Hh|]. apply idok_par; [eapply snapok_le; [|eassumption]; fl|]. rewrite Ec. apply flat_shape.
    - intros [|]; simpl; [intros; apply HQ|er]. }
  split; [apply (HE w3); auto|]. intros _ w4 F4 _ _. apply (HE w4 F4).
Qed.
Lemma adjust_st x w : sx w x -> st (adjust x) (some sx) w.
Proof.
  intros Hx. pose proof (sx_st _ _ Hx) as Hsame. unfold adjust. destruct Hx as [[(Hk & Hw & Hh & Hi) Hf] Hp].
  destruct (s_node (cur x)) as [[low items high| | | | |]|[d low lid items high| | | | | |]] eqn:En; try exact Hsame.
  - assert (Hid : Kn w (s_id (cur x))) by (destruct Hf as [[]|]; auto).
    destruct (LEAF_SIZE_UPPER <=? length items).
    + apply st_lift; [apply lsplit_soft|]. intros [[[kk|] si hh| | | | |]|] E; try er; [|exact Hsame]. intros w1 F1. left. split; [eapply known_le; [exact F1|]; eapply lsplit_known; eauto|].
      intros i w2 F2 Hi2 w3 F3. split.
      { apply known_leaf. intros j [->|Hj]; [apply F3, Hi2|]. apply F3, F2, F1, Hk, Hj. }
      split; [right; apply F3, F2, F1, Hid|]. split; [eapply st_le; [|exact Hsame]; fl|]. intros. apply none_st.
    + destruct (length items <=? LEAF_SIZE_LOWER); [|exact Hsame]. destruct (prt x) as [| |ps] eqn:Ep; try (apply px_pj in Hp; [left; exact Hp|exact Hid]).
      apply parent_st. intros c _. destruct (ilid c =? s_id (cur x)); [exact Hsame|]. apply post_remove_st; [apply Hp|exact Hid| |intros; exact I].
      apply known_leaf. intros j [->|Hj]; [exact Hid|apply Hk, Hj].
  - destruct (INNER_SIZE_UPPER <=? length items).
    + apply st_lift; [apply isplit_soft|]. intros [d' [kk|] first si hh| | | | | |] E; try er. pose proof (isplit_known _ _ _ _ _ _ _ Hk E) as Hks. intros w1 F1. split; [right; apply F1, Hks; simpl; auto|].
      intros p n _ _ _ _. cbn [snd]. destruct (is_remove n); [eapply st_le; eauto|]. intros w2 F2. left. split; [eapply known_le; [|exact Hks]; fl|].
      intros i w3 F3 Hi3 w4 F4. assert (F : fle w w4) by fl. split; [|split; [|split; [eapply st_le; [|exact Hsame]; fl|intros; apply none_st]]].
      * split; [|exact I]. intros j Hj. simpl in Hj. destruct Hj as [Hj|[->|Hj]]; [apply F, Hk; left; exact Hj|apply F4, Hi3|apply F, Hk; right; exact Hj].
      * destruct Hf as [Hf|Hf]; [|right; apply F, Hf]. eapply idok_le; [exact F|]. destruct Hi as [[Hi _]|Hi]; [left; split; auto|right; exact Hi].
    + destruct (length items <=? INNER_SIZE_LOWER); [|exact Hsame]. destruct (prt x) as [| |ps] eqn:Ep; [left; exact Hp|exact Hsame|].
      apply parent_st. intros c _. destruct (ilid c =? s_id (cur x)); [exact Hsame|]. destruct Hp as [Hp Hid]. apply post_remove_st; [exact Hp|exact Hid| |intros; exact I].
      split; [|exact I]. intros j [Hj|[->|Hj]]; [apply Hk; left; exact Hj|exact Hid|apply Hk; right; exact Hj].
Qed.
Lemma find_left_st k ps w : snapok w ps -> st (find_left k ps) (fun w f => Kn w (fst f) /\ snapok w (snd f)) w.
Proof.
  intros Hp. unfold find_left. apply parent_st. intros c Ec. pose proof Hp as [(Hk & Hw & Hh & _) _]. rewrite Ec in Hk, Hw, Hh.
  apply st_lift; [apply ileft_soft|]. intros [i|] E.
  { intros w1 F1. split; [apply F1, Hk; left; eapply ileft_refs; eauto|eapply snapok_le; [|eassumption]; fl]. }
  apply st_lift; [apply iconsolidate_soft, Hw|]. intros c' E'. destruct (icons_known _ _ _ _ Hk Hw E') as [Hk' Hf']. simpl. intros w1 F1.
  pose proof (snapok_le _ _ _ F1 Hp) as Hp1. split; [eapply known_le; [|eassumption]; fl|]. split; [apply idok_par; auto; rewrite Ec; intros H; apply flat_shape; simpl; auto|].
  split; [|intros p w2 F2 Hh2 Hw2]; (apply st_lift; [apply ileft_soft|]); intros [i|] E2; try er; intros w3 F3; split.
  - apply F3, F1, Hk'. left. eapply ileft_refs; eauto.
  - eapply snapok_le; [|eassumption]; fl.
  - apply F3, F2, F1, Hk'. left. eapply ileft_refs; eauto.
  - apply snap_new; auto; [eapply snapok_le; [|exact Hp]; fl|eapply known_le; [|exact Hk']; fl|apply F3, Hh2|rewrite Ec; simpl; auto].
Qed.

Definition jst (jump : nat -> ctx -> prog (option ctx)) : Prop := forall w i x, Kn w i -> pj w (prt x) -> st (jump i x) (some sx) w.
Lemma jump_left_st jump x w : jst jump -> Kn w (s_id (cur x)) -> pj w (prt x) ->
  st (jump_left jump x) (fun w o => some sx w o /\ match o with Some x' => nhigh (s_node (cur x')) <> None | None => True end) w.
Proof.
  intros Hj Hi Hp. unfold jump_left. destruct (prt x) as [| |ps] eqn:Ep; try (left; exact Hp). apply parent_st. intros c _. destruct (ilid c =? s_id (cur x)); [split; exact I|].
  intros w1 F1. pose proof (snapok_le _ _ _ F1 Hp) as Hp1. split; [apply snap_id, Hp1|]. intros p n _ _ _ _. destruct (N.eqb (fst (p, n)) (s_ptr ps)); [|split; exact I].
  eapply st_bind; [apply find_left_st; exact Hp1|]. intros w2 f F2 [Hf1 Hf2]. eapply st_bind; [apply Hj; [exact Hf1|exact Hf2]|]. intros w3 [x'|] F3 Hx'; [|split; exact I].
  destruct (nhigh (s_node (cur x'))) as [[h m]|] eqn:Eh; [|split; exact I]. destruct (m =? s_id (cur x)); [|split; exact I]. intros w4 F4. split; [eapply sx_le; [|eassumption]; fl|]. rewrite Eh. discriminate.
Qed.
Lemma finish_merge_st x dk di nx w : snapw w (cur x) -> Kn w (s_id (cur x)) -> pj w (prt x) -> Kn w di -> st (finish_merge x dk di nx) (some sx) w.
Proof.
  intros Hs Hi Hp Hd. unfold finish_merge. destruct (prt x) as [| |ps] eqn:Ep; try (left; exact Hp). intros w1 F1. pose proof (snapok_le _ _ _ F1 Hp) as Hp1. split; [apply snap_id, Hp1|].
  intros q n _ _ _ _. destruct (N.eqb (fst (q, n)) (s_ptr ps)); [|apply none_st]. apply parent_st. intros c Ec. pose proof Hp1 as [(Hk & Hw & _ & _) _]. rewrite Ec in Hk, Hw.
  apply st_lift; [apply isearch_soft|]. intros [[[a fi]|] loc] E.
  2: { apply sx_st. split; [split; [eapply snapw_le; [|eassumption]; fl|right; apply F1, Hi]|]. rewrite Ep. split; [exact Hp1|apply F1, Hi]. }
  destruct (fi =? di); [|er]. intros w2 F2. pose proof (snapok_le _ _ _ F2 Hp1) as Hp2.
  assert (Hn : known w2 (NInner (IDel (dk, di) (rawlow (nlow (s_node (cur x))), s_id (cur x)) nx loc c))).
  { split; [|exact I]. intros j Hj. simpl in Hj. destruct Hj as [[->|[->|Hj]]|Hj]; [apply F2, F1, Hd|apply F2, F1, Hi|apply F2, Hk; left; exact Hj|apply F2, Hk; right; exact Hj]. }
  split; [exact Hn|]. split; [apply idok_par; auto; rewrite Ec; simpl; auto|]. split; [apply none_st|].
  intros p w3 F3 Hh3 Hw3 w4 F4. assert (F : fle w w4) by fl. split; [right; apply F, Hd|]. intros p' n' _ _ _ _. cbn [snd]. destruct (is_remove n'); [|er].
  eapply st_bind; [apply cons_st; [eapply snapw_le; [|exact Hs]; fl|left; apply F, Hi]|]. intros w5 s F5 [Hs5 Es] w6 F6. split; cbn [set_cur set_par cur prt s_id]; [eapply snapok_le; [|eassumption]; fl|]. split; [|rewrite Es; apply F6, F5, F, Hi].
  apply snap_new; auto; [eapply snapok_le; [|exact Hp2]; fl|eapply known_le; [|exact Hn]; fl|apply F6, F5, F4, Hh3|rewrite Ec; simpl; auto].
Qed.
Lemma finish_split_st x k sib nx w : snapw w (cur x) -> px w (s_id (cur x)) (prt x) -> Kn w sib -> st (finish_split x k sib nx) (some sx) w.
Proof.
  intros Hs Hp Hd. unfold finish_split. destruct (prt x) as [| |ps] eqn:Ep.
  - left. exact Hp.
  - intros w1 F1. destruct (snap_id _ _ (snapw_le _ _ _ F1 Hs)) as [E|E].
    + right. split.
      { split; [reflexivity|]. simpl. intros j [[->|[<-|[<-|[]]]]|(k0 & Hk0)]; auto; [right; apply F1, Hd|discriminate]. }
      intros i w2 F2 Hsp w3 F3. split; [|intros; apply none_st]. assert (F : fle w1 w3) by fl. destruct (le_root _ _ F) as [E'|[_ E']].
      * left. rewrite E, E'. split; auto. apply F3, Hsp.
      * right. rewrite E. exact E'.
    + left. split.
      { split; [|exact I]. simpl. intros j [[->|[<-|[<-|[]]]]|(k0 & Hk0)]; auto; [apply F1, Hd|discriminate]. }
      intros i w2 F2 Hi w3 F3. split; [right; apply F3, F2, E|intros; apply none_st].
  - destruct Hp as [Hp Hi].
    assert (Hsame : st (Ret (Some x)) (some sx) w). { apply sx_st. split; [split; auto|]. rewrite Ep. split; auto. }
    apply parent_st. intros c Ec. destruct (match ihigh c with Some (h, _) => kge k h | None => false end); [exact Hsame|]. apply st_lift; [apply isearch_soft|].
    intros [[[a fi]|] loc] _; [destruct (fi =? sib); [exact Hsame|apply none_st]|]. intros w1 F1. pose proof (snapok_le _ _ _ F1 Hp) as Hp1. pose proof Hp1 as [(Hk & Hw & _ & _) _]. rewrite Ec in Hk, Hw.
    assert (Hn : known w1 (NInner (IIns (k, sib) nx loc c))).
    { split; [|exact I]. intros j Hj. simpl in Hj. destruct Hj as [[->|Hj]|Hj]; [apply F1, Hd|apply Hk; left; exact Hj|apply Hk; right; exact Hj]. }
    split; [exact Hn|]. split; [apply idok_par; auto; rewrite Ec; simpl; auto|]. split; [apply none_st|].
    intros p w2 F2 Hh2 Hw2. assert (F : fle w w2) by fl. eapply st_bind; [apply cons_st; [eapply snapw_le; [|exact Hs]; fl|left; apply F, Hi]|].
    intros w5 s F5 [Hs5 Es] w6 F6. split; cbn [set_cur set_par cur prt s_id]; [eapply snapok_le; [|eassumption]; fl|]. split; [|rewrite Es; apply F6, F5, F, Hi].
    apply snap_new; auto; [eapply snapok_le; [|exact Hp1]; fl|eapply known_le; [|exact Hn]; fl|apply F6, F5, Hh2|rewrite Ec; simpl; auto].
Qed.
Lemma strip_st w s : snapw w s -> snapw w (strip_snap s) /\ s_id (strip_snap s) = s_id s /\ (match s_node (strip_snap s) with NInner (IAbort _ _) => False | _ => True end).
Proof.
  intros Hs. unfold strip_snap. destruct s as [i p [c|c]]; cbn [s_node s_ptr s_id]; [auto|]. destruct Hs as ([Hk Ha] & [f Hw] & Hh & Hi). cbn [s_node s_ptr s_id] in *.
  destruct c as [| | | | | |p' c]; cbn [strip]; try (split; [split; [split; auto|]; split; [exists f; auto|auto]|auto]).
  simpl in Hw, Ha, Hk. assert (Hb : ibody c = c /\ strip p' c = (p', c) /\ match c with IAbort _ _ => False | _ => True end /\ abok w (NInner c)) by (destruct c; simpl in *; tauto). destruct Hb as (E1 & E2 & E3 & E4).
  rewrite E2. split; [|split; auto]. split; [split; auto|]. split; [exists f; cbn [s_node]; rewrite E1; exact Hw|]. split; [exact Ha|].
  destruct Hi as [[Hi Hf]|Hi]; [left; split; [exact Hi|]|right; exact Hi]. apply flat_shape. exact Hf.
Qed.
Lemma finish_smo_st jump x w : jst jump -> snapw w (cur x) -> px w (s_id (cur x)) (prt x) -> st (finish_smo jump x) (some sx) w.
Proof.
  intros Hj Hs Hp. destruct (strip_st _ _ Hs) as (Hs' & Ei & Hna). unfold finish_smo.
  assert (Hp' : px w (s_id (cur (set_cur x (strip_snap (cur x))))) (prt (set_cur x (strip_snap (cur x))))) by (simpl; rewrite Ei; exact Hp).
  change (strip_snap (cur x)) with (cur (set_cur x (strip_snap (cur x)))) in Hs' at 1. change (strip_snap (cur x)) with (cur (set_cur x (strip_snap (cur x)))) in Hna. clear Hs Hp Ei. revert Hs' Hp' Hna.
  generalize (set_cur x (strip_snap (cur x))). clear x. intros y Hs Hp Hna. cbn zeta. pose proof Hs as (Hk & Hw & Hh & Hi).
  assert (Hy : flatn (s_node (cur y)) \/ Kn w (s_id (cur y)) -> st (Ret (Some y)) (some sx) w) by (intros H; apply sx_st; split; [split; [exact Hs|exact H]|exact Hp]).
  assert (Hsh : rootshape (s_node (cur y)) -> match s_node (cur y) with NInner (ISplit _ _ _ _) => True | _ => flatn (s_node (cur y)) end).
  { destruct (s_node (cur y)) as [|[]]; simpl in *; auto; contradiction. }
  destruct (s_node (cur y)) as [[]|[]] eqn:En;
    try (apply Hy; destruct Hi as [[_ Hi]|Hi]; [left; exact (Hsh Hi)|right; exact Hi]);
    try (destruct Hna; fail);
    try (apply finish_split_st; [exact Hs|exact Hp|apply Hk; simpl; auto; fail]);
    (assert (Hid : Kn w (s_id (cur y))) by (destruct Hi as [[_ Hi]|Hi]; [destruct (Hsh Hi)|exact Hi]));
    try (apply finish_merge_st; [exact Hs|exact Hid|eapply px_pj; eauto|apply Hk; simpl; auto; fail]).
  - eapply st_bind; [apply jump_left_st; [exact Hj|exact Hid|eapply px_pj; eauto]|]. intros w1 [x'|] F1 [Hx' Hh']; [|apply none_st]. destruct Hx' as [[Hs1 Hf1] Hp1].
    destruct (s_node (cur x')) as [lc|lc] eqn:En'; [|er]. destruct (lhigh lc) as [[mk ?]|]; [|er]. assert (Hid1 : Kn w1 (s_id (cur x'))) by (destruct Hf1 as [[]|Hf1]; exact Hf1).
    intros w2 F2. assert (Hn : known w2 (NLeaf (LMerge mk (s_id (cur y)) c lc))).
    { destruct Hs1 as ([Hk1 _] & _). rewrite En' in Hk1. apply known_leaf. intros j [->|[Hj0|Hj0]]; [apply F2, F1, Hid|apply F2, F1, Hk; simpl; auto|apply F2, Hk1, Hj0]. }
    split; [exact Hn|]. split; [right; apply F2, Hid1|]. split; [apply none_st|]. intros p w3 F3 Hh3 Hw3. apply finish_merge_st; cbn [set_cur cur prt s_id].
    + split; [eapply known_le; [|eassumption]; fl|]. split; [exact Hw3|]. split; [exact Hh3|right; apply F3, F2, Hid1].
    + apply F3, F2, Hid1.
    + eapply pj_le; [|eapply px_pj; eauto]. fl.
    + apply F3, F2, F1, Hid.
  - eapply st_bind; [apply jump_left_st; [exact Hj|exact Hid|eapply px_pj; eauto]|]. intros w1 [x'|] F1 [Hx' Hh']; [|apply none_st]. destruct Hx' as [[Hs1 Hf1] Hp1].
    destruct (s_node (cur x')) as [lc|lc] eqn:En'; [er|]. simpl in Hh'. destruct (ihigh lc) as [[mk ?]|] eqn:Ehi; [|congruence]. assert (Hid1 : Kn w1 (s_id (cur x'))) by (destruct Hf1 as [Hf1|Hf1]; [apply flat_high in Hf1; congruence|exact Hf1]).
    intros w2 F2. assert (Hn : known w2 (NInner (IMerge mk (s_id (cur y)) c lc))).
    { destruct Hs1 as ([Hk1 _] & _). rewrite En' in Hk1. split; [|exact I]. intros j Hj0. simpl in Hj0. destruct Hj0 as [[Hj0|Hj0]|[->|[Hj0|Hj0]]]; [apply F2, F1, Hk; simpl; auto|apply F2, Hk1; left; exact Hj0|apply F2, F1, Hid|apply F2, F1, Hk; simpl; auto|apply F2, Hk1; right; exact Hj0]. }
    split; [exact Hn|]. split; [right; apply F2, Hid1|]. split; [apply none_st|]. intros p w3 F3 Hh3 Hw3. apply finish_merge_st; cbn [set_cur cur prt s_id].
    + split; [eapply known_le; [|eassumption]; fl|]. split; [exact Hw3|]. split; [exact Hh3|right; apply F3, F2, Hid1].
    + apply F3, F2, Hid1.
    + eapply pj_le; [|eapply px_pj; eauto]. fl.
    + apply F3, F2, F1, Hid.
Qed.
Lemma settle_st jump x w : jst jump -> snapw w (cur x) -> px w (s_id (cur x)) (prt x) -> st (settle jump x) (some sx) w.
Proof.
  intros Hj Hs Hp. unfold settle. eapply st_bind; [apply finish_smo_st; auto|]. intros w1 [x'|] F1 Hx'; [|apply none_st].
  eapply st_bind; [apply try_st; exact Hx'|]. intros w2 x'' F2 Hx''. apply adjust_st, Hx''.
Qed.
Lemma jump_st f : jst (jump_to f).
Proof.
  induction f as [|f IH]; intros w i x Hi Hp; [er|]. cbn [jump_to st]. intros w1 F1. split; [right; apply F1, Hi|]. intros p n Hk Hw Hh Hid.
  destruct (Bool.eqb _ _ && negb _); [|er]. apply settle_st; [exact IH|split; auto|]. simpl. apply pj_px; [apply F1, Hi|eapply pj_le; [|eassumption]; fl].
Qed.
Lemma load_st f k p i w : i = R w \/ Kn w i -> px w i p -> st (load_node f k p i) (some sx) w.
Proof.
  intros Hi Cell w1 F1. split; [eapply root_or; eauto|]. intros q n Hk Hw Hh Hid. apply settle_st; [apply jump_st|split; auto|]. eapply px_le; [|eassumption]; fl.
Qed.
Lemma chain_st go f : forall x w, sx w x -> st (sibling_chain go f x) (some sx) w.
Proof.
  induction f as [|f IH]; intros x w Hx; [er|]. cbn [sibling_chain]. destruct (nhigh (s_node (cur x))) as [[h n]|] eqn:Eh; [|apply sx_st; exact Hx]. destruct (go (key x) h); [|apply sx_st; exact Hx].
  assert (Hid : Kn w (s_id (cur x))). { destruct Hx as [[_ [H|H]] _]; auto. destruct (s_node (cur x)); simpl in *; [destruct H|]. apply flat_high in H. congruence. }
  destruct Hx as [[(Hk & _) _] Hp]. eapply st_bind; [apply jump_st; [apply Hk; eapply nhigh_refs; eauto|eapply px_pj; eauto]|]. intros w1 [x'|] F1 Hx'; [|apply none_st]. apply IH, Hx'.
Qed.
Lemma nav_st go nav f x w : (forall k c, soft (nav k c)) -> (forall k c i, nav k c = Ok i -> irefs c i) -> sx w x ->
  st (nav_inner go nav f x) (some (fun w ix => Kn w (fst ix) /\ sx w (snd ix))) w.
Proof.
  intros Hn Hr Hx. unfold nav_inner. eapply st_bind; [apply chain_st; exact Hx|]. intros w1 [x'|] F1 Hx'; [|apply none_st]. destruct (s_node (cur x')) as [|c] eqn:En; [er|]. apply st_lift; [apply Hn|]. intros i Ei.
  intros w2 F2. split; [|eapply sx_le; [|eassumption]; fl]. apply F2. destruct Hx' as [[(Hk & _) _] _]. rewrite En in Hk. apply Hk. left. eapply Hr; eauto.
Qed.
Lemma descend_st go nav f : (forall k c, soft (nav k c)) -> (forall k c i, nav k c = Ok i -> irefs c i) -> forall x w, sx w x -> st (descend go nav f x) (some sx) w.
Proof.
  intros Hn Hr. induction f as [|f IH]; intros x w Hx; [er|]. cbn [descend]. eapply st_bind; [apply nav_st; auto|]. intros w1 [[i x']|] F1 Hx'; [|apply none_st]. destruct Hx' as [Hi [Hs _]].
  eapply st_bind; [apply load_st; [right; exact Hi|split; [exact Hs|exact Hi]]|]. intros w2 [z|] F2 Hz; [|apply none_st]. destruct (is_leaf _); [apply sx_st; exact Hz|apply IH, Hz].
Qed.
Lemma attempt_st go nav f k w : (forall k c, soft (nav k c)) -> (forall k c i, nav k c = Ok i -> irefs c i) -> st (attempt go nav f k) (some sx) w.
Proof.
  intros Hn Hr. unfold attempt. intros w0 F0. eapply st_bind; [apply load_st; simpl; auto|]. intros w1 [x|] F1 Hx; [|apply none_st].
  eapply st_bind; [apply descend_st; eauto|]. intros w2 [z|] F2 Hz; [|apply none_st]. apply chain_st. exact Hz.
Qed.
Lemma traverse_st go nav f : (forall k c, soft (nav k c)) -> (forall k c i, nav k c = Ok i -> irefs c i) -> forall k w, st (traverse_with go nav f k) sx w.
Proof.
  intros Hn Hr. induction f as [|f IH]; intros k w; [er|]. cbn [traverse_with]. eapply st_bind; [apply attempt_st; auto|]. intros w1 [x|] F1 Hx; [|apply IH]. intros w2 F2. eapply sx_le; [|eassumption]; fl.
Qed.
Lemma nav_refs k c i : inavigate k c = Ok i -> irefs c i. Proof. apply inav_refs. Qed.
Definition yes {A} (w : frame) (a : A) : Prop := True.
Lemma leaf_st {A} x (f : lchain -> prog A) Q w : sx w x -> (forall c, s_node (cur x) = NLeaf c -> known w (NLeaf c) -> Kn w (s_id (cur x)) -> st (f c) Q w) -> st (pbind (leaf_of x) f) Q w.
Proof.
  unfold leaf_of. intros [[(Hk & _) Hf] _] H. destruct (s_node (cur x)) eqn:E; [|er]. simpl. apply H; auto. destruct Hf as [[]|Hf]; exact Hf.
Qed.
Lemma insert_st f k v : forall w, st (insert f k v) yes w.
Proof.
  induction f as [|f IH]; intros w; [er|]. cbn [insert]. eapply st_bind; [apply traverse_st; [apply inavigate_soft|apply nav_refs]|]. intros w1 x F1 Hx. apply leaf_st; auto. intros c Ec Hk Hi.
  apply st_lift; [apply lcheck_soft|]. intros [[|] ix] E; cbn [fst snd]; [exact (fun _ _ => I)|]. intros w2 F2. split; [apply known_leaf; intros j Hj; apply F2, Hk, Hj|]. split; [right; apply F2, Hi|]. split; [apply IH|]. intros; exact (fun _ _ => I).
Qed.
Lemma delete_st f k v : forall w, st (delete f k v) yes w.
Proof.
  induction f as [|f IH]; intros w; [er|]. cbn [delete]. eapply st_bind; [apply traverse_st; [apply inavigate_soft|apply nav_refs]|]. intros w1 x F1 Hx. apply leaf_st; auto. intros c Ec Hk Hi.
  apply st_lift; [apply lcheck_soft|]. intros [[|] ix] E; cbn [fst snd]; [|exact (fun _ _ => I)]. intros w2 F2. split; [apply known_leaf; intros j Hj; apply F2, Hk, Hj|]. split; [right; apply F2, Hi|]. split; [apply IH|]. intros; exact (fun _ _ => I).
Qed.
Lemma cond_st f k v pred : forall w, st (cond_insert f k v pred) yes w.
Proof.
  induction f as [|f IH]; intros w; [er|]. cbn [cond_insert]. eapply st_bind; [apply traverse_st; [apply inavigate_soft|apply nav_refs]|]. intros w1 x F1 Hx. apply leaf_st; auto. intros c Ec Hk Hi.
  apply st_lift; [apply lcond_soft|]. intros [| |ix] E; try exact (fun _ _ => I). intros w2 F2. split; [apply known_leaf; intros j Hj; apply F2, Hk, Hj|]. split; [right; apply F2, Hi|]. split; [apply IH|]. intros; exact (fun _ _ => I).
Qed.

(** GetValue: the parent snapshot is never written. *)
Definition rx (w : frame) (x : ctx) : Prop := known w (s_node (cur x)) /\ prt x = PUninit.
Lemma pj_unin w x : late w = true -> prt x = PUninit -> pj w (prt x). Proof. intros H ->. exact H. Qed.
Definition ux (w : frame) (x : ctx) : Prop := known w (s_node (cur x)) /\ pj w (prt x).
Lemma ux_le w w' x : fle w w' -> ux w x -> ux w' x.
Proof. intros F [A B]. split; [eapply known_le; [|eassumption]; fl|eapply pj_le; [|eassumption]; fl]. Qed.
Lemma px_pj_late w i p : late w = true -> px w i p -> pj w p. Proof. destruct p; simpl; tauto. Qed.
Lemma sx_ux w x : late w = true -> sx w x -> ux w x.
Proof. intros L [[(Hk & _) _] Hp]. split; [exact Hk|eapply px_pj_late; eauto]. Qed.
Lemma chain_ro f : forall x w, late w = true -> ux w x -> st (sibling_chain kge f x) (some ux) w.
Proof.
  induction f as [|f IH]; intros x w L Hx; [er|]. cbn [sibling_chain]. assert (S0 : st (Ret (Some x)) (some ux) w) by (intros w' F; eapply ux_le; [|eassumption]; fl).
  destruct (nhigh (s_node (cur x))) as [[h n]|] eqn:Eh; [|exact S0]. destruct (kge (key x) h); [|exact S0]. destruct Hx as [Hk Hp].
  eapply st_bind; [apply jump_st; [apply Hk; eapply nhigh_refs; eauto|exact Hp]|]. intros w1 [x'|] F1 Hx'; [|apply none_st]. assert (late w1 = true) by (apply F1, L). apply IH; auto. apply sx_ux; auto.
Qed.
Lemma load_ro_st k i w : late w = true -> i = R w \/ Kn w i -> st (load_ro k i) (some ux) w.
Proof.
  intros L Hi w1 F1. split; [eapply root_or; eauto|]. intros p n Hk Hw Hh Hid. destruct (strip_st w1 {| s_id := i; s_ptr := p; s_node := n |}) as (Hs & _); [split; auto|]. cbn zeta. cbn [fst snd] in *. destruct (is_remove _); [apply none_st|].
  intros w2 F2. split; [eapply known_le; [exact F2|apply Hs]|]. simpl. apply F2, F1, L.
Qed.
Lemma descend_ro_st f : forall x w, late w = true -> ux w x -> st (descend_ro f x) (some ux) w.
Proof.
  induction f as [|f IH]; intros x w L Hx; [er|]. cbn [descend_ro].
  eapply st_bind with (Q := some (fun w ix => Kn w (fst ix) /\ ux w (snd ix))).
  { unfold nav_inner. eapply st_bind; [apply chain_ro; [exact L|exact Hx]|]. intros w1 [x'|] F1 Hx'; [|apply none_st]. destruct (s_node (cur x')) as [|c] eqn:En; [er|]. apply st_lift; [apply inavigate_soft|]. intros i Ei.
    intros w2 F2. split; [|eapply ux_le; [|eassumption]; fl]. apply F2. destruct Hx' as [Hk _]. rewrite En in Hk. apply Hk. left. eapply nav_refs; eauto. }
  intros w1 [[i x']|] F1 Hx'; [|apply none_st]. assert (L1 : late w1 = true) by (apply F1, L). eapply st_bind; [apply (load_ro_st (key x') i w1 L1); right; exact (proj1 Hx')|]. intros w2 [y|] F2 Hy; [|apply none_st]. assert (L2 : late w2 = true) by (apply F2, L1).
  destruct (is_leaf _); [apply chain_ro|apply IH]; auto.
Qed.
Lemma get_st f k : forall w, late w = true -> st (get_value f k) yes w.
Proof.
  induction f as [|f IH]; intros w L; [er|]. cbn [get_value st]. intros w0 F0. assert (L0 : late w0 = true) by (apply F0, L). eapply st_bind; [apply load_ro_st; auto|]. intros w1 [x|] F1 Hx; [|apply IH; apply F1, L0]. assert (L1 : late w1 = true) by (apply F1, L0).
  eapply st_bind; [apply descend_ro_st; auto|]. intros w2 [y|] F2 Hy; [|apply IH; apply F2, L1]. unfold leaf_of. destruct (s_node (cur y)); [|er]. simpl. pose proof (lvalues_soft k c) as Hv. destruct (lvalues k c); [exact (fun _ _ => I)|]. left. apply F2, L1.
Qed.
Lemma fetch_st go nav f k w : (forall k c, soft (nav k c)) -> (forall k c i, nav k c = Ok i -> irefs c i) -> st (fetch (traverse_with go nav) f k) yes w.
Proof.
  intros Hn Hr. unfold fetch. eapply st_bind; [apply traverse_st; auto|]. intros w1 x F1 Hx. apply leaf_st; auto. intros c Ec _ _. apply st_cons. intros; exact (fun _ _ => I).
Qed.
Definition is_get (o : op) : bool := match o with OpGet _ => true | _ => false end.
Lemma code_st f o w : (is_get o = true -> late w = true) -> Kn w FIRST_LEAF -> st (code f o) yes w.
Proof.
  intros Ho H2. destruct o as [k v|k v|k v pred|k|k|k|]; unfold code.
  - eapply st_bind; [apply insert_st|]. intros; exact (fun _ _ => I).
  - eapply st_bind; [apply delete_st|]. intros; exact (fun _ _ => I).
  - eapply st_bind; [apply cond_st|]. intros; exact (fun _ _ => I).
  - eapply st_bind; [apply get_st; auto|]. intros; exact (fun _ _ => I).
  - apply fetch_st; [apply inavigate_soft|apply nav_refs].
  - apply fetch_st; [apply inavBI_soft|apply inavBI_refs].
  - intros w1 F1. split; [right; apply F1, H2|]. intros p n _ _ _ _. cbn [snd]. destruct n; [|er]. apply st_cons. intros; exact (fun _ _ => I).
Qed.

(** * Memory *)
Record stm (w : frame) (m : mem) : Prop := {
  m_root : root m = R w;
  m_cell : forall p n, Cell w p n -> heap m p = Some n /\ known w n;
  m_tab : forall i, i = R w \/ Kn w i -> i < nid m /\ exists p n, tab m i = Some p /\ Cell w p n /\ idok w i n;
  m_sp : forall r o, Sp w r o -> (o = R w \/ Kn w o) /\
           (o = R w -> r <> R w /\ ~ Kn w r /\ r < nid m /\ exists p n, tab m r = Some p /\ heap m p = Some n /\ spare w n);
  m_heap : forall p, (nptr m <= p)%N -> heap m p = None }.
Definition aged (b : bool) (w : frame) : frame := {| R := R w; Kn := Kn w; Cell := Cell w; Sp := Sp w; late := b; apart := apart w |}.
Lemma aged_stm b w m : stm w m -> stm (aged b w) m.
Proof. intros [A B C D E]. constructor; [exact A|exact B|exact C|exact D|exact E]. Qed.
Lemma aged_fle w w' b : fle w w' -> fle (aged b w) (aged (b || negb (R w' =? R w)) w').
Proof.
  intros [A B C D E]. constructor; auto; simpl.
  - intros ->. reflexivity.
  - destruct (Nat.eqb_spec (R w') (R w)) as [Hr|Hr]; auto. right. split; [apply orb_true_r|]. destruct E as [E|[_ E]]; [congruence|exact E].
Qed.
Lemma spare_same w w' n : fle w w' -> R w' = R w -> spare w n -> spare w' n.
Proof. intros F E [A B]. split; auto. intros j Hj. rewrite E. destruct (B j Hj) as [H|H]; auto. right. apply F, H. Qed.
(** Adding a heap cell. *)
Definition with_cell (w : frame) (p : N) (n : node) : frame :=
  {| R := R w; Kn := Kn w; Cell := fun q n' => Cell w q n' \/ (q = p /\ n' = n); Sp := Sp w; late := late w; apart := apart w |}.
Lemma with_cell_fle w p n : fle w (with_cell w p n). Proof. constructor; simpl; auto. Qed.
Lemma heap_fresh m (n : node) : (forall p, (nptr m <= p)%N -> heap m p = None) -> forall q n', heap m q = Some n' -> pfset (heap m) (nptr m) n q = Some n'.
Proof.
  intros H q n' E. unfold pfset. destruct (N.eqb_spec q (nptr m)) as [->|]; auto. rewrite H in E by lia. discriminate.
Qed.
Lemma stm_cas w m i n : stm w m -> i = R w \/ Kn w i -> known w n -> idok w i n ->
  stm (with_cell w (nptr m) n) {| heap := pfset (heap m) (nptr m) n; nptr := N.succ (nptr m); tab := fset (tab m) i (nptr m); nid := nid m; root := root m |}.
Proof.
  intros [A B C D E] Hi Hk Hid. pose proof (with_cell_fle w (nptr m) n) as F. pose proof (heap_fresh m n E) as Hh. constructor; cbn [heap nptr tab nid root].
  - exact A.
  - intros p n' [H|[-> ->]]; [destruct (B _ _ H); split; [auto|eapply known_le; eauto]|]. split; [unfold pfset; rewrite N.eqb_refl; reflexivity|eapply known_le; eauto].
  - intros j Hj. destruct (C j Hj) as (H1 & p & n' & H2 & H3 & H4). split; auto. unfold fset at 1. destruct (Nat.eqb_spec j i) as [->|Hne].
    + exists (nptr m), n. split; auto. split; [right; auto|]. eapply idok_le; eauto.
    + exists p, n'. split; auto. split; [left; auto|]. eapply idok_le; eauto.
  - intros r o H. destruct (D r o H) as [H1 H2]. split; auto. intros Ho. destruct (H2 Ho) as (N1 & N2 & N3 & p & n' & T & Hp & Hs). split; auto. split; auto. split; auto.
    exists p, n'. split; [|split; [auto|eapply spare_same; eauto]]. unfold fset. destruct (Nat.eqb_spec r i) as [->|]; auto. destruct Hi; contradiction.
  - intros p Hp. unfold pfset. destruct (N.eqb_spec p (nptr m)) as [->|]; [lia|]. apply E. lia.
Qed.
Lemma stm_casptr w m i p n : stm w m -> i = R w \/ Kn w i -> Cell w p n -> idok w i n ->
  stm w {| heap := heap m; nptr := nptr m; tab := fset (tab m) i p; nid := nid m; root := root m |}.
Proof.
  intros [A B C D E] Hi Hc Hid. constructor; cbn [heap nptr tab nid root]; auto.
  - intros j Hj. destruct (C j Hj) as (H1 & q & n' & H2 & H3 & H4). split; auto. unfold fset. destruct (Nat.eqb_spec j i) as [->|Hne]; [exists p, n; auto|exists q, n'; auto].
  - intros r o H. destruct (D r o H) as [H1 H2]. split; auto. intros Ho. destruct (H2 Ho) as (N1 & N2 & N3 & q & n' & T & Hp & Hs). split; auto. split; auto. split; auto.
    exists q, n'. split; auto. unfold fset. destruct (Nat.eqb_spec r i) as [->|]; auto. destruct Hi; contradiction.
Qed.
(** A new page that other pages may mention. *)
Lemma fresh_apart w m : stm w m -> nid m <> R w /\ ~ Kn w (nid m).
Proof. intros H. split; [intros E; destruct (m_tab _ _ H (nid m)) as [L _]; [auto|lia]|intros E; destruct (m_tab _ _ H (nid m)) as [L _]; [auto|lia]]. Qed.
Lemma page_apart w m : stm w m -> ~ (Kn w (R w) \/ R w = nid m).
Proof. intros H [E|E]; [exact (apart w E)|]. destruct (fresh_apart w m H) as [N _]. congruence. Qed.
Definition with_page (w : frame) (m : mem) (H : stm w m) (n : node) : frame :=
  {| R := R w; Kn := fun i => Kn w i \/ i = nid m; Cell := fun q n' => Cell w q n' \/ (q = nptr m /\ n' = n); Sp := Sp w; late := late w; apart := page_apart w m H |}.
Lemma with_page_fle w m H n : fle w (with_page w m H n). Proof. constructor; simpl; auto. Qed.
Lemma tab_fresh (m : mem) (p : N) (i : nat) : i < nid m -> fset (tab m) (nid m) p i = tab m i.
Proof. intros H. unfold fset. destruct (Nat.eqb_spec i (nid m)); [lia|reflexivity]. Qed.
Definition alloc (m : mem) (n : node) : mem :=
  {| heap := pfset (heap m) (nptr m) n; nptr := N.succ (nptr m); tab := fset (tab m) (nid m) (nptr m); nid := S (nid m); root := root m |}.
Lemma alloc_heap m n : (forall p, (nptr m <= p)%N -> heap m p = None) -> forall p, (nptr (alloc m n) <= p)%N -> heap (alloc m n) p = None.
Proof. simpl. intros E p Hp. unfold pfset. destruct (N.eqb_spec p (nptr m)) as [->|]; [lia|]. apply E. lia. Qed.
Lemma stm_page w m H n : (forall r o, Sp w r o -> r <> nid m) -> known w n -> stm (with_page w m H n) (alloc m n).
Proof.
  intros Hsp Hk. pose proof (with_page_fle w m H n) as F. pose proof (heap_fresh m n (m_heap _ _ H)) as Hh. pose proof (m_tab _ _ H) as C. constructor.
  - exact (m_root _ _ H).
  - intros p n' [Hc|[-> ->]]; [destruct (m_cell _ _ H _ _ Hc); split; [cbn [alloc heap]; auto|eapply known_le; eauto]|]. split; [cbn [alloc heap]; unfold pfset; rewrite N.eqb_refl; reflexivity|eapply known_le; eauto].
  - assert (Hold : forall j, j = R w \/ Kn w j -> j < nid (alloc m n) /\ exists p n0, tab (alloc m n) j = Some p /\ Cell (with_page w m H n) p n0 /\ idok (with_page w m H n) j n0).
    { intros j Hj. destruct (C j Hj) as (H1 & p & n' & H2 & H3 & H4). split; [cbn [alloc nid]; lia|]. exists p, n'. split; [cbn [alloc tab]; rewrite tab_fresh; auto|]. split; [left; exact H3|eapply idok_le; eauto]. }
    intros j [Hj|[Hj| ->]]; [apply Hold; left; exact Hj|apply Hold; right; exact Hj|]. split; [cbn [alloc nid]; lia|]. exists (nptr m), n. split; [cbn [alloc tab]; unfold fset; rewrite Nat.eqb_refl; reflexivity|]. split; [right; auto|right; right; reflexivity].
  - intros r o Ho. destruct (m_sp _ _ H r o Ho) as [H1 H2]. split; [destruct H1; [left; auto|right; left; auto]|]. intros E. destruct (H2 E) as (N1 & N2 & N3 & p & n' & T & Hp & Hs). split; auto. split; [intros [X|X]; [auto|eapply Hsp; eauto]|]. split; [cbn [alloc nid]; lia|].
    exists p, n'. split; [cbn [alloc tab]; rewrite tab_fresh; auto|]. split; [cbn [alloc heap]; auto|]. eapply spare_same; eauto.
  - apply alloc_heap, H.
Qed.
Lemma sp_fresh w m : (forall r o, Sp w r o -> r < nid m) -> forall r o, Sp w r o -> r <> nid m.
Proof. intros H r o Ho. specialize (H r o Ho). lia. Qed.
(** A new page that is to replace the root. *)
Definition with_spare (w : frame) (i : nat) : frame :=
  {| R := R w; Kn := Kn w; Cell := Cell w; Sp := fun r o => Sp w r o \/ (r = i /\ o = R w); late := late w; apart := apart w |}.
Lemma with_spare_fle w i : fle w (with_spare w i). Proof. constructor; simpl; auto. Qed.
Lemma stm_spare w m n : stm w m -> spare w n -> stm (with_spare w (nid m)) (alloc m n).
Proof.
  intros H Hs. pose proof (fresh_apart w m H) as [Ha Hb]. pose proof (heap_fresh m n (m_heap _ _ H)) as Hh. constructor.
  - exact (m_root _ _ H).
  - intros p n' Hc. destruct (m_cell _ _ H _ _ Hc) as [X Y]. split; [cbn [alloc heap]; auto|exact Y].
  - intros j Hj. destruct (m_tab _ _ H j Hj) as (H1 & p & n' & H2 & H3 & H4). split; [cbn [alloc nid]; lia|]. exists p, n'. split; [cbn [alloc tab]; rewrite tab_fresh; auto|]. split; [exact H3|exact H4].
  - intros r o [Ho|[-> ->]].
    + destruct (m_sp _ _ H r o Ho) as [H1 H2]. split; auto. intros E. destruct (H2 E) as (N1 & N2 & N3 & p & n' & T & Hp & Hs'). split; auto. split; auto. split; [cbn [alloc nid]; lia|].
      exists p, n'. split; [cbn [alloc tab]; rewrite tab_fresh; auto|]. split; [cbn [alloc heap]; auto|exact Hs'].
    + split; [left; reflexivity|]. intros _. split; auto. split; auto. split; [cbn [alloc nid]; lia|]. exists (nptr m), n. split; [cbn [alloc tab]; unfold fset; rewrite Nat.eqb_refl; reflexivity|]. split; [cbn [alloc heap]; unfold pfset; rewrite N.eqb_refl; reflexivity|exact Hs].
  - apply alloc_heap, H.
Qed.
(** The root is replaced. *)
Lemma root_apart w r : r <> R w -> ~ Kn w r -> ~ (Kn w r \/ r = R w).
Proof. tauto. Qed.
Definition with_root (w : frame) (r : nat) (H1 : r <> R w) (H2 : ~ Kn w r) (p : N) (n : node) : frame :=
  {| R := r; Kn := fun i => Kn w i \/ i = R w; Cell := fun q n' => Cell w q n' \/ (q = p /\ n' = n); Sp := Sp w; late := true; apart := root_apart w r H1 H2 |}.
Lemma with_root_fle w r H1 H2 p n : fle w (with_root w r H1 H2 p n). Proof. constructor; simpl; auto. Qed.
Lemma stm_root w m r H1 H2 p n : stm w m -> r < nid m -> tab m r = Some p -> heap m p = Some n -> spare w n ->
  stm (with_root w r H1 H2 p n) {| heap := heap m; nptr := nptr m; tab := tab m; nid := nid m; root := r |}.
Proof.
  intros H Hlt Ht Hh [Hf Hr]. pose proof (with_root_fle w r H1 H2 p n) as F.
  assert (Hk : known (with_root w r H1 H2 p n) n). { split; [|destruct n as [|[]]; simpl in *; auto; contradiction]. intros j Hj. simpl. destruct (Hr j Hj); auto. }
  constructor; cbn [heap nptr tab nid root].
  - reflexivity.
  - intros q n' [Hc|[-> ->]]; [|auto]. destruct (m_cell _ _ H _ _ Hc) as [X Y]. split; auto. eapply known_le; eauto.
  - assert (Hold : forall j, j = R w \/ Kn w j -> j < nid m /\ exists p0 n0, tab m j = Some p0 /\ Cell (with_root w r H1 H2 p n) p0 n0 /\ idok (with_root w r H1 H2 p n) j n0).
    { intros j Hj. destruct (m_tab _ _ H j Hj) as (L & q & n' & A & B & C). split; auto. exists q, n'. split; auto. split; [left; exact B|]. right. simpl. tauto. }
    intros j [Hj|[Hj|Hj]]; [|apply Hold; auto|apply Hold; auto]. simpl in Hj. subst j. split; auto. exists p, n. split; auto. split; [right; auto|]. left. split; [reflexivity|apply flat_shape, Hf].
  - intros r0 o Ho. destruct (m_sp _ _ H r0 o Ho) as [A _]. split; [right; simpl; destruct A; auto|]. simpl. intros E. exfalso. subst o. destruct A; contradiction.
  - apply H.
Qed.
Record stmw (w : frame) (m : mem) : Prop := { ms : stm w m; ms_sp : forall r o, Sp w r o -> r < nid m }.

Lemma st_step {A} D own (p : prog A) Q h (Q' : frame -> A -> Prop) w : hgood h -> safe D own p Q h -> st p Q' w -> stmw w (wm (now h)) ->
  exists w', fle w w' /\ (late w' = true -> late w = true \/ R w' <> R w) /\ stmw w' (fst (pstep (wm (now h)) p)) /\ st (snd (pstep (wm (now h)) p)) Q' w'.
Proof.
  intros Hg Hs Hf HM. pose proof (now_ok h Hg) as Hw. assert (Hr : hext own h h) by (apply hext_refl; auto). pose proof (ms _ _ HM) as Hm. pose proof (ms_sp _ _ HM) as Hsp.
  destruct p as [a|e|i k|i old n k|i old n k|k|old n k|n k]; simpl in Hs, Hf.
  - exists w. split; [|split; [|split]]; auto.
  - exists w. split; [|split; [|split]]; auto.
  - destruct (Hs h Hr) as [Hp _]. destruct (Hf w (fle_refl w)) as [Hi Hk]. destruct (m_tab _ _ Hm i Hi) as (_ & q & n & T & C & Id). destruct (m_cell _ _ Hm _ _ C) as [Hh Hkn].
    assert (E : get (wm (now h)) i = Some (q, n)) by (apply get_intro; auto). cbn [pstep]. rewrite E. exists w. split; auto. split; auto. split; auto. apply Hk; auto. exact (cell_wfn _ _ _ Hw Hp E).
  - destruct (Hf w (fle_refl w)) as (Hkn & Hid & H0 & H1). destruct (Hs h Hr) as [_ H2]. cbn [pstep]. destruct (tab (wm (now h)) i) as [p'|] eqn:E; [|exists w; split; [|split; [|split]]; simpl; auto]. destruct (N.eqb p' old) eqn:Eo; [|exists w; split; [|split; [|split]]; simpl; auto]. simpl in H2. apply N.eqb_eq in Eo. subst p'.
    destruct (H2 eq_refl) as (Hp & pb & [Hok Hle _] & _). pose proof (with_cell_fle w (nptr (wm (now h))) n) as F. exists (with_cell w (nptr (wm (now h))) n). split; [exact F|]. split; [auto|]. split; [split; [|exact Hsp]|].
    + apply stm_cas; auto. destruct Hid as [[Hid _]|Hid]; auto.
    + simpl. apply H1; [exact F|right; auto|]. apply (cell_wfn _ i (nptr (wm (now h)), n) Hok); [apply (l_pub _ _ Hle); exact Hp|]. apply get_intro; simpl; [apply fset_eq|apply pfset_eq].
  - destruct (Hf w (fle_refl w)) as [(nd & Hc & Hid) Hk]. cbn [pstep]. destruct (tab (wm (now h)) i) as [p'|] eqn:E; [|exists w; split; [|split; [|split]]; simpl; auto]. destruct (N.eqb p' old); [|exists w; split; [|split; [|split]]; simpl; auto]. exists w. split; auto. split; auto. split; [split; [|exact Hsp]|apply Hk].
    simpl. eapply stm_casptr; eauto. destruct Hid as [[Hid _]|Hid]; auto.
  - exists w. split; auto. split; auto. split; auto. simpl. rewrite (m_root _ _ Hm). apply Hf; auto.
  - destruct (Hf w (fle_refl w)) as [Ho Hk]. cbn [pstep]. rewrite (m_root _ _ Hm). destruct (Nat.eqb_spec (R w) old) as [Eo|Eo]; [|exists w; split; [|split; [|split]]; simpl; auto].
    destruct Ho as [[_ Ho]|Ho]; [|subst old; destruct (apart w Ho)]. destruct (m_sp _ _ Hm _ _ Ho) as [_ Hx]. destruct (Hx (eq_sym Eo)) as (N1 & N2 & N3 & q & nd & T & Hh & Hsr).
    exists (with_root w n N1 N2 q nd). split; [apply with_root_fle|]. split; [auto|]. split; [split; [apply stm_root; auto|exact Hsp]|]. apply Hk, with_root_fle.
  - destruct (Hf w (fle_refl w)) as [[H1 H2]|[H1 H2]].
    + exists (with_page w _ Hm n). split; [apply with_page_fle|]. split; [auto|]. split; [split|].
      * apply stm_page; auto. eapply sp_fresh; eauto.
      * simpl. intros r o Ho. specialize (Hsp r o Ho). lia.
      * simpl. apply H2; [apply with_page_fle|right; reflexivity].
    + exists (with_spare w (nid (wm (now h)))). split; [apply with_spare_fle|]. split; [auto|]. split; [split|].
      * apply (stm_spare w (wm (now h)) n); auto.
      * simpl. intros r o [Ho|[-> _]]; [specialize (Hsp r o Ho); lia|lia].
      * simpl. apply H2; [apply with_spare_fle|right; auto].
Qed.
Lemma aged_late {A} (p : prog A) Q w : st p Q w -> st p Q (aged (late w) w).
Proof. apply st_le. constructor; simpl; auto. Qed.

(** * Executions *)
Lemma since_more t s ss s' : running s t <> None -> In s' (since t ss) -> In s' (since t (s :: ss)).
Proof. simpl. destruct (running s t); [right; auto|congruence]. Qed.
Lemma since_head tr ss s t : exec tr ss s -> running s t <> None -> In s (since t ss).
Proof. intros Hx H. inversion Hx; subst; simpl in *; [congruence|]. destruct (running s t); [left; auto|congruence]. Qed.
Lemma init_apart : ~ (1 = FIRST_LEAF). Proof. discriminate. Qed.
Definition w_init : frame := {| R := 1; Kn := fun i => i = FIRST_LEAF; Cell := fun p n => heap minit p = Some n; Sp := fun _ _ => False; late := false; apart := init_apart |}.
Lemma init_stm : stmw w_init minit.
Proof.
  split; [|intros r o []]. constructor.
  - reflexivity.
  - intros p n H. split; [exact H|]. destruct p as [|[p|p|]]; [|discriminate H|discriminate H|]; injection H as <-; (split; [|exact I]); simpl.
    + intros j [[->|[<-|[]]]|(k & E)]; try reflexivity. discriminate.
    + intros j (k & E). discriminate.
  - simpl. intros i [->| ->]; (split; [unfold FIRST_LEAF; lia|]); [exists 0%N|exists 1%N]; eexists; (split; [reflexivity|]); (split; [reflexivity|]); [left; split; reflexivity|right; reflexivity].
  - intros r o [].
  - simpl. intros p Hp. destruct p as [|[p|p|]]; [lia|reflexivity|reflexivity|lia].
Qed.
Lemma exec_steady tr ss s : exec tr ss s -> exists w, stmw w (sm s) /\ Kn w FIRST_LEAF /\ (forall s', In s' ss -> root (sm s') = R w \/ Kn w (root (sm s'))) /\
  forall t o p, running s t = Some (o, p) -> exists b, st p yes (aged b w) /\ (b = true -> is_get o = true \/ exists s', In s' (since t ss) /\ Kn w (root (sm s'))).
Proof.
  intros Hx. induction Hx as [|tr ss s e s' Hx (w & HM & H2 & Hroots & Hr) Hs].
  { exists w_init. split; [exact init_stm|]. split; [reflexivity|]. split; [|discriminate]. intros s' [<-|[]]. left. reflexivity. }
  inversion Hs as [s1 t o fuel Hn|s1 t o p Hp Hnr Hne|s1 t o r Hp]; subst.
  - exists w. split; [exact HM|]. split; [exact H2|]. split.
    { intros s' [<-|Hi]; auto. left. exact (m_root _ _ (ms _ _ HM)). }
    intros u o' p' Hu. cbn [running] in Hu. rewrite running_set in Hu. destruct (Nat.eqb_spec u t) as [->|Hne].
    + injection Hu as <- <-. exists (is_get o). split; [apply code_st; [auto|exact H2]|auto].
    + destruct (Hr u o' p' Hu) as (b & A & B). exists b. split; auto. intros Hb. destruct (B Hb) as [C|(s' & C & E)]; auto. right. exists s'. split; auto. eapply since_more; [|exact C]. cbn [running]. rewrite running_set. rewrite (proj2 (Nat.eqb_neq _ _) Hne). congruence.
  - destruct (Hr t o p Hp) as (b & Hst & Hb).
    assert (H : exists w', fle (aged b w) w' /\ (late w' = true -> b = true \/ R w' <> R w) /\ stmw w' (fst (pstep (sm s) p)) /\ st (snd (pstep (sm s) p)) yes w').
    { destruct (exec_ginv false tr ss s Hx) as (gw & g & G); [discriminate|]. pose proof (gi_thread _ _ _ _ _ _ G t) as Ht. unfold thread_ok in Ht. destruct (g t) as [|o' own h|o' r].
      - congruence.
      - destruct Ht as (p' & Ep & Hsafe & Hgood & Hnow & _). assert (p' = p /\ o' = o) as [-> ->] by (split; congruence).
        pose proof (gi_mem _ _ _ _ _ _ G) as Em. rewrite <- Hnow in Em. rewrite <- Em in *.
        apply (st_step (act o) own p (done o) h yes (aged b w)); auto. destruct HM as [M1 M2]. split; [apply aged_stm, M1|exact M2].
      - exfalso. assert (p = Ret r) by congruence. eapply Hnr; eauto. }
    destruct H as (w' & F & Hl & HM' & Hst').
    exists w'. split; [exact HM'|]. split; [apply F, H2|]. split.
    { intros s1 [<-|Hi]; [left; apply (m_root _ _ (ms _ _ HM'))|]. eapply root_or; [exact F|]. apply Hroots, Hi. }
    assert (Hmoved : R w' <> R w -> Kn w' (root (sm s))). { intros Hne'. rewrite (m_root _ _ (ms _ _ HM)). destruct (le_root _ _ F) as [E|[_ E]]; [contradiction|exact E]. }
    intros u o' p' Hu. cbn [running] in Hu. rewrite running_set in Hu. destruct (Nat.eqb_spec u t) as [->|Hne'].
    + injection Hu as <- <-. exists (late w'). split; [apply aged_late, Hst'|]. intros El. destruct (Hl El) as [E|E].
      * destruct (Hb E) as [C|(s1 & C & D)]; auto. right. exists s1. split; [|apply F, D]. apply since_more; auto. cbn [running]. rewrite running_set, Nat.eqb_refl. discriminate.
      * right. exists s. split; [|exact (Hmoved E)]. apply since_more; [cbn [running]; rewrite running_set, Nat.eqb_refl; discriminate|]. eapply since_head; eauto. congruence.
    + destruct (Hr u o' p' Hu) as (bu & A & B). exists (bu || negb (R w' =? R w)). split; [eapply st_le; [|exact A]; exact (aged_fle (aged b w) w' bu F)|].
      assert (Hu' : running {| sm := fst (pstep (sm s) p); running := tset (running s) t (Some (o, snd (pstep (sm s) p))) |} u <> None) by (cbn [running]; rewrite running_set, (proj2 (Nat.eqb_neq _ _) Hne'); congruence).
      intros Hbu. apply orb_prop in Hbu as [Hbu|Hbu].
      * destruct (B Hbu) as [C|(s1 & C & D)]; auto. right. exists s1. split; [apply since_more; auto|apply F, D].
      * right. exists s. split; [apply since_more; auto; eapply since_head; eauto; congruence|]. apply Hmoved. apply negb_true_iff, Nat.eqb_neq in Hbu. exact Hbu.
  - exists w. split; [exact HM|]. split; [exact H2|]. split.
    { intros s' [<-|Hi]; auto. left. exact (m_root _ _ (ms _ _ HM)). }
    intros u o' p' Hu. cbn [running] in Hu. rewrite running_set in Hu. destruct (Nat.eqb_spec u t) as [->|Hne]; [discriminate|].
    destruct (Hr u o' p' Hu) as (b & A & B). exists b. split; auto. intros Hb. destruct (B Hb) as [C|(s' & C & E)]; auto. right. exists s'. split; auto. apply since_more; auto. cbn [running]. rewrite running_set, (proj2 (Nat.eqb_neq _ _) Hne). congruence.
Qed.
Lemma uninit_moved tr ss s t o : exec tr ss s -> running s t = Some (o, Err EUninit) -> (exists k, o = OpGet k) \/ root_moved t ss s.
Proof.
  intros Hx Hr. destruct (exec_steady tr ss s Hx) as (w & HM & _ & _ & H). destruct (H t o _ Hr) as (b & Hst & Hb). destruct Hst as [Hst|Hst]; [|congruence].
  destruct (Hb Hst) as [C|(s' & C & D)]; [left; destruct o; try discriminate; eauto|]. right. exists s'. split; auto. rewrite (m_root _ _ (ms _ _ HM)). intros E. rewrite E in D. exact (apart w D).
Qed.
End Steady.
