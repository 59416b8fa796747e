(** Proofs about destroying an index. *)
From Coq Require Import List Arith Lia Bool.
From Verif Require Import Base Leaf LeafSpec LeafProofs Inner InnerSpec InnerProofs Tree TreeSpec TreeInv SeqTree SeqPot SeqTrav SeqOps Free FreeSpec.
Import ListNotations.

Section FreeProofs.
Context {P : Params}.

Definition epage (e : ev) : nat := match e with ERead i _ | EDtor i _ | EFree i _ => i end.
Definition own (i : nat) (l : list ev) : list ev := filter (fun e => epage e =? i) l.
Definition rest (i : nat) (l : list ev) : list ev := filter (fun e => negb (epage e =? i)) l.
Lemma own_app i a b : own i (a ++ b) = own i a ++ own i b.
Proof. apply filter_app. Qed.
Lemma rest_app i a b : rest i (a ++ b) = rest i a ++ rest i b.
Proof. apply filter_app. Qed.
Lemma dtors_app a b : dtors (a ++ b) = dtors a ++ dtors b.
Proof. apply flat_map_app. Qed.
Lemma frees_app a b : frees (a ++ b) = frees a ++ frees b.
Proof. apply flat_map_app. Qed.
Lemma in_dtors i p l : In (i, p) (dtors l) <-> In (EDtor i p) l.
Proof.
  unfold dtors. rewrite in_flat_map. split.
  - intros (e & He & Hi). destruct e; simpl in Hi; try contradiction. destruct Hi as [[= -> ->]|[]]. exact He.
  - intros H. exists (EDtor i p). simpl. auto.
Qed.
Lemma in_frees i p l : In (i, p) (frees l) <-> In (EFree i p) l.
Proof.
  unfold frees. rewrite in_flat_map. split.
  - intros (e & He & Hi). destruct e; simpl in Hi; try contradiction. destruct Hi as [[= -> ->]|[]]. exact He.
  - intros H. exists (EFree i p). simpl. auto.
Qed.
Lemma in_own e i l : In e (own i l) <-> In e l /\ epage e = i.
Proof. unfold own. rewrite filter_In, Nat.eqb_eq. tauto. Qed.
Lemma in_rest e i l : In e (rest i l) <-> In e l /\ epage e <> i.
Proof. unfold rest. rewrite filter_In, negb_true_iff, Nat.eqb_neq. tauto. Qed.
Lemma own_cons i e l : own i (e :: l) = if epage e =? i then e :: own i l else own i l.
Proof. reflexivity. Qed.
Lemma rest_cons i e l : rest i (e :: l) = if epage e =? i then rest i l else e :: rest i l.
Proof. unfold rest. simpl. destruct (epage e =? i); reflexivity. Qed.

(** What has happened between two tables. *)
Definition prefs_l := fix go (c : lchain) (j : nat) : Prop :=
  match c with
  | LBase _ _ _ => False
  | LIns _ _ _ c | LDel _ _ _ c | LRemove _ c => go c j
  | LSplit _ s _ c => j = s \/ go c j
  | LMerge _ _ r c => go r j \/ go c j
  end.
Definition prefs_i := fix go (c : ichain) (j : nat) : Prop :=
  match c with
  | IBase _ _ _ items _ => In j (map snd items)
  | IIns (_, s) _ _ c | ISplit _ s _ c => j = s \/ go c j
  | IDel _ _ _ _ c | IRemove _ c | IAbort _ c => go c j
  | IMerge _ _ r c => go r j \/ go c j
  end.
Definition prefs (n : node) : nat -> Prop := match n with NLeaf c => prefs_l c | NInner c => prefs_i c end.
Definition ndels (n : node) (j : nat) : Prop := match n with NLeaf _ => False | NInner c => idels c j end.
Fixpoint simple_l (c : lchain) : Prop :=
  match c with
  | LBase _ _ _ => True | LIns _ _ _ c | LDel _ _ _ c | LSplit _ _ _ c => simple_l c | LRemove _ _ | LMerge _ _ _ _ => False
  end.
Fixpoint simple_i (c : ichain) : Prop :=
  match c with
  | IBase _ _ _ _ _ => True | IIns _ _ _ c | IDel _ _ _ _ c | ISplit _ _ _ c => simple_i c | IRemove _ _ | IMerge _ _ _ _ | IAbort _ _ => False
  end.
Definition simple (n : node) : Prop := match n with NLeaf c => simple_l c | NInner c => simple_i c end.

Definition sub (t t' : table) : Prop := forall j, t' j = None \/ t' j = t j.
Record post (t t' : table) (l : list ev) : Prop := {
  o_sub : sub t t';
  o_own : forall e, In e l -> t (epage e) <> None /\ t' (epage e) = None;
  o_dup : NoDup (dtors l) /\ NoDup (frees l);
  o_dtor : forall j n p q, t j = Some n -> t' j = None -> In (p, q) (homes (nshape n) []) -> In (EDtor j p) l /\ In (EFree j q) l;
  o_only : forall j n p, t j = Some n -> (In (EDtor j p) l -> In p (map fst (homes (nshape n) []))) /\ (In (EFree j p) l -> In p (map snd (homes (nshape n) [])));
  o_safe : no_use_after_free t l;
  o_closed : forall j n r, t j = Some n -> t' j = None -> prefs n r -> t' r = None
}.
Lemma sub_none t t' j : sub t t' -> t j = None -> t' j = None.
Proof. intros H E. destruct (H j) as [H1|H1]; congruence. Qed.
Lemma sub_some t t' j n : sub t t' -> t' j = Some n -> t j = Some n.
Proof. intros H E. destruct (H j) as [H1|H1]; congruence. Qed.
Lemma sub_trans a b c : sub a b -> sub b c -> sub a c.
Proof. intros H1 H2 j. destruct (H1 j) as [A|A], (H2 j) as [B|B]; auto; [left|right]; congruence. Qed.
Lemma post_same t t' : (forall j, t' j = t j) -> post t t' [].
Proof.
  intros E. constructor; intros.
  - intros j. auto.
  - contradiction.
  - split; constructor.
  - rewrite E in H0. congruence.
  - split; intros [].
  - intros l1 e l2 i p n q Hl. destruct l1; discriminate.
  - rewrite E in H0. congruence.
Qed.
Lemma nodup_app2 {A} (a b : list A) : NoDup a -> NoDup b -> (forall x, In x a -> ~ In x b) -> NoDup (a ++ b).
Proof.
  intros Ha Hb Hd. induction Ha as [|x a Hx Ha IH]; simpl; auto.
  constructor; [rewrite in_app_iff; intros [H|H]; [auto|eapply Hd; [left; reflexivity|exact H]]|apply IH; intros y Hy; apply Hd; right; auto].
Qed.
Lemma post_trans t t1 t2 a b : post t t1 a -> post t1 t2 b -> post t t2 (a ++ b).
Proof.
  intros [Sa Oa [Da Fa] Ta Ya Ua Ca] [Sb Ob [Db Fb] Tb Yb Ub Cb].
  assert (Hx : forall e, In e b -> t1 (epage e) = t (epage e)) by (intros e He; destruct (Ob e He) as [H _]; destruct (Sa (epage e)) as [E|E]; congruence).
  assert (Hd : forall e e', In e a -> In e' b -> epage e <> epage e').
  { intros e e' He He' E. destruct (Oa e He) as [_ H]. destruct (Ob e' He') as [H' _]. congruence. }
  constructor; intros.
  - eapply sub_trans; eauto.
  - apply in_app_or in H. destruct H as [H|H].
    + destruct (Oa e H) as [H1 H2]. split; auto. eapply sub_none; eauto.
    + destruct (Ob e H) as [H1 H2]. rewrite (Hx e H) in H1. auto.
  - rewrite dtors_app, frees_app. split; apply nodup_app2; auto; intros [i p] Hi Hi'.
    + apply in_dtors in Hi, Hi'. exact (Hd _ _ Hi Hi' eq_refl).
    + apply in_frees in Hi, Hi'. exact (Hd _ _ Hi Hi' eq_refl).
  - rewrite !in_app_iff. destruct (Sa j) as [E|E].
    + destruct (Ta j n p q H E H1). auto.
    + destruct (Tb j n p q ltac:(congruence) H0 H1). auto.
  - rewrite !in_app_iff. destruct (Ya j n p H) as [Y1 Y2].
    assert (Yb' : forall e, In e b -> epage e = j -> (In (EDtor j p) b -> In p (map fst (homes (nshape n) []))) /\ (In (EFree j p) b -> In p (map snd (homes (nshape n) [])))).
    { intros e He Ee. apply Yb. rewrite <- Ee, (Hx e He), Ee. exact H. }
    split; intros [Hi|Hi]; auto; destruct (Yb' _ Hi eq_refl); auto.
  - intros l1 e l2 i p n q El Et Hn Hh.
    assert (Hcase : (exists l2', a = l1 ++ e :: l2') \/ (exists l1', b = l1' ++ e :: l2 /\ l1 = a ++ l1')).
    { clear -El. revert l1 El. induction a as [|x a IH]; intros l1 El.
      - right. exists l1. auto.
      - destruct l1 as [|y l1].
        + injection El as -> _. left. exists a. reflexivity.
        + simpl in El. injection El as -> El. destruct (IH l1 El) as [[l2' ->]|(l1' & -> & ->)]; [left; exists l2'|right; exists l1']; auto. }
    destruct Hcase as [[l2' E]|(l1' & E & ->)].
    + eapply Ua; eauto.
    + assert (He : In e b) by (rewrite E; apply in_or_app; right; left; reflexivity).
      assert (Ee : epage e = i) by (destruct e; simpl in Et; try discriminate; injection Et as -> _; auto).
      rewrite in_app_iff. intros [Hi|Hi].
      * exact (Hd _ _ Hi He (eq_sym Ee)).
      * assert (Hn1 : t1 i = Some n) by (rewrite <- Ee, (Hx e He), Ee; exact Hn).
        exact (Ub l1' e l2 i p n q E Et Hn1 Hh Hi).
  - destruct (Sa j) as [E|E].
    + eapply sub_none; eauto.
    + eapply Cb; eauto. congruence.
Qed.

(** * Chains *)
(** The own events of a chain without merges: each node in turn, the block last. *)
Fixpoint script_reads (i : nat) (p : list bool) (n : nat) : list ev := match n with 0 => [] | S n => ERead i p :: script_reads i p n end.
Definition runs (i : nat) (p : list bool) (s : shape) (l : list ev) : Prop :=
  exists l0, l = l0 ++ [EFree i (below_at s p)] /\ dtors l0 = map (fun x => (i, fst x)) (homes s p) /\ frees l0 = [].
Lemma runs_delta i p s l : runs i (false :: p) s l -> runs i p (SDelta s) (ERead i p :: EDtor i p :: l).
Proof. intros (l0 & -> & Ed & Ef). exists (ERead i p :: EDtor i p :: l0). simpl. rewrite Ed. auto. Qed.
Lemma runs_base i p n : runs i p SAlone (script_reads i p n ++ [EDtor i p; EFree i p]).
Proof.
  exists (script_reads i p n ++ [EDtor i p]). split; [rewrite <- app_assoc; reflexivity|].
  induction n as [|n [Ed Ef]]; simpl; auto.
Qed.

Definition simp (s : shape) : Prop := (fix go s := match s with SAlone => True | SDelta c => go c | SMerge _ _ => False end) s.
Lemma homes_simp s : simp s -> forall p x, In x (homes s p) -> snd x = below_at s p.
Proof.
  induction s as [|c IH|r IHr c IH]; simpl; intros Hs p x; [| |contradiction].
  - intros [<-|[]]. reflexivity.
  - intros [<-|H]; auto.
Qed.
Lemma homes_len s : simp s -> forall p x, In x (homes s p) -> exists r, fst x = r ++ p.
Proof.
  induction s as [|c IH|r IHr c IH]; simpl; intros Hs p x; [| |contradiction].
  - intros [<-|[]]. exists []. reflexivity.
  - intros [<-|H]; [exists []; reflexivity|]. destruct (IH Hs _ _ H) as [r E]. exists (r ++ [false]). rewrite <- app_assoc. exact E.
Qed.
Lemma homes_nodup s : simp s -> forall p, NoDup (map fst (homes s p)).
Proof.
  induction s as [|c IH|r IHr c IH]; simpl; intros Hs p; [| |contradiction].
  - constructor; [intros []|constructor].
  - constructor; auto. intros H. apply in_map_iff in H. destruct H as (x & E & Hx). destruct (homes_len c Hs _ _ Hx) as [r Er].
    rewrite Er in E. apply (f_equal (@length bool)) in E. rewrite app_length in E. simpl in E. lia.
Qed.
Lemma homes_ne s p : homes s p <> [].
Proof. destruct s; simpl; discriminate. Qed.

(** A chain of page [i], released from table [t] on, [i] itself already gone. *)
Definition cpost (t t' : table) (i : nat) (l : list ev) (refs : nat -> Prop) : Prop :=
  post t t' (rest i l) /\ forall r, refs r -> t' r = None.
Lemma post_none t t' l i : post t t' l -> t i = None -> own i l = [] /\ rest i l = l.
Proof.
  intros H E. assert (Hn : forall e, In e l -> epage e <> i) by (intros e He Ee; destruct (o_own _ _ _ H e He) as [H1 _]; congruence).
  clear H. induction l as [|e l IH]; auto. rewrite own_cons, rest_cons.
  assert (Ee : (epage e =? i) = false) by (apply Nat.eqb_neq, Hn; left; reflexivity). rewrite Ee.
  destruct (IH (fun x Hx => Hn x (or_intror Hx))) as [-> ->]. auto.
Qed.

Lemma page_post t t' i n l : t i = Some n -> simp (nshape n) -> post (tnull t i) t' (rest i l) -> runs i [] (nshape n) (own i l) ->
  (forall r, prefs n r -> t' r = None) -> post t t' l /\ t' i = None.
Proof.
  intros Hn Hs [So Oo [Do Fo] To Yo Uo Co] Hr Hp.
  assert (E0 : forall j, j <> i -> tnull t i j = t j) by (intros j Hj; unfold tnull; apply Nat.eqb_neq in Hj; rewrite Hj; reflexivity).
  assert (Ei : tnull t i i = None) by (unfold tnull; rewrite Nat.eqb_refl; reflexivity).
  assert (Hti : t' i = None) by (eapply sub_none; eauto).
  destruct Hr as (l0 & El & Ed & Ef).
  assert (Hown : forall e, In e l -> epage e = i -> In e (own i l)) by (intros; apply in_own; auto).
  assert (Hrest : forall e, In e l -> epage e <> i -> In e (rest i l)) by (intros; apply in_rest; auto).
  assert (Hdt : forall p, In (EDtor i p) l <-> In p (map fst (homes (nshape n) []))).
  { intros p. rewrite in_map_iff. transitivity (In (i, p) (dtors (own i l))).
    - rewrite in_dtors, in_own. simpl. tauto.
    - rewrite El, dtors_app, Ed. simpl. rewrite app_nil_r, in_map_iff. split; intros (x & E & Hx); exists x; split; auto; congruence. }
  assert (Hfr : forall p, In (EFree i p) l <-> p = below_at (nshape n) []).
  { intros p. transitivity (In (i, p) (frees (own i l))).
    - rewrite in_frees, in_own. simpl. tauto.
    - rewrite El, frees_app, Ef. simpl. split; [intros [[= ->]|[]]; auto|intros ->; auto]. }
  split; auto. constructor.
  - intros j. destruct (Nat.eq_dec j i) as [->|Hj]; auto. destruct (So j) as [H|H]; auto. rewrite E0 in H; auto.
  - intros e He. destruct (Nat.eq_dec (epage e) i) as [E|E].
    + rewrite E. split; congruence.
    + destruct (Oo e (Hrest e He E)) as [H1 H2]. rewrite E0 in H1; auto.
  - assert (Hgen : forall (f : list ev -> list (nat * list bool)), (forall a b, f (a ++ b) = f a ++ f b) ->
        (forall e x, In x (f [e]) -> fst x = epage e) -> (forall e, NoDup (f [e])) -> f [] = [] -> NoDup (f (own i l)) -> NoDup (f (rest i l)) -> NoDup (f l)).
    { intros f Happ Hpg H1 H0. assert (Hm : forall l x, In x (f l) -> exists e, In e l /\ In x (f [e])).
      { intros l1. induction l1 as [|e l1 IH]; intros x Hx; [rewrite H0 in Hx; contradiction|].
        change (e :: l1) with ([e] ++ l1) in Hx. rewrite Happ in Hx. apply in_app_or in Hx. destruct Hx as [Hx|Hx]; [exists e; split; auto; left; auto|].
        destruct (IH x Hx) as (e' & ? & ?). exists e'. split; auto. right; auto. }
      clear -Happ Hpg H1 H0 Hm. induction l as [|e l IH]; intros Ho Hr; [rewrite H0; constructor|].
      rewrite own_cons in Ho. rewrite rest_cons in Hr. change (e :: l) with ([e] ++ l). rewrite Happ.
      destruct (epage e =? i) eqn:Ee.
      - change (e :: own i l) with ([e] ++ own i l) in Ho. rewrite Happ in Ho. apply Nat.eqb_eq in Ee.
        apply nodup_app2; auto. { apply IH; auto. clear -Ho. induction (f [e]); simpl in *; auto. inversion Ho; auto. }
        intros x Hx Hx'. destruct (Hm _ _ Hx') as (e' & He' & Hxe').
        assert (Hin : In x (f (own i l))).
        { destruct (in_split e' (own i l)) as (a & b & Eq). { apply in_own. split; auto. rewrite <- (Hpg e' x Hxe'), (Hpg e x Hx). auto. }
          rewrite Eq. change (e' :: b) with ([e'] ++ b). rewrite !Happ, !in_app_iff. auto. }
        clear -Ho Hx Hin. induction (f [e]) as [|y q IHq]; simpl in *; [contradiction|]. inversion Ho; subst. destruct Hx as [->|Hx]; auto.
        apply H1. apply in_or_app. auto.
      - change (e :: rest i l) with ([e] ++ rest i l) in Hr. rewrite Happ in Hr. apply Nat.eqb_neq in Ee.
        apply nodup_app2; auto. { apply IH; auto. clear -Hr. induction (f [e]); simpl in *; auto. inversion Hr; auto. }
        intros x Hx Hx'. destruct (Hm _ _ Hx') as (e' & He' & Hxe').
        assert (Hin : In x (f (rest i l))).
        { destruct (in_split e' (rest i l)) as (a & b & Eq). { apply in_rest. split; auto. rewrite <- (Hpg e' x Hxe'), (Hpg e x Hx). auto. }
          rewrite Eq. change (e' :: b) with ([e'] ++ b). rewrite !Happ, !in_app_iff. auto. }
        clear -Hr Hx Hin. induction (f [e]) as [|y q IHq]; simpl in *; [contradiction|]. inversion Hr; subst. destruct Hx as [->|Hx]; auto.
        apply H1. apply in_or_app. auto. }
    split; apply Hgen; auto.
    + intros a b. apply dtors_app.
    + intros e x. destruct e; simpl; intros H; try contradiction; destruct H as [<-|[]]; reflexivity.
    + intros e. destruct e; simpl; repeat constructor; intros [].
    + rewrite El, dtors_app, Ed. simpl. rewrite app_nil_r. pose proof (homes_nodup _ Hs []) as Hnd.
      rewrite <- (map_map fst (fun y => (i, y))). apply FinFun.Injective_map_NoDup; auto. intros x y [= ->]. reflexivity.
    + intros a b. apply frees_app.
    + intros e x. destruct e; simpl; intros H; try contradiction; destruct H as [<-|[]]; reflexivity.
    + intros e. destruct e; simpl; repeat constructor; intros [].
    + rewrite El, frees_app, Ef. simpl. repeat constructor. intros [].
  - intros j n0 p q Hj Hj' Hh. destruct (Nat.eq_dec j i) as [->|Hne].
    + assert (n0 = n) by congruence. subst n0. split.
      * apply Hdt. apply in_map_iff. exists (p, q). auto.
      * apply Hfr. exact (homes_simp _ Hs _ _ Hh).
    + destruct (To j n0 p q) as [H1 H2]; auto. { rewrite E0; auto. } apply in_rest in H1, H2. tauto.
  - intros j n0 p Hj. destruct (Nat.eq_dec j i) as [->|Hne].
    + assert (n0 = n) by congruence. subst n0. split; [apply Hdt|]. intros H. apply Hfr in H. subst p.
      destruct (homes (nshape n) []) as [|x r] eqn:E; [destruct (homes_ne _ _ E)|].
      simpl. left. rewrite (homes_simp _ Hs [] x); auto. rewrite E. left; reflexivity.
    + destruct (Yo j n0 p) as [H1 H2]. { rewrite E0; auto. } split; intros H; [apply H1|apply H2]; apply Hrest; auto.
  - intros l1 e l2 j p n0 q Ee Et Hj Hh Hi.
    assert (Ej : epage e = j) by (destruct e; simpl in Et; try discriminate; injection Et as -> _; auto).
    destruct (Nat.eq_dec j i) as [->|Hne].
    + assert (n0 = n) by congruence. subst n0.
      rewrite Ee, own_app, own_cons, (proj2 (Nat.eqb_eq _ _) Ej) in El.
      assert (Hin : In (EFree i q) (own i l1)) by (apply in_own; auto).
      assert (Hz : exists l2', l0 = own i l1 ++ e :: l2').
      { destruct (@exists_last _ (e :: own i l2) ltac:(discriminate)) as (y & z & Ey). rewrite Ey, app_assoc in El. apply app_inj_tail in El. destruct El as [El _].
        destruct y as [|y0 y]; [simpl in Ey; injection Ey as -> Ey|simpl in Ey; injection Ey as -> Ey; exists y; auto].
        exfalso. rewrite app_nil_r in El. rewrite <- El in Ef.
        assert (In (i, q) (frees (own i l1))) by (apply in_frees; auto). rewrite Ef in H. contradiction. }
      destruct Hz as [l2' ->]. rewrite frees_app in Ef. apply app_eq_nil in Ef. destruct Ef as [Ef _].
      apply in_frees in Hin. rewrite Ef in Hin. contradiction.
    + apply (Uo (rest i l1) e (rest i l2) j p n0 q); auto.
      * rewrite Ee, rest_app, rest_cons. assert (Eb : (epage e =? i) = false) by (apply Nat.eqb_neq; congruence). rewrite Eb. reflexivity.
      * rewrite E0; auto.
      * apply in_rest. auto.
  - intros j n0 r Hj Hj' Hp'. destruct (Nat.eq_dec j i) as [->|Hne].
    + apply Hp. congruence.
    + eapply Co; eauto. rewrite E0; auto.
Qed.

(** * Releasing pages *)
Definition inv_t (t : table) : Prop := forall j n, t j = Some n -> simple n /\ forall d, ndels n d -> t d = None.
Lemma inv_sub t t' : sub t t' -> inv_t t -> inv_t t'.
Proof.
  intros Hs Hi j n Hj. destruct (Hi j n (sub_some _ _ _ _ Hs Hj)) as [H1 H2]. split; auto. intros d Hd. eapply sub_none; eauto.
Qed.
Definition recok (rec : table -> nat -> res (table * list ev)) (t : table) : Prop :=
  forall t1 j, sub t t1 -> exists t2 l, rec t1 j = Ok (t2, l) /\ post t1 t2 l /\ t2 j = None.

Lemma simple_lshape c : simple_l c -> simp (lshape c).
Proof. induction c; simpl; auto. Qed.
Lemma simple_ishape c : simple_i c -> simp (ishape c).
Proof. induction c; simpl; auto. Qed.

Lemma rest_cons_own i e l : epage e = i -> rest i (e :: l) = rest i l.
Proof. intros E. rewrite rest_cons, (proj2 (Nat.eqb_eq _ _) E). reflexivity. Qed.
Lemma own_cons_own i e l : epage e = i -> own i (e :: l) = e :: own i l.
Proof. intros E. rewrite own_cons, (proj2 (Nat.eqb_eq _ _) E). reflexivity. Qed.

Lemma free_leaf_post rec i c : forall t p, simple_l c -> recok rec t -> t i = None ->
  exists t' l, free_leaf rec t i p c = Ok (t', l) /\ post t t' (rest i l) /\ runs i p (lshape c) (own i l) /\ forall r, prefs_l c r -> t' r = None.
Proof.
  induction c as [low items high|k v ix c IH|k v ix c IH|k s n c IH|id c IH|k id r IHr c IH]; intros t p Hs Hrec Hi; simpl in Hs; try contradiction; cbn [free_leaf].
  - exists t, [EDtor i p; EFree i p]. split; auto. split; [|split].
    + rewrite !rest_cons_own; auto. apply post_same. auto.
    + rewrite !own_cons_own; auto. apply (runs_base i p 0).
    + simpl. contradiction.
  - destruct (IH t (false :: p) Hs Hrec Hi) as (t' & l & -> & Hp & Hr & Hk). cbn [bind fst snd].
    exists t', (ERead i p :: EDtor i p :: l). split; auto. rewrite !rest_cons_own, !own_cons_own by reflexivity. split; auto. split; auto. apply runs_delta. exact Hr.
  - destruct (IH t (false :: p) Hs Hrec Hi) as (t' & l & -> & Hp & Hr & Hk). cbn [bind fst snd].
    exists t', (ERead i p :: EDtor i p :: l). split; auto. rewrite !rest_cons_own, !own_cons_own by reflexivity. split; auto. split; auto. apply runs_delta. exact Hr.
  - destruct (Hrec t s) as (t1 & l1 & -> & Hp1 & Hn1). { intros j; auto. } cbn [bind fst snd].
    pose proof (o_sub _ _ _ Hp1) as Hsub.
    destruct (IH t1 (false :: p) Hs) as (t' & l & -> & Hp & Hr & Hk). { intros t2 j Hs2. apply Hrec. eapply sub_trans; eauto. } { eapply sub_none; eauto. }
    cbn [bind fst snd]. exists t', (ERead i p :: l1 ++ EDtor i p :: l). split; auto.
    destruct (post_none _ _ _ i Hp1 Hi) as [Eo Er].
    rewrite rest_cons_own, own_cons_own by reflexivity. rewrite rest_app, own_app, Eo, Er, rest_cons_own, own_cons_own by reflexivity.
    split; [eapply post_trans; eauto|]. split; [apply runs_delta; exact Hr|].
    simpl. intros r [->|Hr']; auto. eapply sub_none; [apply (o_sub _ _ _ Hp)|]. auto.
Qed.

Lemma free_items_post rec i p items : forall t, recok rec t -> t i = None ->
  exists t' l, free_items rec t i p items = Ok (t', l) /\ post t t' (rest i l) /\ own i l = script_reads i p (length items) /\ forall r, In r (map snd items) -> t' r = None.
Proof.
  induction items as [|[k j] items IH]; intros t Hrec Hi; cbn [free_items].
  - exists t, []. split; auto. split; [apply post_same; auto|]. split; auto. intros r [].
  - destruct (Hrec t j) as (t1 & l1 & -> & Hp1 & Hn1). { intros x; auto. } cbn [bind fst snd].
    pose proof (o_sub _ _ _ Hp1) as Hsub.
    destruct (IH t1) as (t' & l & -> & Hp & Ho & Hk). { intros t2 x Hs2. apply Hrec. eapply sub_trans; eauto. } { eapply sub_none; eauto. }
    cbn [bind fst snd]. exists t', (ERead i p :: l1 ++ l). split; auto.
    destruct (post_none _ _ _ i Hp1 Hi) as [Eo Er].
    rewrite rest_cons_own, own_cons_own by reflexivity. rewrite rest_app, own_app, Eo, Er.
    split; [eapply post_trans; eauto|]. split; [simpl; rewrite Ho; reflexivity|].
    simpl. intros r [<-|Hr']; auto. eapply sub_none; [apply (o_sub _ _ _ Hp)|]. auto.
Qed.

Lemma free_inner_post rec i c : forall t p, simple_i c -> recok rec t -> t i = None -> (forall d, idels c d -> t d = None) ->
  exists t' l, free_inner rec t i p c = Ok (t', l) /\ post t t' (rest i l) /\ runs i p (ishape c) (own i l) /\ forall r, prefs_i c r -> t' r = None.
Proof.
  induction c as [d low lid items high|[k s] nx loc c IH|[k s] pv nx loc c IH|k s n c IH|id c IH|k id r IHr c IH|q c IH]; intros t p Hs Hrec Hi Hd; simpl in Hs; try contradiction; cbn [free_inner].
  - destruct (free_items_post rec i p items t Hrec Hi) as (t' & l & -> & Hp & Ho & Hk). cbn [bind fst snd].
    exists t', (l ++ [EDtor i p; EFree i p]). split; auto. rewrite rest_app, own_app, !rest_cons_own, !own_cons_own by reflexivity.
    split; [simpl; rewrite app_nil_r; auto|]. split; [rewrite Ho; apply runs_base|]. auto.
  - destruct (Hrec t s) as (t1 & l1 & -> & Hp1 & Hn1). { intros j; auto. } cbn [bind fst snd].
    pose proof (o_sub _ _ _ Hp1) as Hsub.
    destruct (IH t1 (false :: p) Hs) as (t' & l & -> & Hp & Hr & Hk). { intros t2 j Hs2. apply Hrec. eapply sub_trans; eauto. } { eapply sub_none; eauto. } { intros d H. eapply sub_none; eauto. }
    cbn [bind fst snd]. exists t', (ERead i p :: l1 ++ EDtor i p :: l). split; auto.
    destruct (post_none _ _ _ i Hp1 Hi) as [Eo Er].
    rewrite rest_cons_own, own_cons_own by reflexivity. rewrite rest_app, own_app, Eo, Er, rest_cons_own, own_cons_own by reflexivity.
    split; [eapply post_trans; eauto|]. split; [apply runs_delta; exact Hr|].
    simpl. intros r [->|Hr']; auto. eapply sub_none; [apply (o_sub _ _ _ Hp)|]. auto.
  - assert (Es : forall j, tnull t s j = t j).
    { intros j. unfold tnull. destruct (j =? s) eqn:E; auto. apply Nat.eqb_eq in E. subst. symmetry. apply Hd. simpl. auto. }
    destruct (IH (tnull t s) (false :: p) Hs) as (t' & l & -> & Hp & Hr & Hk).
    { intros t2 j Hs2. apply Hrec. intros x. rewrite <- Es. apply Hs2. } { rewrite Es. auto. } { intros d H. rewrite Es. apply Hd. simpl. auto. }
    cbn [bind fst snd]. exists t', (ERead i p :: EDtor i p :: l). split; auto. rewrite !rest_cons_own, !own_cons_own by reflexivity.
    split; [|split; auto; apply runs_delta; exact Hr].
    change (rest i l) with ([] ++ rest i l). eapply post_trans; [|exact Hp]. apply post_same. exact Es.
  - destruct (Hrec t s) as (t1 & l1 & -> & Hp1 & Hn1). { intros j; auto. } cbn [bind fst snd].
    pose proof (o_sub _ _ _ Hp1) as Hsub.
    destruct (IH t1 (false :: p) Hs) as (t' & l & -> & Hp & Hr & Hk). { intros t2 j Hs2. apply Hrec. eapply sub_trans; eauto. } { eapply sub_none; eauto. } { intros d H. eapply sub_none; eauto. }
    cbn [bind fst snd]. exists t', (ERead i p :: l1 ++ EDtor i p :: l). split; auto.
    destruct (post_none _ _ _ i Hp1 Hi) as [Eo Er].
    rewrite rest_cons_own, own_cons_own by reflexivity. rewrite rest_app, own_app, Eo, Er, rest_cons_own, own_cons_own by reflexivity.
    split; [eapply post_trans; eauto|]. split; [apply runs_delta; exact Hr|].
    simpl. intros r [->|Hr']; auto. eapply sub_none; [apply (o_sub _ _ _ Hp)|]. auto.
Qed.

(** Entries in use below a bound. *)
Fixpoint used (t : table) (b : nat) : nat := match b with 0 => 0 | S b => (match t b with Some _ => 1 | None => 0 end) + used t b end.
Lemma used_sub t t' b : sub t t' -> used t' b <= used t b.
Proof. intros H. induction b; simpl; auto. destruct (H b) as [E|E]; rewrite E; destruct (t b); lia. Qed.
Lemma used_null t b i n : t i = Some n -> i < b -> used (tnull t i) b < used t b.
Proof.
  intros E. assert (Hs : sub t (tnull t i)) by (intros j; unfold tnull; destruct (j =? i); auto).
  induction b; simpl; intros Hi; [lia|]. destruct (Nat.eq_dec i b) as [->|Hn].
  - pose proof (used_sub t _ b Hs). unfold tnull at 1. rewrite Nat.eqb_refl, E. lia.
  - assert (i < b) by lia. specialize (IHb H). unfold tnull at 1. assert (Eb : (b =? i) = false) by (apply Nat.eqb_neq; lia). rewrite Eb. lia.
Qed.
Lemma used_le t b : used t b <= b.
Proof. induction b; simpl; auto. destruct (t b); lia. Qed.

Lemma free_id_post b f : forall t i, inv_t t -> (forall j, b <= j -> t j = None) -> used t b < f ->
  exists t' l, free_id f t i = Ok (t', l) /\ post t t' l /\ t' i = None.
Proof.
  induction f as [|f IH]; intros t i Hinv Hb Hf; [lia|]. cbn [free_id].
  destruct (t i) as [n|] eqn:Ei; [|exists t, []; split; auto; split; auto; apply post_same; auto].
  assert (Hib : i < b) by (destruct (Nat.le_gt_cases b i) as [H|H]; auto; rewrite Hb in Ei; congruence).
  assert (Hsub : sub t (tnull t i)) by (intros j; unfold tnull; destruct (j =? i); auto).
  assert (Hrec : recok (free_id f) (tnull t i)).
  { intros t1 j Hs. apply IH.
    - eapply inv_sub; [|exact Hinv]. eapply sub_trans; eauto.
    - intros x Hx. apply (sub_none t); [eapply sub_trans; eauto|auto].
    - pose proof (used_sub _ _ b Hs). pose proof (used_null t b i n Ei Hib). lia. }
  assert (Hii : tnull t i i = None) by (unfold tnull; rewrite Nat.eqb_refl; reflexivity).
  destruct (Hinv i n Ei) as [Hsi Hdi]. destruct n as [c|c].
  - destruct (free_leaf_post (free_id f) i c (tnull t i) [] Hsi Hrec Hii) as (t' & l & -> & Hp & Hr & Hk).
    exists t', l. split; auto. apply (page_post t t' i (NLeaf c) l); auto. apply simple_lshape. exact Hsi.
  - destruct (free_inner_post (free_id f) i c (tnull t i) [] Hsi Hrec Hii) as (t' & l & -> & Hp & Hr & Hk).
    { intros d H. eapply sub_none; eauto. }
    exists t', l. split; auto. apply (page_post t t' i (NInner c) l); auto. apply simple_ishape. exact Hsi.
Qed.

(** * The pages of a quiescent index *)
Lemma lwf_simple c : lwf c -> no_merge c -> simple_l c.
Proof.
  induction c as [low items high|k v ix c IH|k v ix c IH|k s n c IH|id c IH|k id r IHr c IH]; simpl; intros Hw Hm; auto; try contradiction.
  - apply IH; tauto.
  - apply IH; tauto.
  - destruct c; try contradiction. exact I.
Qed.
Lemma iwf_simple lowof c : iwf lowof c -> imerge_free c -> simple_i c.
Proof.
  induction c as [d low lid items high|[k s] nx loc c IH|[k s] [pk ps] nx loc c IH|k s n c IH|id c IH|k id r IHr c IH|q c IH]; simpl; intros Hw Hm; auto; try contradiction.
  - apply IH; tauto.
  - apply IH; tauto.
  - destruct c; try contradiction. exact I.
Qed.
Lemma iwf_lid lowof c : iwf lowof c -> imerge_free c -> prefs_i c (ilid c).
Proof.
  induction c as [d low lid items high|[k s] nx loc c IH|[k s] [pk ps] nx loc c IH|k s n c IH|id c IH|k id r IHr c IH|q c IH]; intros Hw Hm; cbn [prefs_i ilid]; cbn [iwf imerge_free] in Hw, Hm; try contradiction.
  - destruct Hw as (rest & -> & _). left. reflexivity.
  - right. apply IH; tauto.
  - apply IH; tauto.
  - right. apply IH; auto. destruct c; tauto.
Qed.
Lemma seps_prefs c x j : simple_i c -> seps c x j -> prefs_i c j.
Proof.
  induction c as [d low lid items high|[k s] nx loc c IH|[k s] [pk ps] nx loc c IH|k s n c IH|id c IH|k id r IHr c IH|q c IH]; intros Hw Hs; cbn [simple_i seps prefs_i] in *; try contradiction.
  - destruct items as [|y items]; [contradiction|]. right. apply in_map_iff. exists (x, j). auto.
  - destruct Hs as [[_ ->]|[_ H]]; auto.
  - apply IH; tauto.
  - right. apply IH; tauto.
Qed.

Lemma cleared_node m j n : cleared m j = Some n <-> node_of m j = Some n /\ is_remove n = false.
Proof.
  unfold cleared, node_of. destruct (get m j) as [[p n0]|]; simpl; [|split; [discriminate|intros [? _]; discriminate]].
  destruct (is_remove n0) eqn:E; split.
  - discriminate.
  - intros [[= ->] ?]. congruence.
  - intros [= ->]. auto.
  - intros [[= ->] _]. reflexivity.
Qed.
Lemma cleared_none m j : rem (node_of m) j = true -> cleared m j = None.
Proof.
  intros H. destruct (cleared m j) as [n|] eqn:E; auto. apply cleared_node in E. destruct E as [E1 E2]. unfold rem in H. rewrite E1 in H. congruence.
Qed.

Lemma level_live m lev H h i : ready m lev H -> h <= H -> In i (ids (lev h)) -> exists n, cleared m i = Some n /\ nodeok (node_of m) h n.
Proof.
  intros [Hb Ht Hc] Hh Hi. destruct (t_ok _ _ _ _ Ht h i Hh Hi) as (n & Hn & Hok). exists n. split; auto. apply cleared_node. split; auto.
  destruct (in_ids _ _ Hi) as (a & o & Ha & [->|Eo]).
  - pose proof (proj1 (Forall_forall _ _) (Hc h Hh) _ Ha) as Hl. unfold live, rem in Hl. simpl in Hl. rewrite Hn in Hl. exact Hl.
  - subst o. pose proof (t_cell _ _ _ _ Ht h a i Hh Ha) as Hp. unfold pending in Hp. rewrite Hn in Hp.
    destruct (node_of m a) as [[[]|[]]|]; try contradiction; destruct n as [[]|[]]; try contradiction; reflexivity.
Qed.
Lemma nodeok_live N h n : nodeok N h n -> is_remove n = false -> simple n /\ (forall d, ndels n d -> rem N d = true) /\
  match n with NLeaf _ => True | NInner c => ibody c = c /\ iwf (nlo N) c /\ imerge_free c end.
Proof.
  intros [Hn _] Hr. destruct n as [c|c].
  - assert (E : lbody c = c) by (destruct c; simpl in *; congruence). rewrite E in Hn. destruct Hn as (_ & H1 & H2). split; [apply lwf_simple; auto|]. split; [intros d []|exact I].
  - assert (E : ibody c = c) by (destruct c; simpl in *; congruence). rewrite E in Hn. destruct Hn as (_ & H1 & _ & H2 & _ & H3). split; [eapply iwf_simple; eauto|]. auto.
Qed.
Lemma cleared_inv m lev H : ready m lev H -> inv_t (cleared m).
Proof.
  intros Hr j n Hj. pose proof Hj as Hj'. apply cleared_node in Hj. destruct Hj as [Hn Hrem].
  destruct (t_all _ _ _ _ (r_tree _ _ _ Hr) j) as [E|(h & Hh & Hi)]; [congruence|unfold rem in E; rewrite Hn in E; congruence|].
  destruct (level_live m lev H h j Hr Hh Hi) as (n' & E & Hok). assert (n' = n) by congruence. subst n'.
  destruct (nodeok_live _ _ _ Hok Hrem) as (H1 & H2 & _). split; auto. intros d Hd. apply cleared_none. auto.
Qed.
Lemma link_parent N Qs C i o : link N Qs C -> In (i, o) C -> exists Q g pre post, In Q Qs /\ linked N Q g /\ In (i, o) g /\ C = pre ++ g ++ post.
Proof.
  induction 1 as [|Q g Qs C Hl Hk IH]; [intros []|]. intros Hi. apply in_app_or in Hi. destruct Hi as [Hi|Hi].
  - exists Q, g, [], C. split; [left; reflexivity|auto].
  - destruct (IH Hi) as (Q' & g' & pre & post & H1 & H2 & H3 & ->). exists Q', g', (g ++ pre), post. split; [right; auto|]. rewrite <- app_assoc. auto.
Qed.

Lemma destroy_all m lev H f : ready m lev H -> nid m < f ->
  exists t' l, destroy f m = Ok (t', l) /\ post (cleared m) t' l /\ forall i, t' i = None.
Proof.
  intros Hr Hf. pose proof (cleared_inv _ _ _ Hr) as Hinv.
  destruct (free_id_post (nid m) f (cleared m) (root m) Hinv) as (t' & l & E & Hp & Hroot).
  { intros j Hj. unfold cleared, get. destruct (tab m j) as [p|] eqn:Et; auto. destruct (b_tab _ (r_bound _ _ _ Hr) j p Et). lia. }
  { pose proof (used_le (cleared m) (nid m)). lia. }
  exists t', l. split; [exact E|]. split; [exact Hp|].
  pose proof (r_tree _ _ _ Hr) as Ht.
  assert (Hsib : forall h i s, h <= H -> In (i, Some s) (lev h) -> t' i = None -> t' s = None).
  { intros h i s Hh Hi Hn. destruct (level_live m lev H h i Hr Hh (ids_in _ _ _ Hi)) as (n & Hc & _).
    apply (o_closed _ _ _ Hp i n s Hc Hn). pose proof (t_cell _ _ _ _ Ht h i s Hh Hi) as Hpe. unfold pending in Hpe.
    apply cleared_node in Hc. rewrite (proj1 Hc) in Hpe.
    destruct n as [[]|[]]; try contradiction; destruct (node_of m s) as [[[]|[]]|]; try contradiction; simpl; left; symmetry; tauto. }
  assert (Hlev : forall d h, h + d = H -> forall i, In i (ids (lev h)) -> t' i = None).
  { induction d as [|d IHd]; intros h Eh i Hi; (destruct (in_ids _ _ Hi) as (a & o & Ha & Hio)).
    - rewrite Nat.add_0_r in Eh. subst h. destruct (t_top _ _ _ _ Ht) as [o' Eo]. rewrite Eo in Ha. destruct Ha as [[= <- <-]|[]].
      destruct Hio as [->|Eo']; auto. subst o'. eapply (Hsib H (root m)); auto. rewrite Eo. left. reflexivity.
    - assert (Ha' : t' a = None).
      { destruct (link_parent _ _ _ _ _ (t_link _ _ _ _ Ht h ltac:(lia)) Ha) as (Q & g & pre & post & HQ & (c & o0 & g' & Hc & Hg & Hs) & Hag & El).
        destruct (level_live m lev H (S h) Q Hr ltac:(lia) HQ) as (n & Hcl & Hok).
        pose proof Hcl as Hcl'. apply cleared_node in Hcl'. destruct Hcl' as [HQn Hrem]. rewrite Hc in HQn. injection HQn as <-.
        destruct (nodeok_live _ _ _ Hok Hrem) as (H1 & _ & Eb & H2 & H3). rewrite Eb in *.
        apply (o_closed _ _ _ Hp Q (NInner c) a Hcl (IHd (S h) ltac:(lia) Q HQ)). simpl.
        rewrite Hg in Hag. destruct Hag as [[= <- _]|Hag].
        - eapply iwf_lid; eauto.
        - destruct (nlo (node_of m) a) as [x|] eqn:Ex.
          + apply (seps_prefs c x); auto. apply Hs. split; eauto.
          + exfalso. pose proof (tree_sorted _ _ _ _ h Ht ltac:(lia)) as Hss. rewrite El, Hg, ids_app in Hss.
            apply ss_app in Hss. destruct Hss as (_ & Hss & _). rewrite ids_app in Hss. apply ss_app in Hss. destruct Hss as (Hss & _).
            simpl in Hss. inversion Hss as [|? ? _ Hfo]; subst. rewrite Forall_forall in Hfo.
            specialize (Hfo a). rewrite Ex in Hfo. apply Hfo. apply in_or_app. right. eapply ids_in; eauto. }
      destruct Hio as [->|Eo]; auto. subst o. eapply (Hsib h a); auto. lia. }
  intros i. destruct (t' i) as [n|] eqn:Ei; auto. exfalso.
  pose proof (sub_some _ _ _ _ (o_sub _ _ _ Hp) Ei) as Hi. apply cleared_node in Hi. destruct Hi as [Hn Hrem].
  destruct (t_all _ _ _ _ Ht i) as [E1|(h & Hh & Hi)]; [congruence|unfold rem in E1; rewrite Hn in E1; congruence|].
  rewrite (Hlev (H - h) h ltac:(lia) i Hi) in Ei. discriminate.
Qed.

Lemma post_spec t t' l : post t t' l -> (forall i, t' i = None) -> destroyed_once t l /\ released_once t l /\ no_use_after_free t l.
Proof.
  intros Hp Hn. destruct (o_dup _ _ _ Hp) as [D1 D2]. split; [|split; [|apply Hp]].
  - split; auto. intros i p. rewrite in_dtors. split.
    + intros H. destruct (o_own _ _ _ Hp _ H) as [H1 _]. simpl in H1. destruct (t i) as [n|] eqn:E; [|congruence].
      apply (o_only _ _ _ Hp i n p E) in H. apply in_map_iff in H. destruct H as ([p' q] & <- & H). exists n, q. auto.
    + intros (n & q & E & H). apply (o_dtor _ _ _ Hp i n p q E (Hn i) H).
  - split; auto. intros i p. rewrite in_frees. split.
    + intros H. destruct (o_own _ _ _ Hp _ H) as [H1 _]. simpl in H1. destruct (t i) as [n|] eqn:E; [|congruence].
      apply (o_only _ _ _ Hp i n p E) in H. apply in_map_iff in H. destruct H as ([p' q] & <- & H). exists n, p'. auto.
    + intros (n & q & E & H). apply (o_dtor _ _ _ Hp i n q p E (Hn i) H).
Qed.
Lemma spec_ext t t' l : (forall i, t i = t' i) -> destroyed_once t l /\ released_once t l /\ no_use_after_free t l -> destroyed_once t' l /\ released_once t' l /\ no_use_after_free t' l.
Proof.
  intros E ((H1 & H2) & (H3 & H4) & H5). split; [|split].
  - split; auto. intros i p. rewrite H2. unfold node_in. rewrite E. reflexivity.
  - split; auto. intros i p. rewrite H4. unfold block_in. rewrite E. reflexivity.
  - intros l1 e l2 i p n q El Et Hn. rewrite <- E in Hn. eapply H5; eauto.
Qed.
Lemma destroy_spec m lev H f : ready m lev H -> nid m < f ->
  exists t' l, destroy f m = Ok (t', l) /\ (forall i, t' i = None) /\
    destroyed_once (live_pages m) l /\ released_once (live_pages m) l /\ no_use_after_free (live_pages m) l.
Proof.
  intros Hr Hf. destruct (destroy_all m lev H f Hr Hf) as (t' & l & E & Hp & Hn). exists t', l. split; auto. split; auto.
  apply (spec_ext (cleared m)); [|eapply post_spec; eauto].
  intros i. unfold cleared, live_pages, node_of. destruct (get m i) as [[]|]; reflexivity.
Qed.

(** * Replaced chains *)
Lemma own_all i l : (forall e, In e l -> epage e = i) -> own i l = l /\ rest i l = [].
Proof.
  intros H. induction l as [|e l IH]; auto. destruct IH as [E1 E2]. { intros x Hx. apply H. right; auto. }
  rewrite own_cons_own, rest_cons_own, E1 by (apply H; left; reflexivity). auto.
Qed.
Lemma gc_leaf_runs i c : forall p, no_merge c -> runs i p (lshape c) (fst (gc_leaf i p c)) /\ (forall e, In e (fst (gc_leaf i p c)) -> epage e = i) /\ simp (lshape c).
Proof.
  induction c as [low items high|k v ix c IH|k v ix c IH|k s n c IH|id c IH|k id r IHr c IH]; intros p Hm; cbn [gc_leaf lshape no_merge] in *; try contradiction.
  - split; [apply (runs_base i p 0)|]. split; [|exact I]. intros e [<-|[<-|[]]]; reflexivity.
  - destruct (IH (false :: p) Hm) as (H1 & H2 & H3). split; [apply runs_delta; exact H1|]. split; [|exact H3]. intros e [<-|[<-|H]]; auto.
  - destruct (IH (false :: p) Hm) as (H1 & H2 & H3). split; [apply runs_delta; exact H1|]. split; [|exact H3]. intros e [<-|[<-|H]]; auto.
  - destruct (IH (false :: p) Hm) as (H1 & H2 & H3). split; [apply runs_delta; exact H1|]. split; [|exact H3]. intros e [<-|[<-|H]]; auto.
  - split; [apply (runs_base i p 1)|]. split; [|exact I]. intros e [<-|[<-|[<-|[]]]]; reflexivity.
Qed.
Lemma gc_inner_runs i c : forall p, imerge_free c -> runs i p (ishape c) (fst (gc_inner i p c)) /\ (forall e, In e (fst (gc_inner i p c)) -> epage e = i) /\ simp (ishape c).
Proof.
  induction c as [d low lid items high|[k s] nx loc c IH|[k s] pv nx loc c IH|k s n c IH|id c IH|k id r IHr c IH|q c IH]; intros p Hm; cbn [gc_inner ishape imerge_free] in *; try contradiction.
  - split; [apply (runs_base i p 0)|]. split; [|exact I]. intros e [<-|[<-|[]]]; reflexivity.
  - destruct (IH (false :: p) Hm) as (H1 & H2 & H3). split; [apply runs_delta; exact H1|]. split; [|exact H3]. intros e [<-|[<-|H]]; auto.
  - destruct (IH (false :: p) Hm) as (H1 & H2 & H3). split; [apply runs_delta; exact H1|]. split; [|exact H3]. intros e [<-|[<-|H]]; auto.
  - destruct (IH (false :: p) Hm) as (H1 & H2 & H3). split; [apply runs_delta; exact H1|]. split; [|exact H3]. intros e [<-|[<-|H]]; auto.
  - split; [apply (runs_base i p 1)|]. split; [|exact I]. intros e [<-|[<-|[<-|[]]]]; reflexivity.
  - split; [apply (runs_base i p 0)|]. split; [|exact I]. intros e [<-|[<-|[]]]; reflexivity.
Qed.
Lemma gc_spec i n : no_merge_in n ->
  destroyed_once (only i n) (fst (gc i n)) /\ released_once (only i n) (fst (gc i n)) /\ no_use_after_free (only i n) (fst (gc i n)).
Proof.
  intros Hm. assert (H : runs i [] (nshape n) (fst (gc i n)) /\ (forall e, In e (fst (gc i n)) -> epage e = i) /\ simp (nshape n)).
  { destruct n as [c|c]; [apply gc_leaf_runs|apply gc_inner_runs]; exact Hm. }
  destruct H as (H1 & H2 & H3). destruct (own_all i _ H2) as [E1 E2].
  assert (Hi : only i n i = Some n) by (unfold only; rewrite Nat.eqb_refl; reflexivity).
  destruct (page_post (only i n) (fun _ => None) i n (fst (gc i n)) Hi H3) as [Hp _].
  - rewrite E2. apply post_same. intros j. unfold tnull, only. destruct (j =? i); reflexivity.
  - rewrite E1. exact H1.
  - auto.
  - eapply post_spec; eauto.
Qed.

Lemma gc_leaf_base i c : forall p, In (EFree i (below_at (lshape c) p)) (fst (gc_leaf i p c)).
Proof.
  induction c as [low items high|k v ix c IH|k v ix c IH|k s n c IH|id c IH|k id r IHr c IH]; intros p; cbn [gc_leaf lshape below_at fst].
  - right; left; reflexivity.
  - right; right; apply IH.
  - right; right; apply IH.
  - right; right; apply IH.
  - right; right; left; reflexivity.
  - right. apply in_or_app. left. apply IH.
Qed.
Lemma gc_inner_base i c : forall p, In (EFree i (below_at (ishape c) p)) (fst (gc_inner i p c)).
Proof.
  induction c as [d low lid items high|[k s] nx loc c IH|[k s] pv nx loc c IH|k s n c IH|id c IH|k id r IHr c IH|q c IH]; intros p; cbn [gc_inner ishape below_at fst].
  - right; left; reflexivity.
  - right; right; apply IH.
  - right; right; apply IH.
  - right; right; apply IH.
  - right; right; left; reflexivity.
  - right. apply in_or_app. left. apply IH.
  - right; left; reflexivity.
Qed.
Definition merge_top (n : node) : Prop := match n with NLeaf (LMerge _ _ _ _) | NInner (IMerge _ _ _ _) => True | _ => False end.
Lemma gc_merge i n : merge_top n -> ~ no_use_after_free (only i n) (fst (gc i n)).
Proof.
  intros Hm Hu. assert (Hi : only i n i = Some n) by (unfold only; rewrite Nat.eqb_refl; reflexivity).
  destruct n as [c|c]; destruct c as [| | | | |k id r c|]||destruct c as [| | | | |k id r c]; try contradiction; cbn [gc gc_leaf gc_inner fst] in Hu.
  - refine (Hu (ERead i [] :: fst (gc_leaf i [false] c) ++ ERead i [] :: fst (gc_leaf i [true] r)) (EDtor i []) [] i [] _ (below_at (lshape r) [true]) _ eq_refl Hi _ _).
    + rewrite <- app_comm_cons, <- app_assoc. reflexivity.
    + left. reflexivity.
    + right. apply in_or_app. right. right. apply gc_leaf_base.
  - refine (Hu (ERead i [] :: fst (gc_inner i [false] c) ++ ERead i [] :: fst (gc_inner i [true] r)) (EDtor i []) [] i [] _ (below_at (ishape r) [true]) _ eq_refl Hi _ _).
    + rewrite <- app_comm_cons, <- app_assoc. reflexivity.
    + left. reflexivity.
    + right. apply in_or_app. right. right. apply gc_inner_base.
Qed.
Lemma exec_pair tr ss s : exec tr ss s -> forall n s1 s2, nth_error ss (S n) = Some s1 -> nth_error ss n = Some s2 ->
  exists tr' ss' e, exec tr' ss' s1 /\ sstep s1 e s2.
Proof.
  induction 1 as [|tr ss s e s' Hx IH Hs]; intros n s1 s2 E1 E2; [destruct n as [|[]]; discriminate|].
  destruct n as [|n]; [|apply (IH n); auto]. change (nth_error ss 0 = Some s1) in E1. injection E2 as <-.
  assert (Hh : nth_error ss 0 = Some s) by (destruct Hx; reflexivity). assert (s1 = s) by congruence. subst s1. eauto.
Qed.
End FreeProofs.
