(** Which errors never happen in an execution: no null page, no page of the
    wrong kind, and - as long as no deleted pair is conditionally inserted -
    no page buffer overrun. *)
From Coq Require Import NArith List Arith Lia Bool ZArith.
From Verif Require Import Base SmallSet Bloom Leaf LeafSpec LeafProofs LeafWeak LeafProofs2 Inner InnerSpec InnerProofs InnerProofs2 Tree TreeSpec TreeInv TreeSafe TreeProg TreeProg4 TreeLin Keeps RoomSpec.
Import ListNotations.

(** * Pure functions *)
Definition hard (e : err) : Prop := e = EOverrun \/ e = ENull \/ e = EKind \/ e = EUninit.
Definition worst (e : err) : Prop := e = EOverrun \/ e = ENull \/ e = EKind.
Definition soft {A} (r : res A) : Prop := forall e, r = Er e -> ~ hard e.
Lemma soft_ok {A} (a : A) : soft (Ok a).
Proof. intros e E. discriminate. Qed.
Lemma soft_er {A} e : ~ hard e -> soft (@Er A e).
Proof. intros H e' E. injection E as <-. exact H. Qed.
Lemma soft_bind {A B} (r : res A) (f : A -> res B) : soft r -> (forall a, r = Ok a -> soft (f a)) -> soft (bind r f).
Proof. intros H Hf. destruct r; simpl; auto. intros e' E. injection E as <-. apply H. reflexivity. Qed.
Lemma not_hard_assert : ~ hard EAssert. Proof. intros [H|[H|[H|H]]]; discriminate. Qed.
Lemma not_hard_range : ~ hard ERange. Proof. intros [H|[H|[H|H]]]; discriminate. Qed.
Lemma not_hard_fuel : ~ hard EFuel. Proof. intros [H|[H|[H|H]]]; discriminate. Qed.
Lemma worst_hard e : worst e -> hard e. Proof. unfold worst, hard. tauto. Qed.
Local Hint Resolve not_hard_assert not_hard_range not_hard_fuel soft_ok soft_er : soft.

Section TreeRoom.
Context {P : Params}.

Lemma lcheck_soft k v c : soft (lcheck k v c).
Proof. induction c; cbn [lcheck]; auto with soft; [destruct (_ && _); auto with soft|destruct (_ && _); auto with soft|destruct (kge _ _); auto]. Qed.
Lemma binsert_soft {A} (h : A -> N.t) cap v l : length (data l) < cap -> soft (binsert h cap v l).
Proof. intros H. unfold binsert. rewrite (proj2 (Nat.ltb_lt _ _) H). auto with soft. Qed.
Lemma binsert_length {A} (h : A -> N.t) cap v l l' : binsert h cap v l = Ok l' -> length (data l') = S (length (data l)).
Proof. unfold binsert. destruct (_ <? _); [|discriminate]. intros E. injection E as <-. simpl. rewrite app_length. simpl. lia. Qed.
Lemma lvalues_soft k c : soft (lvalues k c).
Proof.
  unfold lvalues. cut (forall cap pres dels start fin, length (data pres) + ldepth c <= cap -> length (data dels) + ldepth c <= cap ->
    soft (lvalues_rec cap k c pres dels start fin)). { intros H. apply H; simpl; lia. }
  intros cap. induction c as [low items high|k' v' ix c IH|k' v' ix c IH|sk sib n c IH|id c IH|mk id r IHr c IHc];
    intros pres dels start fin H1 H2; simpl in *; auto with soft.
  - destruct (_ && _); auto with soft.
  - destruct (keq k k'); [|destruct (kgt k k'); apply IH; lia]. destruct (_ && _); [|apply IH; lia].
    apply soft_bind; [apply binsert_soft; lia|]. intros b E. apply binsert_length in E. apply soft_bind; [apply IH; lia|]. auto with soft.
  - destruct (keq k k'); [|destruct (kgt k k'); apply IH; lia]. destruct (negb _); [|apply IH; lia].
    apply soft_bind; [apply binsert_soft; lia|]. intros b E. apply binsert_length in E. apply IH; lia.
  - destruct (kge k mk); [apply IHr|apply IHc]; lia.
Qed.
Lemma lcond_soft pred k v c : soft (lcond pred k v c).
Proof.
  unfold lcond. cut (forall cap pres dels, length (data pres) + ldepth c <= cap -> length (data dels) + ldepth c <= cap ->
    soft (lcond_rec pred cap k v c pres dels)). { intros H. apply H; simpl; lia. }
  intros cap. induction c as [low items high|k' v' ix c IH|k' v' ix c IH|sk sib n c IH|id c IH|mk id r IHr c IHc];
    intros pres dels H1 H2; simpl in *; auto with soft.
  - destruct (lcond_base _ _ _ _ _); auto with soft.
  - destruct (_ && _); [|apply IH; lia]. apply soft_bind; [apply binsert_soft; lia|]. intros b E. apply binsert_length in E.
    destruct (pred v'); auto with soft. destruct (veq v v'); auto with soft. apply IH; lia.
  - destruct (_ && _); [|apply IH; lia]. apply soft_bind; [apply binsert_soft; lia|]. intros b E. apply binsert_length in E. apply IH; lia.
  - destruct (kge k mk); [apply IHr|apply IHc]; lia.
Qed.
Lemma lsplit_soft low items high : soft (lsplit_sibling (LBase low items high)).
Proof.
  simpl. apply soft_bind.
  - unfold find_split_point. destruct (1 <? _); auto with soft. destruct (nth_error _ _); auto with soft. destruct (_ <? _); auto with soft. destruct (_ <? _); auto with soft.
  - intros [p|] _; auto with soft. destruct (nth_error _ _); auto with soft.
Qed.
Lemma isplit_soft d low lid items high : soft (isplit_sibling (IBase d low lid items high)).
Proof. unfold isplit_sibling. destruct (2 <=? _); auto with soft. destruct (nth_error _ _); auto with soft. Qed.
Lemma isearch_soft k c : soft (isearch k c).
Proof.
  cut (forall lid, soft (isearch_rec k lid c)). { intros H. unfold isearch. destruct (ihigh c) as [[h ?]|]; auto. destruct (klt k h); auto with soft. }
  intros lid. induction c; cbn [isearch_rec]; auto with soft.
  - destruct items as [|[a i0] r]; auto with soft. cbn zeta. destruct (nth_error _ _); auto with soft. destruct (keq _ _); auto with soft.
  - destruct (keq _ _); auto with soft.
  - destruct (keq _ _); auto with soft.
  - destruct (kge _ _); auto.
Qed.
Lemma locate_soft k items a b : soft (locate k items a b).
Proof. unfold locate. destruct (_ && _); auto with soft. cbn zeta. match goal with |- soft (match ?x with _ => _ end) => destruct x end; auto with soft. destruct (nth_error _ _); auto with soft. Qed.
Lemma inavigate_soft k c : soft (inavigate k c).
Proof.
  unfold inavigate. generalize 1, (ilen c). induction c as [d low lid items high|[s i] nx loc c IH|[s i] [ps pi] nx loc c IH|k' sib n c IH|id c IH|mk id r IHr c IHc|p c IH]; intros a b; cbn [inav]; auto with soft.
  - destruct items; auto with soft. apply locate_soft.
  - destruct (kge _ _); auto. destruct (before_next _ _); auto with soft.
  - destruct (_ && _); auto with soft. destruct (kge _ _); auto.
  - destruct (kge _ _); auto.
Qed.
Lemma inavBI_soft k c : soft (inavBI k c).
Proof.
  induction c as [d low lid items high|[s i] nx loc c IH|[s i] [ps pi] nx loc c IH|k' sib n c IH|id c IH|mk id r IHr c IHc|p c IH]; cbn [inavBI]; auto with soft.
  - unfold locateBI. destruct items as [|x r]; auto with soft. cbn zeta. match goal with |- soft (match ?y with _ => _ end) => destruct y end; auto with soft.
    destruct (keq _ _); auto with soft. match goal with |- soft (match ?y with _ => _ end) => destruct y end; auto with soft. match goal with |- soft (match ?y with _ => _ end) => destruct y end; auto with soft.
  - destruct (_ && _); auto with soft.
  - destruct (_ && _); auto with soft.
  - destruct (kgt _ _); auto.
Qed.
Lemma ileft_loop_soft items fuel : forall i1 s counter left, counter <> 0 \/ left <> None -> soft (ileft_loop fuel items i1 s counter left).
Proof.
  assert (Hs : forall c (x : sep), c <> 0 \/ Some x <> None) by (intros; right; discriminate).
  induction fuel as [|f IH]; intros i1 s counter left Hc; (destruct counter as [|cn]; [destruct left; cbn [ileft_loop]; auto with soft; destruct Hc; congruence|]); cbn [ileft_loop]; auto with soft.
  destruct s as [|d s].
  - destruct i1 as [|j]; auto with soft. destruct (nth_error items j); auto with soft.
  - destruct i1 as [|[|j]]; auto with soft; [destruct (s_ins d); auto|].
    destruct (nth_error items (S j)); auto with soft.
    destruct (keq _ _); [destruct (s_ins d); auto|]. destruct (klt _ _); auto. destruct (s_ins d); auto.
Qed.
Lemma ileft_soft k c : soft (ileft k c).
Proof.
  cut (forall cap s, length s + idepth c <= cap -> soft (ileft_rec cap k c s)).
  { intros H. unfold ileft. destruct (ihigh c) as [[h i]|]; [destruct (klt k h); auto with soft|]; apply H; simpl; lia. }
  intros cap. induction c as [d low lid0 items high|[sk i] nx loc c IH|[sk i] [ps pi] nx loc c IH|sk sib n c IH|id c IH|mk id r IHr c IHc|p c IH];
    intros s Hl; cbn [ileft_rec idepth] in *; auto with soft.
  - apply soft_bind; [apply ileft_loop_soft; left; discriminate|]. auto with soft.
  - destruct (kle _ k); [|apply IH; lia]. rewrite sinsert_ok by (try apply insert_length; lia). cbn [bind].
    apply IH. pose proof (insert_length sgt {| s_ins := true; s_item := (sk, i) |} s). lia.
  - destruct (kle _ k); [|apply IH; lia]. rewrite sinsert_ok by (try apply insert_length; lia). cbn [bind].
    apply IH. pose proof (insert_length sgt {| s_ins := false; s_item := (sk, i) |} s). lia.
Qed.

(** What the invariant says about a single page. *)
Definition ibody (c : ichain) : ichain := match c with IRemove _ c' | IAbort _ c' => c' | _ => c end.
Definition wfn (n : node) : Prop := match n with NLeaf c => lwfw (lbody c) | NInner c => exists f, iwf f (ibody c) end.
Lemma bodyok_wfn w n : bodyok w n -> wfn n.
Proof.
  destruct n as [c|c]; simpl; auto. destruct c; simpl; try (intros [H _]; eexists; exact H). intros [[H _] _]. eexists; exact H.
Qed.
Lemma iconsolidate_soft d c : wfn (NInner c) -> soft (iconsolidate d c).
Proof.
  intros [f Hw]. assert (H : iwf f c \/ (exists i c', c = IRemove i c') \/ (exists i c', c = IAbort i c')) by (destruct c; simpl in Hw; eauto).
  destruct H as [H|[(i & c' & ->)|(i & c' & ->)]].
  - destruct (iconsolidate_spec f c d H) as (rest & E & _). rewrite E. auto with soft.
  - apply soft_er. auto with soft.
  - apply soft_er. auto with soft.
Qed.
Lemma lloop_weak fuel items : forall l cs ce e, lloop fuel items cs ce l = Er e -> e = ERange \/ e = EAssert \/ e = EFuel.
Proof.
  assert (Hsl : forall a b e, slice items a b = Er e -> e = ERange). { unfold slice. intros a b e. destruct (_ && _); congruence. }
  induction fuel as [|f IH]; intros l cs ce e; destruct l as [|d l]; cbn [lloop]; try (intros E; apply Hsl in E; auto; fail).
  - intros E. injection E as <-. auto.
  - destruct (_ && _); [|intros E; injection E as <-; auto]. destruct (slice items cs (d_idx d)) as [a|e'] eqn:Es; cbn [bind]; [|intros E; injection E as <-; apply Hsl in Es; auto].
    destruct (ldrain _ _ _) as [[o ov] rest]. destruct (lloop f items _ ce rest) eqn:El; cbn [bind]; [discriminate|]. intros E. injection E as <-. eapply IH; eauto.
Qed.
Lemma lcollect_weak c : forall cap hk s ds e, lcollect cap hk c s ds = Er e -> e <> ENull /\ e <> EKind /\ e <> EUninit.
Proof.
  assert (Hb : forall cap x (ds : @bloom (K * V)) e, binsert phash cap x ds = Er e -> e <> ENull /\ e <> EKind /\ e <> EUninit).
  { intros cap x ds e. unfold binsert. destruct (_ <? _); [discriminate|]. intros E. injection E as <-. repeat split; discriminate. }
  induction c as [low items high|k' v' ix c IH|k' v' ix c IH|sk sib n c IH|id c IH|mk id r IHr c IHc]; intros cap hk s ds e; cbn [lcollect].
  - destruct (lloop _ _ _ _ _) as [out|e'] eqn:E; cbn [bind]; [discriminate|]. intros E'. injection E' as <-. apply lloop_weak in E as [->|[->| ->]]; repeat split; discriminate.
  - destruct (pseen _ _); [apply IH|]. destruct (binsert _ _ _ _) eqn:E; cbn [bind]; [apply IH|]. intros E'. injection E' as <-. eapply Hb; eauto.
  - destruct (pseen _ _); [apply IH|]. destruct (binsert _ _ _ _) eqn:E; cbn [bind]; [apply IH|]. intros E'. injection E' as <-. eapply Hb; eauto.
  - apply IH.
  - intros E. injection E as <-. repeat split; discriminate.
  - destruct (lcollect cap (lhigh c) c s ds) as [[[o1 s1] ds1]|] eqn:E1; cbn [bind]; [|intros E; injection E as <-; eapply IHc; eauto].
    destruct (lcollect cap (lhigh r) r s1 ds1) as [[[o2 s2] ds2]|] eqn:E2; cbn [bind]; [discriminate|]. intros E; injection E as <-; eapply IHr; eauto.
Qed.
Lemma lconsolidate_weak c e : lconsolidate c = Er e -> e <> ENull /\ e <> EKind /\ e <> EUninit.
Proof.
  unfold lconsolidate. destruct (lcollect _ _ _ _ _) as [[[out ?] ?]|e'] eqn:E; cbn [bind].
  - destruct (Z.ltb _ _); [intros E'; injection E' as <-; repeat split; discriminate|]. destruct (Z.eqb _ _); [discriminate|]. intros E'; injection E' as <-; repeat split; discriminate.
  - intros E'. injection E' as <-. eapply lcollect_weak; eauto.
Qed.

(** * Programs that never reach a [bad] error
    [T] is kept by every node written, [X] is known of every node read. *)
Section Fine.
Variable bad : err -> Prop.
Variables T X : node -> Prop.
Hypothesis bad_hard : forall e, bad e -> hard e.
Hypothesis nb_uninit : ~ bad EUninit.
Hypothesis CT : closed T.
Hypothesis XI : forall c, X (NInner c).
Definition gn (n : node) : Prop := wfn n /\ T n /\ X n.
Hypothesis Hcons : forall c e, gn (NLeaf c) -> lconsolidate c = Er e -> ~ bad e.

Fixpoint fine {A} (p : prog A) (R : A -> Prop) : Prop :=
  match p with
  | Ret a => R a
  | Err e => ~ bad e
  | PLoad i k => forall x, gn (snd x) -> fine (k x) R
  | Cas i o n k => T n /\ fine (k None) R /\ forall p, gn n -> fine (k (Some p)) R
  | CasPtr i o n k => forall b, fine (k b) R
  | LoadRoot k => forall r, fine (k r) R
  | CasRoot o n k => forall b, fine (k b) R
  | NewNode n k => T n /\ forall i, fine (k i) R
  end.
Lemma soft_fine {A} (r : res A) e : soft r -> r = Er e -> ~ bad e.
Proof. intros H E Hb. exact (H e E (bad_hard e Hb)). Qed.
Lemma nb_assert : ~ bad EAssert. Proof. intros H. exact (not_hard_assert (bad_hard _ H)). Qed.
Lemma nb_fuel : ~ bad EFuel. Proof. intros H. exact (not_hard_fuel (bad_hard _ H)). Qed.
Local Hint Resolve nb_assert nb_uninit nb_fuel : core.
Lemma fine_mono {A} (p : prog A) (R R' : A -> Prop) : (forall a, R a -> R' a) -> fine p R -> fine p R'.
Proof. intros Hm. induction p; simpl; auto; try (intros [? ?]; split; auto; fail). intros (? & ? & ?). auto. Qed.
Lemma fine_bind {A B} (p : prog A) (f : A -> prog B) R R' : fine p R -> (forall a, R a -> fine (f a) R') -> fine (pbind p f) R'.
Proof. intros Hp Hf. induction p; simpl in *; auto; try (destruct Hp; split; auto; fail). destruct Hp as (? & ? & ?). auto. Qed.
Lemma fine_lift {A} (r : res A) (R : A -> Prop) : soft r -> (forall a, r = Ok a -> R a) -> fine (lift r) R.
Proof. destruct r; simpl; auto. intros H _. eapply soft_fine; eauto. Qed.
Lemma fine_liftb {A B} (r : res A) (f : A -> prog B) R : soft r -> (forall a, r = Ok a -> fine (f a) R) -> fine (pbind (lift r) f) R.
Proof. intros Hs H. eapply fine_bind; [apply fine_lift; [exact Hs|exact H]|]. auto. Qed.
Lemma fine_cons {B} c (f : lchain -> prog B) R : gn (NLeaf c) -> (forall low items high, lconsolidate c = Ok (LBase low items high) -> fine (f (LBase low items high)) R) -> fine (pbind (lift (lconsolidate c)) f) R.
Proof.
  intros Hc Hf. destruct (lconsolidate c) as [c'|e] eqn:E; simpl; [|eapply Hcons; eauto]. destruct (lcons_base _ _ E) as (low & items & high & ->). auto.
Qed.

Definition pgood (p : par) : Prop := match p with PNode ps => gn (s_node ps) | _ => True end.
Definition good (x : ctx) : Prop := gn (s_node (cur x)) /\ pgood (prt x).
Definition ogood (b : bool) (o : option ctx) : Prop := match o with Some x => good x /\ is_leaf (s_node (cur x)) = b | None => True end.
Lemma gn_inner c f : iwf f (ibody c) -> gn (NInner c).
Proof. intros H. split; [exists f; exact H|]. split; [apply CT|apply XI]. Qed.

Lemma consolidate_fine s : gn (s_node s) -> fine (consolidate s) (fun s' => gn (s_node s') /\ is_leaf (s_node s') = is_leaf (s_node s)).
Proof.
  intros Hs. unfold consolidate. eapply fine_bind with (R := fun n => T n /\ is_leaf n = is_leaf (s_node s)).
  - destruct (s_node s) as [c|c].
    + apply fine_cons; [exact Hs|]. intros low items high _. simpl. split; [apply CT|reflexivity].
    + apply fine_liftb; [apply iconsolidate_soft, Hs|]. intros c' _. simpl. split; [apply CT|reflexivity].
  - intros n [Hn Hk]. simpl. split; [exact Hn|]. split; [auto|]. intros p Hg. auto.
Qed.
Lemma try_fine x : good x -> fine (try_consolidate x) (fun x' => good x' /\ is_leaf (s_node (cur x')) = is_leaf (s_node (cur x))).
Proof.
  intros Hx. unfold try_consolidate. destruct (is_delta _); [|split; auto]. destruct (match s_node (cur x) with NLeaf c => _ | NInner c => _ end); [|split; auto].
  eapply fine_bind; [apply consolidate_fine, Hx|]. intros s [Hs Hk]. split; [|exact Hk]. split; [exact Hs|apply Hx].
Qed.
Lemma parent_fine {A} s (f : ichain -> prog A) R : (forall c, s_node s = NInner c -> fine (f c) R) -> fine (pbind (parent_inner s) f) R.
Proof. intros Hf. unfold parent_inner. destruct (s_node s); simpl; auto. Qed.
Lemma post_remove_fine ps s rm (R : option ctx -> Prop) : T rm -> R None -> fine (post_remove ps s rm) R.
Proof.
  intros Hr HR. unfold post_remove. apply parent_fine. intros c _. simpl. split; [apply CT|]. split; [exact HR|]. intros p _. split; [exact Hr|].
  split; [intros [|]; simpl; auto|]. intros _ _ [|]; simpl; auto.
Qed.
Lemma adjust_fine x : good x -> fine (adjust x) (ogood (is_leaf (s_node (cur x)))).
Proof.
  intros Hx. assert (Hsame : ogood (is_leaf (s_node (cur x))) (Some x)) by (split; auto). unfold adjust.
  pose proof (proj1 (proj2 (proj1 Hx))) as HT. destruct (s_node (cur x)) as [[low items high| | | | |]|[d low lid items high| | | | | |]] eqn:En; try exact Hsame.
  - destruct (LEAF_SIZE_UPPER <=? length items).
    + apply fine_liftb; [apply lsplit_soft|]. intros [[[kk|] si hh| | | | |]|] _; simpl; auto. split; [apply CT|]. intros i. split; [apply CT, HT|]. split; [exact Hsame|]. intros p _. exact I.
    + destruct (length items <=? LEAF_SIZE_LOWER); [|exact Hsame]. destruct (prt x) as [| |ps] eqn:Ep; simpl; auto.
      apply parent_fine. intros c _. destruct (ilid c =? s_id (cur x)); [exact Hsame|]. apply post_remove_fine; simpl; auto. apply CT, HT.
  - destruct (INNER_SIZE_UPPER <=? length items).
    + apply fine_liftb; [apply isplit_soft|]. intros [d' [kk|] first si hh| | | | | |] _; simpl; auto. intros f _. destruct (is_remove (snd f)); simpl; [exact Hsame|]. split; [apply CT|]. intros i. split; [apply CT|]. split; [exact Hsame|]. intros p _. exact I.
    + destruct (length items <=? INNER_SIZE_LOWER); [|exact Hsame]. destruct (prt x) as [| |ps] eqn:Ep; simpl; auto.
      apply parent_fine. intros c _. destruct (ilid c =? s_id (cur x)); [exact Hsame|]. apply post_remove_fine; simpl; auto. apply CT.
Qed.
Lemma find_left_fine k ps : gn (s_node ps) -> fine (find_left k ps) (fun f => gn (s_node (snd f))).
Proof.
  intros Hp. unfold find_left. apply parent_fine. intros c Ec. apply fine_liftb; [apply ileft_soft|]. intros [i|] _; [exact Hp|].
  apply fine_liftb; [apply iconsolidate_soft; rewrite Ec in Hp; apply Hp|]. intros c' _. simpl. split; [apply CT|].
  split; [|intros p Hg]; (apply fine_liftb; [apply ileft_soft|]); intros [i|] _; simpl; auto.
Qed.
Definition jfine (jump : nat -> ctx -> prog (option ctx)) : Prop := forall i x, pgood (prt x) -> fine (jump i x) (ogood (is_leaf (s_node (cur x)))).
Lemma jump_left_fine jump x : jfine jump -> good x ->
  fine (jump_left jump x) (fun o => ogood (is_leaf (s_node (cur x))) o /\ match o with Some x' => nhigh (s_node (cur x')) <> None | None => True end).
Proof.
  intros Hj [_ Hx]. unfold jump_left. destruct (prt x) as [| |ps] eqn:Ep; simpl; auto. apply parent_fine. intros c _. destruct (ilid c =? s_id (cur x)); simpl; auto.
  intros y _. destruct (N.eqb (fst y) (s_ptr ps)); simpl; auto. eapply fine_bind; [apply find_left_fine; exact Hx|]. intros f Hf. eapply fine_bind; [apply Hj; exact Hf|]. intros [x'|] Hx'; simpl; auto.
  destruct (nhigh (s_node (cur x'))) as [[h n]|] eqn:Eh; simpl; auto. destruct (n =? s_id (cur x)); simpl; auto. split; [exact Hx'|]. rewrite Eh. discriminate.
Qed.
Lemma finish_merge_fine x dk di nx : good x -> fine (finish_merge x dk di nx) (ogood (is_leaf (s_node (cur x)))).
Proof.
  intros Hx. pose proof (proj1 Hx) as Hc. unfold finish_merge. destruct (prt x) as [| |ps] eqn:Ep; simpl; auto. intros y _. destruct (N.eqb (fst y) (s_ptr ps)); simpl; auto.
  apply parent_fine. intros c _. apply fine_liftb; [apply isearch_soft|]. intros [[[a fi]|] loc] _; simpl; [|split; [exact Hx|reflexivity]].
  destruct (fi =? di); simpl; auto. split; [apply CT|]. split; [exact I|]. intros p Hg. intros g _. destruct (is_remove (snd g)); simpl; auto.
  eapply fine_bind; [apply consolidate_fine; exact Hc|]. intros s [Hs Hk]. split; [|exact Hk]. split; [exact Hs|exact Hg].
Qed.
Lemma finish_split_fine x k sib nx : good x -> fine (finish_split x k sib nx) (ogood (is_leaf (s_node (cur x)))).
Proof.
  intros Hx. assert (Hsame : ogood (is_leaf (s_node (cur x))) (Some x)) by (split; auto). unfold finish_split. destruct (prt x) as [| |ps] eqn:Ep; simpl; auto. { split; [apply CT|]. intros r b. exact I. }
  apply parent_fine. intros c _. destruct (match ihigh c with Some (h, _) => kge k h | None => false end); [exact Hsame|]. apply fine_liftb; [apply isearch_soft|].
  intros [[[a fi]|] loc] _; simpl; [destruct (fi =? sib); simpl; auto|].
  split; [apply CT|]. split; [exact I|]. intros p Hg. eapply fine_bind; [apply consolidate_fine, Hx|]. intros s [Hs Hk]. split; [|exact Hk]. split; [exact Hs|exact Hg].
Qed.
Lemma strip_good s : gn (s_node s) -> gn (s_node (strip_snap s)) /\ is_leaf (s_node (strip_snap s)) = is_leaf (s_node s).
Proof.
  intros Hs. unfold strip_snap. destruct (s_node s) as [c|c] eqn:E; [rewrite E; auto|]. destruct Hs as [[f Hf] _].
  destruct c as [| | | | | |p c]; simpl; try (split; [eapply gn_inner; exact Hf|reflexivity]).
  simpl in Hf. destruct c; try (destruct Hf; fail); simpl; (split; [eapply gn_inner; exact Hf|reflexivity]).
Qed.
Lemma finish_smo_fine jump x : jfine jump -> good x -> fine (finish_smo jump x) (ogood (is_leaf (s_node (cur x)))).
Proof.
  intros Hj [Hx Hp]. destruct (strip_good _ Hx) as [Hs Hk]. unfold finish_smo. rewrite <- Hk. change (strip_snap (cur x)) with (cur (set_cur x (strip_snap (cur x)))) in Hs at 1.
  change (is_leaf (s_node (strip_snap (cur x)))) with (is_leaf (s_node (cur (set_cur x (strip_snap (cur x)))))).
  assert (Hy : good (set_cur x (strip_snap (cur x)))) by (split; auto). clear Hk Hx. revert Hs Hy. generalize (set_cur x (strip_snap (cur x))). clear x Hp. intros y Hs Hy. cbn zeta. assert (Hsame : ogood (is_leaf (s_node (cur y))) (Some y)) by (split; auto).
  destruct (s_node (cur y)) as [[]|[]] eqn:En; try (exact Hsame); try (rewrite <- En; apply finish_merge_fine; exact Hy); try (rewrite <- En; apply finish_split_fine; exact Hy).
  - eapply fine_bind; [apply jump_left_fine; [exact Hj|exact Hy]|]. rewrite En. intros [x'|] [Hx' Hh]; simpl; auto. destruct Hx' as [Hx' Hl]. destruct (s_node (cur x')) as [lc|] eqn:En'; [|discriminate]. simpl in Hh.
    destruct (lhigh lc) as [[mk ?]|]; [|congruence].
    split. { eapply (q_merge T CT); [apply Hs|]. destruct Hx' as [(_ & HT & _) _]. rewrite En' in HT. exact HT. } split; [exact I|]. intros p Hg. apply finish_merge_fine. split; [exact Hg|apply Hx'].
  - eapply fine_bind; [apply jump_left_fine; [exact Hj|exact Hy]|]. rewrite En. intros [x'|] [Hx' Hh]; simpl; auto. destruct Hx' as [Hx' Hl]. destruct (s_node (cur x')) as [|lc] eqn:En'; [discriminate|]. simpl in Hh.
    destruct (ihigh lc) as [[mk ?]|]; [|congruence].
    split; [apply CT|]. split; [exact I|]. intros p Hg. apply finish_merge_fine. split; [exact Hg|apply Hx'].
Qed.
Lemma settle_fine jump x : jfine jump -> good x -> fine (settle jump x) (ogood (is_leaf (s_node (cur x)))).
Proof.
  intros Hj Hx. unfold settle. eapply fine_bind; [apply finish_smo_fine; auto|]. intros [x'|] Hx'; simpl; auto. destruct Hx' as [Hx' Hk].
  eapply fine_bind; [apply try_fine; exact Hx'|]. intros x'' [Hx'' Hk']. rewrite <- Hk, <- Hk'. apply adjust_fine. exact Hx''.
Qed.
Lemma jump_fine f : jfine (jump_to f).
Proof.
  induction f as [|f IH]; intros i x Hx; simpl; auto. intros y Hy. destruct (Bool.eqb _ _) eqn:E; simpl; auto. destruct (negb _); simpl; auto. apply eqb_prop in E. rewrite <- E.
  apply (settle_fine (jump_to f) (set_cur x {| s_id := i; s_ptr := fst y; s_node := snd y |})); [exact IH|]. split; auto.
Qed.
Definition osome (o : option ctx) : Prop := match o with Some x => good x | None => True end.
Lemma ogood_osome b o : ogood b o -> osome o.
Proof. destruct o; simpl; tauto. Qed.
Lemma load_fine f k p i : pgood p -> fine (load_node f k p i) osome.
Proof. simpl. intros Hp y Hy. eapply fine_mono; [intros a; apply ogood_osome|]. apply settle_fine; [apply jump_fine|split; auto]. Qed.
Lemma chain_fine go f : forall x, good x -> fine (sibling_chain go f x) osome.
Proof.
  induction f as [|f IH]; intros x Hx; simpl; auto. destruct (nhigh (s_node (cur x))) as [[h n]|]; [|exact Hx]. destruct (go (key x) h); [|exact Hx].
  eapply fine_bind; [apply jump_fine, Hx|]. intros [x'|] Hx'; simpl; auto. apply IH, Hx'.
Qed.
Lemma nav_fine go nav f x : (forall k c, soft (nav k c)) -> good x -> fine (nav_inner go nav f x) (fun o => match o with Some (_, x') => good x' | None => True end).
Proof.
  intros Hn Hx. unfold nav_inner. eapply fine_bind; [apply chain_fine; exact Hx|]. intros [x'|] Hx'; simpl; auto. destruct (s_node (cur x')); simpl; auto. apply fine_liftb; [apply Hn|]. intros i _. exact Hx'.
Qed.
Lemma descend_fine go nav f : (forall k c, soft (nav k c)) -> forall x, good x -> fine (descend go nav f x) osome.
Proof.
  intros Hn. induction f as [|f IH]; intros x Hx; [exact nb_fuel|]. cbn [descend]. eapply fine_bind; [apply nav_fine; auto|]. intros [[i x']|] Hx'; [|exact I].
  eapply fine_bind; [apply load_fine; exact (proj1 Hx')|]. intros [z|] Hz; [|exact I]. destruct (is_leaf _); [exact Hz|apply IH, Hz].
Qed.
Lemma attempt_fine go nav f k : (forall k c, soft (nav k c)) -> fine (attempt go nav f k) osome.
Proof.
  intros Hn. unfold attempt. intros r. eapply fine_bind; [apply load_fine; exact I|]. intros [x|] Hx; [|exact I].
  eapply fine_bind; [apply descend_fine; auto|]. intros [z|] Hz; [|exact I]. apply chain_fine. exact Hz.
Qed.
Lemma traverse_fine go nav f : (forall k c, soft (nav k c)) -> forall k, fine (traverse_with go nav f k) good.
Proof.
  intros Hn. induction f as [|f IH]; intros k; [exact nb_fuel|]. cbn [traverse_with]. eapply fine_bind; [apply attempt_fine, Hn|]. intros [x|] Hx; [exact Hx|apply IH].
Qed.
Lemma leaf_fine {A} x (f : lchain -> prog A) R : good x -> (forall c, gn (NLeaf c) -> fine (f c) R) -> fine (pbind (leaf_of x) f) R.
Proof. unfold good, leaf_of. intros [Hx _] Hf. destruct (s_node (cur x)); simpl; auto. Qed.

Lemma insert_fine f k v : (forall c ix, gn (NLeaf c) -> lcheck k v c = Ok (false, ix) -> T (NLeaf (LIns k v ix c))) -> fine (insert f k v) (fun _ => True).
Proof.
  intros Hi. induction f as [|f IH]; [exact nb_fuel|]. cbn [insert]. eapply fine_bind; [apply traverse_fine, inavigate_soft|]. intros x Hx. apply leaf_fine; auto. intros c Hc.
  apply fine_liftb; [apply lcheck_soft|]. intros [[|] ix] E; simpl; auto.
Qed.
Lemma delete_fine f k v : (forall c ix, gn (NLeaf c) -> lcheck k v c = Ok (true, ix) -> T (NLeaf (LDel k v ix c))) -> fine (delete f k v) (fun _ => True).
Proof.
  intros Hi. induction f as [|f IH]; [exact nb_fuel|]. cbn [delete]. eapply fine_bind; [apply traverse_fine, inavigate_soft|]. intros x Hx. apply leaf_fine; auto. intros c Hc.
  apply fine_liftb; [apply lcheck_soft|]. intros [[|] ix] E; simpl; auto.
Qed.
Lemma cond_fine f k v pred : (forall c ix, gn (NLeaf c) -> lcond pred k v c = Ok (CAbsent ix) -> T (NLeaf (LIns k v ix c))) -> fine (cond_insert f k v pred) (fun _ => True).
Proof.
  intros Hi. induction f as [|f IH]; [exact nb_fuel|]. cbn [cond_insert]. eapply fine_bind; [apply traverse_fine, inavigate_soft|]. intros x Hx. apply leaf_fine; auto. intros c Hc.
  apply fine_liftb; [apply lcond_soft|]. intros [| |ix] E; simpl; auto.
Qed.
Lemma load_ro_fine k i : fine (load_ro k i) osome.
Proof.
  intros y Hy. destruct (strip_good {| s_id := i; s_ptr := fst y; s_node := snd y |} Hy) as [Hs _]. cbn zeta. destruct (is_remove _); [exact I|]. split; [exact Hs|exact I].
Qed.
Lemma descend_ro_fine f : forall x, good x -> fine (descend_ro f x) osome.
Proof.
  induction f as [|f IH]; intros x Hx; [exact nb_fuel|]. cbn [descend_ro]. eapply fine_bind; [apply nav_fine; [apply inavigate_soft|exact Hx]|]. intros [[i x']|] _; [|exact I].
  eapply fine_bind; [apply load_ro_fine|]. intros [y|] Hy; [|exact I]. destruct (is_leaf _); [apply chain_fine; exact Hy|apply IH; exact Hy].
Qed.
Lemma get_fine f k : fine (get_value f k) (fun _ => True).
Proof.
  induction f as [|f IH]; [exact nb_fuel|]. cbn [get_value fine]. intros r. eapply fine_bind; [apply load_ro_fine|]. intros [x|] Hx; [|exact IH].
  eapply fine_bind; [apply descend_ro_fine; exact Hx|]. intros [y|] Hy; [|exact IH]. apply leaf_fine; auto. intros c _. apply fine_lift; [apply lvalues_soft|auto].
Qed.
Lemma fetch_fine go nav f k : (forall k c, soft (nav k c)) -> fine (fetch (traverse_with go nav) f k) (fun _ => True).
Proof.
  intros Hn. unfold fetch. eapply fine_bind; [apply traverse_fine, Hn|]. intros x Hx. apply leaf_fine; auto. intros c Hc. apply fine_cons; [exact Hc|]. intros; exact I.
Qed.
Lemma code_fine f o : match o with
    | OpIns k v => forall c ix, gn (NLeaf c) -> lcheck k v c = Ok (false, ix) -> T (NLeaf (LIns k v ix c))
    | OpDel k v => forall c ix, gn (NLeaf c) -> lcheck k v c = Ok (true, ix) -> T (NLeaf (LDel k v ix c))
    | OpCond k v pred => forall c ix, gn (NLeaf c) -> lcond pred k v c = Ok (CAbsent ix) -> T (NLeaf (LIns k v ix c))
    | _ => True end -> fine (code f o) (fun _ => True).
Proof.
  destruct o as [k v|k v|k v pred|k|k|k|]; intros Ho; unfold code.
  - eapply fine_bind; [apply insert_fine; auto|]. intros; exact I.
  - eapply fine_bind; [apply delete_fine; auto|]. intros; exact I.
  - eapply fine_bind; [apply cond_fine; auto|]. intros; exact I.
  - eapply fine_bind; [apply get_fine|]. intros; exact I.
  - apply fetch_fine, inavigate_soft.
  - apply fetch_fine, inavBI_soft.
  - simpl. intros y Hy. destruct (snd y); simpl; auto. apply fine_cons; [exact Hy|]. intros; exact I.
Qed.

(** One step. *)
Lemma cell_wfn w i x : wok w -> pub w i -> get (wm w) i = Some x -> wfn (snd x).
Proof.
  intros Hw Hp Hg. destruct (k_pub _ Hw _ Hp) as (n & Hn & Hb & _). unfold node_of in Hn. rewrite Hg in Hn. injection Hn as <-. eapply bodyok_wfn; eauto.
Qed.
Lemma fine_step {A} D own (p : prog A) Q h R : hgood h -> safe D own p Q h -> fine p R ->
  heapok T (wm (now h)) -> heapok X (wm (now h)) -> heapok X (fst (pstep (wm (now h)) p)) ->
  heapok T (fst (pstep (wm (now h)) p)) /\ fine (snd (pstep (wm (now h)) p)) R.
Proof.
  intros Hg Hs Hf HT HX HX'. pose proof (now_ok h Hg) as Hw. assert (Hr : hext own h h) by (apply hext_refl; auto).
  destruct p; simpl in *; auto.
  - destruct (Hs h Hr) as [Hp _]. destruct (get (wm (now h)) i) as [x|] eqn:E; simpl.
    + split; auto. apply Hf. split; [eapply cell_wfn; eauto|]. split; eapply get_ok; eauto.
    + destruct (k_pub _ Hw _ Hp) as (n & Hn & _). unfold node_of in Hn. rewrite E in Hn. discriminate.
  - destruct Hf as (Hn & Hf0 & Hf1). destruct (Hs h Hr) as [_ H2]. destruct (tab (wm (now h)) i) as [p'|] eqn:E; simpl; auto. destruct (N.eqb p' old) eqn:Eo; simpl in *; auto. apply N.eqb_eq in Eo. subst p'.
    destruct (H2 eq_refl) as (Hp & pb & [Hok Hle _] & _). split; [exact (heap_set T (wm (now h)) _ n HT Hn)|]. apply Hf1. split; [|split; [exact Hn|]].
    + apply (cell_wfn _ i (nptr (wm (now h)), n) Hok); [apply (l_pub _ _ Hle); exact Hp|]. apply get_intro; simpl; [apply fset_eq|apply pfset_eq].
    + apply (HX' (nptr (wm (now h)))). apply pfset_eq.
  - destruct (tab (wm (now h)) i) as [p'|]; simpl; auto. destruct (N.eqb p' old); simpl; auto.
  - destruct (root (wm (now h)) =? old); simpl; auto.
  - destruct Hf as [Hn Hf]. split; auto. exact (heap_set T (wm (now h)) _ n HT Hn).
Qed.
End Fine.

(** * Executions *)
Section Runs.
Variable bad : err -> Prop.
Variable T : node -> Prop.
Variable X : op -> node -> Prop.
Lemma running_set s t x u : @tset (option (op * prog resp)) (running s) t x u = if u =? t then x else running s u.
Proof. reflexivity. Qed.
Lemma exec_fine tr ss s : heapok T minit -> exec tr ss s ->
  (forall s' t o p, In s' ss -> running s' t = Some (o, p) -> heapok (X o) (sm s')) ->
  (forall f o, fine bad T (X o) (code f o) (fun _ => True)) ->
  heapok T (sm s) /\ forall t o p, running s t = Some (o, p) -> fine bad T (X o) p (fun _ => True).
Proof.
  intros H0 Hx HX Hc. induction Hx as [|tr ss s e s' Hx IH Hs]; [split; [exact H0|discriminate]|].
  destruct IH as [HT Hr]. { intros s1 t o p Hi. apply (HX s1 t o p). right; exact Hi. }
  inversion Hs as [s1 t o fuel Hn|s1 t o p Hp Hnr Hne|s1 t o r Hp]; subst; simpl.
  - split; [exact HT|]. intros u o' p' Hu. rewrite running_set in Hu. destruct (u =? t); [injection Hu as <- <-; apply Hc|eauto].
  - assert (H : heapok T (fst (pstep (sm s) p)) /\ fine bad T (X o) (snd (pstep (sm s) p)) (fun _ => True)).
    { destruct (exec_ginv false tr ss s Hx) as (w & g & G); [discriminate|]. pose proof (gi_thread _ _ _ _ _ _ G t) as Ht. unfold thread_ok in Ht. destruct (g t) as [|o' own h|o' r].
      - congruence.
      - destruct Ht as (p' & Ep & Hsafe & Hgood & Hnow & _). assert (p' = p /\ o' = o) as [-> ->] by (split; congruence).
        pose proof (gi_mem _ _ _ _ _ _ G) as Em. rewrite <- Hnow in Em. rewrite <- Em in *.
        apply (fine_step bad T (X o) (act o) own p (done o) h); auto.
        + eapply Hr; eauto.
        + rewrite Em. apply (HX s t o p); [|exact Hp]. right. eapply exec_head; eauto.
        + rewrite Em in *. apply (HX _ t o (snd (pstep (sm s) p)) (or_introl eq_refl)). simpl. apply tset_same.
      - exfalso. assert (p = Ret r) by congruence. eapply Hnr; eauto. }
    destruct H as [H1 H2]. split; [exact H1|]. intros u o' p' Hu. rewrite running_set in Hu. destruct (u =? t); [injection Hu as <- <-; exact H2|eauto].
  - split; [exact HT|]. intros u o' p' Hu. rewrite running_set in Hu. destruct (u =? t); [discriminate|eauto].
Qed.
End Runs.

(** ** No null page, no page of the wrong kind *)
Lemma no_null_kind tr ss s t o p e : exec tr ss s -> running s t = Some (o, p) -> p = Err e -> e <> ENull /\ e <> EKind.
Proof.
  intros Hx Hr ->. set (any := fun _ : node => True).
  assert (HA : forall m, heapok any m) by (intros m q n _; exact I).
  assert (CA : closed any) by (constructor; intros; exact I).
  destruct (exec_fine (fun e => e = ENull \/ e = EKind) any (fun _ => any) tr ss s) as [_ H]; auto.
  - intros f o'. apply code_fine; auto.
    + intros e' [->| ->]; unfold hard; auto.
    + intros [H|H]; discriminate.
    + intros c. exact I.
    + intros c e' _ E He. destruct (lconsolidate_weak _ _ E). tauto.
    + destruct o'; intros; exact I.
  - specialize (H t o _ Hr). simpl in H. tauto.
Qed.

(** ** Room *)
(** The position recorded by a delta is exact: it does not claim that a pair of
    the base page is missing from it. *)
Fixpoint tagged (c : lchain) : Prop :=
  match c with
  | LBase _ _ _ => True
  | LIns k v ix c | LDel k v ix c => tagged c /\ (lwfw c -> in_range c k -> pos_ok (lbase_for k c) k v ix)
  | LSplit _ _ _ c | LRemove _ c => tagged c
  | LMerge _ _ r c => tagged r /\ tagged c
  end.
Definition tnode (n : node) : Prop := match n with NLeaf c => tagged c | NInner _ => True end.
Lemma tnode_closed : closed tnode.
Proof. constructor; simpl; tauto. Qed.
Lemma tagged_lwf c : tagged c -> lwfw c -> lwf c.
Proof.
  induction c as [low items high|k v ix c IH|k v ix c IH|sk sib n c IH|i c IH|mk i r IHr c IHc]; simpl; auto.
  - intros [Ht Hi] (Hw & Hr & Hm & _). repeat (split; auto).
  - intros [Ht Hi] (Hw & Hr & Hm & _). repeat (split; auto).
  - destruct c; auto.
  - intros [H1 H2] (Hc & Hr & E1 & E2). repeat (split; auto).
Qed.
Definition xnode (o : op) : node -> Prop := match o with OpCond k v _ => nodel k v | _ => fun _ => True end.
Lemma tagged_room c : tagged c -> lwfw (lbody c) -> soft (lconsolidate c).
Proof.
  intros Ht Hw. assert (H : lwfw c \/ exists i c', c = LRemove i c') by (destruct c; simpl in Hw; eauto). destruct H as [H|(i & c' & ->)].
  - destruct (lconsolidate_spec c (tagged_lwf c Ht H)) as (items & E & _). rewrite E. auto with soft.
  - apply soft_er. auto with soft.
Qed.
Lemma code_tagged f o : fine worst tnode (xnode o) (code f o) (fun _ => True).
Proof.
  apply code_fine; auto.
  - apply worst_hard.
  - intros [H|[H|H]]; discriminate.
  - apply tnode_closed.
  - intros c. unfold xnode. destruct o; exact I.
  - intros c e (Hw & Ht & _) E Hb. apply (tagged_room c Ht Hw _ E), worst_hard, Hb.
  - destruct o as [k v|k v|k v pred|k|k|k|]; auto.
    + intros c ix (_ & Ht & _) E. split; [exact Ht|]. intros Hw Hr. destruct (lcheck_spec c k v (tagged_lwf c Ht Hw) Hr) as (b & ix' & E' & _ & Hp). rewrite E in E'. injection E' as <- <-. exact Hp.
    + intros c ix (_ & Ht & _) E. split; [exact Ht|]. intros Hw Hr. destruct (lcheck_spec c k v (tagged_lwf c Ht Hw) Hr) as (b & ix' & E' & _ & Hp). rewrite E in E'. injection E' as <- <-. exact Hp.
    + intros c ix (_ & Ht & Hn) E. split; [exact Ht|]. intros Hw Hr. destruct (lcondw_spec pred c k v Hw Hr) as (r & E' & Hp). rewrite E in E'. injection E' as <-. destruct Hp as (-> & Hm & _).
      split; [reflexivity|]. intros Hi. apply Hm. apply stored_mem; auto; [apply tagged_lwf; auto|]. apply stored_base. exact Hi.
Qed.

Lemma running_current tr ss s : exec tr ss s -> forall t, option_map fst (running s t) = current tr t.
Proof.
  intros Hx. induction Hx as [|tr ss s e s' Hx IH Hs]; intros t; [reflexivity|].
  inversion Hs as [s1 u o fuel Hn|s1 u o p Hp Hnr Hne|s1 u o r Hp]; subst; simpl; rewrite running_set, <- IH; try rewrite (Nat.eqb_sym u t); destruct (t =? u) eqn:E; auto.
  apply Nat.eqb_eq in E. subst. rewrite Hp. reflexivity.
Qed.
Lemma nodel_exec k v tr ss s : exec tr ss s -> ~ deleted tr k v ->
  heapok (nodel k v) (sm s) /\ forall t o p, running s t = Some (o, p) -> keeps (nodel k v) p (fun _ => True).
Proof.
  intros Hx. induction Hx as [|tr ss s e s' Hx IH Hs]; intros Hd.
  - split; [|discriminate]. intros [|[q|q|]] n; simpl; try discriminate; intros E; injection E as <-; simpl; auto.
  - destruct IH as [HT Hr]. { intros (t & Ht). apply Hd. exists t. right. exact Ht. }
    inversion Hs as [s1 t o fuel Hn|s1 t o p Hp Hnr Hne|s1 t o r Hp]; subst; simpl.
    + split; [exact HT|]. intros u o' p' Hu. rewrite running_set in Hu. destruct (u =? t); [injection Hu as <- <-|eauto]. apply code_keeps; [apply closed_w, nodel_closed|].
      destruct o as [k' v'|k' v'|k' v' pred|k'|k'|k'|]; simpl; auto. intros ix c Hc [[-> ->]|H]; [|tauto]. apply Hd. exists t. left. reflexivity.
    + destruct (keeps_step _ p (fun _ => True) (sm s) HT (Hr _ _ _ Hp)) as [H1 H2]. split; [exact H1|]. intros u o' p' Hu. rewrite running_set in Hu. destruct (u =? t); [injection Hu as <- <-; exact H2|eauto].
    + split; [exact HT|]. intros u o' p' Hu. rewrite running_set in Hu. destruct (u =? t); [discriminate|eauto].
Qed.
Lemma fresh_xnode tr ss s : exec tr ss s -> conds_fresh tr ->
  forall s' t o p, In s' ss -> running s' t = Some (o, p) -> heapok (xnode o) (sm s').
Proof.
  intros Hx. induction Hx as [|tr ss s e s' Hx IH Hs]; intros Hf s1 t o p Hi Hr.
  - destruct Hi as [<-|[]]. discriminate.
  - destruct Hf as [Hf Hc]. destruct Hi as [<-|Hi]; [|eapply IH; eauto]. assert (Hx' : exec (e :: tr) (s' :: ss) s') by (econstructor; eauto).
    pose proof (running_current _ _ _ Hx' t) as E. rewrite Hr in E. simpl option_map in E. unfold xnode. destruct o as [k v|k v|k v pred|k|k|k|]; try (intros q n _; exact I).
    eapply nodel_exec; [exact Hx'|]. eapply Hc. symmetry. exact E.
Qed.
Lemma fresh_run tr ss s : exec tr ss s -> conds_fresh tr ->
  heapok tnode (sm s) /\ forall t o p, running s t = Some (o, p) -> fine worst tnode (xnode o) p (fun _ => True).
Proof.
  intros Hx Hf. apply (exec_fine worst tnode xnode tr ss s); auto.
  - intros [|[q|q|]] n; simpl; try discriminate; intros E; injection E as <-; simpl; auto.
  - eapply fresh_xnode; eauto.
  - apply code_tagged.
Qed.
Lemma fresh_no_overrun tr ss s t o e : exec tr ss s -> conds_fresh tr -> running s t = Some (o, Err e) -> e <> EOverrun.
Proof.
  intros Hx Hf Hr ->. destruct (fresh_run tr ss s Hx Hf) as [_ H]. specialize (H _ _ _ Hr). simpl in H. apply H. left. reflexivity.
Qed.
Lemma fresh_leaf tr ss s i c : exec tr ss s -> conds_fresh tr -> reach (sm s) i -> node_of (sm s) i = Some (NLeaf c) -> is_remove (NLeaf c) = false -> lwf c.
Proof.
  intros Hx Hf Hr Hn Hm. destruct (fresh_run tr ss s Hx Hf) as [HT _]. destruct (exec_wok _ _ _ Hx) as (w & Ew & Hw). rewrite <- Ew in *.
  destruct (reach_leaf w i Hw Hr) as (_ & c' & Hc & Hb). assert (c' = c) by (unfold leaf in Hc; congruence). subst c'.
  apply tagged_lwf.
  - apply node_of_get in Hn as (p & Hg). apply (get_ok tnode _ i _ HT Hg).
  - destruct c; simpl in *; auto. discriminate.
Qed.
End TreeRoom.
