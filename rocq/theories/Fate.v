(** Every node has one owner, removed pages included. *)
From Coq Require Import NArith List Arith Lia Bool.
From Verif Require Import Base Leaf Inner Tree TreeSpec TreeInv MarkerSpec Marker GarbageSpec Garbage LinkSpec Links LinkProg LinkExec FateSpec.
Import ListNotations.

Section Fate.
Context {P : Params}.
(** What is used of Links. *)
Record facts (s : sys) : Prop := {
  f_gone : forall p n d, heap (sm s) p = Some n -> merges n d -> exists q rn, get (sm s) d = Some (q, rn) /\ absorbs n d rn;
  f_once : forall p q n n' d, heap (sm s) p = Some n -> heap (sm s) q = Some n' -> merges n d -> merges n' d -> p = q;
  f_one : forall p q n n' d, heap (sm s) p = Some n -> heap (sm s) q = Some n' -> cuts n d -> cuts n' d -> p = q;
  f_cut : forall d, cut (sm s) d -> merged (sm s) d;
  f_mlive : forall p q c, heap (sm s) p = Some (NInner (IAbort q c)) -> is_remove (NInner c) = false
}.
Lemma lived_facts s L : lived s L -> facts s.
Proof.
  intros H. destruct (lived_gok _ _ H) as (w & lv & Em & Hk). constructor; rewrite <- Em.
  - intros p n d Hp Hd. destruct (o_gone _ Hk p n d Hp Hd) as (q & rn & _ & A & B). eauto.
  - exact (o_once _ Hk).
  - exact (o_one _ Hk).
  - exact (o_cut _ Hk).
  - exact (o_mlive _ Hk).
Qed.
Lemma merged_tab s d : facts s -> merged (sm s) d -> exists q rn, tab (sm s) d = Some q /\ heap (sm s) q = Some rn /\ is_remove rn = true.
Proof.
  intros H (p & n & Hp & Hd). destruct (f_gone _ H _ _ _ Hp Hd) as (q & rn & Hg & Ha). apply get_tab in Hg as [A B]. exists q, rn. split; auto. split; auto. eapply absorbs_remove; eauto.
Qed.

(** The two logs. *)
Definition goes_to (s : sys) (L : log) (a b : N) : Prop :=
  exists n, heap (sm s) a = Some n /\ (In (a, b) (over L) /\ is_remove n = false \/ exists d q, merges n d /\ tab (sm s) d = Some q /\ In (q, b) (over L)).
Record rel (s : sys) (L : log) (F : flog) : Prop := {
  r_handed : forall g, In g (handed F) <-> In g (given L) \/ exists d, cut (sm s) d /\ tab (sm s) d = Some g;
  r_pend : forall a b, In (a, b) (pend F) <-> In (a, b) (over L) /\ exists n, heap (sm s) a = Some n /\ is_remove n = true;
  r_goes : forall a b, In (a, b) (goes F) <-> goes_to s L a b;
  r_once : NoDup (handed F);
  r_low : forall a b, In (a, b) (goes F) -> (b < a)%N
}.
Lemma merges_kind n d : merges n d -> is_delta n = true /\ is_remove n = false /\ unmarked n.
Proof. destruct n as [[]|[]]; simpl; tauto. Qed.
Lemma cuts_kind n d : cuts n d -> is_delta n = true /\ is_remove n = false /\ unmarked n.
Proof. destruct n as [[]|[]]; simpl; tauto. Qed.
Lemma rel_init : rel sinit {| given := []; over := [] |} {| handed := []; goes := []; pend := [] |}.
Proof.
  assert (Hh : forall p n, heap minit p = Some n -> is_delta n = false) by (intros [|[q|q|]] n E; inversion E; auto).
  constructor; simpl; try tauto; [| |constructor].
  - intros g. split; [tauto|]. intros [[]|(d & (p & n & Hp & Hc) & _)]. apply cuts_kind in Hc. specialize (Hh _ _ Hp). destruct Hc. congruence.
  - intros a b. split; [tauto|]. intros (n & _ & [[[] _]|(d & q & _ & _ & [])]).
Qed.
(** Steps that change nothing here. *)
Lemma rel_same s L F S s' : facts s -> ginv s L S -> rel s L F -> (forall p n, heap (sm s) p = Some n -> heap (sm s') p = Some n) ->
  (forall p n, heap (sm s') p = Some n -> heap (sm s) p = Some n \/ is_delta n = false) -> (forall d, merged (sm s) d -> tab (sm s') d = tab (sm s) d) -> rel s' L F.
Proof.
  intros Hf HS [R1 R2 R3 R4 R5] H1 H2 H3.
  assert (Hc : forall d, cut (sm s') d <-> cut (sm s) d).
  { intros d. split; intros (p & n & Hp & Hd); exists p, n; split; auto. destruct (H2 _ _ Hp); auto. apply cuts_kind in Hd. destruct Hd. congruence. }
  assert (Ho : forall a b, In (a, b) (over L) -> exists n, heap (sm s) a = Some n).
  { intros a b Hin. apply (g_under _ _ _ HS) in Hin. destruct (g_real _ _ _ HS _ _ Hin) as (na & nb & _ & E & _). eauto. }
  constructor; auto.
  - intros g. rewrite R1. split; intros [H|(d & Hd & Ht)]; auto; right; exists d.
    + split; [apply Hc; auto|]. rewrite H3; auto. apply (f_cut _ Hf). auto.
    + apply Hc in Hd. split; auto. rewrite <- H3; auto. apply (f_cut _ Hf). auto.
  - intros a b. rewrite R2. split; intros [Hin (n & Hn & Hr)]; split; auto; exists n; split; auto. destruct (Ho _ _ Hin) as [n' Hn']. pose proof (H1 _ _ Hn'). congruence.
  - intros a b. rewrite R3. unfold goes_to. split; intros (n & Hn & H).
    + exists n. split; auto. destruct H as [H|(d & q & Hm & Ht & Hin)]; auto. right. exists d, q. split; auto. split; auto. rewrite H3; auto. exists a, n. auto.
    + destruct H as [[Hin Hr]|(d & q & Hm & Ht & Hin)].
      * destruct (Ho _ _ Hin) as [n' Hn']. pose proof (H1 _ _ Hn'). exists n. split; [congruence|auto].
      * assert (Hn' : heap (sm s) a = Some n) by (destruct (H2 _ _ Hn); auto; apply merges_kind in Hm; destruct Hm; congruence). exists n. split; auto. right. exists d, q. split; auto. split; auto.
        rewrite <- H3; auto. exists a, n. auto.
Qed.
Lemma in_below F q b : In b (below_remove F q) <-> In (q, b) (pend F).
Proof.
  unfold below_remove. rewrite in_map_iff. split.
  - intros ((x & y) & <- & H). apply filter_In in H as [H E]. simpl in E. apply N.eqb_eq in E. subst. auto.
  - intros H. exists (q, b). split; auto. apply filter_In. split; auto. apply N.eqb_refl.
Qed.
Lemma in_entry m d q : In q (entry m d) <-> tab m d = Some q.
Proof. unfold entry. destruct (tab m d); simpl; split; intros H; [destruct H as [->|[]]; auto|left; congruence|contradiction|discriminate]. Qed.
Lemma in_right F m (a : N) d x b : In (x, b) (map (pair a) (flat_map (below_remove F) (entry m d))) <-> x = a /\ exists q, tab m d = Some q /\ In (q, b) (pend F).
Proof.
  rewrite in_map_iff. split.
  - intros (y & E & H). injection E as <- <-. split; auto. apply in_flat_map in H as (q & Hq & Hb). exists q. rewrite <- in_entry, <- in_below. auto.
  - intros [-> (q & Hq & Hb)]. exists b. split; auto. apply in_flat_map. exists q. rewrite in_entry, in_below. auto.
Qed.

(** A successful compare-and-swap. *)
Section Put.
Variables (s : sys) (L : log) (F : flog) (S : N -> stat) (t : nat) (op : op) (i : nat) (o : N) (n no : node) (k : option N -> prog resp) (s' : sys).
Hypothesis Hf : facts s.
Hypothesis Hf' : facts s'.
Hypothesis HS : ginv s L S.
Hypothesis HR : rel s L F.
Hypothesis Hr : running s t = Some (op, Cas i o n k).
Hypothesis Ht : tab (sm s) i = Some o.
Hypothesis Hno : heap (sm s) o = Some no.
Hypothesis Hlv : live no.
Hypothesis Em : sm s' = cas_mem (sm s) i n.
Hypothesis Hlow : forall p y, heap (sm s) p = Some y -> (p < nptr (sm s))%N.
Let a := nptr (sm s).
Let L' := note s (EStep t) L.
Let F' := fate s (EStep t) F.
Let D : Prop := is_delta n = true /\ unmarked n.

Local Lemma put_over x b : In (x, b) (over L') <-> In (x, b) (over L) \/ (D /\ x = a /\ b = o).
Proof.
  unfold L'. cbn [note]. rewrite Hr. apply swaps_eq in Ht as ->. unfold D. destruct n as [[]|[]]; simpl; fold a; (split; [intros H|intros H]); try tauto; try (destruct H as [E|H]; [injection E as <- <-|]; tauto);
    try (destruct H as [H|(_ & -> & ->)]; auto; fail); destruct H as [H|[[E _] _]]; auto; discriminate.
Qed.
Local Lemma put_given g : In g (given L') <-> In g (given L) \/ (is_delta n = false /\ g = o).
Proof.
  unfold L'. cbn [note]. rewrite Hr. apply swaps_eq in Ht as ->. destruct n as [[]|[]]; simpl; (split; [intros H|intros H]); try tauto; try (destruct H as [H|[E _]]; [auto|discriminate]); try (destruct H as [H|[_ ->]]; auto; fail);
    destruct H as [->|H]; auto.
Qed.
Local Lemma put_handed g : In g (handed F') <-> In g (handed F) \/ (is_delta n = false /\ g = o) \/ exists d, cuts n d /\ tab (sm s) d = Some g.
Proof.
  unfold F'. cbn [fate]. rewrite Hr. apply swaps_eq in Ht as ->. destruct n as [[]|[| |[kk dd]| | | |]]; simpl;
    try (split; [auto|intros [H|[[E _]|(d & [] & _)]]; [auto|discriminate]]; fail);
    try (split; [intros [->|H]; auto|intros [H|[[_ ->]|(d & [] & _)]]; auto]; fail).
  rewrite in_app_iff, in_entry. split; [intros [H|H]; eauto|]. intros [H|[[E _]|(d & -> & H)]]; auto. discriminate.
Qed.
Local Lemma put_pend x b : In (x, b) (pend F') <-> In (x, b) (pend F) \/ (is_remove n = true /\ x = a /\ b = o).
Proof.
  unfold F'. cbn [fate]. rewrite Hr. apply swaps_eq in Ht as ->. destruct n as [[]|[| |[kk dd]| | | |]]; simpl; fold a;
    try (split; [auto|intros [H|[E _]]; [auto|discriminate]]; fail); (split; [intros [E|H]; [injection E as <- <-|]; auto|intros [H|(_ & -> & ->)]; auto]).
Qed.
Local Lemma put_goes x b : In (x, b) (goes F') <-> In (x, b) (goes F) \/ (D /\ is_remove n = false /\ x = a /\ b = o) \/ (x = a /\ exists d q, merges n d /\ tab (sm s) d = Some q /\ In (q, b) (pend F)).
Proof.
  assert (X : forall d, In (x, b) ((a, o) :: map (pair a) (flat_map (below_remove F) (entry (sm s) d)) ++ goes F) <->
    In (x, b) (goes F) \/ (x = a /\ b = o) \/ (x = a /\ exists q, tab (sm s) d = Some q /\ In (q, b) (pend F))).
  { intros d. cbn [In]. rewrite in_app_iff, in_right. split.
    - intros [E|[H|H]]; [injection E as <- <-|..]; auto.
    - intros [H|[[-> ->]|H]]; auto. }
  unfold F', D. cbn [fate]. rewrite Hr. apply swaps_eq in Ht as ->. destruct n as [[]|[| |[kk dd]| | | |]]; cbn [goes merges is_delta unmarked is_remove]; fold a;
    try (rewrite X; split; [intros [H|[[-> ->]|[-> (q & H1 & H2)]]]; eauto 9|intros [H|[(_ & _ & -> & ->)|[-> (d & q & -> & H1 & H2)]]]; eauto 6]; fail);
    try (split; [auto|]; intros [H|[([E1 E2] & E & _)|[_ (d & q & [] & _)]]]; auto; try discriminate; contradiction);
    (split; [intros [E|H]; [injection E as <- <-; right; left; auto|auto]|intros [H|[(_ & _ & -> & ->)|[_ (d & q & [] & _)]]]; [right; auto|left; auto]]).
Qed.
Local Lemma put_facts : heap (sm s) a = None /\ heap (sm s') a = Some n /\ (forall p y, p <> a -> heap (sm s') p = Some y <-> heap (sm s) p = Some y) /\
  tab (sm s') i = Some a /\ (forall j, j <> i -> tab (sm s') j = tab (sm s) j).
Proof.
  rewrite Em. simpl. fold a. split; [destruct (heap (sm s) a) eqn:E; auto; apply Hlow in E; unfold a in E; lia|]. split; [apply pfset_eq|]. split; [intros p y Hp; rewrite pfset_ne by auto; tauto|]. split; [apply fset_eq|].
  intros j Hj. apply fset_ne. auto.
Qed.
Local Lemma put_old x b : In (x, b) (over L) -> x <> a /\ exists y, heap (sm s) x = Some y.
Proof. intros H. apply (g_under _ _ _ HS) in H. destruct (g_real _ _ _ HS _ _ H) as (na & nb & _ & E & _). split; eauto. intros ->. apply Hlow in E. unfold a in E. lia. Qed.
Local Lemma put_live d : merged (sm s) d -> d <> i.
Proof. intros H ->. destruct (merged_tab _ _ Hf H) as (q & rn & A & B & C). destruct Hlv. congruence. Qed.
Local Lemma put_new d : merges n d \/ cuts n d -> d <> i /\ exists q rn, tab (sm s) d = Some q /\ heap (sm s) q = Some rn /\ is_remove rn = true /\ q <> a.
Proof.
  intros H. destruct put_facts as (P1 & P2 & P3 & P4 & P5).
  assert (Hm : merged (sm s') d) by (destruct H as [H|H]; [exists a, n; auto|apply (f_cut _ Hf'); exists a, n; auto]).
  assert (Hk : is_remove n = false) by (destruct H as [H|H]; [apply merges_kind in H|apply cuts_kind in H]; tauto).
  destruct (merged_tab _ _ Hf' Hm) as (q & rn & A & B & C). assert (Hq : q <> a) by (intros ->; congruence). assert (Hd : d <> i) by (intros ->; rewrite P4 in A; congruence).
  split; auto. exists q, rn. rewrite P5 in A by auto. apply P3 in B; auto.
Qed.
Lemma put_rel : rel s' L' F'.
Proof.
  destruct put_facts as (P1 & P2 & P3 & P4 & P5). destruct HR as [R1 R2 R3 R4 R5].
  assert (Hpt : forall x y, heap (sm s) x = Some y -> heap (sm s') x = Some y) by (intros x y H; apply P3; auto; intros ->; congruence).
  assert (Hc : forall d, cut (sm s') d <-> cut (sm s) d \/ cuts n d).
  { intros d. split; [intros (p & y & Hp & Hd)|intros [(p & y & Hp & Hd)|Hd]; [exists p, y|exists a, n]; auto].
    destruct (N.eq_dec p a) as [->|Hpa]; [right; congruence|]. apply P3 in Hp; auto. left. exists p, y. auto. }
  assert (Hmt : forall d, merged (sm s) d -> tab (sm s') d = tab (sm s) d) by (intros d Hd; apply P5, put_live; auto).
  assert (Hnt : forall d, merges n d \/ cuts n d -> tab (sm s') d = tab (sm s) d) by (intros d Hd; apply P5, put_new; auto).
  assert (Hoa : ~ In o (handed F)).
  { intros H. apply R1 in H as [H|(d & Hd & Htd)].
    - apply (g_given _ _ _ HS) in H. apply (g_cur _ _ _ HS) in Ht. congruence.
    - apply (f_cut _ Hf) in Hd. destruct (merged_tab _ _ Hf Hd) as (q & rn & A & B & C). destruct Hlv. congruence. }
  constructor.
  - intros g. rewrite put_handed, put_given, R1. split.
    + intros [[H|(d & Hd & Htd)]|[H|(d & Hd & Htd)]]; auto; right; exists d; rewrite Hc; split; auto; [rewrite Hmt; auto; apply (f_cut _ Hf); auto|rewrite Hnt; auto].
    + intros [[H|H]|(d & Hd & Htd)]; auto. apply Hc in Hd as [Hd|Hd]; [rewrite Hmt in Htd by (apply (f_cut _ Hf); auto)|rewrite Hnt in Htd by auto]; eauto 6.
  - intros x b. rewrite put_pend, put_over, R2. split.
    + intros [[H (y & Hy & Hry)]|(Hrn & -> & ->)]; [split; auto; exists y; auto|]. split; [|exists n; auto]. right. split; auto. unfold D. destruct n as [[]|[]]; try discriminate; simpl; auto.
    + intros [[H|(HD & -> & ->)] (y & Hy & Hry)].
      * left. split; auto. exists y. split; auto. destruct (put_old _ _ H) as [Hx _]. apply P3; auto.
      * right. assert (y = n) by congruence. subst. auto.
  - intros x b. rewrite put_goes, R3. unfold goes_to. split.
    + intros [(y & Hy & H)|[(HD & Hrn & -> & ->)|[-> (d & q & Hd & Hq & Hin)]]].
      * exists y. split; auto. destruct H as [[H1 H2]|(d & q & Hd & Hq & Hin)]; [left; split; auto; apply put_over; auto|]. right. exists d, q. split; auto. split; [|apply put_over; auto]. rewrite Hmt; auto. exists x, y. auto.
      * exists n. split; auto. left. split; auto. apply put_over. auto.
      * exists n. split; auto. right. exists d, q. split; auto. split; [rewrite Hnt; auto|]. apply R2 in Hin as [Hin _]. apply put_over. auto.
    + intros (y & Hy & H). destruct (N.eq_dec x a) as [->|Hx].
      * assert (y = n) by congruence. subst y. right. destruct H as [[H1 H2]|(d & q & Hd & Hq & Hin)].
        -- apply put_over in H1 as [H1|(HD & _ & ->)]; [destruct (put_old _ _ H1) as [H _]; destruct H; auto|]. left. auto.
        -- right. split; auto. exists d, q. split; auto. destruct (put_new d) as (Hdi & q' & rn & Hq' & Hrn & Hrr & Hqa); auto. rewrite Hnt in Hq by auto. split; auto.
           assert (q' = q) by congruence. subst q'. apply R2. apply put_over in Hin as [Hin|(_ & -> & _)]; [split; eauto|contradiction].
      * left. exists y. apply P3 in Hy; auto. split; auto. destruct H as [[H1 H2]|(d & q & Hd & Hq & Hin)].
        -- left. split; auto. apply put_over in H1 as [H1|(HD & -> & _)]; auto. contradiction.
        -- right. exists d, q. assert (Hmd : merged (sm s) d) by (exists x, y; auto). rewrite Hmt in Hq by auto. split; auto. split; auto. apply put_over in Hin as [Hin|(_ & -> & _)]; auto. exfalso.
           destruct (merged_tab _ _ Hf Hmd) as (q & rn & A & B & C). congruence.
  - assert (Ho : forall q, ~ In q (handed F) -> NoDup (q :: handed F)) by (intros; constructor; auto).
    unfold F'. cbn [fate]. rewrite Hr. apply swaps_eq in Ht as Ht'. rewrite Ht'. pose proof put_new as Hn. pose proof P2 as P2'. clear P2. revert Hn P2'. destruct n as [[]|[| |[kk dd]| | | |]]; intros Hn P2; cbn [handed]; auto.
    destruct (Hn dd) as (Hdi & q & rn & A & B & C & _); [right; reflexivity|]. unfold entry. rewrite A. simpl. apply Ho. intros H. apply R1 in H as [H|(d' & Hd' & Htd)].
    + apply (g_given _ _ _ HS) in H. apply (g_cur _ _ _ HS) in A. congruence.
    + assert (d' = dd). { apply (g_cur _ _ _ HS) in A. apply (g_cur _ _ _ HS) in Htd. congruence. } subst d'. destruct Hd' as (p & y & Hp & Hy). apply Hpt in Hp as Hp'.
      assert (p = a) by (eapply (f_one _ Hf' p a); eauto; reflexivity). subst p. congruence.
  - intros x b Hin. apply put_goes in Hin as [Hin|[(_ & _ & -> & ->)|[-> (d & q & Hd & Hq & Hin)]]]; [auto|unfold a; eapply Hlow; eauto|].
    apply R2 in Hin as [Hin _]. apply (g_under _ _ _ HS) in Hin. destruct (g_real _ _ _ HS _ _ Hin) as (na & nb & E & _). unfold a. eapply Hlow; eauto.
Qed.
End Put.

Lemma fated_rel s F : fated s F -> exists L, lived s L /\ rel s L F.
Proof.
  induction 1 as [|s F e s' H (L & Hl & HR) Hs]; [eexists; split; [constructor|apply rel_init]|].
  assert (Hl' : lived s' (note s e L)) by (econstructor; eauto). exists (note s e L). split; auto.
  pose proof (lived_facts _ _ Hl) as Hf. pose proof (lived_facts _ _ Hl') as Hf'. destruct (lived_ginv _ _ Hl) as [St HS]. destruct (lived_exec _ _ Hl) as (tr & ss & Hx). destruct (exec_minv _ _ _ Hx) as [D Hm].
  assert (Hlow : forall p y, heap (sm s) p = Some y -> (p < nptr (sm s))%N) by (intros p y E; apply (mi_heap _ _ Hm _ _ E)).
  inversion Hs as [s0 t o fuel Hr|s0 t o p Hr Hnr Hne|s0 t o r Hr]; subst s0 e s'.
  - cbn [note fate]. apply (rel_same s L F St); auto.
  - assert (Same : fst (pstep (sm s) p) = sm s -> note s (EStep t) L = L -> fate s (EStep t) F = F -> rel {| sm := fst (pstep (sm s) p); running := tset (running s) t (Some (o, snd (pstep (sm s) p))) |} (note s (EStep t) L) (fate s (EStep t) F)).
    { intros E -> ->. apply (rel_same s L F St); auto; cbn [sm]; rewrite E; auto. }
    destruct p as [r|er|i k|i old n k|i old n k|k|old n k|n k].
    + destruct (Hnr r); auto.
    + destruct (Hne er); auto.
    + apply Same; [|cbn [note]; rewrite Hr; auto|cbn [fate]; rewrite Hr; auto]. cbn [pstep]. destruct (get (sm s) i); auto.
    + destruct (swaps (sm s) i old) eqn:Es.
      * apply swaps_eq in Es as Et. destruct (cas_facts _ _ _ _ _ _ _ _ Hm Hr) as [(no & Hno & Hlv & _) _]. eapply put_rel; eauto. cbn [sm pstep]. rewrite Et, N.eqb_refl. reflexivity.
      * apply Same; [|cbn [note]; rewrite Hr, Es; auto|cbn [fate]; rewrite Hr, Es; auto]. cbn [pstep]. unfold swaps in Es. destruct (tab (sm s) i) as [x|]; auto. rewrite Es. auto.
    + assert (Hu : unblocks s t i old n) by (exists o, k; auto). pose proof (unblocks_owes _ _ _ _ _ _ Hm Hu) as Ed.
      assert (Hb : blocked (sm s) i old n) by (apply (mi_hold _ _ Hm t); rewrite Ed; reflexivity). pose proof Hb as [Et [c Hc]]. apply swaps_eq in Et as Es.
      assert (EL : note s (EStep t) L = {| given := old :: given L; over := over L |}) by (cbn [note]; rewrite Hr, Es; auto).
      assert (EF : fate s (EStep t) F = {| handed := old :: handed F; goes := goes F; pend := pend F |}) by (cbn [fate]; rewrite Hr, Es; auto).
      match goal with |- rel ?s1 _ _ => assert (HR' : rel s1 L F) end.
      { apply (rel_same s L F St); auto; cbn [sm pstep]; rewrite Et, N.eqb_refl; cbn [fst heap tab]; auto. intros d Hd. rewrite fset_ne; auto. intros ->. destruct (merged_tab _ _ Hf Hd) as (q & rn & A & B & C).
        assert (q = old) by congruence. subst q. rewrite Hc in B. injection B as <-. discriminate. }
      rewrite EL, EF. destruct HR' as [R1 R2 R3 R4 R5]. constructor; cbn [handed goes pend]; auto.
      * intros g. cbn [In given]. rewrite R1. tauto.
      * constructor; auto. intros Hin. apply (r_handed _ _ _ HR) in Hin as [Hin|(d & Hd & Htd)].
        -- apply (g_given _ _ _ HS) in Hin. apply (g_cur _ _ _ HS) in Et. congruence.
        -- apply (f_cut _ Hf) in Hd. destruct (merged_tab _ _ Hf Hd) as (q & rn & A & B & C). assert (q = old) by congruence. subst q. rewrite Hc in B. injection B as <-. discriminate.
    + apply Same; [auto|cbn [note]; rewrite Hr; auto|cbn [fate]; rewrite Hr; auto].
    + assert (EL : note s (EStep t) L = L) by (cbn [note]; rewrite Hr; auto). assert (EF : fate s (EStep t) F = F) by (cbn [fate]; rewrite Hr; auto). rewrite EL, EF.
      apply (rel_same s L F St); auto; cbn [sm pstep]; destruct (root (sm s) =? old); cbn [fst heap tab]; auto.
    + assert (EL : note s (EStep t) L = L) by (cbn [note]; rewrite Hr; auto). assert (EF : fate s (EStep t) F = F) by (cbn [fate]; rewrite Hr; auto). rewrite EL, EF.
      assert (Hdn : is_delta n = false) by (pose proof (mi_run _ _ Hm _ _ _ Hr) as Hd; destruct (D t); try contradiction; apply Hd).
      apply (rel_same s L F St); auto; cbn [sm pstep fst heap tab].
      * intros q y Hq. rewrite pfset_ne; auto. intros ->. apply Hlow in Hq. lia.
      * intros q y. destruct (N.eq_dec q (nptr (sm s))) as [->|Hq]; [rewrite pfset_eq; intros E; injection E as <-; auto|rewrite pfset_ne by auto; auto].
      * intros d Hd. rewrite fset_ne; auto. intros ->. destruct (merged_tab _ _ Hf Hd) as (q & rn & A & _). apply (mi_tab _ _ Hm) in A. lia.
  - cbn [note fate]. apply (rel_same s L F St); auto.
Qed.

(** * What follows *)
Section Owners.
Variables (s : sys) (L : log) (F : flog) (S : N -> stat).
Hypothesis Hf : facts s.
Hypothesis HS : ginv s L S.
Hypothesis HR : rel s L F.
Hypothesis Hmk : forall p n, heap (sm s) p = Some n -> markok (cw (sm s)) n.
Hypothesis Hlow : forall p y, heap (sm s) p = Some y -> (p < nptr (sm s))%N.

(** A remove node is the entry of its page. *)
Lemma remove_cur q rn : heap (sm s) q = Some rn -> is_remove rn = true -> exists i, S q = Cur i.
Proof.
  intros Hq Hr. destruct (S q) as [|i|b| |i] eqn:E; eauto; exfalso.
  - apply (g_new _ _ _ HS) in E. apply Hlow in Hq. lia.
  - destruct (g_real _ _ _ HS _ _ E) as (na & nb & A & _ & [_ C] & _). congruence.
  - destruct (g_kind _ _ _ HS _ E) as (y & A & B). congruence.
  - apply (g_held _ _ _ HS) in E as (p & _ & c & Hc). destruct (Hmk _ _ Hc) as [A _]. unfold cw in A. apply (f_mlive _ Hf) in Hc. congruence.
Qed.
(** The node above in the chain. *)
Lemma up_one a a' b : In (a, b) (goes F) -> In (a', b) (goes F) -> a = a'.
Proof.
  intros H H'. apply (r_goes _ _ _ HR) in H as (n & Hn & H). apply (r_goes _ _ _ HR) in H' as (n' & Hn' & H').
  destruct H as [[H Hr]|(d & q & Hd & Ht & H)], H' as [[H' Hr']|(d' & q' & Hd' & Ht' & H')]; apply (g_under _ _ _ HS) in H, H'; [congruence| | |].
  - assert (q' = a) by congruence. subst q'. destruct (merged_tab _ d' Hf) as (q & rn & A & B & C); [exists a', n'; auto|]. congruence.
  - assert (q = a') by congruence. subst q. destruct (merged_tab _ d Hf) as (q & rn & A & B & C); [exists a, n; auto|]. congruence.
  - assert (q' = q) by congruence. subst q'. apply (g_cur _ _ _ HS) in Ht, Ht'. assert (d' = d) by congruence. subst d'. eapply (f_once _ Hf); eauto.
Qed.
Lemma owner_top g a : owner s F g -> ~ In (a, g) (goes F).
Proof.
  intros Ho Hin. apply (r_goes _ _ _ HR) in Hin as (n & Hn & H).
  assert (HU : exists b, S g = Under b) by (destruct H as [[H _]|(d & q & _ & _ & H)]; apply (g_under _ _ _ HS) in H; eauto). destruct HU as [b HU].
  destruct Ho as [[i E]|[(i & p & E)|[(i & q & Hq & Hp & Hnm)|E]]].
  - apply (g_cur _ _ _ HS) in E. congruence.
  - assert (S g = Held i) by (apply (g_held _ _ _ HS); eauto). congruence.
  - apply (r_pend _ _ _ HR) in Hp as [Hp (rn & Hrn & Hrr)]. apply (g_under _ _ _ HS) in Hp. destruct H as [[H Hr]|(d & q' & Hd & Ht & H)]; apply (g_under _ _ _ HS) in H.
    + assert (q = a) by congruence. subst q. congruence.
    + assert (q' = q) by congruence. subst q'. apply (g_cur _ _ _ HS) in Hq, Ht. assert (d = i) by congruence. subst d. apply Hnm. exists a, n. auto.
  - apply (r_handed _ _ _ HR) in E as [E|(d & _ & E)]; [apply (g_given _ _ _ HS) in E|apply (g_cur _ _ _ HS) in E]; congruence.
Qed.
Lemma merges_dec n d : merges n d \/ ~ merges n d.
Proof. destruct n as [[]|[]]; simpl; auto; apply nat_dec. Qed.
Lemma merged_dec d : merged (sm s) d \/ ~ merged (sm s) d.
Proof.
  assert (G : forall k, (exists p n, (p < N.of_nat k)%N /\ heap (sm s) p = Some n /\ merges n d) \/ ~ exists p n, (p < N.of_nat k)%N /\ heap (sm s) p = Some n /\ merges n d).
  { induction k as [|k IH]; [right; intros (p & n & Hp & _); lia|]. destruct IH as [(p & n & A & B)|IH]; [left; exists p, n; split; auto; lia|].
    destruct (heap (sm s) (N.of_nat k)) as [n|] eqn:E.
    - destruct (merges_dec n d) as [Hd|Hd]; [left; exists (N.of_nat k), n; split; auto; lia|]. right. intros (p & n' & A & B & C). destruct (N.eq_dec p (N.of_nat k)) as [->|Hne]; [congruence|].
      apply IH. exists p, n'. split; auto. lia.
    - right. intros (p & n' & A & B & C). destruct (N.eq_dec p (N.of_nat k)) as [->|Hne]; [congruence|]. apply IH. exists p, n'. split; auto. lia. }
  destruct (G (N.to_nat (nptr (sm s)))) as [(p & n & _ & H)|H]; [left; exists p, n; auto|]. right. intros (p & n & A & B). apply H. exists p, n. split; auto. apply Hlow in A. lia.
Qed.
Lemma up_or_top x y : heap (sm s) x = Some y -> owner s F x \/ exists a, In (a, x) (goes F).
Proof.
  intros Hx. destruct (S x) as [|i|b| |i] eqn:E.
  - exfalso. apply (g_new _ _ _ HS) in E. apply Hlow in Hx. lia.
  - left. left. exists i. apply (g_cur _ _ _ HS). auto.
  - apply (g_under _ _ _ HS) in E as Hin. destruct (g_real _ _ _ HS _ _ E) as (na & nb & _ & Hb & _). destruct (is_remove nb) eqn:Er.
    + destruct (remove_cur _ _ Hb Er) as [i Hi]. apply (g_cur _ _ _ HS) in Hi as Ht. destruct (merged_dec i) as [(p & n & Hp & Hm)|Hnm].
      * right. exists p. apply (r_goes _ _ _ HR). exists n. split; auto. right. exists i, b. auto.
      * left. right. right. left. exists i, b. split; auto. split; auto. apply (r_pend _ _ _ HR); eauto.
    + right. exists b. apply (r_goes _ _ _ HR). exists nb. split; auto.
  - left. right. right. right. apply (r_handed _ _ _ HR). left. apply (g_given _ _ _ HS). auto.
  - left. right. left. apply (g_held _ _ _ HS) in E as [p E]. eauto.
Qed.
Lemma goes_cell a b : In (a, b) (goes F) -> exists n, heap (sm s) a = Some n.
Proof. intros H. apply (r_goes _ _ _ HR) in H as (n & Hn & _). eauto. Qed.
Lemma under_cell g x y : heap (sm s) x = Some y -> under F g x -> exists n, heap (sm s) g = Some n.
Proof. intros Hx Hu. revert y Hx. induction Hu as [|a b Hu IH Hin]; [eauto|]. intros y Hy. destruct (goes_cell _ _ Hin) as [n Hn]. eauto. Qed.
Lemma one_owner x y : heap (sm s) x = Some y -> exists g, owner s F g /\ under F g x /\ forall g', owner s F g' -> under F g' x -> g' = g.
Proof.
  assert (G : forall k x y, (nptr (sm s) - x < N.of_nat k)%N -> heap (sm s) x = Some y -> exists g, owner s F g /\ under F g x /\ forall g', owner s F g' -> under F g' x -> g' = g).
  { clear x y. induction k as [|k IH]; intros x y Hk Hx; [lia|]. pose proof (Hlow _ _ Hx) as Hlt. destruct (up_or_top _ _ Hx) as [Ho|[a Ha]].
    - exists x. split; auto. split; [constructor|]. intros g' Hg' Hu. inversion Hu as [|a b Hu' Hin]; auto. subst. destruct (owner_top _ _ Ho Hin).
    - pose proof (r_low _ _ _ HR _ _ Ha) as Hl. destruct (goes_cell _ _ Ha) as [n Hn]. pose proof (Hlow _ _ Hn) as Hlt'. destruct (IH a n) as (g & Hg & Hu & Huu); [lia|auto|]. exists g. split; auto. split; [econstructor; eauto|].
      intros g' Hg' Hu'. inversion Hu' as [|a' b Hu2 Hin]; subst; [destruct (owner_top _ _ Hg' Ha)|]. assert (a' = a) by (eapply up_one; eauto). subst. auto. }
  intros Hx. eapply (G (Datatypes.S (N.to_nat (nptr (sm s) - x)))); eauto. lia.
Qed.
End Owners.
End Fate.
