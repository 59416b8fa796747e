(** Every node has one owner: a page, the page below a marker, or reclamation. *)
From Coq Require Import NArith List Arith Lia Bool.
From Verif Require Import Base Leaf Inner Tree TreeSpec TreeInv MarkerSpec Marker GarbageSpec.
Import ListNotations.

Section Garbage.
Context {P : Params}.
Lemma lived_exec s L : lived s L -> exists tr ss, exec tr ss s.
Proof. induction 1 as [|s L e s' H IH Hs]; [exists [], [sinit]; constructor|]. destruct IH as (tr & ss & Hx). exists (e :: tr), (s' :: ss). econstructor; eauto. Qed.

Inductive stat := New | Cur (i : nat) | Under (b : N) | Given | Held (i : nat).
Record ginv (s : sys) (L : log) (S : N -> stat) : Prop := {
  g_cur : forall i a, tab (sm s) i = Some a <-> S a = Cur i;
  g_under : forall a b, In (b, a) (over L) <-> S a = Under b;
  g_given : forall a, In a (given L) <-> S a = Given;
  g_held : forall i a, (exists p, blocked (sm s) i p a) <-> S a = Held i;
  g_new : forall a, (nptr (sm s) <= a)%N <-> S a = New;
  g_once : NoDup (given L);
  g_up : forall a b, S a = Under b -> (a < b)%N /\ S b <> New;
  g_real : forall a b, S a = Under b -> exists na nb, heap (sm s) a = Some na /\ heap (sm s) b = Some nb /\ live na /\ unmarked nb /\ child nb = Some na;
  g_kind : forall a, S a = Given -> exists n, heap (sm s) a = Some n /\ is_remove n = false;
  g_full : forall a n, heap (sm s) a = Some n -> unmarked n -> is_delta n = true -> exists b, S b = Under a;
  g_fun : forall a b b', S b = Under a -> S b' = Under a -> b = b'
}.
Lemma ginv_init : ginv sinit {| given := []; over := [] |} (fun a => match a with 0%N => Cur 1 | 1%N => Cur 2 | _ => New end).
Proof.
  split; simpl.
  - intros i a. split.
    + destruct i as [|[|[]]]; intros E; inversion E; auto.
    + destruct a as [|[p|p|]]; intros E; inversion E; auto.
  - intros a b. split; [contradiction|]. destruct a as [|[]]; discriminate.
  - intros a. split; [contradiction|]. destruct a as [|[]]; discriminate.
  - intros i a. split; [|destruct a as [|[]]; discriminate]. intros (p & Hp & c & Hc). simpl in *. destruct p as [|[]]; discriminate.
  - intros a. destruct a as [|[p|p|]]; split; intros H; try discriminate; auto; lia.
  - constructor.
  - intros a b. destruct a as [|[]]; discriminate.
  - intros a b. destruct a as [|[]]; discriminate.
  - intros a. destruct a as [|[]]; discriminate.
  - intros a n. destruct a as [|[p|p|]]; intros E; inversion E; subst; discriminate.
  - intros a b b'. destruct b as [|[]]; discriminate.
Qed.
(** What is known of a successful compare-and-swap. *)
Lemma cas_facts s D t o i old n k : minv s D -> running s t = Some (o, Cas i old n k) ->
  (exists no, heap (sm s) old = Some no /\ live no /\ onto no n) /\ forall q c, n = NInner (IAbort q c) -> q = old.
Proof.
  intros H Hr. pose proof (mi_run _ _ H _ _ _ Hr) as Hd. destruct (D t) as [|i' a' q'|i' a' q']; try contradiction.
  - destruct (Hd _ (cle_refl _)) as (Ho & _ & Hc). split; auto. intros q c ->. destruct Hc as [[Hc _]|(c' & E & _)]; [contradiction|]. injection E as -> _. auto.
  - destruct Hd as (Ho & Hn & _). split; auto. intros q c ->. contradiction.
Qed.
Definition upd (S : N -> stat) (a : N) (x : stat) : N -> stat := fun b => if N.eqb b a then x else S b.
Lemma upd_eq S a x : upd S a x a = x. Proof. unfold upd. rewrite N.eqb_refl. auto. Qed.
Lemma upd_ne S a x b : b <> a -> upd S a x b = S b. Proof. unfold upd. intros E. apply N.eqb_neq in E. rewrite E. auto. Qed.

(** Steps that leave table, heap and log alone. *)
Lemma ginv_same s L S s' : ginv s L S -> heap (sm s') = heap (sm s) -> nptr (sm s') = nptr (sm s) -> tab (sm s') = tab (sm s) -> ginv s' L S.
Proof.
  intros [H1 H2 H3 H4 H5 H6 H7 H8 H9 H10 H11] E1 E2 E3. split; auto.
  - intros i a. rewrite E3. apply H1.
  - intros i a. unfold blocked. rewrite E1, E3. apply H4.
  - intros a. rewrite E2. apply H5.
  - intros a b. rewrite E1. apply H8.
  - intros a. rewrite E1. apply H9.
  - intros a n. rewrite E1. apply H10.
Qed.
(** A new node takes the place of [o] under page [i]. *)
Lemma ginv_put s D L S m' run' i o n X L' : minv s D -> ginv s L S -> tab (sm s) i = Some o ->
  (exists no, heap (sm s) o = Some no /\ live no /\ onto no n) -> (forall q c, n = NInner (IAbort q c) -> q = o) ->
  heap m' = pfset (heap (sm s)) (nptr (sm s)) n -> nptr m' = N.succ (nptr (sm s)) -> tab m' = fset (tab (sm s)) i (nptr (sm s)) ->
  (X = Under (nptr (sm s)) /\ (unmarked n /\ is_delta n = true) /\ L' = {| given := given L; over := (nptr (sm s), o) :: over L |} \/
   X = Given /\ unmarked n /\ L' = {| given := o :: given L; over := over L |} /\ is_delta n = false \/
   X = Held i /\ ~ unmarked n /\ L' = L) ->
  ginv {| sm := m'; running := run' |} L' (upd (upd S o X) (nptr (sm s)) (Cur i)).
Proof.
  intros Hm [H1 H2 H3 H4 H5 H6 H7 H8 H9 H10 H11] Ht (no & Hno & Hl & Hon) Hq E1 E2 E3 HX.
  pose proof (proj2 (mi_heap _ _ Hm _ _ Hno)) as Ho. pose proof (proj1 (H1 i o) Ht) as So.
  assert (Sn : S (nptr (sm s)) = New) by (apply H5; lia). assert (Hne : o <> nptr (sm s)) by lia.
  assert (HX' : forall j, X <> Cur j) by (intros j ->; destruct HX as [[E _]|[[E _]|[E _]]]; discriminate).
  assert (Sv : forall a, a <> o -> a <> nptr (sm s) -> upd (upd S o X) (nptr (sm s)) (Cur i) a = S a) by (intros a A B; rewrite !upd_ne; auto).
  assert (Su : upd (upd S o X) (nptr (sm s)) (Cur i) o = X) by (rewrite upd_ne, upd_eq; auto).
  assert (Sw : upd (upd S o X) (nptr (sm s)) (Cur i) (nptr (sm s)) = Cur i) by apply upd_eq.
  set (S' := upd (upd S o X) (nptr (sm s)) (Cur i)) in *. clearbody S'.
  split; cbn [sm].
  - intros j a. rewrite E3. destruct (N.eq_dec a (nptr (sm s))) as [->|Ha]; [|destruct (N.eq_dec a o) as [->|Hao]].
    + rewrite Sw. destruct (Nat.eq_dec j i) as [->|Hj]; [rewrite fset_eq; split; auto|]. rewrite fset_ne by auto. split; [|congruence]. intros E. apply H1 in E. congruence.
    + rewrite Su. split; [|intros E; destruct (HX' _ E)]. destruct (Nat.eq_dec j i) as [->|Hj]; [rewrite fset_eq; congruence|]. rewrite fset_ne by auto. intros E. apply H1 in E. congruence.
    + rewrite Sv by auto. destruct (Nat.eq_dec j i) as [->|Hj]; [|rewrite fset_ne by auto; apply H1]. rewrite fset_eq. split; [congruence|]. intros E. apply H1 in E. congruence.
  - intros a b. destruct (N.eq_dec a (nptr (sm s))) as [->|Ha]; [|destruct (N.eq_dec a o) as [->|Hao]].
    + rewrite Sw. split; [|discriminate]. intros Hin. exfalso.
      assert (Hin' : In (b, nptr (sm s)) (over L)) by (destruct HX as [(_ & _ & ->)|[(_ & _ & -> & _)|(_ & _ & ->)]]; simpl in Hin; auto; destruct Hin as [Hin|Hin]; [congruence|auto]).
      apply H2 in Hin'. congruence.
    + rewrite Su. assert (No : ~ In (b, o) (over L)) by (intros Hin; apply H2 in Hin; congruence).
      destruct HX as [(-> & _ & ->)|[(-> & _ & -> & _)|(-> & _ & ->)]]; cbn [over]; (split; [intros Hin|intros E; try discriminate]).
      * destruct Hin as [Hin|Hin]; [congruence|contradiction].
      * left. congruence.
      * contradiction.
      * contradiction.
    + rewrite Sv by auto. rewrite <- H2. destruct HX as [(_ & _ & ->)|[(_ & _ & -> & _)|(_ & _ & ->)]]; cbn [over]; try reflexivity. split; [|intros; right; auto]. intros [Hin|Hin]; auto. congruence.
  - intros a. destruct (N.eq_dec a (nptr (sm s))) as [->|Ha]; [|destruct (N.eq_dec a o) as [->|Hao]].
    + rewrite Sw. split; [|discriminate]. intros Hin. exfalso.
      assert (Hin' : In (nptr (sm s)) (given L)) by (destruct HX as [(_ & _ & ->)|[(_ & _ & -> & _)|(_ & _ & ->)]]; simpl in Hin; auto; destruct Hin as [Hin|Hin]; [congruence|auto]).
      apply H3 in Hin'. congruence.
    + rewrite Su. assert (No : ~ In o (given L)) by (intros Hin; apply H3 in Hin; congruence).
      destruct HX as [(-> & _ & ->)|[(-> & _ & -> & _)|(-> & _ & ->)]]; cbn [given]; (split; [intros Hin|intros E; try discriminate]); auto; try contradiction. left. auto.
    + rewrite Sv by auto. rewrite <- H3. destruct HX as [(_ & _ & ->)|[(_ & _ & -> & _)|(_ & _ & ->)]]; cbn [given]; try reflexivity. split; [|intros; right; auto]. intros [Hin|Hin]; auto. congruence.
  - assert (Hcell : forall p y, heap (sm s) p = Some y -> heap m' p = Some y).
    { intros p y E. rewrite E1, pfset_ne; auto. pose proof (proj2 (mi_heap _ _ Hm _ _ E)). lia. }
    assert (Hb : forall j p a, j <> i -> blocked m' j p a <-> blocked (sm s) j p a).
    { intros j p a Hj. unfold blocked. rewrite E3, fset_ne by auto. split; intros [Hp [c Hc]]; split; auto; exists c.
      - destruct (proj2 (mi_tab _ _ Hm _ _ Hp)) as [y Ey]. pose proof (Hcell _ _ Ey). congruence.
      - auto. }
    assert (Hi : forall p a, ~ blocked (sm s) i p a).
    { intros p a [Hp [c Hc]]. rewrite Ht in Hp. injection Hp as ->. rewrite Hno in Hc. injection Hc as ->. destruct Hl as [Hl _]. contradiction. }
    assert (Hi' : forall a, (exists p, blocked m' i p a) <-> a = o /\ X = Held i).
    { intros a. split.
      - intros (p & Hp & c & Hc). rewrite E3, fset_eq in Hp. injection Hp as <-. rewrite E1, pfset_eq in Hc. injection Hc as Hc. split; [eapply Hq; eauto|].
        destruct HX as [(-> & [Hu _] & _)|[(-> & Hu & _)|(-> & _)]]; auto; subst n; contradiction.
      - intros [-> ->]. destruct HX as [(? & _)|[(? & _)|(_ & Hu & _)]]; try discriminate. destruct n as [|c]; [destruct Hu; exact I|]. destruct c as [| | | | | |q c]; try (destruct Hu; exact I).
        rewrite (Hq q c eq_refl) in *. exists (nptr (sm s)). unfold blocked. rewrite E3, fset_eq, E1, pfset_eq. split; eauto. }
    intros j a. destruct (N.eq_dec a (nptr (sm s))) as [->|Ha]; [|destruct (N.eq_dec a o) as [->|Hao]].
    + rewrite Sw. split; [|discriminate]. intros Hx. exfalso. destruct (Nat.eq_dec j i) as [->|Hj].
      * apply Hi' in Hx as [Hx _]. lia.
      * destruct Hx as [p Hx]. apply Hb in Hx; auto. assert (E : S (nptr (sm s)) = Held j) by (apply H4; eauto). congruence.
    + rewrite Su. destruct (Nat.eq_dec j i) as [->|Hj].
      * rewrite Hi'. split; [intros [_ E]; auto|auto].
      * split; [intros [p Hx]; apply Hb in Hx; auto; assert (E : S o = Held j) by (apply H4; eauto); congruence|].
        intros ->. destruct HX as [(? & _)|[(? & _)|(E & _)]]; congruence.
    + rewrite Sv by auto. rewrite <- H4. destruct (Nat.eq_dec j i) as [->|Hj].
      * rewrite Hi'. split; [intros [E _]; congruence|intros [p Hx]; destruct (Hi _ _ Hx)].
      * split; intros [p Hx]; exists p; apply Hb; auto.
  - intros a. rewrite E2. destruct (N.eq_dec a (nptr (sm s))) as [->|Ha]; [|destruct (N.eq_dec a o) as [->|Hao]].
    + rewrite Sw. split; [lia|discriminate].
    + rewrite Su. split; [lia|]. destruct HX as [(-> & _)|[(-> & _)|(-> & _)]]; discriminate.
    + rewrite Sv by auto. rewrite <- H5. lia.
  - destruct HX as [(_ & _ & ->)|[(_ & _ & -> & _)|(_ & _ & ->)]]; cbn [given]; auto. constructor; auto. intros Hin. apply H3 in Hin. congruence.
  - intros a b. destruct (N.eq_dec a (nptr (sm s))) as [->|Ha]; [|destruct (N.eq_dec a o) as [->|Hao]].
    + rewrite Sw. discriminate.
    + rewrite Su. intros ->. destruct HX as [(E & _)|[(E & _)|(E & _)]]; try discriminate. injection E as ->. split; [lia|congruence].
    + rewrite Sv by auto. intros E. destruct (H7 _ _ E) as [Hlt Hn]. split; auto. destruct (N.eq_dec b (nptr (sm s))) as [->|Hb]; [congruence|].
      destruct (N.eq_dec b o) as [->|Hbo]; [|rewrite Sv; auto]. rewrite Su. destruct HX as [(-> & _)|[(-> & _)|(-> & _)]]; discriminate.
  - assert (Hcell : forall p y, heap (sm s) p = Some y -> heap m' p = Some y).
    { intros p y E. rewrite E1, pfset_ne; auto. pose proof (proj2 (mi_heap _ _ Hm _ _ E)). lia. }
    intros a b. destruct (N.eq_dec a (nptr (sm s))) as [->|Ha]; [|destruct (N.eq_dec a o) as [->|Hao]].
    + rewrite Sw. discriminate.
    + rewrite Su. intros ->. destruct HX as [(E & [Hu Hdl] & _)|[(E & _)|(E & _)]]; try discriminate. injection E as ->. exists no, n. split; auto. split; [rewrite E1; apply pfset_eq|].
      split; auto. split; auto. destruct Hon; [congruence|auto].
    + rewrite Sv by auto. intros E. destruct (H8 _ _ E) as (na & nb & A1 & A2 & A3). exists na, nb. auto.
  - intros a. destruct (N.eq_dec a (nptr (sm s))) as [->|Ha]; [|destruct (N.eq_dec a o) as [->|Hao]].
    + rewrite Sw. discriminate.
    + intros _. exists no. split; [|apply Hl]. rewrite E1, pfset_ne; auto.
    + rewrite Sv by auto. intros E. destruct (H9 _ E) as (n' & A1 & A2). exists n'. split; auto. rewrite E1, pfset_ne; auto.
  - intros a na E Hu Hdl. rewrite E1 in E. destruct (N.eq_dec a (nptr (sm s))) as [->|Ha].
    + rewrite pfset_eq in E. injection E as <-. destruct HX as [(EX & _)|[(_ & Hu' & _ & Hd')|(_ & Hu' & _)]]; [|congruence|contradiction]. exists o. congruence.
    + rewrite pfset_ne in E by auto. destruct (H10 _ _ E Hu Hdl) as [b Hb]. exists b. rewrite Sv; auto; congruence.
  - assert (Hx : forall a b, S' b = Under a -> (b <> o /\ S b = Under a /\ a <> nptr (sm s)) \/ (b = o /\ a = nptr (sm s))).
    { intros a b E. destruct (N.eq_dec b (nptr (sm s))) as [->|Hb]; [congruence|]. destruct (N.eq_dec b o) as [->|Hbo].
      - right. split; auto. rewrite Su in E. destruct HX as [(EX & _)|[(EX & _)|(EX & _)]]; congruence.
      - left. rewrite Sv in E by auto. split; auto. split; auto. intros ->. destruct (H7 _ _ E). congruence. }
    intros a b b' E E'. destruct (Hx _ _ E) as [(A1 & A2 & A3)|[A1 A2]], (Hx _ _ E') as [(B1 & B2 & B3)|[B1 B2]]; try congruence. eapply H11; eauto.
Qed.
(** A new page. *)
Lemma ginv_new s D L S m' run' n : minv s D -> ginv s L S -> unmarked n -> is_delta n = false ->
  heap m' = pfset (heap (sm s)) (nptr (sm s)) n -> nptr m' = N.succ (nptr (sm s)) -> tab m' = fset (tab (sm s)) (nid (sm s)) (nptr (sm s)) ->
  ginv {| sm := m'; running := run' |} L (upd S (nptr (sm s)) (Cur (nid (sm s)))).
Proof.
  intros Hm [H1 H2 H3 H4 H5 H6 H7 H8 H9 H10 H11] Hn Hdn E1 E2 E3. assert (Sn : S (nptr (sm s)) = New) by (apply H5; lia).
  assert (Hid : tab (sm s) (nid (sm s)) = None) by (destruct (tab (sm s) (nid (sm s))) eqn:E; auto; apply (mi_tab _ _ Hm) in E; lia).
  assert (Sv : forall a, a <> nptr (sm s) -> upd S (nptr (sm s)) (Cur (nid (sm s))) a = S a) by (intros a A; rewrite !upd_ne; auto).
  assert (Sw : upd S (nptr (sm s)) (Cur (nid (sm s))) (nptr (sm s)) = Cur (nid (sm s))) by apply upd_eq.
  set (S' := upd S (nptr (sm s)) (Cur (nid (sm s)))) in *. clearbody S'. split; cbn [sm].
  - intros j a. rewrite E3. destruct (N.eq_dec a (nptr (sm s))) as [->|Ha].
    + rewrite Sw. destruct (Nat.eq_dec j (nid (sm s))) as [->|Hj]; [rewrite fset_eq; split; auto|]. rewrite fset_ne by auto. split; [|congruence]. intros E. apply H1 in E. congruence.
    + rewrite Sv by auto. destruct (Nat.eq_dec j (nid (sm s))) as [->|Hj]; [|rewrite fset_ne by auto; apply H1]. rewrite fset_eq. split; [congruence|]. intros E. apply H1 in E. congruence.
  - intros a b. destruct (N.eq_dec a (nptr (sm s))) as [->|Ha]; [|rewrite Sv by auto; apply H2]. rewrite Sw, H2, Sn. split; discriminate.
  - intros a. destruct (N.eq_dec a (nptr (sm s))) as [->|Ha]; [|rewrite Sv by auto; apply H3]. rewrite Sw, H3, Sn. split; discriminate.
  - assert (Hb : forall j p a, blocked m' j p a <-> blocked (sm s) j p a).
    { intros j p a. unfold blocked. rewrite E3, E1. destruct (Nat.eq_dec j (nid (sm s))) as [->|Hj].
      - rewrite fset_eq, Hid. split; intros [Hp [c Hc]]; [|discriminate]. injection Hp as <-. rewrite pfset_eq in Hc. injection Hc as ->. contradiction.
      - rewrite fset_ne by auto. split; intros [Hp [c Hc]]; (split; [exact Hp|]); exists c.
        + rewrite pfset_ne in Hc; auto. intros ->. apply H1 in Hp. congruence.
        + rewrite pfset_ne; auto. intros ->. apply H1 in Hp. congruence. }
    intros j a. assert (Hx : (exists p, blocked m' j p a) <-> (exists p, blocked (sm s) j p a)) by (split; intros [p Hx]; exists p; apply Hb; auto). rewrite Hx, H4.
    destruct (N.eq_dec a (nptr (sm s))) as [->|Ha]; [|rewrite Sv by auto; reflexivity]. rewrite Sw, Sn. split; discriminate.
  - intros a. rewrite E2. destruct (N.eq_dec a (nptr (sm s))) as [->|Ha]; [rewrite Sw; split; [lia|discriminate]|]. rewrite Sv by auto. rewrite <- H5. lia.
  - auto.
  - intros a b. destruct (N.eq_dec a (nptr (sm s))) as [->|Ha]; [rewrite Sw; discriminate|]. rewrite Sv by auto. intros E. destruct (H7 _ _ E) as [Hlt Hb]. split; auto.
    destruct (N.eq_dec b (nptr (sm s))) as [->|Hbn]; [congruence|]. rewrite Sv; auto.
  - assert (Hcell : forall p y, heap (sm s) p = Some y -> heap m' p = Some y).
    { intros p y E. rewrite E1, pfset_ne; auto. pose proof (proj2 (mi_heap _ _ Hm _ _ E)). lia. }
    intros a b. destruct (N.eq_dec a (nptr (sm s))) as [->|Ha]; [rewrite Sw; discriminate|]. rewrite Sv by auto. intros E. destruct (H8 _ _ E) as (na & nb & A1 & A2 & A3). exists na, nb. auto.
  - intros a. destruct (N.eq_dec a (nptr (sm s))) as [->|Ha]; [rewrite Sw; discriminate|]. rewrite Sv by auto. intros E. destruct (H9 _ E) as (n' & A1 & A2). exists n'. split; auto. rewrite E1, pfset_ne; auto.
  - intros a na E Hu Hdl. rewrite E1 in E. destruct (N.eq_dec a (nptr (sm s))) as [->|Ha]; [rewrite pfset_eq in E; injection E as <-; congruence|].
    rewrite pfset_ne in E by auto. destruct (H10 _ _ E Hu Hdl) as [b Hb]. exists b. rewrite Sv; auto; congruence.
  - intros a b b' E E'. destruct (N.eq_dec b (nptr (sm s))) as [->|Hb]; [congruence|]. destruct (N.eq_dec b' (nptr (sm s))) as [->|Hb']; [congruence|]. rewrite Sv in E, E' by auto. eapply H11; eauto.
Qed.
(** A page is unblocked. *)
Lemma ginv_back s D L S m' run' i p q : minv s D -> ginv s L S -> blocked (sm s) i p q ->
  heap m' = heap (sm s) -> nptr m' = nptr (sm s) -> tab m' = fset (tab (sm s)) i q ->
  ginv {| sm := m'; running := run' |} {| given := p :: given L; over := over L |} (upd (upd S p Given) q (Cur i)).
Proof.
  intros Hm [H1 H2 H3 H4 H5 H6 H7 H8 H9 H10 H11] Hbl E1 E2 E3. pose proof Hbl as [Hp [c Hc]].
  pose proof (proj1 (H1 _ _) Hp) as Sp. assert (Sq : S q = Held i) by (apply H4; eauto). assert (Hne : p <> q) by congruence.
  destruct (proj1 (mi_heap _ _ Hm _ _ Hc)) as [Hcq Hu]. unfold cw in Hcq.
  assert (Sv : forall a, a <> p -> a <> q -> upd (upd S p Given) q (Cur i) a = S a) by (intros a A B; rewrite !upd_ne; auto).
  assert (Su : upd (upd S p Given) q (Cur i) p = Given) by (rewrite upd_ne, upd_eq; auto).
  assert (Sw : upd (upd S p Given) q (Cur i) q = Cur i) by apply upd_eq.
  set (S' := upd (upd S p Given) q (Cur i)) in *. clearbody S'. split; cbn [sm given over].
  - intros j a. rewrite E3. destruct (Nat.eq_dec j i) as [->|Hj].
    + rewrite fset_eq. split; [intros E; injection E as <-; auto|]. intros E. destruct (N.eq_dec a q) as [->|Ha]; auto. destruct (N.eq_dec a p) as [->|Hap]; [congruence|].
      rewrite Sv in E by auto. apply H1 in E. congruence.
    + rewrite fset_ne by auto. rewrite H1. destruct (N.eq_dec a q) as [->|Ha]; [rewrite Sw; split; congruence|]. destruct (N.eq_dec a p) as [->|Hap]; [rewrite Su; split; congruence|]. rewrite Sv by auto. reflexivity.
  - intros a b. rewrite H2. destruct (N.eq_dec a q) as [->|Ha]; [rewrite Sw; split; congruence|]. destruct (N.eq_dec a p) as [->|Hap]; [rewrite Su; split; congruence|]. rewrite Sv by auto. reflexivity.
  - intros a. simpl. rewrite H3. destruct (N.eq_dec a q) as [->|Ha]; [rewrite Sw; split; [intros [E|E]; congruence|congruence]|].
    destruct (N.eq_dec a p) as [->|Hap]; [rewrite Su; split; auto|]. rewrite Sv by auto. split; [intros [E|E]; [congruence|auto]|auto].
  - assert (Hb : forall j x a, j <> i -> blocked m' j x a <-> blocked (sm s) j x a) by (intros j x a Hj; unfold blocked; rewrite E3, E1, fset_ne by auto; reflexivity).
    assert (Hi : forall x a, ~ blocked m' i x a).
    { intros x a [Hx [c' Hc']]. rewrite E3, fset_eq in Hx. injection Hx as <-. rewrite E1 in Hc'. rewrite Hcq in Hc'. injection Hc' as ->. contradiction. }
    assert (Hi1 : forall x a, blocked (sm s) i x a -> a = q).
    { intros x a [Hx [c' Hc']]. rewrite Hp in Hx. injection Hx as <-. rewrite Hc in Hc'. injection Hc' as -> _. auto. }
    intros j a. destruct (Nat.eq_dec j i) as [->|Hj].
    + split; [intros [x Hx]; destruct (Hi _ _ Hx)|]. intros E. exfalso. destruct (N.eq_dec a q) as [->|Ha]; [congruence|]. destruct (N.eq_dec a p) as [->|Hap]; [congruence|].
      rewrite Sv in E by auto. apply H4 in E as [x Hx]. apply Hi1 in Hx. contradiction.
    + assert (Hx : (exists x, blocked m' j x a) <-> (exists x, blocked (sm s) j x a)) by (split; intros [x Hx]; exists x; apply Hb; auto). rewrite Hx, H4.
      destruct (N.eq_dec a q) as [->|Ha]; [rewrite Sw; split; congruence|]. destruct (N.eq_dec a p) as [->|Hap]; [rewrite Su; split; congruence|]. rewrite Sv by auto. reflexivity.
  - intros a. rewrite E2, H5. destruct (N.eq_dec a q) as [->|Ha]; [rewrite Sw; split; congruence|]. destruct (N.eq_dec a p) as [->|Hap]; [rewrite Su; split; congruence|]. rewrite Sv by auto. reflexivity.
  - constructor; auto. intros Hin. apply H3 in Hin. congruence.
  - intros a b E. assert (Ea : S a = Under b).
    { destruct (N.eq_dec a q) as [->|Ha]; [congruence|]. destruct (N.eq_dec a p) as [->|Hap]; [congruence|]. rewrite Sv in E by auto. auto. }
    destruct (H7 _ _ Ea) as [Hlt Hb]. split; auto. destruct (N.eq_dec b q) as [->|Hbq]; [congruence|]. destruct (N.eq_dec b p) as [->|Hbp]; [congruence|]. rewrite Sv; auto.
  - intros a b E. rewrite E1. apply H8. destruct (N.eq_dec a q) as [->|Ha]; [congruence|]. destruct (N.eq_dec a p) as [->|Hap]; [congruence|]. rewrite Sv in E by auto. auto.
  - intros a E. rewrite E1. destruct (N.eq_dec a q) as [->|Ha]; [congruence|]. destruct (N.eq_dec a p) as [->|Hap]; [eauto|]. rewrite Sv in E by auto. auto.
  - intros a na E Hu' Hdl. rewrite E1 in E. destruct (H10 _ _ E Hu' Hdl) as [b Hb]. exists b. rewrite Sv; auto; congruence.
  - assert (Hx : forall a b, S' b = Under a -> S b = Under a).
    { intros a b E. destruct (N.eq_dec b q) as [->|Hb]; [congruence|]. destruct (N.eq_dec b p) as [->|Hbp]; [congruence|]. rewrite Sv in E; auto. }
    intros a b b' E E'. eapply H11; eauto.
Qed.
Lemma ginv_step s D L S e s' : minv s D -> ginv s L S -> sstep s e s' -> exists S', ginv s' (note s e L) S'.
Proof.
  intros Hm H Hs. destruct Hs as [s t o fuel Hr|s t o p Hr Hnr Hne|s t o r Hr]; cbn [note].
  - exists S. eapply ginv_same; eauto.
  - rewrite Hr. destruct p as [r|er|i k|i old n k|i old n k|k|old n k|n k]; cbn [pstep].
    + destruct (Hnr r); auto.
    + destruct (Hne er); auto.
    + exists S. destruct (get (sm s) i); eapply ginv_same; eauto.
    + unfold swaps. destruct (tab (sm s) i) as [x|] eqn:Et; [|exists S; eapply ginv_same; eauto]. destruct (N.eqb x old) eqn:Ex; [|exists S; eapply ginv_same; eauto].
      apply N.eqb_eq in Ex. subst x. destruct (cas_facts _ _ _ _ _ _ _ _ Hm Hr) as [Ho Hq]. cbn [fst snd].
      destruct (is_delta n) eqn:Ed.
      * destruct n as [c|c]; [|destruct c].
        all: eexists; eapply ginv_put; eauto; try reflexivity.
        all: try (left; split; [reflexivity|]; split; [split; [exact I|exact Ed]|reflexivity]); try discriminate.
        right. right. split; [reflexivity|]. split; auto.
      * eexists. eapply ginv_put; eauto; try reflexivity. right. left. split; [reflexivity|]. split; [|split; auto]. destruct n as [|[]]; try discriminate; exact I.
    + unfold swaps. destruct (tab (sm s) i) as [x|] eqn:Et; [|exists S; eapply ginv_same; eauto]. destruct (N.eqb x old) eqn:Ex; [|exists S; eapply ginv_same; eauto].
      cbn [fst snd]. apply N.eqb_eq in Ex. subst x. eexists. eapply ginv_back; eauto; try reflexivity.
      assert (Hu : unblocks s t i old n) by (exists o, k; auto). pose proof (unblocks_owes _ _ _ _ _ _ Hm Hu) as Ed.
      apply (mi_hold _ _ Hm t). rewrite Ed. reflexivity.
    + exists S. eapply ginv_same; eauto.
    + exists S. destruct (root (sm s) =? old); eapply ginv_same; eauto.
    + eexists. eapply ginv_new; eauto; try reflexivity. pose proof (mi_run _ _ Hm _ _ _ Hr) as Hd. destruct (D t); try contradiction. apply Hd.
      pose proof (mi_run _ _ Hm _ _ _ Hr) as Hd. destruct (D t); try contradiction. apply Hd.
  - exists S. eapply ginv_same; eauto.
Qed.
Lemma lived_ginv s L : lived s L -> exists S, ginv s L S.
Proof.
  induction 1 as [|s L e s' Hl [S H] Hs]; [eexists; apply ginv_init|]. destruct (lived_exec _ _ Hl) as (tr & ss & Hx). destruct (exec_minv _ _ _ Hx) as [D Hm]. eapply ginv_step; eauto.
Qed.

(** * What follows *)
Lemma head_stat s L S g : ginv s L S -> head s L g <-> (exists i, S g = Cur i) \/ (exists i, S g = Held i) \/ S g = Given.
Proof.
  intros H. unfold head. split.
  - intros [[i E]|[(i & p & E)|E]]; [left; exists i; apply (g_cur _ _ _ H); auto|right; left; exists i; apply (g_held _ _ _ H); eauto|right; right; apply (g_given _ _ _ H); auto].
  - intros [[i E]|[[i E]|E]]; [left; exists i; apply (g_cur _ _ _ H); auto|right; left; apply (g_held _ _ _ H) in E as [p E]; eauto|right; right; apply (g_given _ _ _ H); auto].
Qed.
Lemma chain_one s L S g x : ginv s L S -> head s L g -> chain L g x -> (S x = S g /\ x = g) \/ exists b, S x = Under b /\ chain L g b.
Proof. intros H Hh Hc. inversion Hc; subst; [left; auto|]. right. exists a. split; auto. apply (g_under _ _ _ H). auto. Qed.
Lemma one_head s L S x : ginv s L S -> S x <> New -> exists g, head s L g /\ chain L g x /\ forall g', head s L g' -> chain L g' x -> g' = g.
Proof.
  intros H. assert (G : forall k x, (nptr (sm s) - x < N.of_nat k)%N -> S x <> New -> exists g, head s L g /\ chain L g x /\ forall g', head s L g' -> chain L g' x -> g' = g).
  { clear x. induction k as [|k IH]; intros x Hk Hx; [lia|]. assert (Hlt : (x < nptr (sm s))%N) by (destruct (N.le_gt_cases (nptr (sm s)) x) as [E|E]; auto; apply (g_new _ _ _ H) in E; contradiction).
    destruct (S x) as [|i|b| |i] eqn:E; [contradiction| | | |].
    2:{ destruct (g_up _ _ _ H _ _ E) as [Hb Hbn]. assert (Hb' : (b < nptr (sm s))%N) by (destruct (N.le_gt_cases (nptr (sm s)) b) as [E'|E']; auto; apply (g_new _ _ _ H) in E'; contradiction).
      destruct (IH b) as (g & Hg & Hc & Hu); [lia|auto|]. exists g. split; auto. assert (Hin : In (b, x) (over L)) by (apply (g_under _ _ _ H); auto). split; [eapply ch_next; eauto|].
      intros g' Hg' Hc'. apply Hu; auto. destruct (chain_one _ _ _ _ _ H Hg' Hc') as [[_ ->]|(b' & E' & Hc2)]; [|congruence].
      exfalso. apply (head_stat _ _ _ _ H) in Hg' as [[i E']|[[i E']|E']]; congruence. }
    all: exists x; split; [apply (head_stat _ _ _ _ H); eauto|]; split; [apply ch_head|]; intros g' Hg' Hc'; destruct (chain_one _ _ _ _ _ H Hg' Hc') as [[_ Ex]|(b' & E' & _)]; congruence. }
  intros Hx. eapply (G (Datatypes.S (N.to_nat (nptr (sm s) - x)))); auto. lia.
Qed.
End Garbage.
