(** Forward iteration. *)
From Coq Require Import List Arith Lia Bool Sorted.
From Verif Require Import Base SmallSet Bloom Leaf LeafSpec LeafProofs Inner Tree TreeSpec TreeInv TreeLin SeqFuel SeqOps SeqRun Iter IterSpec IterKeys.
Import ListNotations.

Section IterProofs.
Context {P : Params}.

Lemma aexec_effect full atr a : aexec full atr a ->
  (forall t o r, In (ARet t o r) atr -> exists A A', effect full o A A' r) /\
  (forall t o r, snd a t = Done o r -> exists A A', effect full o A A' r).
Proof.
  induction 1 as [|tr a e a' Hx [IH1 IH2] Hs]; [split; [intros t o r []|discriminate]|].
  destruct Hs as [A st t o Hi|A A' st t o r Hc He|A st t o r Hd]; simpl in *; split.
  - intros u o' r [F|F]; [discriminate|eauto].
  - intros u o' r. unfold tset. destruct (u =? t); [discriminate|apply IH2].
  - intros u o' r' [F|F]; [discriminate|eauto].
  - intros u o' r'. unfold tset. destruct (u =? t); [|apply IH2]. intros F. injection F as <- <-. eauto.
  - intros u o' r' [F|F]; [injection F as <- <- <-|]; eauto.
  - intros u o' r'. unfold tset. destruct (u =? t); [discriminate|apply IH2].
Qed.
Lemma visible_in t o r tr atr : avisible atr = visible tr -> In (ERet t o r) tr -> In (ARet t o r) atr.
Proof.
  intros E H. assert (F : In (VRet t o r) (avisible atr)) by (rewrite E; apply in_flat_map; exists (ERet t o r); simpl; auto).
  apply in_flat_map in F as ([u o'|u|u o' r'] & Hi & Hv); simpl in Hv; intuition congruence.
Qed.
Lemma answered_effect tr ss s log : exec tr ss s -> answered tr log -> forall o r, In (o, r) log -> exists A A', effect false o A A' r.
Proof.
  intros Hx Ha o r Hi. destruct (Ha o r Hi) as [t Ht].
  destruct (linearizable_ok false tr ss s Hx) as (atr & A & st & Hax & Ev & _); [discriminate|].
  destruct (aexec_effect _ _ _ Hax) as [W _]. eapply W. eapply visible_in; eauto.
Qed.

(** * Lists *)
Lemma lb_skip {B} (l : list (K * B)) k x : ascending l -> In x (skipn (lower_bound k l) l) <-> In x l /\ klt (fst x) k = false.
Proof.
  intros Ha. rewrite lower_bound_lb by auto. split.
  - intros H. apply In_nth_error in H as [i Hi]. rewrite skipn_nth in Hi. split; [eapply nth_error_In; eauto|eapply lb_after; [exact Ha| |exact Hi]; lia].
  - intros [H1 H2]. apply In_nth_error in H1 as [i Hi]. destruct (Nat.lt_ge_cases i (lb k l)) as [C|C].
    + rewrite (lb_before _ _ _ _ C Hi) in H2. discriminate.
    + apply nth_error_In with (n := i - lb k l). rewrite skipn_nth. replace (lb k l + (i - lb k l)) with i by lia. exact Hi.
Qed.
Lemma firstn_in {B} (l : list B) n x : In x (firstn n l) -> In x l.
Proof. intros H. rewrite <- (firstn_skipn n l). apply in_or_app; auto. Qed.
Lemma skipn_in {B} (l : list B) n x : In x (skipn n l) -> In x l.
Proof. intros H. rewrite <- (firstn_skipn n l). apply in_or_app; auto. Qed.
Lemma nodup_firstn {B} (l : list B) n : NoDup l -> NoDup (firstn n l).
Proof. revert n. induction l as [|a l IH]; intros [|n] H; simpl; try constructor; inversion H; subst; auto. intros F. apply firstn_in in F. auto. Qed.
Lemma nodup_skipn {B} (l : list B) n : NoDup l -> NoDup (skipn n l).
Proof. revert n. induction l as [|a l IH]; intros [|n] H; simpl; auto. apply IH. inversion H; auto. Qed.
Lemma nodup_app {B} (a b : list B) : NoDup a -> NoDup b -> (forall x, In x a -> ~ In x b) -> NoDup (a ++ b).
Proof.
  induction a as [|x a IH]; simpl; auto. intros H Hb Hd. inversion H; subst. constructor.
  - intros F. apply in_app_or in F as [F|F]; auto. apply (Hd x); auto.
  - apply IH; auto.
Qed.

(** * Positions *)
Definition rest (it : iter) : list (K * V) := skipn (i_pos it - 1) (i_items it).
(** A buffered page and a position between Begin() and End(). *)
Definition good (it : iter) : Prop :=
  ascending (i_items it) /\ NoDup (i_items it) /\ (forall x, In x (i_items it) -> below (i_high it) (fst x)) /\
  1 <= i_pos it <= S (length (i_items it)).
(** ... of which nothing before [k] is left. *)
Definition ahead (k : K) (it : iter) : Prop := forall x, In x (rest it) -> klt (fst x) k = false.
Definition settled (it : iter) : Prop := at_end it = true -> i_high it = None.

Lemma at_end_rest it : good it -> (at_end it = true <-> rest it = []).
Proof.
  intros (_ & _ & _ & H). unfold at_end, rest. rewrite Nat.eqb_eq. split; intros E.
  - apply skipn_all2. lia.
  - assert (L : length (skipn (i_pos it - 1) (i_items it)) = 0) by (rewrite E; auto). rewrite skipn_length in L. lia.
Qed.
Lemma deref_rest it x : good it -> deref it = Ok x -> rest it = x :: rest (move it (S (i_pos it))) /\ i_pos it <= length (i_items it).
Proof.
  intros (_ & _ & _ & H). unfold deref, rest, move. cbn. destruct (i_pos it) as [|p]; [lia|]. rewrite Nat.sub_0_r. simpl.
  destruct (nth_error (i_items it) p) as [y|] eqn:E; [|discriminate]. intros F. injection F as <-.
  rewrite Nat.sub_0_r. split; [|apply nth_error_Some; congruence].
  clear H. revert p E. induction (i_items it) as [|a l IH]; intros [|p] E; simpl in *; try discriminate; [congruence|apply IH; exact E].
Qed.
Lemma deref_ok it : good it -> at_end it = false -> exists x, deref it = Ok x.
Proof.
  intros (_ & _ & _ & H) E. apply Nat.eqb_neq in E. unfold deref. destruct (i_pos it) as [|p]; [lia|].
  destruct (nth_some (i_items it) p) as [x Hx]; [lia|]. rewrite Hx. eauto.
Qed.
Lemma good_move it : good it -> i_pos it <= length (i_items it) -> good (move it (S (i_pos it))).
Proof. intros (A & B & C & D) H. unfold good. cbn. split; [auto|split; [auto|split; [auto|lia]]]. Qed.

(** The page fetched for [k], positioned at the first item not before [k]. *)
Lemma fetched A A' k low items high : effect false (OpPage k) A A' (RPage low items high) ->
  let it := {| i_low := low; i_items := items; i_high := high; i_pos := S (lower_bound k items) |} in
  good it /\ ahead k it /\ (forall x, In x (rest it) <-> In x items /\ klt (fst x) k = false).
Proof.
  intros (H1 & H2 & (Pa & Pn & Pi) & _). cbn zeta.
  assert (Hr : forall x, In x (rest {| i_low := low; i_items := items; i_high := high; i_pos := S (lower_bound k items) |}) <-> In x items /\ klt (fst x) k = false).
  { intros x. unfold rest. cbn [i_pos i_items]. rewrite Nat.sub_succ, Nat.sub_0_r. apply lb_skip. exact Pa. }
  split; [|split; [intros x Hx; apply Hr; exact Hx|exact Hr]].
  split; [exact Pa|split; [exact Pn|split]].
  - intros [x v] Hx. apply Pi in Hx. apply Hx.
  - cbn [i_pos i_items]. rewrite lower_bound_lb by auto. pose proof (lb_le items k). lia.
Qed.

(** * With other threads *)
Definition okl (l : list (op * resp)) : Prop := forall o r, In (o, r) l -> exists A A', effect false o A A' r.
Lemma okl_cons o r l : okl ((o, r) :: l) -> (exists A A', effect false o A A' r) /\ okl l.
Proof. intros H. split; [apply H; left; auto|]. intros o' r' Hi. apply H. right. auto. Qed.
Lemma okl_app a b : okl (a ++ b) -> okl a /\ okl b.
Proof. intros H. split; intros o r Hi; apply H; apply in_or_app; auto. Qed.
Lemma follows_bind {A B} (c : icode A) (f : A -> icode B) : forall l b, follows (ibind c f) l b ->
  exists l1 l2 a, l = l1 ++ l2 /\ follows c l1 a /\ follows (f a) l2 b.
Proof.
  induction c as [a|e|o k IH]; simpl; intros l b H.
  - exists [], l, a. split; [auto|split; [constructor|auto]].
  - inversion H.
  - inversion H as [|o' k' r l' b' Hf]; subst. destruct (IH _ _ _ Hf) as (l1 & l2 & a & -> & F1 & F2). exists ((o, r) :: l1), l2, a. split; [auto|split; [constructor; auto|auto]].
Qed.
Lemma follows_lift {A} (r : res A) l a : follows (ilift r) l a -> l = [] /\ r = Ok a.
Proof. destruct r; simpl; intros H; inversion H; subst; auto. Qed.

Lemma lower_follows f : forall k l it, follows (lower f k) l it -> okl l -> good it /\ ahead k it /\ settled it.
Proof.
  induction f as [|f IH]; intros k l it H Hl; [inversion H|]. cbn [lower] in H. inversion H as [|o c r l' a Hf]; subst.
  destruct (okl_cons _ _ _ Hl) as [(A & A' & He) Hl']. destruct r as [b|b s|vs|low items high]; try (destruct He; fail); try (simpl in He; tauto).
  destruct (fetched _ _ _ _ _ _ He) as (G & Ah & _). set (it0 := {| i_low := low |}) in *. destruct (negb (at_end it0)) eqn:En.
  - inversion Hf; subst. split; [exact G|split; [exact Ah|]]. intros F. rewrite F in En. discriminate.
  - destruct high as [[h n]|].
    + destruct (IH _ _ _ Hf Hl') as (G' & Ah' & S'). split; [exact G'|split; [|exact S']]. intros x Hx. apply Ah' in Hx.
      destruct He as (_ & Hb & _). simpl in Hb. order.
    + inversion Hf; subst. split; [exact G|split; [exact Ah|]]. intros _. reflexivity.
Qed.
Lemma next_follows f it x l it' : good it -> deref it = Ok x -> follows (next f it) l it' -> okl l ->
  settled it' /\ good it' /\
  (it' = move it (S (i_pos it)) \/
   exists h n, i_high it = Some (h, n) /\ rest it = [x] /\ ahead h it').
Proof.
  intros G Ed H Hl. destruct (deref_rest it x G Ed) as [Er Hp]. assert (Ea : at_end it = false) by (apply Nat.eqb_neq; lia).
  assert (Ee : is_end it = false) by (unfold is_end; destruct (i_high it); auto).
  unfold next, move_ahead in H. rewrite Ee, Ea in H. pose proof (good_move it G Hp) as Gm.
  destruct (at_end (move it (S (i_pos it)))) eqn:Em.
  - change (i_high (move it (S (i_pos it)))) with (i_high it) in H. destruct (i_high it) as [[h n]|] eqn:Eh.
    + destruct (lower_follows _ _ _ _ H Hl) as (G' & A' & S'). split; [exact S'|split; [exact G'|]]. right. exists h, n. split; [auto|split; [|exact A']].
      rewrite Er. f_equal. apply at_end_rest; auto.
    + inversion H; subst. split; [intros _; exact Eh|split; [exact Gm|left; auto]].
  - inversion H; subst. split; [intros F; congruence|split; [exact Gm|left; auto]].
Qed.
Definition beyond_high (it : iter) (b : list (K * V)) : Prop :=
  match i_high it with None => b = [] | Some (h, _) => forall y, In y b -> klt (fst y) h = false end.
Lemma join it a b : good it -> beyond_high it b -> ascending b -> NoDup b ->
  ascending (firstn a (rest it) ++ b) /\ NoDup (firstn a (rest it) ++ b).
Proof.
  intros (A & B & C & D) Hb Sb Nb.
  assert (Hx : forall x y, In x (firstn a (rest it)) -> In y b -> klt (fst x) (fst y) = true).
  { intros x y Hx Hy. apply firstn_in, skipn_in, C in Hx. unfold beyond_high in Hb. destruct (i_high it) as [[h n]|].
    - specialize (Hb y Hy). simpl in Hx. order.
    - subst b. destruct Hy. }
  split.
  - apply ascending_app; [apply ascending_firstn, ascending_skipn; auto|auto|]. intros x y Hi Hy. specialize (Hx x y Hi Hy). order.
  - apply nodup_app; [apply nodup_firstn, nodup_skipn; auto|auto|]. intros x Hi Hy. specialize (Hx x x Hi Hy). order.
Qed.
Lemma walk_follows n : forall f it l outs it', good it -> settled it -> follows (walk n f it) l (outs, it') -> okl l ->
  exists a b, outs = firstn a (rest it) ++ b /\ ascending b /\ NoDup b /\ beyond_high it b.
Proof.
  assert (Hnil : forall it : iter, exists a (b : list (K * V)), [] = firstn a (rest it) ++ b /\ ascending b /\ NoDup b /\ beyond_high it b).
  { intros it. exists 0, []. split; [auto|split; [constructor|split; [constructor|]]]. unfold beyond_high. destruct (i_high it) as [[h n0]|]; auto. intros y []. }
  induction n as [|n IH]; intros f it l outs it' G St H Hl; cbn [walk] in H; [inversion H; subst; apply Hnil|].
  destruct (is_end it) eqn:Ee; [inversion H; subst; apply Hnil|].
  apply follows_bind in H as (l1 & l2 & x & -> & F1 & H). apply follows_lift in F1 as [-> Ed]. cbn [app] in Hl.
  apply follows_bind in H as (l3 & l4 & it1 & -> & F2 & H). apply okl_app in Hl as [Hl1 Hl2].
  apply follows_bind in H as (l5 & l6 & [o1 it2] & -> & F3 & H). apply okl_app in Hl2 as [Hl2 _]. inversion H; subst. cbn [fst snd].
  destruct (deref_rest it x G Ed) as [Er Hp].
  destruct (next_follows f it x l3 it1 G Ed F2 Hl1) as (S1 & G1 & D). destruct (IH _ _ _ _ _ G1 S1 F3 Hl2) as (a & b & -> & Sb & Nb & Bb).
  destruct D as [->|(h & hn & Eh & E1 & Ah)].
  - exists (S a), b. rewrite Er. simpl. auto.
  - destruct (join it1 a b G1 Bb Sb Nb) as [Sj Nj]. exists 1, (firstn a (rest it1) ++ b). rewrite E1. split; [auto|split; [auto|split; [auto|]]].
    unfold beyond_high. rewrite Eh. intros y Hy. apply in_app_or in Hy as [Hy|Hy].
    + apply Ah. eapply firstn_in; eauto.
    + unfold beyond_high in Bb. destruct (i_high it1) as [[h1 n1]|] eqn:E2; [|subst b; destruct Hy].
      assert (Hr : klt h h1 = true \/ exists z, In z (rest it1)).
      { destruct (at_end it1) eqn:Ea; [rewrite (S1 Ea) in E2; discriminate|]. right.
        destruct (deref_ok it1 G1 Ea) as [z Hz]. destruct (deref_rest it1 z G1 Hz) as [Ez _]. exists z. rewrite Ez. left; auto. }
      specialize (Bb y Hy). destruct Hr as [Hr|[z Hz]]; [order|]. pose proof (Ah z Hz). destruct G1 as (_ & _ & C1 & _).
      apply skipn_in in Hz. apply C1 in Hz. rewrite E2 in Hz. simpl in Hz. order.
Qed.

Lemma scan_key tr ss s f n k log outs it : exec tr ss s -> answered tr log ->
  follows (ibind (lower f k) (walk n f)) log (outs, it) ->
  ascending outs /\ NoDup outs /\ forall x v, In (x, v) outs -> klt x k = false.
Proof.
  intros Hx Ha H. pose proof (answered_effect _ _ _ _ Hx Ha) as Hl. fold (okl log) in Hl.
  apply follows_bind in H as (l1 & l2 & it0 & -> & F1 & F2). apply okl_app in Hl as [Hl1 Hl2].
  destruct (lower_follows _ _ _ _ F1 Hl1) as (G & Ah & St). destruct (walk_follows _ _ _ _ _ _ G St F2 Hl2) as (a & b & -> & Sb & Nb & Bb).
  destruct (join it0 a b G Bb Sb Nb) as [Sj Nj]. split; [exact Sj|split; [exact Nj|]]. intros x v Hi. apply in_app_or in Hi as [Hi|Hi].
  - apply firstn_in in Hi. apply (Ah _ Hi).
  - unfold beyond_high in Bb. destruct (i_high it0) as [[h1 n1]|] eqn:E2; [|subst b; destruct Hi]. specialize (Bb _ Hi). simpl in Bb.
    destruct (at_end it0) eqn:Ea; [rewrite (St Ea) in E2; discriminate|].
    destruct (deref_ok it0 G Ea) as [z Hz]. destruct (deref_rest it0 z G Hz) as [Ez _]. assert (Hr : In z (rest it0)) by (rewrite Ez; left; auto).
    pose proof (Ah z Hr). destruct G as (_ & _ & C1 & _). apply skipn_in in Hr. apply C1 in Hr. rewrite E2 in Hr. simpl in Hr. order.
Qed.
Lemma scan_first tr ss s f n log outs it : exec tr ss s -> answered tr log ->
  follows (ibind begin_first (walk n f)) log (outs, it) -> ascending outs /\ NoDup outs.
Proof.
  intros Hx Ha H. pose proof (answered_effect _ _ _ _ Hx Ha) as Hl. fold (okl log) in Hl.
  unfold begin_first in H. cbn [ibind] in H. inversion H as [|o c r l' a0 Hf]; subst. destruct (okl_cons _ _ _ Hl) as [(A & A' & He) Hl'].
  destruct r as [b0|b0 s0|vs|low items high]; try (simpl in He; tauto). cbn [ibind] in Hf. destruct He as (_ & (Pa & Pn & Pi) & _).
  set (it0 := {| i_low := low |}) in *. assert (G : good it0).
  { split; [exact Pa|split; [exact Pn|split]]; [intros [x v] Hy; apply Pi in Hy; apply Hy|cbn; lia]. }
  destruct (at_end it0) eqn:Ea.
  - (* an empty first page: nothing is read *)
    destruct n as [|n]; cbn [walk] in Hf; [inversion Hf; subst; split; constructor|].
    destruct (is_end it0); [inversion Hf; subst; split; constructor|]. apply follows_bind in Hf as (l1 & l2 & x & -> & F1 & _). apply follows_lift in F1 as [_ Ed].
    destruct (deref_rest it0 x G Ed) as [_ Hp]. apply Nat.eqb_eq in Ea. lia.
  - destruct (walk_follows _ _ _ _ _ _ G (fun F => ltac:(congruence)) Hf Hl') as (a & b & -> & Sb & Nb & Bb). apply join; auto.
Qed.

(** * Alone *)
Lemma irun_bind {A B} (c : icode A) (g : A -> icode B) f : forall m,
  irun m f (ibind c g) = match irun m f c with (m', Ok a) => irun m' f (g a) | (m', Er e) => (m', Er e) end.
Proof.
  induction c as [a|e|o k IH]; simpl; auto. intros m. destruct (prun m (code f o)) as [m' [r|e]]; auto.
Qed.
(** Keys of [S0] after [k]. *)
Definition left (S0 : list K) (k : K) : nat := length (filter (fun s => klt k s) S0).
Lemma left_lt S0 k h : In h S0 -> klt k h = true -> left S0 h < left S0 k.
Proof.
  unfold left. intros Hi Hk. assert (Hle : forall l, length (filter (fun s => klt h s) l) <= length (filter (fun s => klt k s) l)).
  { induction l as [|a l IH]; simpl; auto. destruct (klt h a) eqn:E1; destruct (klt k a) eqn:E2; simpl; try lia. exfalso. order. }
  induction S0 as [|a l IH]; [destruct Hi|]. destruct Hi as [->|Hi].
  - simpl. rewrite Hk, klt_irrefl. simpl. specialize (Hle l). lia.
  - specialize (IH Hi). simpl. destruct (klt h a) eqn:E1; destruct (klt k a) eqn:E2; simpl; try lia. exfalso. order.
Qed.
(** A single-threaded state, with the keys in [S0]. *)
Definition quiet (S0 : list K) (A : pairs) (m : mem) : Prop := (exists l, calmrun l m) /\ mkin S0 m /\ same A (contents m).
Lemma quiet_page S0 A m k : quiet S0 A m -> exists f0 m' low items high,
  (forall f, f0 <= f -> prun m (code f (OpPage k)) = (m', Ok (RPage low items high))) /\ quiet S0 A m' /\ effect false (OpPage k) A A (RPage low items high) /\ okin S0 high.
Proof.
  intros ((l & Hq) & Hk & Hs). destruct (seq_set l m (OpPage k) Hq I I) as (f0 & m' & r & Hf & He).
  destruct r as [b0|b0 s0|vs|low items high]; try (simpl in He; tauto).
  assert (Hs' : same (contents m) (contents m')) by (destruct He as (_ & _ & _ & He); exact He).
  exists f0, m', low, items, high. split; [exact Hf|]. destruct (page_keys S0 m f0 k m' _ Hk (Hf f0 (le_n _))) as [Hk' Hh].
  split; [split; [eexists; apply (C_call l m f0 (OpPage k) m' _ Hq I I (Hf f0 (le_n _)))|split; [exact Hk'|]]|].
  - eapply same_trans; eauto.
  - split; [|exact Hh]. destruct He as (A1 & A2 & A3 & _). split; [exact A1|split; [exact A2|split; [|intros x v; tauto]]].
    destruct A3 as (B1 & B2 & B3). split; [exact B1|split; [exact B2|]]. intros x v. rewrite (Hs x v). apply B3.
Qed.
(** The iterator's page is exact. *)
Definition exact_it (A : pairs) (it : iter) : Prop := fresh A it /\ 1 <= i_pos it <= S (length (i_items it)).
Lemma exact_good A it : exact_it A it -> good it.
Proof. intros [(F1 & F2 & F3) H]. split; [exact F1|split; [exact F2|split; [|exact H]]]. intros [x v] Hi. apply F3 in Hi. apply Hi. Qed.
(** Nothing from [k] on was skipped. *)
Definition covers (A : pairs) (k : K) (it : iter) : Prop := forall x v, A x v -> klt x k = false -> In (x, v) (rest it) \/ ~ below (i_high it) x.
Lemma lower_tot S0 A n : forall m k, quiet S0 A m -> left S0 k < n -> exists f0 m' it,
  (forall f f2, f0 <= f -> f0 <= f2 -> irun m f2 (lower f k) = (m', Ok it)) /\ quiet S0 A m' /\ exact_it A it /\ ahead k it /\ settled it /\ covers A k it /\ okin S0 (i_high it) /\ below (i_high it) k.
Proof.
  induction n as [|n IH]; intros m k Hq Hn; [lia|].
  destruct (quiet_page S0 A m k Hq) as (f0 & m' & low & items & high & Hf & Hq' & He & Hh).
  destruct (fetched _ _ _ _ _ _ He) as (G & Ah & Hr). set (it0 := {| i_low := low |}) in *. destruct He as (Hlo & Hhi & Hp & _).
  assert (Hex : exact_it A it0) by (split; [exact Hp|apply G]).
  assert (Hc : covers A k it0).
  { intros x v Hx Hk. destruct high as [[h hn]|] eqn:Eh.
    - destruct (klt x h) eqn:E; [|right; cbn; congruence]. left. apply Hr. split; [|exact Hk]. apply Hp. split; [|split; [exact E|exact Hx]].
      destruct low as [lo|]; simpl in *; auto. order.
    - left. apply Hr. split; [|exact Hk]. apply Hp. split; [|split; [exact I|exact Hx]]. destruct low as [lo|]; simpl in *; auto. order. }
  destruct (at_end it0) eqn:Ea.
  - destruct high as [[h hn]|] eqn:Eh.
    + assert (Hlt : left S0 h < left S0 k) by (apply left_lt; [apply Hh; left; auto|exact Hhi]).
      destruct (IH m' h Hq') as (f1 & m'' & it & Hf1 & Hq2 & Hex2 & Ah2 & St2 & Hc2 & Hh2 & Hb2); [lia|].
      exists (S (f0 + f1)), m'', it. split; [|split; [exact Hq2|split; [exact Hex2|split; [|split; [exact St2|split; [|split; [exact Hh2|]]]]]]].
      * intros f f2 H1 H2. destruct f as [|f]; [lia|]. cbn [lower irun]. rewrite Hf by lia. cbn [irun]. fold it0. rewrite Ea. cbn [negb]. apply Hf1; lia.
      * intros x Hx. apply Ah2 in Hx. simpl in Hhi. order.
      * intros x v Hx Hk. apply Hc2; auto. destruct (klt x h) eqn:E; auto. destruct (Hc x v Hx Hk) as [Hin|Hin].
        -- apply at_end_rest in Ea; [|exact G]. rewrite Ea in Hin. destruct Hin.
        -- exfalso. apply Hin. exact E.
      * destruct (i_high it) as [[h2 n2]|]; auto. simpl in *. order.
    + exists (S f0), m', it0. split; [|split; [exact Hq'|split; [exact Hex|split; [exact Ah|split; [intros _; reflexivity|split; [exact Hc|split; [exact Hh|exact I]]]]]]].
      intros f f2 H1 H2. destruct f as [|f]; [lia|]. cbn [lower irun]. rewrite Hf by lia. cbn [irun]. fold it0. rewrite Ea. reflexivity.
  - exists (S f0), m', it0. split; [|split; [exact Hq'|split; [exact Hex|split; [exact Ah|split; [congruence|split; [exact Hc|split; [exact Hh|exact Hhi]]]]]]].
    intros f f2 H1 H2. destruct f as [|f]; [lia|]. cbn [lower irun]. rewrite Hf by lia. cbn [irun]. fold it0. rewrite Ea. reflexivity.
Qed.
Lemma is_end_settled it : settled it -> is_end it = at_end it.
Proof. intros S. unfold is_end. destruct (i_high it) eqn:E; auto. destruct (at_end it) eqn:Ea; auto. rewrite (S Ea) in E. discriminate. Qed.
Definition hleft (S0 : list K) (it : iter) : nat := match i_high it with None => 0 | Some (h, _) => S (left S0 h) end.
Lemma walk_tot S0 A n : forall m it, quiet S0 A m -> exact_it A it -> settled it -> okin S0 (i_high it) -> hleft S0 it < n -> exists N f0 m' outs it',
  (forall n' f f2, N <= n' -> f0 <= f -> f0 <= f2 -> irun m f2 (walk n' f it) = (m', Ok (outs, it'))) /\ is_end it' = true /\ quiet S0 A m' /\
  exists b, outs = rest it ++ b /\ ascending b /\ NoDup b /\ forall x v, In (x, v) b <-> A x v /\ ~ below (i_high it) x.
Proof.
  induction n as [|n IHn]; intros m it; [lia|]. remember (length (rest it)) as r eqn:Er. revert m it Er. induction r as [|r IHr]; intros m it Er Hq Hx St Hh Hn.
  - pose proof (exact_good _ _ Hx) as G. assert (Ea : at_end it = true) by (apply at_end_rest; [exact G|]; destruct (rest it); [auto|discriminate]).
    pose proof (is_end_settled it St) as Ee. rewrite Ea in Ee. exists 0, 0, m, [], it. split; [|split; [exact Ee|split; [exact Hq|]]].
    + intros n' f f2 _ _ _. destruct n'; cbn [walk]; [reflexivity|]. rewrite Ee. reflexivity.
    + exists []. apply at_end_rest in Ea as Ea'; [|exact G]. rewrite Ea'. split; [auto|split; [constructor|split; [constructor|]]].
      intros x v. rewrite (St Ea). simpl. tauto.
  - pose proof (exact_good _ _ Hx) as G. assert (Ea : at_end it = false).
    { destruct (at_end it) eqn:E; auto. apply at_end_rest in E; [|exact G]. rewrite E in Er. discriminate. }
    pose proof (is_end_settled it St) as Ee. rewrite Ea in Ee. destruct (deref_ok it G Ea) as [x Hd]. destruct (deref_rest it x G Hd) as [Eq Hp].
    set (it1 := move it (S (i_pos it))) in *. assert (Hx1 : exact_it A it1) by (split; [apply Hx|cbn; lia]). pose proof (exact_good _ _ Hx1) as G1.
    destruct (at_end it1) eqn:E1; [destruct (i_high it) as [[h hn]|] eqn:Eh|].
    + unfold hleft in Hn. rewrite Eh in Hn. destruct (lower_tot S0 A (S (left S0 h)) m h Hq) as (f0 & m1 & it2 & Hf & Hq2 & Hx2 & Ah2 & St2 & Hc2 & Hh2 & Hb2); [lia|].
      assert (Hm : hleft S0 it2 < n).
      { unfold hleft. destruct (i_high it2) as [[h2 n2]|]; [|lia]. assert (left S0 h2 < left S0 h) by (apply left_lt; [apply Hh2; left; auto|exact Hb2]). lia. }
      destruct (IHn m1 it2 Hq2 Hx2 St2 Hh2 Hm) as (N & f1 & m2 & outs & it' & Hw & He' & Hq' & b & Eb & Sb & Nb & Ib).
      pose proof (exact_good _ _ Hx2) as G2. assert (Bb : beyond_high it2 b).
      { unfold beyond_high. destruct (i_high it2) as [[h2 n2]|] eqn:E2.
        - intros [y w] Hy. apply Ib in Hy as [_ Hy]. simpl in *. destruct (klt y h2); [exfalso; auto|auto].
        - destruct b as [|[y w] b]; auto. exfalso. assert (F : In (y, w) ((y, w) :: b)) by (left; auto). apply Ib in F as [_ F]. apply F. exact I. }
      destruct (join it2 (length (rest it2)) b G2 Bb Sb Nb) as [Sj Nj]. rewrite firstn_all in Sj, Nj.
      exists (S N), (f0 + f1), m2, (x :: outs), it'. split; [|split; [exact He'|split; [exact Hq'|]]].
      * intros n' f f2 H1 H2 H3. destruct n' as [|n']; [lia|]. cbn [walk]. rewrite Ee, Hd. cbn [ilift ibind]. rewrite irun_bind.
        unfold next, move_ahead. rewrite Ee, Ea. fold it1. rewrite E1. change (i_high it1) with (i_high it). rewrite Eh, Hf by lia.
        rewrite irun_bind, Hw by lia. reflexivity.
      * exists (rest it2 ++ b). apply at_end_rest in E1; [|exact G1]. rewrite Eq, E1, Eb. split; [auto|split; [exact Sj|split; [exact Nj|]]].
        intros y w. rewrite in_app_iff, Ib. simpl. split.
        -- intros [H|[H1 H2]].
           ++ pose proof (Ah2 _ H) as H'. apply skipn_in in H. apply (proj1 Hx2) in H. simpl in H'. split; [apply H|congruence].
           ++ split; auto. intros F. apply H2. destruct (i_high it2) as [[h2 n2]|]; simpl in *; auto. order.
        -- intros [H1 H2]. destruct (Hc2 y w H1) as [H|H]; auto. destruct (klt y h); [exfalso; auto|auto].
    + exists 1, 0, m, [x], it1. split; [|split; [unfold is_end; change (i_high it1) with (i_high it); rewrite Eh; exact E1|split; [exact Hq|]]].
      * intros n' f f2 H1 H2 H3. destruct n' as [|n']; [lia|]. cbn [walk]. rewrite Ee, Hd. cbn [ilift ibind]. rewrite irun_bind.
        unfold next, move_ahead. rewrite Ee, Ea. fold it1. rewrite E1. change (i_high it1) with (i_high it). rewrite Eh. cbn [irun].
        destruct n' as [|n']; cbn [walk ibind irun fst snd]; [reflexivity|]. unfold is_end. change (i_high it1) with (i_high it). rewrite Eh, E1. reflexivity.
      * exists []. apply at_end_rest in E1; [|exact G1]. rewrite Eq, E1. split; [auto|split; [constructor|split; [constructor|]]]. intros y w. simpl. tauto.
    + destruct (IHr m it1) as (N & f1 & m2 & outs & it' & Hw & He' & Hq' & b & Eb & Sb & Nb & Ib); auto.
      * rewrite Eq in Er. simpl in Er. lia.
      * intros F. congruence.
      * exists (S N), f1, m2, (x :: outs), it'. split; [|split; [exact He'|split; [exact Hq'|]]].
        -- intros n' f f2 H1 H2 H3. destruct n' as [|n']; [lia|]. cbn [walk]. rewrite Ee, Hd. cbn [ilift ibind]. rewrite irun_bind.
           unfold next, move_ahead. rewrite Ee, Ea. fold it1. rewrite E1. cbn [irun]. rewrite irun_bind, Hw by lia. reflexivity.
        -- exists b. rewrite Eq, Eb. auto.
Qed.
Lemma quiet_start l m : calmrun l m -> quiet (allkeys m) (contents m) m.
Proof.
  intros H. split; [eauto|]. split; [|intros k v; tauto]. apply allkeys_kin. destruct (calmrun_ready l m H) as (lev & h & R). apply R.
Qed.
Lemma first_from_covers A k it : exact_it A it -> ahead k it -> settled it -> covers A k it -> first_from A (Some k) it.
Proof.
  intros Hx Ah St Hc. pose proof (exact_good _ _ Hx) as G. pose proof (is_end_settled it St) as Ee. destruct (at_end it) eqn:Ea.
  - left. split; auto. intros x v Hv Hf. destruct (Hc x v Hv Hf) as [H|H].
    + apply at_end_rest in Ea; [|exact G]. rewrite Ea in H. destruct H.
    + apply H. rewrite (St Ea). exact I.
  - right. split; auto. destruct (deref_ok it G Ea) as [[x v] Hd]. destruct (deref_rest it _ G Hd) as [Eq Hp]. exists x, v. assert (Hi : In (x, v) (rest it)) by (rewrite Eq; left; auto).
    split; [exact Hd|split; [|split; [apply (Ah _ Hi)|]]].
    + apply skipn_in in Hi. apply (proj1 Hx) in Hi. apply Hi.
    + intros y w Hy Hf. destruct (Hc y w Hy Hf) as [H|H].
      * destruct G as (Ga & _). apply (ascending_skipn _ (i_pos it - 1)) in Ga. fold (rest it) in Ga. rewrite Eq in Ga, H. inversion Ga as [|a l Ha Hl]; subst. rewrite Forall_forall in Hl.
        destruct H as [H|H]; [injection H as <- <-; apply klt_irrefl|apply (Hl _ H)].
      * destruct (i_high it) as [[h hn]|] eqn:Eh; [|exfalso; apply H; exact I]. apply skipn_in in Hi. destruct G as (_ & _ & C & _). apply C in Hi. rewrite Eh in Hi. simpl in *.
        destruct (klt y h) eqn:E; [exfalso; auto|]. order.
Qed.
Lemma begin_key l m k : calmrun l m -> exists f0 m' it,
  (forall f f2, f0 <= f -> f0 <= f2 -> irun m f2 (lower f k) = (m', Ok it)) /\ same (contents m) (contents m') /\ first_from (contents m) (Some k) it.
Proof.
  intros Hq. destruct (lower_tot (allkeys m) (contents m) (S (left (allkeys m) k)) m k (quiet_start l m Hq)) as (f0 & m' & it & Hf & Q & Hx & Ah & St & Hc & _); [lia|].
  exists f0, m', it. split; [exact Hf|]. split; [apply Q|]. apply first_from_covers; auto.
Qed.
Lemma scan_exact_key l m k : calmrun l m -> exists N f0 m' outs it,
  (forall n f f2, N <= n -> f0 <= f -> f0 <= f2 -> irun m f2 (ibind (lower f k) (walk n f)) = (m', Ok (outs, it))) /\
  is_end it = true /\ same (contents m) (contents m') /\ listing (contents m) (Some k) outs.
Proof.
  intros Hq. set (S0 := allkeys m). destruct (lower_tot S0 (contents m) (S (left S0 k)) m k (quiet_start l m Hq)) as (f0 & m1 & it1 & Hf & Q1 & Hx & Ah & St & Hc & Hh & Hb); [lia|].
  destruct (walk_tot S0 (contents m) (S (hleft S0 it1)) m1 it1 Q1 Hx St Hh) as (N & f1 & m2 & outs & it & Hw & He & Q2 & b & -> & Sb & Nb & Ib); [lia|].
  pose proof (exact_good _ _ Hx) as G. assert (Bb : beyond_high it1 b).
  { unfold beyond_high. destruct (i_high it1) as [[h2 n2]|] eqn:E2.
    - intros [y w] Hy. apply Ib in Hy as [_ Hy]. simpl in *. destruct (klt y h2); [exfalso; auto|auto].
    - destruct b as [|[y w] b]; auto. exfalso. assert (F : In (y, w) ((y, w) :: b)) by (left; auto). apply Ib in F as [_ F]. apply F. exact I. }
  destruct (join it1 (length (rest it1)) b G Bb Sb Nb) as [Sj Nj]. rewrite firstn_all in Sj, Nj.
  exists N, (f0 + f1), m2, (rest it1 ++ b), it. split; [|split; [exact He|split; [apply Q2|split; [exact Sj|split; [exact Nj|]]]]].
  - intros n f f2 H1 H2 H3. rewrite irun_bind, Hf by lia. apply Hw; lia.
  - intros x v. rewrite in_app_iff, Ib. unfold from. cbn [above]. split.
    + intros [H|[H1 H2]].
      * pose proof (Ah _ H) as H'. apply skipn_in in H. apply (proj1 Hx) in H. split; [apply H|exact H'].
      * split; auto. destruct (i_high it1) as [[h2 n2]|]; simpl in *; [|exfalso; auto]. destruct (klt x h2) eqn:E; [exfalso; auto|]. order.
    + intros [H1 H2]. destruct (Hc x v H1 H2) as [H|H]; auto.
Qed.
End IterProofs.
