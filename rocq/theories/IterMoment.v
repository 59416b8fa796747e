(** Scans while other threads change the index: pairs stored all the time are
    not skipped, and every pair returned was stored. *)
From Coq Require Import List Arith Lia Bool Sorted.
From Verif Require Import Base SmallSet Bloom Leaf LeafSpec LeafProofs Inner Tree TreeSpec TreeInv TreeLin Iter IterSpec IterProofs IterBack MomentSpec Moment.
Import ListNotations.

Section IterMoment.
Context {P : Params}.

(** The pairs each call saw lie between [S] and [U]. *)
Definition okb (S U : pairs) (l : list (op * resp)) : Prop :=
  forall o r, In (o, r) l -> exists A A', effect false o A A' r /\ (forall k v, S k v -> A k v) /\ (forall k v, A k v -> U k v).
Lemma okb_okl S U l : okb S U l -> okl l.
Proof. intros H o r Hi. destruct (H o r Hi) as (A & A' & He & _). eauto. Qed.
Lemma okb_cons S U o r l : okb S U ((o, r) :: l) ->
  (exists A A', effect false o A A' r /\ (forall k v, S k v -> A k v) /\ (forall k v, A k v -> U k v)) /\ okb S U l.
Proof. intros H. split; [apply H; left; auto|]. intros o' r' Hi. apply H. right. auto. Qed.
Lemma okb_app S U a b : okb S U (a ++ b) -> okb S U a /\ okb S U b.
Proof. intros H. split; intros o r Hi; apply H; apply in_or_app; auto. Qed.
Lemma calls_okb tr ss s0 tr' ss' s log : exec tr ss s0 -> later s0 tr' ss' s -> calls_in tr' log ->
  okb (always ss') (sometime ss') log.
Proof.
  intros Hx Hl Hc o r Hi. destruct (Hc o r Hi) as [t Ht]. destruct (moment_ok _ _ _ _ _ _ _ _ _ Hx Hl Ht) as (s1 & s2 & M & He).
  exists (contents (sm s1)), (contents (sm s2)). split; [apply (He false); discriminate|].
  assert (Hin : In s1 ss'). { destruct M as [[_ M]|(a & b & ->)]; auto. apply in_or_app. right. right. left. auto. }
  split; [intros k v H; apply (H s1 Hin)|intros k v H; exists s1; auto].
Qed.

(** * Forwards *)
Definition due (it : iter) (x : K) (v : V) : Prop := In (x, v) (rest it) \/ ~ below (i_high it) x.
Definition from_u (U : pairs) (it : iter) : Prop := forall x v, In (x, v) (i_items it) -> U x v.
Lemma lower_b S U f : forall k l it, follows (lower f k) l it -> okb S U l ->
  from_u U it /\ below (i_high it) k /\ forall x v, S x v -> klt x k = false -> due it x v.
Proof.
  induction f as [|f IH]; intros k l it H Hl; [inversion H|]. cbn [lower] in H. inversion H as [|o c r l' a Hf]; subst.
  destruct (okb_cons _ _ _ _ _ Hl) as [(A & A' & He & HS & HU) Hl']. destruct r as [b|b s|vs|low items high]; try (simpl in He; tauto).
  destruct (fetched _ _ _ _ _ _ He) as (G & Ah & Hr). set (it0 := {| i_low := low |}) in *. destruct He as (Hlo & Hhi & Hp & _).
  assert (Hu : from_u U it0) by (intros x v Hx; apply HU; apply Hp in Hx; apply Hx).
  assert (Hd : forall x v, S x v -> klt x k = false -> due it0 x v).
  { intros x v Hx Hk. assert (Ha : above low x) by (destruct low as [lo|]; simpl in *; auto; order).
    assert (Hb : below high x \/ ~ below high x) by (destruct high as [[h n]|]; simpl; [destruct (klt x h); [left; auto|right; discriminate]|left; exact I]).
    destruct Hb as [Hb|Hb]; [|right; exact Hb]. left. apply Hr. split; [|exact Hk]. apply Hp. split; [exact Ha|split; [exact Hb|auto]]. }
  destruct (at_end it0) eqn:Ea; cbn [negb] in Hf.
  - destruct high as [[h n]|].
    + destruct (IH _ _ _ Hf Hl') as (H1 & H2 & H3). split; [exact H1|]. split; [destruct (i_high it) as [[h2 n2]|]; simpl in *; auto; order|].
      intros x v Hx Hk. apply H3; auto. destruct (Hd x v Hx Hk) as [F|F].
      * apply at_end_rest in Ea; [|exact G]. rewrite Ea in F. destruct F.
      * simpl in F. destruct (klt x h); auto. exfalso; auto.
    + inversion Hf; subst. auto.
  - inversion Hf; subst. auto.
Qed.
Lemma next_b S U f it x l it' : good it -> deref it = Ok x -> follows (next f it) l it' -> okb S U l -> from_u U it ->
  from_u U it' /\ forall y v, S y v -> due it y v -> (y, v) = x \/ due it' y v.
Proof.
  intros G Ed H Hl Hu. destruct (deref_rest it x G Ed) as [Er Hp]. assert (Ea : at_end it = false) by (apply Nat.eqb_neq; lia).
  assert (Ee : is_end it = false) by (unfold is_end; destruct (i_high it); auto).
  unfold next, move_ahead in H. rewrite Ee, Ea in H. pose proof (good_move it G Hp) as Gm.
  assert (Hm : forall y v, due it y v -> (y, v) = x \/ due (move it (Datatypes.S (i_pos it))) y v).
  { intros y v [F|F]; [|right; right; exact F]. rewrite Er in F. destruct F as [F|F]; [left; auto|right; left; exact F]. }
  destruct (at_end (move it (Datatypes.S (i_pos it)))) eqn:Em.
  - change (i_high (move it (Datatypes.S (i_pos it)))) with (i_high it) in H. destruct (i_high it) as [[h n]|] eqn:Eh.
    + destruct (lower_b S U _ _ _ _ H Hl) as (H1 & H2 & H3). split; [exact H1|]. intros y v Hy Hd. destruct (Hm y v Hd) as [F|F]; auto. right.
      apply H3; auto. destruct F as [F|F].
      * apply at_end_rest in Em; [|exact Gm]. rewrite Em in F. destruct F.
      * cbn [move i_high] in F. rewrite Eh in F. simpl in F. destruct (klt y h); auto. exfalso; auto.
    + inversion H; subst. split; [exact Hu|auto].
  - inversion H; subst. split; [exact Hu|auto].
Qed.
Lemma walk_b S U n : forall f it l outs it', good it -> settled it -> from_u U it -> follows (walk n f it) l (outs, it') -> okb S U l ->
  good it' /\ settled it' /\ from_u U it' /\ (forall x v, In (x, v) outs -> U x v) /\ forall x v, S x v -> due it x v -> In (x, v) outs \/ due it' x v.
Proof.
  induction n as [|n IH]; intros f it l outs it' G St Hu H Hl; cbn [walk] in H.
  - inversion H; subst. split; [exact G|split; [exact St|split; [exact Hu|split; [intros x v []|auto]]]].
  - destruct (is_end it) eqn:Ee; [inversion H; subst; split; [exact G|split; [exact St|split; [exact Hu|split; [intros x v []|auto]]]]|].
    apply follows_bind in H as (l1 & l2 & x & -> & F1 & H). apply follows_lift in F1 as [-> Ed]. cbn [app] in Hl.
    apply follows_bind in H as (l3 & l4 & it1 & -> & F2 & H). apply okb_app in Hl as [Hl1 Hl2].
    apply follows_bind in H as (l5 & l6 & [o1 it2] & -> & F3 & H). apply okb_app in Hl2 as [Hl2 _]. inversion H; subst. cbn [fst snd].
    destruct (next_follows f it x l3 it1 G Ed F2 (okb_okl _ _ _ Hl1)) as (S1 & G1 & _).
    destruct (next_b S U f it x l3 it1 G Ed F2 Hl1 Hu) as [Hu1 Hd1].
    destruct (IH _ _ _ _ _ G1 S1 Hu1 F3 Hl2) as (G2 & S2 & Hu2 & Ho & Hd2).
    split; [exact G2|split; [exact S2|split; [exact Hu2|split]]].
    + intros y v [->|Hi]; [|auto]. apply Hu. destruct (deref_rest it _ G Ed) as [Er _]. apply (skipn_in _ (i_pos it - 1)). fold (rest it). rewrite Er. left; auto.
    + intros y v Hy Hd. destruct (Hd1 y v Hy Hd) as [->|Hd']; [left; left; auto|]. destruct (Hd2 y v Hy Hd'); [left; right; auto|auto].
Qed.

Lemma passed_due it x v : good it -> settled it -> passed it x -> ~ due it x v.
Proof.
  intros G St [Ee|(y & w & Ed & Hk)] Hd.
  - rewrite (is_end_settled it St) in Ee. destruct Hd as [F|F].
    + apply at_end_rest in Ee; [|exact G]. rewrite Ee in F. destruct F.
    + apply F. rewrite (St Ee). exact I.
  - destruct (deref_rest it _ G Ed) as [Er _]. destruct G as (Ga & _ & Gc & _). destruct Hd as [F|F].
    + apply (ascending_skipn _ (i_pos it - 1)) in Ga. fold (rest it) in Ga. rewrite Er in Ga, F. inversion Ga as [|a l Ha Hl]; subst. rewrite Forall_forall in Hl.
      destruct F as [F|F]; [injection F as <- <-|apply Hl in F; simpl in F]; order.
    + assert (Hi : In (y, w) (i_items it)) by (apply (skipn_in _ (i_pos it - 1)); fold (rest it); rewrite Er; left; auto).
      apply Gc in Hi. apply F. destruct (i_high it) as [[h n]|]; simpl in *; auto. order.
Qed.

Lemma scan_key_b S U f n k log outs it : okb S U log -> follows (ibind (lower f k) (walk n f)) log (outs, it) ->
  (forall x v, In (x, v) outs -> U x v) /\ (forall x v, deref it = Ok (x, v) -> U x v) /\
  forall x v, S x v -> from (Some k) x -> passed it x -> In (x, v) outs.
Proof.
  intros Hl H. apply follows_bind in H as (l1 & l2 & it0 & -> & F1 & F2). apply okb_app in Hl as [Hl1 Hl2].
  destruct (lower_follows _ _ _ _ F1 (okb_okl _ _ _ Hl1)) as (G & Ah & St). destruct (lower_b S U _ _ _ _ F1 Hl1) as (Hu & _ & Hd).
  destruct (walk_b S U _ _ _ _ _ _ G St Hu F2 Hl2) as (G' & S' & Hu' & Ho & Hd').
  split; [exact Ho|split].
  - intros x v Ed. apply Hu'. unfold deref in Ed. destruct (i_pos it); [discriminate|]. destruct (nth_error (i_items it) n0) eqn:E; [|discriminate]. injection Ed as ->. eapply nth_error_In; eauto.
  - intros x v Hx Hk Hp. destruct (Hd' x v Hx (Hd x v Hx Hk)) as [F|F]; auto. exfalso. eapply passed_due; eauto.
Qed.
Lemma scan_first_b S U f n log outs it : okb S U log -> follows (ibind begin_first (walk n f)) log (outs, it) ->
  (forall x v, In (x, v) outs -> U x v) /\ (forall x v, deref it = Ok (x, v) -> U x v) /\
  forall x v, S x v -> passed it x -> In (x, v) outs.
Proof.
  intros Hl H. unfold begin_first in H. cbn [ibind] in H. inversion H as [|o c r l' a0 Hf]; subst. destruct (okb_cons _ _ _ _ _ Hl) as [(A & A' & He & HS & HU) Hl'].
  destruct r as [b0|b0 s0|vs|low items high]; try (simpl in He; tauto). cbn [ibind] in Hf. destruct He as (El & (Pa & Pn & Pi) & _).
  set (it0 := {| i_low := low |}) in *. assert (G : good it0).
  { split; [exact Pa|split; [exact Pn|split]]; [intros [x v] Hy; apply Pi in Hy; apply Hy|cbn; lia]. }
  assert (Hu : from_u U it0) by (intros x v Hx; apply HU; apply Pi in Hx; apply Hx).
  assert (Hde : forall x v, deref it0 = Ok (x, v) -> U x v).
  { intros x v Ed. apply Hu. destruct (deref_rest it0 _ G Ed) as [Er _]. apply (skipn_in _ (i_pos it0 - 1)). fold (rest it0). rewrite Er. left; auto. }
  assert (Hd : forall x v, S x v -> due it0 x v).
  { intros x v Hx. assert (Hb : below high x \/ ~ below high x) by (destruct high as [[h m]|]; simpl; [destruct (klt x h); [left; auto|right; discriminate]|left; exact I]).
    destruct Hb as [Hb|Hb]; [|right; exact Hb]. left. apply Pi. rewrite El. split; [exact I|]. auto. }
  destruct (at_end it0) eqn:Ea.
  - assert (Hn : outs = [] /\ it = it0).
    { destruct n as [|n]; cbn [walk] in Hf; [inversion Hf; subst; auto|].
      destruct (is_end it0); [inversion Hf; subst; auto|]. apply follows_bind in Hf as (l1 & l2 & x & -> & F1 & _). apply follows_lift in F1 as [_ Ed].
      destruct (deref_rest it0 x G Ed) as [_ Hp]. apply Nat.eqb_eq in Ea. lia. }
    destruct Hn as [-> ->]. split; [intros x v []|split; [exact Hde|]]. intros x v Hx Hp. exfalso. destruct Hp as [Ee|(y & w & Ed & _)].
    + assert (Hh : i_high it0 = None) by (unfold is_end in Ee; destruct (i_high it0); [discriminate|auto]). refine (passed_due it0 x v G (fun _ => Hh) (or_introl Ee) (Hd x v Hx)).
    + destruct (deref_rest it0 _ G Ed) as [_ Hp]. apply Nat.eqb_eq in Ea. lia.
  - destruct (walk_b S U _ _ _ _ _ _ G (fun F => ltac:(congruence)) Hu Hf Hl') as (G' & S' & Hu' & Ho & Hd').
    split; [exact Ho|split].
    + intros x v Ed. apply Hu'. destruct (deref_rest it _ G' Ed) as [Er _]. apply (skipn_in _ (i_pos it - 1)). fold (rest it). rewrite Er. left; auto.
    + intros x v Hx Hp. destruct (Hd' x v Hx (Hd x v Hx)) as [F|F]; auto. exfalso. eapply passed_due; eauto.
Qed.

(** * Backwards *)
Definition dueb (it : iter) (x : K) (v : V) : Prop := In (x, v) (restb it) \/ ~ above (i_low it) x.
Lemma lower_back_b S U f : forall k l it, follows (lower_back f k) l it -> okb S U l ->
  from_u U it /\ forall x v, S x v -> klt x k = true -> dueb it x v.
Proof.
  induction f as [|f IH]; intros k l it H Hl; [inversion H|]. cbn [lower_back] in H. inversion H as [|o c r l' a Hf]; subst.
  destruct (okb_cons _ _ _ _ _ Hl) as [(A & A' & He & HS & HU) Hl']. destruct r as [b|b s|vs|low items high]; try (simpl in He; tauto).
  destruct (match low with None => true | Some l => klt l k end) eqn:El; [|inversion Hf].
  destruct He as (Hh & (Pa & Pn & Pi) & _).
  set (it0 := {| i_low := low; i_items := items; i_high := high; i_pos := lower_bound k items |}) in *.
  assert (Hu : from_u U it0) by (intros x v Hx; apply HU; apply Pi in Hx; apply Hx).
  assert (Hd : forall x v, S x v -> klt x k = true -> dueb it0 x v).
  { intros x v Hx Hk. assert (Ha : above low x \/ ~ above low x) by (destruct low as [lo|]; simpl; [destruct (klt x lo); [right; discriminate|left; auto]|left; exact I]).
    destruct Ha as [Ha|Ha]; [|right; exact Ha]. left. unfold restb. apply -> in_rev. apply lb_first; [exact Pa|]. split; [|exact Hk].
    apply Pi. split; [exact Ha|split; [|auto]]. destruct high as [[h n]|]; simpl; auto. order. }
  destruct (lower_bound k items =? 0) eqn:E0.
  - destruct low as [lo|]; [|inversion Hf; subst; auto]. destruct (IH _ _ _ Hf Hl') as [H1 H2]. split; [exact H1|]. intros x v Hx Hk. apply (H2 x v Hx).
    destruct (Hd x v Hx Hk) as [F|F]; [|simpl in F; destruct (klt x lo); auto; exfalso; auto].
    apply Nat.eqb_eq in E0. unfold restb in F. cbn [i_pos it0] in F. rewrite E0 in F. destruct F.
  - inversion Hf; subst. auto.
Qed.
Lemma prev_b S U f it x l it' : goodb it -> deref it = Ok x -> follows (prev f it) l it' -> okb S U l -> from_u U it ->
  from_u U it' /\ forall y v, S y v -> dueb it y v -> (y, v) = x \/ dueb it' y v.
Proof.
  intros G Ed H Hl Hu. destruct (deref_restb it x Ed) as (p & Ep & Er). assert (Ee : is_rend it = false) by (unfold is_rend; rewrite Ep; destruct (i_low it); auto).
  assert (Hm : forall y v, dueb it y v -> (y, v) = x \/ dueb (move it p) y v).
  { intros y v [F|F]; [|right; right; exact F]. rewrite Er in F. destruct F as [F|F]; [left; auto|right; left; exact F]. }
  unfold prev, move_back in H. rewrite Ee, Ep in H. destruct (p =? 0) eqn:E0; [|inversion H; subst; auto].
  destruct (i_low it) as [lo|] eqn:El; [|inversion H; subst; auto]. destruct (lower_back_b S U _ _ _ _ H Hl) as [H1 H2]. split; [exact H1|].
  intros y v Hy Hd. destruct (Hm y v Hd) as [F|F]; auto. right. apply H2; auto. apply Nat.eqb_eq in E0. subst p. destruct F as [F|F].
  - unfold restb in F. cbn in F. destruct F.
  - cbn [move i_low] in F. rewrite El in F. simpl in F. destruct (klt y lo); auto.
Qed.
Lemma walk_back_b S U n : forall f it l outs it', goodb it -> from_u U it -> follows (walk_back n f it) l (outs, it') -> okb S U l ->
  goodb it' /\ from_u U it' /\ (forall x v, In (x, v) outs -> U x v) /\ forall x v, S x v -> dueb it x v -> In (x, v) outs \/ dueb it' x v.
Proof.
  induction n as [|n IH]; intros f it l outs it' G Hu H Hl; cbn [walk_back] in H.
  - inversion H; subst. split; [exact G|split; [exact Hu|split; [intros x v []|auto]]].
  - destruct (is_rend it) eqn:Ee; [inversion H; subst; split; [exact G|split; [exact Hu|split; [intros x v []|auto]]]|].
    apply follows_bind in H as (l1 & l2 & x & -> & F1 & H). apply follows_lift in F1 as [-> Ed]. cbn [app] in Hl.
    apply follows_bind in H as (l3 & l4 & it1 & -> & F2 & H). apply okb_app in Hl as [Hl1 Hl2].
    apply follows_bind in H as (l5 & l6 & [o1 it2] & -> & F3 & H). apply okb_app in Hl2 as [Hl2 _]. inversion H; subst. cbn [fst snd].
    destruct (prev_follows f it x l3 it1 G Ed F2 (okb_okl _ _ _ Hl1)) as (G1 & _).
    destruct (prev_b S U f it x l3 it1 G Ed F2 Hl1 Hu) as [Hu1 Hd1].
    destruct (IH _ _ _ _ _ G1 Hu1 F3 Hl2) as (G2 & Hu2 & Ho & Hd2).
    split; [exact G2|split; [exact Hu2|split]].
    + intros y v [->|Hi]; [|auto]. apply Hu. destruct (deref_restb it _ Ed) as (p & _ & Er). apply (firstn_in _ (i_pos it)), in_rev. fold (restb it). rewrite Er. left; auto.
    + intros y v Hy Hd. destruct (Hd1 y v Hy Hd) as [->|Hd']; [left; left; auto|]. destruct (Hd2 y v Hy Hd'); [left; right; auto|auto].
Qed.
Lemma passed_dueb it x v : goodb it -> passed_back it x -> ~ dueb it x v.
Proof.
  intros (Ga & _ & Gc & Gd & Gl) [Ee|(y & w & Ed & Hk)] Hd.
  - unfold is_rend in Ee. destruct (i_low it) eqn:El; [discriminate|]. apply Nat.eqb_eq in Ee. destruct Hd as [F|F].
    + unfold restb in F. rewrite Ee in F. destruct F.
    + apply F. rewrite El. exact I.
  - destruct (deref_restb it _ Ed) as (p & _ & Er). assert (Hi : In (y, w) (restb it)) by (rewrite Er; left; auto). destruct Hd as [F|F].
    + assert (D : descending (restb it)) by (apply descending_rev, ascending_firstn; auto). rewrite Er in D, F. inversion D as [|a l Ha Hl]; subst. rewrite Forall_forall in Hl.
      destruct F as [F|F]; [injection F as <- <-|apply Hl in F; simpl in F]; order.
    + apply in_rev, firstn_in, Gc in Hi. apply F. destruct (i_low it) as [lo|]; simpl in *; auto. order.
Qed.
(** Where Begin(k) stands, seen backwards. *)
Lemma lower_bb S U f : forall k l it, follows (lower f k) l it -> okb S U l ->
  forall x v, S x v -> klt x k = true -> In (x, v) (firstn (i_pos it - 1) (i_items it)) \/ ~ above (i_low it) x.
Proof.
  induction f as [|f IH]; intros k l it H Hl; [inversion H|]. cbn [lower] in H. inversion H as [|o c r l' a Hf]; subst.
  destruct (okb_cons _ _ _ _ _ Hl) as [(A & A' & He & HS & HU) Hl']. destruct r as [b|b s|vs|low items high]; try (simpl in He; tauto).
  set (it0 := {| i_low := low |}) in *. destruct He as (Hlo & Hhi & (Pa & Pn & Pi) & _).
  assert (Hd : forall x v, S x v -> klt x k = true -> In (x, v) (firstn (i_pos it0 - 1) (i_items it0)) \/ ~ above (i_low it0) x).
  { intros x v Hx Hk. assert (Ha : above low x \/ ~ above low x) by (destruct low as [lo|]; simpl; [destruct (klt x lo); [right; discriminate|left; auto]|left; exact I]).
    destruct Ha as [Ha|Ha]; [|right; exact Ha]. left. cbn [it0 i_pos i_items]. rewrite Nat.sub_succ, Nat.sub_0_r. apply lb_first; [exact Pa|]. split; [|exact Hk].
    apply Pi. split; [exact Ha|split; [|auto]]. destruct high as [[h n]|]; simpl in *; auto. order. }
  destruct (negb (at_end it0)); [inversion Hf; subst; exact Hd|]. destruct high as [[h n]|]; [|inversion Hf; subst; exact Hd].
  intros x v Hx Hk. apply (IH _ _ _ Hf Hl' x v Hx). simpl in Hhi. order.
Qed.
Lemma scan_back_b S U f n k log outs it : okb S U log -> follows (ibind (lower f k) (walk_back n f)) log (outs, it) ->
  (forall x v, In (x, v) outs -> U x v) /\ (forall x v, deref it = Ok (x, v) -> U x v) /\
  forall x v, S x v -> ~ from (Some k) x -> passed_back it x -> In (x, v) outs.
Proof.
  intros Hl H. apply follows_bind in H as (l1 & l2 & it0 & -> & F1 & F2). apply okb_app in Hl as [Hl1 Hl2].
  destruct (lower_follows_page _ _ _ _ F1 (okb_okl _ _ _ Hl1)) as (Hp & A & Pa & Pn & Pi). destruct (lower_b S U _ _ _ _ F1 Hl1) as (Hu & _ & _).
  pose proof (lower_bb S U _ _ _ _ F1 Hl1) as Hd.
  assert (Hde : forall it x v, from_u U it -> deref it = Ok (x, v) -> U x v).
  { intros it1 x v Hu1 Ed. apply Hu1. unfold deref in Ed. destruct (i_pos it1) as [|p]; [discriminate|]. destruct (nth_error (i_items it1) p) eqn:E; [|discriminate]. injection Ed as ->. eapply nth_error_In; eauto. }
  destruct (Nat.le_gt_cases (i_pos it0) (length (i_items it0))) as [C|C].
  - assert (G : goodb it0).
    { split; [exact Pa|split; [exact Pn|split; [|split; [unfold in_page in Hp; lia|exact C]]]]. intros [x v] Hx'. apply Pi in Hx'. apply Hx'. }
    destruct (walk_back_b S U _ _ _ _ _ _ G Hu F2 Hl2) as (G' & Hu' & Ho & Hd'). split; [exact Ho|split; [eauto|]].
    intros x v Hx Hk Hpb. assert (Hk' : klt x k = true) by (simpl in Hk; destruct (klt x k); auto; exfalso; auto).
    assert (D0 : dueb it0 x v).
    { destruct (Hd x v Hx Hk') as [F|F]; [|right; exact F]. left. unfold restb. apply -> in_rev. unfold in_page in Hp.
      destruct (i_pos it0) as [|p]; [lia|]. rewrite Nat.sub_succ, Nat.sub_0_r in F. clear -F. revert p F. induction (i_items it0) as [|a l IH]; intros [|p] F; simpl in *; try tauto. destruct F as [F|F]; auto. }
    destruct (Hd' x v Hx D0) as [F|F]; auto. exfalso. eapply passed_dueb; eauto.
  - assert (Hn : outs = [] /\ it = it0).
    { destruct n as [|n]; cbn [walk_back] in F2; [inversion F2; subst; auto|]. destruct (is_rend it0); [inversion F2; subst; auto|].
      apply follows_bind in F2 as (l3 & l4 & x & -> & F1' & _). apply follows_lift in F1' as [_ Ed]. unfold deref in Ed. destruct (i_pos it0) as [|p]; [discriminate|].
      destruct (nth_error (i_items it0) p) eqn:E; [|discriminate]. assert (p < length (i_items it0)) by (apply nth_error_Some; congruence). lia. }
    destruct Hn as [-> ->]. split; [intros x v []|split; [eauto|]]. intros x v _ _ [Ee|(y & w & Ed & _)]; exfalso.
    + unfold is_rend in Ee. destruct (i_low it0); [discriminate|]. apply Nat.eqb_eq in Ee. lia.
    + unfold deref in Ed. destruct (i_pos it0) as [|p]; [discriminate|].
      destruct (nth_error (i_items it0) p) eqn:E; [|discriminate]. assert (p < length (i_items it0)) by (apply nth_error_Some; congruence). lia.
Qed.
(** * When the set of pairs does not change *)
Definition okA (A : pairs) (l : list (op * resp)) : Prop := forall o r, In (o, r) l -> exists A', effect false o A A' r.
Lemma okA_cons A o r l : okA A ((o, r) :: l) -> (exists A', effect false o A A' r) /\ okA A l.
Proof. intros H. split; [apply H; left; auto|]. intros o' r' Hi. apply H. right. auto. Qed.
Lemma okA_okb A l : okA A l -> okb A A l.
Proof. intros H o r Hi. destruct (H o r Hi) as [A' He]. exists A, A'. auto. Qed.
Lemma still_okA tr ss s0 tr' ss' s log : exec tr ss s0 -> later s0 tr' ss' s -> readers_only s0 tr' -> calls_in tr' log -> okA (contents (sm s0)) log.
Proof.
  intros Hx Hl Hr Hc o r Hi. destruct (Hc o r Hi) as [t Ht]. destruct (moment_ok _ _ _ _ _ _ _ _ _ Hx Hl Ht) as (s1 & s2 & M & He).
  pose proof (readers_same _ _ _ _ _ _ Hx Hl Hr) as Hs.
  assert (Hin : In s1 ss'). { destruct M as [[_ M]|(a & b & ->)]; auto. apply in_or_app. right. right. left. auto. }
  exists (contents (sm s2)). apply (effect_same false o (contents (sm s1)) (contents (sm s2))); [apply same_sym, (Hs s1 Hin)|intros k v; tauto|]. apply (He false). discriminate.
Qed.
Lemma lower_A A f : forall k l it, okA A l -> follows (lower f k) l it -> exact_it A it.
Proof.
  induction f as [|f IH]; intros k l it Hl H; [inversion H|]. cbn [lower] in H. inversion H as [|o c r l' a Hf]; subst.
  destruct (okA_cons _ _ _ _ Hl) as [(A' & He) Hl']. destruct r as [b|b s|vs|low items high]; try (simpl in He; tauto).
  destruct (fetched _ _ _ _ _ _ He) as (G & _). set (it0 := {| i_low := low |}) in *.
  assert (R : exact_it A it0) by (split; [apply He|apply G]).
  destruct (negb (at_end it0)); [inversion Hf; subst; exact R|]. destruct high as [[h n]|]; [eapply IH; eauto|inversion Hf; subst; exact R].
Qed.
Lemma begin_key_A A f k l it : okA A l -> follows (lower f k) l it -> first_from A (Some k) it /\ fresh A it /\ in_page it.
Proof.
  intros Hl H. pose proof (okb_okl _ _ _ (okA_okb _ _ Hl)) as Ho. destruct (lower_follows _ _ _ _ H Ho) as (_ & Ah & St).
  pose proof (lower_A A f k l it Hl H) as Hx. destruct (lower_b A A _ _ _ _ H (okA_okb _ _ Hl)) as (_ & _ & Hd).
  split; [apply first_from_covers; auto|split; apply Hx].
Qed.
Lemma begin_first_A A l it : okA A l -> follows begin_first l it -> fresh A it /\ in_page it /\ (is_end it = true \/ (exists x, deref it = Ok x) -> first_from A None it).
Proof.
  intros Hl H. unfold begin_first in H. inversion H as [|o c r l' a Hf]; subst. destruct (okA_cons _ _ _ _ Hl) as [(A' & He) _].
  destruct r as [b0|b0 s0|vs|low items high]; try (simpl in He; tauto). inversion Hf; subst. destruct He as (El & (Pa & Pn & Pi) & _).
  set (it0 := {| i_low := low |}). split; [split; [exact Pa|split; [exact Pn|exact Pi]]|]. split; [unfold in_page; cbn; lia|].
  assert (Hb : forall x v, A x v -> below high x -> In (x, v) items) by (intros x v Hx Hb; apply Pi; rewrite El; split; [exact I|auto]).
  intros [Ee|([x v] & Ed)].
  - left. split; [exact Ee|]. intros x v Hx _. unfold is_end, at_end in Ee. cbn in Ee. destruct high; [discriminate|]. specialize (Hb x v Hx I). destruct items; [destruct Hb|discriminate].
  - right. unfold deref in Ed. cbn [it0 i_pos i_items] in Ed. destruct items as [|[x' v'] its]; [discriminate|]. cbn in Ed. injection Ed as -> ->. split; [unfold is_end, at_end; destruct high; reflexivity|].
    assert (Hi : In (x, v) ((x, v) :: its)) by (left; auto). exists x, v. split; [reflexivity|]. split; [apply Pi in Hi; apply Hi|]. split; [exact I|].
    intros y w Hy _. destruct high as [[h n]|].
    + destruct (klt y h) eqn:E.
      * specialize (Hb y w Hy E). inversion Pa as [|a l Ha Hf2]; subst. rewrite Forall_forall in Hf2. destruct Hb as [F|F]; [injection F as <- <-; apply klt_irrefl|apply (Hf2 _ F)].
      * apply Pi in Hi as (_ & Hi & _). simpl in Hi. order.
    + specialize (Hb y w Hy I). inversion Pa as [|a l Ha Hf2]; subst. rewrite Forall_forall in Hf2. destruct Hb as [F|F]; [injection F as <- <-; apply klt_irrefl|apply (Hf2 _ F)].
Qed.
Lemma lower_back_A A f : forall k l it, okA A l -> follows (lower_back f k) l it ->
  exists k', (k' = k \/ klt k' k = true) /\ landed A k' it /\ forall x v, A x v -> klt x k = true -> klt x k' = true.
Proof.
  induction f as [|f IH]; intros k l it Hl H; [inversion H|]. cbn [lower_back] in H. inversion H as [|o c r l' a Hf]; subst.
  destruct (okA_cons _ _ _ _ Hl) as [(A' & He) Hl']. destruct r as [b|b s|vs|low items high]; try (simpl in He; tauto). destruct He as (Hh & Hp & _).
  destruct (match low with None => true | Some l => klt l k end) eqn:El; [|inversion Hf].
  destruct (lower_bound k items =? 0) eqn:E0.
  - apply Nat.eqb_eq in E0. destruct low as [lo|].
    + destruct (IH lo l' it Hl' Hf) as (k' & H3 & H4 & H5). exists k'.
      split; [right; destruct H3 as [->|H3]; [exact El|order]|split; [exact H4|]]. intros x v Hx Hk. apply H5 with (v := v); auto.
      destruct (klt x lo) eqn:Exl; auto. exfalso. assert (Hin : In (x, v) items).
      { apply Hp. split; [exact Exl|split; [|exact Hx]]. destruct high as [[h n]|]; simpl; auto. order. }
      assert (F : In (x, v) (firstn (lower_bound k items) items)) by (apply lb_first; [apply Hp|auto]). rewrite E0 in F. destruct F.
    + inversion Hf; subst. exists k. split; [auto|split; [apply (page_landed A None items high k Hp Hh); auto|auto]].
  - inversion Hf; subst. exists k. split; [auto|split; [|auto]]. apply (page_landed A low items high k Hp Hh). cbn. intros F. cbn in E0. rewrite F in E0. discriminate.
Qed.
Lemma prev_A A f it l it' : okA A l -> fresh A it -> in_page it -> follows (prev f it) l it' ->
  fresh A it' /\ step_back A it it' /\ (is_rend it' = false -> in_page it').
Proof.
  intros Hq Hf Hp E. unfold prev in E. assert (Er : is_rend it = false) by (unfold is_rend; destruct (i_low it); auto; apply Nat.eqb_neq; unfold in_page in Hp; lia).
  rewrite Er in E. unfold move_back in E. rewrite Er in E. unfold in_page in Hp. destruct (i_pos it) as [|p] eqn:Ep; [lia|].
  destruct (p =? 0) eqn:E0.
  - apply Nat.eqb_eq in E0. subst p. destruct (i_low it) as [lo|] eqn:El.
    + destruct (lower_back_A A f lo l it' Hq E) as (k' & Hk & Hl & Ha).
      split; [apply Hl|]. assert (Hbe : forall x v, behind A it x v <-> A x v /\ klt x lo = true).
      { intros x v. unfold behind. rewrite Ep, El. simpl. split; [intros [[]|[A1 B]]; split; auto; destruct (klt x lo); auto; exfalso; auto|intros [A1 B]; right; split; auto; congruence]. }
      assert (Hkk : forall x, klt x k' = true -> klt x lo = true) by (intros x Hx; destruct Hk as [->|Hk]; [exact Hx|order]).
      destruct (landed_back _ _ _ Hl) as [(L1 & L2 & L3)|(L1 & x & v & L2 & L3 & L4 & L5 & L6)].
      * split; [left; split; [exact L2|]|congruence]. intros x v Hv. apply Hbe in Hv as [Hv1 Hv2]. pose proof (Ha _ _ Hv1 Hv2). rewrite (L3 _ _ Hv1) in H. discriminate.
      * split; [right|intros _; unfold in_page; destruct Hl as (_ & Hl & _); lia]. exists x, v. split; [exact L2|split; [apply Hbe; auto|split]].
        -- intros y w Hy. apply Hbe in Hy as [Hy1 Hy2]. apply (L5 y w); auto. apply (Ha y w); auto.
        -- intros y w. rewrite Hbe, <- L6. split; intros [A1 B]; split; auto. apply (Ha y w); auto.
    + inversion E; subst l it'. split; [exact Hf|]. split; [left; split|].
      * unfold is_rend. cbn. rewrite El. reflexivity.
      * intros x v. unfold behind. rewrite Ep, El. simpl. tauto.
      * unfold is_rend. cbn. rewrite El. discriminate.
  - apply Nat.eqb_neq in E0. inversion E; subst l it'. split; [exact Hf|]. split; [|intros _; unfold in_page; cbn; lia].
    right. destruct p as [|p]; [lia|]. destruct (firstn_last (i_items it) p) as ([x v] & Ez & Ef); [lia|]. exists x, v. split; [unfold deref, move; cbn; rewrite Ez; reflexivity|].
    assert (Hbe : forall y w, behind A it y w <-> behind A (move it (S p)) y w \/ (y, w) = (x, v)).
    { intros y w. unfold behind. rewrite Ep. cbn [move i_pos i_items i_low]. replace (S (S p) - 1) with (S p) by lia. replace (S p - 1) with p by lia. rewrite Ef, in_app_iff. simpl. intuition congruence. }
    split; [apply Hbe; auto|]. split; [|exact Hbe]. destruct Hf as (Pa & Pn & Pi). assert (Hxi : In (x, v) (i_items it)) by (eapply nth_error_In; eauto).
    intros y w Hy. apply Hbe in Hy as [[Hy|[Hy1 Hy2]]|Hy].
    + cbn [move i_pos i_items] in Hy. apply In_nth_error in Hy as [i Hi]. assert (Hi' : i < S p - 1).
      { assert (i < length (firstn (S p - 1) (i_items it))) by (apply nth_error_Some; congruence). rewrite firstn_length in H. lia. }
      rewrite firstn_nth in Hi by auto. apply (asc_nth _ i p (y, w) (x, v) Pa); auto; lia.
    + cbn [move i_low] in Hy2. apply Pi in Hxi as (Hxa & _). destruct (i_low it) as [lo|]; simpl in *; [|exfalso; auto]. destruct (klt y lo) eqn:E9; [order|exfalso; auto].
    + injection Hy as -> ->. apply klt_irrefl.
Qed.
Lemma calls_answered tr tr' log : calls_in tr' log -> answered (tr' ++ tr) log.
Proof.
  intros H o r Hi. destruct (H o r Hi) as (t & a & b & c & -> & _). exists t. apply in_or_app. left. apply in_or_app. right. left. auto.
Qed.
Lemma scan_still tr ss s0 tr' ss' s f n k log outs it : exec tr ss s0 -> later s0 tr' ss' s -> readers_only s0 tr' -> calls_in tr' log ->
  follows (ibind (lower f k) (walk n f)) log (outs, it) -> is_end it = true -> listing (contents (sm s0)) (Some k) outs.
Proof.
  intros Hx Hl Hr Hc H Ee. destruct (exec_later _ _ _ Hx _ _ _ Hl) as (ss2 & Hx2).
  destruct (scan_key _ _ _ _ _ _ _ _ _ Hx2 (calls_answered tr _ _ Hc) H) as (H1 & H2 & H3).
  pose proof (okA_okb _ _ (still_okA _ _ _ _ _ _ _ Hx Hl Hr Hc)) as Hb. destruct (scan_key_b _ _ _ _ _ _ _ _ Hb H) as (B1 & _ & B2).
  split; [exact H1|split; [exact H2|]]. intros x v. split.
  - intros Hi. split; [auto|]. apply (H3 _ _ Hi).
  - intros [Hv Hf]. apply B2; auto. left. exact Ee.
Qed.
Lemma scan_first_still tr ss s0 tr' ss' s f n log outs it : exec tr ss s0 -> later s0 tr' ss' s -> readers_only s0 tr' -> calls_in tr' log ->
  follows (ibind begin_first (walk n f)) log (outs, it) -> is_end it = true -> listing (contents (sm s0)) None outs.
Proof.
  intros Hx Hl Hr Hc H Ee. destruct (exec_later _ _ _ Hx _ _ _ Hl) as (ss2 & Hx2).
  destruct (scan_first _ _ _ _ _ _ _ _ Hx2 (calls_answered tr _ _ Hc) H) as (H1 & H2).
  pose proof (okA_okb _ _ (still_okA _ _ _ _ _ _ _ Hx Hl Hr Hc)) as Hb. destruct (scan_first_b _ _ _ _ _ _ _ Hb H) as (B1 & _ & B2).
  split; [exact H1|split; [exact H2|]]. intros x v. split.
  - intros Hi. split; [auto|exact I].
  - intros [Hv _]. apply B2; auto. left. exact Ee.
Qed.
End IterMoment.
