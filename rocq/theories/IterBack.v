(** Begin() and backward iteration. *)
From Coq Require Import List Arith Lia Bool Sorted.
From Verif Require Import Base SmallSet Bloom Leaf LeafSpec LeafProofs Inner Tree TreeSpec TreeInv TreeLin SeqFuel SeqOps SeqRun Iter IterSpec IterKeys IterProofs.
Import ListNotations.

Section IterBack.
Context {P : Params}.

(** * Begin() *)
Lemma first_kp S0 : kp S0 first_page (page_in S0).
Proof.
  intros y Hy. cbn. destruct (snd y) as [c|]; [|exact I]. eapply kp_bind; [apply kp_lift; intros a E; exact E|]. intros c' E.
  pose proof (lconsolidate_in S0 _ _ Hy E) as Hc. apply lkeys_high in Hc. destruct c'; try exact I. exact Hc.
Qed.
Lemma begin_run l m : calmrun l m -> exists it,
  (forall f, irun m f begin_first = (m, Ok it)) /\ exact_it (contents m) it /\ i_low it = None /\ i_pos it = 1 /\ okin (allkeys m) (i_high it).
Proof.
  intros Hq. destruct (calmrun_ready l m Hq) as (lev & H & R). destruct (first_ready m lev H R) as (r & E).
  assert (He : effect false OpFirst (contents m) (contents m) r) by (apply (call_effect l m 0 OpFirst m r (calmrun_seqrun _ _ Hq) E)).
  destruct r as [b0|b0 s0|vs|low items high]; try (simpl in He; tauto).
  destruct (quiet_start l m Hq) as (_ & Hk & _). destruct (kp_run (allkeys m) first_page _ _ _ _ Hk (first_kp _) E) as [_ Hh].
  destruct He as (-> & He & _). exists {| i_low := None; i_items := items; i_high := high; i_pos := 1 |}.
  split; [intros f; unfold begin_first; cbn [irun code]; rewrite E; reflexivity|]. split; [split; [exact He|cbn; lia]|]. auto.
Qed.
Lemma begin_scan l m : calmrun l m -> exists it, (forall f, irun m f begin_first = (m, Ok it)) /\
  (is_end it = true \/ (exists x, deref it = Ok x) ->
   first_from (contents m) None it /\
   exists N f0 m' outs it', (forall n f f2, N <= n -> f0 <= f -> f0 <= f2 -> irun m f2 (ibind begin_first (walk n f)) = (m', Ok (outs, it'))) /\
     is_end it' = true /\ same (contents m) (contents m') /\ listing (contents m) None outs).
Proof.
  intros Hq. destruct (begin_run l m Hq) as (it & Hi & Hx & Hlo & Hpos & Hh). exists it. split; [exact Hi|]. intros Hd.
  pose proof (exact_good _ _ Hx) as G.
  assert (St : settled it).
  { intros Ea. destruct Hd as [Hd|[x Hd]].
    - unfold is_end in Hd. destruct (i_high it); [discriminate|auto].
    - destruct (deref_rest it x G Hd) as [_ Hp]. apply Nat.eqb_eq in Ea. lia. }
  assert (Er : rest it = i_items it) by (unfold rest; rewrite Hpos; reflexivity).
  split.
  - pose proof (is_end_settled it St) as Ee. destruct (at_end it) eqn:Ea.
    + left. split; auto. intros x v Hv _. assert (F : In (x, v) (i_items it)).
      { apply (proj1 Hx). rewrite Hlo, (St Ea). simpl. auto. }
      apply at_end_rest in Ea; [|exact G]. rewrite Er in Ea. rewrite Ea in F. destruct F.
    + right. split; auto. destruct (deref_ok it G Ea) as [[x v] Hd']. destruct (deref_rest it _ G Hd') as [Eq _]. rewrite Er in Eq.
      assert (Hin : In (x, v) (i_items it)) by (rewrite Eq; left; auto). exists x, v. split; [exact Hd'|]. pose proof Hin as Hin'. apply (proj1 Hx) in Hin'.
      split; [apply Hin'|split; [exact I|]]. intros y w Hy _. destruct (i_high it) as [[h hn]|] eqn:Eh.
      * destruct (klt y h) eqn:E; [|destruct Hin' as (_ & Hin' & _); simpl in Hin'; order]. assert (F : In (y, w) (i_items it)) by (apply (proj1 Hx); rewrite Hlo, Eh; simpl; auto).
        destruct G as (Ga & _). rewrite Eq in Ga, F. inversion Ga as [|a b Ha Hl]; subst. rewrite Forall_forall in Hl. destruct F as [F|F]; [injection F as <- <-; apply klt_irrefl|apply (Hl _ F)].
      * assert (F : In (y, w) (i_items it)) by (apply (proj1 Hx); rewrite Hlo, Eh; simpl; auto).
        destruct G as (Ga & _). rewrite Eq in Ga, F. inversion Ga as [|a b Ha Hl]; subst. rewrite Forall_forall in Hl. destruct F as [F|F]; [injection F as <- <-; apply klt_irrefl|apply (Hl _ F)].
  - destruct (walk_tot (allkeys m) (contents m) (S (hleft (allkeys m) it)) m it (quiet_start l m Hq) Hx St Hh) as (N & f1 & m2 & outs & it' & Hw & He & Q2 & b & -> & Sb & Nb & Ib); [lia|].
    assert (Bb : beyond_high it b).
    { unfold beyond_high. destruct (i_high it) as [[h2 n2]|] eqn:E2.
      - intros [y w] Hy. apply Ib in Hy as [_ Hy]. simpl in *. destruct (klt y h2); [exfalso; auto|auto].
      - destruct b as [|[y w] b]; auto. exfalso. assert (F : In (y, w) ((y, w) :: b)) by (left; auto). apply Ib in F as [_ F]. apply F. exact I. }
    destruct (join it (length (rest it)) b G Bb Sb Nb) as [Sj Nj]. rewrite firstn_all in Sj, Nj.
    exists N, f1, m2, (rest it ++ b), it'. split; [|split; [exact He|split; [apply Q2|split; [exact Sj|split; [exact Nj|]]]]].
    + intros n f f2 H1 H2 H3. rewrite irun_bind, Hi. apply Hw; lia.
    + intros x v. rewrite in_app_iff, Ib, Er. split.
      * intros [H|[H1 H2]]; [apply (proj1 Hx) in H; split; [apply H|exact I]|split; [auto|exact I]].
      * intros [H1 _]. assert (D : below (i_high it) x \/ ~ below (i_high it) x).
        { destruct (i_high it) as [[h2 n2]|]; simpl; [destruct (klt x h2); auto|auto]. }
        destruct D as [D|D]; [left; apply (proj1 Hx); rewrite Hlo; simpl; auto|auto].
Qed.

(** * Stepping back *)
Lemma lb_first {B} (l : list (K * B)) k x : ascending l -> In x (firstn (lower_bound k l) l) <-> In x l /\ klt (fst x) k = true.
Proof.
  intros Ha. rewrite lower_bound_lb by auto. split.
  - intros H. apply In_nth_error in H as [i Hi]. assert (Hl : i < lb k l).
    { assert (i < length (firstn (lb k l) l)) by (apply nth_error_Some; congruence). rewrite firstn_length in H. lia. }
    rewrite firstn_nth in Hi by auto. split; [eapply nth_error_In; eauto|eapply lb_before; eauto].
  - intros [H1 H2]. apply In_nth_error in H1 as [i Hi]. destruct (Nat.lt_ge_cases i (lb k l)) as [C|C].
    + apply nth_error_In with (n := i). rewrite firstn_nth; auto.
    + rewrite (lb_after _ _ _ _ Ha C Hi) in H2. discriminate.
Qed.
Lemma firstn_last {B} (l : list B) p : S p <= length l -> exists z, nth_error l p = Some z /\ firstn (S p) l = firstn p l ++ [z].
Proof.
  revert l. induction p as [|p IH]; intros [|a l] H; cbn [length] in H; try lia.
  - exists a. auto.
  - destruct (IH l) as (z & E1 & E2); [lia|]. exists z. split; [exact E1|].
    change (firstn (S (S p)) (a :: l)) with (a :: firstn (S p) l). rewrite E2. reflexivity.
Qed.
(** The result of a step into an earlier page. *)
Definition landed (A : pairs) (k : K) (it : iter) : Prop :=
  fresh A it /\ i_pos it <= length (i_items it) /\
  (i_pos it = 0 -> i_low it = None) /\
  (forall x, In x (i_items it) -> (In x (firstn (i_pos it) (i_items it)) <-> klt (fst x) k = true)) /\
  (forall x v, A x v -> klt x k = true -> below (i_high it) x).
(** An answer to the backward page fetch that passed the assertion. *)
Lemma page_landed A low items high k : page_of A low items high -> match high with None => True | Some (h, _) => klt h k = false end ->
  let it := {| i_low := low; i_items := items; i_high := high; i_pos := lower_bound k items |} in
  (i_pos it = 0 -> low = None) -> landed A k it.
Proof.
  intros Hp Hh. cbn zeta. intros H0. destruct Hp as (Pa & Pn & Pi). split; [split; [exact Pa|split; [exact Pn|exact Pi]]|]. cbn [i_pos i_items i_low i_high] in *. rewrite lower_bound_lb in * by auto.
  split; [apply lb_le|]. split; [exact H0|]. split.
  - intros x Hx. rewrite <- lower_bound_lb by auto. rewrite lb_first by auto. tauto.
  - intros x v Hx Hk. destruct high as [[h n]|]; simpl; auto. order.
Qed.
Lemma lower_back_run A f : forall f2 m k m' it l, seqrun l m -> same A (contents m) -> irun m f2 (lower_back f k) = (m', Ok it) ->
  same A (contents m') /\ (exists l', seqrun l' m') /\ exists k', (k' = k \/ klt k' k = true) /\ landed A k' it /\ forall x v, A x v -> klt x k = true -> klt x k' = true.
Proof.
  induction f as [|f IH]; intros f2 m k m' it l Hq Hs E; [discriminate|]. cbn [lower_back irun] in E.
  destruct (prun m (code f2 (OpPageBI k))) as [m1 [r|e]] eqn:Ep; [|discriminate].
  pose proof (call_effect _ _ _ _ _ _ Hq Ep) as He. pose proof (Q_call _ _ _ _ _ _ Hq Ep) as Hq1.
  destruct r as [b0|b0 s0|vs|low items high]; try discriminate. destruct He as (Hh & Hp & Hs1).
  assert (Hs' : same A (contents m1)) by (eapply same_trans; eauto).
  assert (Hp' : page_of A low items high).
  { destruct Hp as (P1 & P2 & P3). split; [exact P1|split; [exact P2|]]. intros x v. rewrite (Hs x v). apply P3. }
  destruct (match low with None => true | Some l => klt l k end) eqn:El; [|discriminate].
  destruct (lower_bound k items =? 0) eqn:E0.
  - apply Nat.eqb_eq in E0. destruct low as [lo|].
    + destruct (IH f2 m1 lo m' it _ Hq1 Hs' E) as (H1 & H2 & k' & H3 & H4 & H5). split; [exact H1|split; [exact H2|]]. exists k'.
      split; [right; destruct H3 as [->|H3]; [exact El|order]|split; [exact H4|]]. intros x v Hx Hk. apply H5 with (v := v); auto.
      destruct (klt x lo) eqn:Exl; auto. exfalso. assert (Hin : In (x, v) items).
      { apply Hp'. split; [exact Exl|split; [|exact Hx]]. destruct high as [[h n]|]; simpl; auto. order. }
      assert (F : In (x, v) (firstn (lower_bound k items) items)) by (apply lb_first; [apply Hp'|auto]). rewrite E0 in F. destruct F.
    + cbn [irun] in E. injection E as <- <-. split; [exact Hs'|split; [eauto|]]. exists k. split; [auto|split; [apply (page_landed A None items high k Hp' Hh); auto|auto]].
  - cbn [irun] in E. injection E as <- <-. split; [exact Hs'|split; [eauto|]]. exists k. split; [auto|split; [|auto]]. apply (page_landed A low items high k Hp' Hh). cbn. intros F. cbn in E0. rewrite F in E0. discriminate.
Qed.
(** From a landing iterator, the last pair before [k]. *)
Lemma landed_back A k it : landed A k it ->
  (i_pos it = 0 /\ is_rend it = true /\ forall x v, A x v -> klt x k = false) \/
  (1 <= i_pos it /\ exists x v, deref it = Ok (x, v) /\ A x v /\ klt x k = true /\ (forall y w, A y w -> klt y k = true -> klt x y = false) /\
     forall y w, (A y w /\ klt y k = true) <-> behind A it y w \/ (y, w) = (x, v)).
Proof.
  intros ((Pa & Pn & Pi) & Hl & H0 & Hf & Hb).
  assert (Hin : forall x v, A x v -> klt x k = true -> above (i_low it) x -> In (x, v) (firstn (i_pos it) (i_items it))).
  { intros x v Hx Hk Ha. apply Hf; auto. apply Pi. split; [exact Ha|split; [|exact Hx]]. eapply Hb; eauto. }
  destruct (i_pos it) as [|p] eqn:Ep.
  - left. split; [auto|]. split; [unfold is_rend; rewrite (H0 eq_refl), Ep; reflexivity|]. intros x v Hx. destruct (klt x k) eqn:E; auto.
    exfalso. refine (Hin x v Hx E _). rewrite (H0 eq_refl). exact I.
  - right. split; [lia|]. destruct (firstn_last (i_items it) p Hl) as ([x v] & Ez & Ef).
    assert (Hx : In (x, v) (firstn (S p) (i_items it))) by (rewrite Ef; apply in_or_app; right; left; auto).
    assert (Hxi : In (x, v) (i_items it)) by (eapply firstn_in; eauto).
    exists x, v. split; [unfold deref; rewrite Ep, Ez; reflexivity|]. split; [apply Pi in Hxi; apply Hxi|]. split; [apply (Hf _ Hxi); exact Hx|].
    assert (Hab : forall y, above (i_low it) y \/ ~ above (i_low it) y) by (intros y; destruct (i_low it) as [lo|]; simpl; [destruct (klt y lo); [right; discriminate|left; reflexivity]|left; exact I]).
    split.
    + intros y w Hy Hk. destruct (Hab y) as [Ha|Ha].
      * pose proof (Hin y w Hy Hk Ha) as F. apply In_nth_error in F as [i Hi]. assert (Hi' : i < S p).
        { assert (i < length (firstn (S p) (i_items it))) by (apply nth_error_Some; congruence). rewrite firstn_length in H. lia. }
        rewrite firstn_nth in Hi by auto. apply (asc_nth _ i p (y, w) (x, v) Pa); auto; lia.
      * apply Pi in Hxi as (Hxa & _). destruct (i_low it) as [lo|]; simpl in *; [|exfalso; auto]. destruct (klt y lo) eqn:E; [order|exfalso; auto].
    + intros y w. unfold behind. rewrite Ep. replace (S p - 1) with p by lia. split.
      * intros [Hy Hk]. destruct (Hab y) as [Ha|Ha]; [|auto]. pose proof (Hin y w Hy Hk Ha) as F. rewrite Ef in F. apply in_app_or in F as [F|[F|[]]]; auto.
      * intros [[F|[F1 F2]]|F].
        -- assert (F' : In (y, w) (firstn (S p) (i_items it))) by (rewrite Ef; apply in_or_app; auto). pose proof (firstn_in _ _ _ F') as F''. split; [apply Pi in F''; apply F''|apply (Hf _ F''); exact F'].
        -- split; auto. apply Pi in Hxi as (Hxa & _). pose proof (proj1 (Hf (x, v) (firstn_in _ _ _ Hx)) Hx) as Hxk. destruct (i_low it) as [lo|]; simpl in *; [|exfalso; auto]. destruct (klt y lo) eqn:E; [order|exfalso; auto].
        -- injection F as -> ->. split; [apply Pi in Hxi; apply Hxi|apply (Hf _ Hxi); exact Hx].
Qed.
Lemma prev_run f f2 l m it m' it' : seqrun l m -> fresh (contents m) it -> in_page it -> irun m f2 (prev f it) = (m', Ok it') ->
  same (contents m) (contents m') /\ fresh (contents m) it' /\ step_back (contents m) it it' /\ (is_rend it' = false -> in_page it').
Proof.
  intros Hq Hf Hp E. unfold prev in E. assert (Er : is_rend it = false) by (unfold is_rend; destruct (i_low it); auto; apply Nat.eqb_neq; unfold in_page in Hp; lia).
  rewrite Er in E. unfold move_back in E. rewrite Er in E. unfold in_page in Hp. destruct (i_pos it) as [|p] eqn:Ep; [lia|].
  destruct (p =? 0) eqn:E0.
  - apply Nat.eqb_eq in E0. subst p. destruct (i_low it) as [lo|] eqn:El.
    + destruct (lower_back_run (contents m) f f2 m lo m' it' l Hq (fun x v => conj (fun H => H) (fun H => H)) E) as (H1 & _ & k' & Hk & Hl & Ha).
      split; [exact H1|]. split; [apply Hl|]. assert (Hbe : forall x v, behind (contents m) it x v <-> contents m x v /\ klt x lo = true).
      { intros x v. unfold behind. rewrite Ep, El. simpl. split; [intros [[]|[A B]]; split; auto; destruct (klt x lo); auto; exfalso; auto|intros [A B]; right; split; auto; congruence]. }
      assert (Hkk : forall x, klt x k' = true -> klt x lo = true) by (intros x Hx; destruct Hk as [->|Hk]; [exact Hx|order]).
      destruct (landed_back _ _ _ Hl) as [(L1 & L2 & L3)|(L1 & x & v & L2 & L3 & L4 & L5 & L6)].
      * split; [left; split; [exact L2|]|congruence]. intros x v Hv. apply Hbe in Hv as [Hv1 Hv2]. pose proof (Ha _ _ Hv1 Hv2). rewrite (L3 _ _ Hv1) in H. discriminate.
      * split; [right|intros _; unfold in_page; destruct Hl as (_ & Hl & _); lia]. exists x, v. split; [exact L2|split; [apply Hbe; auto|split]].
        -- intros y w Hy. apply Hbe in Hy as [Hy1 Hy2]. apply (L5 y w); auto. apply (Ha y w); auto.
        -- intros y w. rewrite Hbe, <- L6. split; intros [A B]; split; auto. apply (Ha y w); auto.
    + cbn [irun] in E. injection E as <- <-. split; [intros x v; tauto|]. split; [exact Hf|]. split; [left; split|].
      * unfold is_rend. cbn. rewrite El. reflexivity.
      * intros x v. unfold behind. rewrite Ep, El. simpl. tauto.
      * unfold is_rend. cbn. rewrite El. discriminate.
  - apply Nat.eqb_neq in E0. cbn [irun] in E. injection E as <- <-. split; [intros x v; tauto|]. split; [exact Hf|]. split; [|intros _; unfold in_page; cbn; lia].
    right. destruct p as [|p]; [lia|]. destruct (firstn_last (i_items it) p) as ([x v] & Ez & Ef); [lia|]. exists x, v. split; [unfold deref, move; cbn; rewrite Ez; reflexivity|].
    assert (Hbe : forall y w, behind (contents m) it y w <-> behind (contents m) (move it (S p)) y w \/ (y, w) = (x, v)).
    { intros y w. unfold behind. rewrite Ep. cbn [move i_pos i_items i_low]. replace (S (S p) - 1) with (S p) by lia. replace (S p - 1) with p by lia. rewrite Ef, in_app_iff. simpl. intuition congruence. }
    split; [apply Hbe; auto|]. split; [|exact Hbe]. destruct Hf as (Pa & Pn & Pi). assert (Hxi : In (x, v) (i_items it)) by (eapply nth_error_In; eauto).
    intros y w Hy. apply Hbe in Hy as [[Hy|[Hy1 Hy2]]|Hy].
    + cbn [move i_pos i_items] in Hy. apply In_nth_error in Hy as [i Hi]. assert (Hi' : i < S p - 1).
      { assert (i < length (firstn (S p - 1) (i_items it))) by (apply nth_error_Some; congruence). rewrite firstn_length in H. lia. }
      rewrite firstn_nth in Hi by auto. apply (asc_nth _ i p (y, w) (x, v) Pa); auto; lia.
    + cbn [move i_low] in Hy2. apply Pi in Hxi as (Hxa & _). destruct (i_low it) as [lo|]; simpl in *; [|exfalso; auto]. destruct (klt y lo) eqn:E; [order|exfalso; auto].
    + injection Hy as -> ->. apply klt_irrefl.
Qed.

(** * Stepping back with other threads *)
Definition goodb (it : iter) : Prop :=
  ascending (i_items it) /\ NoDup (i_items it) /\ (forall x, In x (i_items it) -> above (i_low it) (fst x)) /\
  (i_pos it = 0 -> i_low it = None) /\ i_pos it <= length (i_items it).
Definition restb (it : iter) : list (K * V) := rev (firstn (i_pos it) (i_items it)).
Definition upto (k : K) (it : iter) : Prop := forall x, In x (restb it) -> klt (fst x) k = true.
Lemma lower_back_follows f : forall k l it, follows (lower_back f k) l it -> okl l -> goodb it /\ upto k it.
Proof.
  induction f as [|f IH]; intros k l it H Hl; [inversion H|]. cbn [lower_back] in H. inversion H as [|o c r l' a Hf]; subst.
  destruct (okl_cons _ _ _ Hl) as [(A & A' & He) Hl']. destruct r as [b|b s|vs|low items high]; try (simpl in He; tauto).
  destruct (match low with None => true | Some l => klt l k end) eqn:El; [|inversion Hf].
  destruct He as (_ & (Pa & Pn & Pi) & _).
  assert (Hg : forall q, q = lower_bound k items -> (q = 0 -> low = None) -> goodb {| i_low := low; i_items := items; i_high := high; i_pos := q |} /\ upto k {| i_low := low; i_items := items; i_high := high; i_pos := q |}).
  { intros q Eq Hq. split; [split; [exact Pa|split; [exact Pn|split; [|split; [exact Hq|rewrite Eq; cbn [i_pos i_items]; rewrite lower_bound_lb by auto; apply lb_le]]]]|].
    - intros [x v] Hx. apply Pi in Hx. apply Hx.
    - intros x Hx. unfold restb in Hx. apply in_rev in Hx. cbn [i_pos i_items] in Hx. rewrite Eq in Hx. apply lb_first in Hx; [apply Hx|exact Pa]. }
  destruct (lower_bound k items =? 0) eqn:E0.
  - destruct low as [lo|].
    + destruct (IH _ _ _ Hf Hl') as [G U]. split; [exact G|]. intros x Hx. apply U in Hx. order.
    + inversion Hf; subst. apply Hg; auto.
  - inversion Hf; subst. apply Hg; [auto|]. intros F. rewrite F in E0. discriminate.
Qed.
Lemma deref_restb it x : deref it = Ok x -> exists p, i_pos it = S p /\ restb it = x :: restb (move it p).
Proof.
  unfold deref, restb. destruct (i_pos it) as [|p]; [discriminate|]. destruct (nth_error (i_items it) p) as [y|] eqn:E; [|discriminate]. intros F. injection F as <-. exists p. split; auto.
  assert (Hp : S p <= length (i_items it)) by (apply nth_error_Some; congruence). destruct (firstn_last _ p Hp) as (z & Ez & Ef). rewrite Ef, rev_app_distr. cbn. congruence.
Qed.
Lemma prev_follows f it x l it' : goodb it -> deref it = Ok x -> follows (prev f it) l it' -> okl l ->
  goodb it' /\ (it' = move it (i_pos it - 1) \/ exists lo, i_low it = Some lo /\ restb it = [x] /\ upto lo it').
Proof.
  intros G Ed H Hl. destruct (deref_restb it x Ed) as (p & Ep & Er). assert (Ee : is_rend it = false) by (unfold is_rend; rewrite Ep; destruct (i_low it); auto).
  unfold prev, move_back in H. rewrite Ee, Ep in H. rewrite Ep. replace (S p - 1) with p by lia. destruct G as (G1 & G2 & G3 & G4 & G5).
  destruct (p =? 0) eqn:E0.
  - apply Nat.eqb_eq in E0. subst p. destruct (i_low it) as [lo|] eqn:El.
    + destruct (lower_back_follows _ _ _ _ H Hl) as [G' U]. split; [exact G'|]. right. exists lo. split; auto.
    + inversion H; subst. split; [|left; auto]. split; [exact G1|split; [exact G2|split; [|split; [intros _; exact El|cbn; lia]]]]. unfold move; cbn. rewrite El. exact G3.
  - inversion H; subst. split; [|left; auto]. split; [exact G1|split; [exact G2|split; [exact G3|split; [|cbn; lia]]]]. cbn. intros F. rewrite F in E0. discriminate.
Qed.
Definition below_low (it : iter) (b : list (K * V)) : Prop :=
  match i_low it with None => b = [] | Some lo => forall y, In y b -> klt (fst y) lo = true end.
Lemma descending_app {B} (a b : list (K * B)) : descending a -> descending b -> (forall x y, In x a -> In y b -> klt (fst x) (fst y) = false) -> descending (a ++ b).
Proof.
  unfold descending. induction 1 as [|x a H IH Hf]; simpl; auto. intros Hb Hc. constructor; [apply IH; auto|].
  rewrite Forall_forall in *. intros y Hy. apply in_app_or in Hy as [Hy|Hy]; auto.
Qed.
Lemma descending_rev {B} (l : list (K * B)) : ascending l -> descending (rev l).
Proof.
  unfold ascending. induction 1 as [|x l H IH Hf]; simpl; [constructor|]. apply descending_app; [exact IH|repeat constructor|].
  intros a b Ha [<-|[]]. apply in_rev in Ha. rewrite Forall_forall in Hf. auto.
Qed.
Lemma descending_firstn {B} (l : list (K * B)) n : descending l -> descending (firstn n l).
Proof.
  unfold descending. intros H. revert n. induction H as [|x l H IH Hf]; intros [|n]; simpl; try constructor; auto. rewrite Forall_forall in *. intros y Hy. apply Hf. eapply firstn_in; eauto.
Qed.
Lemma joinb it a b : goodb it -> below_low it b -> descending b -> NoDup b ->
  descending (firstn a (restb it) ++ b) /\ NoDup (firstn a (restb it) ++ b).
Proof.
  intros (A & B & C & D) Hb Sb Nb.
  assert (Hx : forall x y, In x (firstn a (restb it)) -> In y b -> klt (fst y) (fst x) = true).
  { intros x y Hx Hy. apply firstn_in in Hx. apply in_rev in Hx. apply firstn_in, C in Hx. unfold below_low in Hb. destruct (i_low it) as [lo|].
    - specialize (Hb y Hy). simpl in Hx. order.
    - subst b. destruct Hy. }
  split.
  - apply descending_app; [apply descending_firstn, descending_rev, ascending_firstn; auto|auto|]. intros x y Hi Hy. specialize (Hx x y Hi Hy). order.
  - apply nodup_app; [apply nodup_firstn, NoDup_rev, nodup_firstn; auto|auto|]. intros x Hi Hy. specialize (Hx x x Hi Hy). order.
Qed.
Lemma walk_back_follows n : forall f it l outs it', goodb it -> follows (walk_back n f it) l (outs, it') -> okl l ->
  exists a b, outs = firstn a (restb it) ++ b /\ descending b /\ NoDup b /\ below_low it b.
Proof.
  assert (Hnil : forall it : iter, exists a (b : list (K * V)), [] = firstn a (restb it) ++ b /\ descending b /\ NoDup b /\ below_low it b).
  { intros it. exists 0, []. split; [auto|split; [constructor|split; [constructor|]]]. unfold below_low. destruct (i_low it) as [lo|]; [intros y []|reflexivity]. }
  induction n as [|n IH]; intros f it l outs it' G H Hl; cbn [walk_back] in H; [inversion H; subst; apply Hnil|].
  destruct (is_rend it) eqn:Ee; [inversion H; subst; apply Hnil|].
  apply follows_bind in H as (l1 & l2 & x & -> & F1 & H). apply follows_lift in F1 as [-> Ed]. cbn [app] in Hl.
  apply follows_bind in H as (l3 & l4 & it1 & -> & F2 & H). apply okl_app in Hl as [Hl1 Hl2].
  apply follows_bind in H as (l5 & l6 & [o1 it2] & -> & F3 & H). apply okl_app in Hl2 as [Hl2 _]. inversion H; subst. cbn [fst snd].
  destruct (deref_restb it x Ed) as (p & Ep & Er).
  destruct (prev_follows f it x l3 it1 G Ed F2 Hl1) as (G1 & D). destruct (IH _ _ _ _ _ G1 F3 Hl2) as (a & b & -> & Sb & Nb & Bb).
  destruct D as [->|(lo & El & E1 & U)].
  - exists (S a), b. rewrite Er, Ep. replace (S p - 1) with p by lia. simpl. auto.
  - destruct (joinb it1 a b G1 Bb Sb Nb) as [Sj Nj]. exists 1, (firstn a (restb it1) ++ b). rewrite E1. split; [auto|split; [auto|split; [auto|]]].
    unfold below_low. rewrite El. intros y Hy. apply in_app_or in Hy as [Hy|Hy].
    + apply U. eapply firstn_in; eauto.
    + unfold below_low in Bb. destruct (i_low it1) as [lo1|] eqn:E2; [|subst b; destruct Hy]. specialize (Bb y Hy).
      destruct G1 as (_ & _ & C1 & D1 & D2). rewrite E2 in *. unfold upto, restb in U. destruct (i_pos it1) as [|q]; [specialize (D1 eq_refl); discriminate|].
      destruct (i_items it1) as [|z zs] eqn:Ez.
      * cbn in D2. lia.
      * assert (Hz : In z (rev (firstn (S q) (z :: zs)))) by (apply -> in_rev; left; auto). apply U in Hz. assert (Ha : above (Some lo1) (fst z)) by (apply C1; left; auto). simpl in Ha. order.
Qed.
Lemma lower_follows_page f : forall k l it, follows (lower f k) l it -> okl l -> in_page it /\ exists A, fresh A it.
Proof.
  induction f as [|f IH]; intros k l it H Hl; [inversion H|]. cbn [lower] in H. inversion H as [|o c r l' a Hf]; subst.
  destruct (okl_cons _ _ _ Hl) as [(A & A' & He) Hl']. destruct r as [b|b s|vs|low items high]; try (simpl in He; tauto).
  destruct (fetched _ _ _ _ _ _ He) as (G & _). set (it0 := {| i_low := low |}) in *.
  assert (R : in_page it0 /\ exists A, fresh A it0) by (split; [apply G|exists A; apply He]).
  destruct (negb (at_end it0)); [inversion Hf; subst; exact R|]. destruct high as [[h n]|]; [eapply IH; eauto|inversion Hf; subst; exact R].
Qed.
Lemma scan_back tr ss s f n k log outs it : exec tr ss s -> answered tr log ->
  follows (ibind (lower f k) (walk_back n f)) log (outs, it) -> descending outs /\ NoDup outs.
Proof.
  intros Hx Ha H. pose proof (answered_effect _ _ _ _ Hx Ha) as Hl. fold (okl log) in Hl.
  apply follows_bind in H as (l1 & l2 & it0 & -> & F1 & F2). apply okl_app in Hl as [Hl1 Hl2].
  destruct (lower_follows_page _ _ _ _ F1 Hl1) as (Hp & A & Pa & Pn & Pi).
  destruct (Nat.le_gt_cases (i_pos it0) (length (i_items it0))) as [C|C].
  - assert (G : goodb it0).
    { split; [exact Pa|split; [exact Pn|split; [|split; [unfold in_page in Hp; lia|exact C]]]]. intros [x v] Hx'. apply Pi in Hx'. apply Hx'. }
    destruct (walk_back_follows _ _ _ _ _ _ G F2 Hl2) as (a & b & -> & Sb & Nb & Bb). apply joinb; auto.
  - destruct n as [|n]; cbn [walk_back] in F2; [inversion F2; subst; split; constructor|]. destruct (is_rend it0); [inversion F2; subst; split; constructor|].
    apply follows_bind in F2 as (l3 & l4 & x & -> & F1' & _). apply follows_lift in F1' as [_ Ed]. unfold deref in Ed. destruct (i_pos it0) as [|p]; [discriminate|].
    destruct (nth_error (i_items it0) p) eqn:E; [|discriminate]. assert (p < length (i_items it0)) by (apply nth_error_Some; congruence). lia.
Qed.
End IterBack.
