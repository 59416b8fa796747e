(** Every call takes effect at one moment between its beginning and its end,
    on the pairs stored at that moment. *)
From Coq Require Import List Arith Lia Bool Sorted.
From Verif Require Import Base SmallSet Bloom Leaf LeafSpec LeafProofs Inner Tree TreeSpec TreeInv TreeSafe TreeProg TreeProg4 TreeLin Iter IterSpec MomentSpec.
Import ListNotations.

Section Moment.
Context {P : Params}.

Lemma exec_later tr ss s0 : exec tr ss s0 -> forall tr' ss' s, later s0 tr' ss' s -> exists ss2, exec (tr' ++ tr) ss2 s.
Proof.
  intros Hx tr' ss' s. induction 1 as [|tr' ss' s e s' H [ss2 IH] Hs]; [eauto|]. exists (s' :: ss2). simpl. econstructor; eauto.
Qed.
Lemma later_split s0 a : forall b ss s, later s0 (a ++ b) ss s -> exists s1 ss1 ss2, later s0 b ss1 s1 /\ later s1 a ss2 s /\ exists r1 r2, ss1 = s1 :: r1 /\ ss2 = r2 ++ [s1] /\ ss = r2 ++ ss1.
Proof.
  induction a as [|e a IH]; intros b ss s H; simpl in H.
  - exists s, ss, [s]. split; [exact H|]. split; [constructor|]. inversion H; subst; eexists _, []; simpl; eauto.
  - inversion H as [|tr ss' s' e' s'' Hl Hs]; subst. destruct (IH _ _ _ Hl) as (s1 & ss1 & ss2 & H1 & H2 & r1 & r2 & -> & -> & ->).
    exists s1, (s1 :: r1), (s :: r2 ++ [s1]). split; [exact H1|]. split; [econstructor; eauto|]. exists r1, (s :: r2). auto.
Qed.
Lemma later_head s0 tr ss s : later s0 tr ss s -> In s ss /\ In s0 ss.
Proof. induction 1 as [|tr ss s e s' H [IH1 IH2] Hs]; simpl; auto. Qed.
Lemma moment_app a b c s1 s2 : moment b s1 s2 -> moment (a ++ b ++ c) s1 s2.
Proof.
  intros [[E H]|(x & y & ->)]; [left; split; auto; rewrite !in_app_iff; auto|right]. exists (a ++ x), (y ++ c). rewrite <- !app_assoc. simpl. auto.
Qed.

Definition tin (o : op) (seg : list sys) (x : tst) : Prop :=
  match x with
  | TIdle => False
  | TRun o' _ h => o' = o /\ forall w, In w h -> exists s, In s seg /\ sm s = wm w
  | TFin o' r => o' = o /\ exists s1 s2, moment seg s1 s2 /\ forall f, effect f o (contents (sm s1)) (contents (sm s2)) r
  end.
Lemma tin_more o seg s x : tin o seg x -> tin o (s :: seg) x.
Proof.
  destruct x as [|o' own h|o' r]; simpl; auto.
  - intros [E H]. split; auto. intros w Hw. destruct (H w Hw) as (s' & A & B). eauto.
  - intros [E (s1 & s2 & M & H)]. split; auto. exists s1, s2. split; auto. pose proof (moment_app [s] seg [] s1 s2 M) as M'. rewrite app_nil_r in M'. exact M'.
Qed.
Lemma tin_push o seg s w x : tin o seg x -> sm s = wm w -> tin o (s :: seg) (push w x).
Proof.
  intros H E. apply (tin_more o seg s) in H. destruct x as [|o' own h|o' r]; simpl in *; auto. destruct H as [Eo H]. split; auto.
  intros w' [<-|Hw]; eauto.
Qed.
Lemma tin_run t o tr0 ss0 s1 w g : ginv false tr0 s1 ss0 w g -> tin o [s1] (g t) ->
  forall b seg s, later s1 b seg s -> (forall o' r', ~ In (ERet t o' r') b) ->
  exists tr' ss' w' g', ginv false tr' s ss' w' g' /\ In s ss' /\ tin o seg (g' t).
Proof.
  intros Hg Ht b seg s. induction 1 as [|b seg s e s' Hl IH Hs]; intros Hn.
  - exists tr0, (s1 :: ss0), w, g. split; [|split; [left; auto|exact Ht]]. destruct Hg as [A B C D E F]. constructor; [exact A|exact B| |exact D|exact E|exact F].
    intros u. specialize (C u). destruct (g u); simpl in *; auto. destruct C as (p & C1 & C2 & C3 & C4 & C5). exists p. split; [auto|]. split; [auto|]. split; [auto|]. split; [auto|].
    intros w' Hw. destruct (C5 w' Hw) as (x & X & Y). eauto.
  - destruct IH as (tr' & ss' & w' & g' & Hi & Hin & Hti); [intros o' r' F; apply (Hn o' r'); right; auto|].
    inversion Hs as [s2 u o' fuel Hr|s2 u o' p Hr H1 H2|s2 u o' r Hr]; subst s2 e s'.
    + assert (Hne : t <> u).
      { intros ->. pose proof (gi_thread _ _ _ _ _ _ Hi u) as X. destruct (g' u) as [|o1 own h|o1 r1]; simpl in X, Hti; [tauto| |congruence]. destruct X as (p & X & _). congruence. }
      eexists _, _, _, _. split; [eapply step_call; eauto|]. split; [left; reflexivity|]. rewrite tset_other by auto. apply tin_more; auto.
    + destruct (step_all _ _ _ _ _ _ _ _ _ Hi Hr H1) as (_ & w2 & g2 & Hi2 & _ & _ & _ & _ & _ & Ho & Hm).
      eexists _, _, w2, g2. split; [exact Hi2|]. split; [left; reflexivity|]. pose proof (gi_mem _ _ _ _ _ _ Hi2) as Em.
      destruct (Nat.eq_dec t u) as [<-|Hne].
      * destruct (g' t) as [|o1 own h|o1 r1]; [destruct Hm| |destruct Hm]. destruct (g2 t) as [|o2 own2 h2|o2 r2]; [destruct Hm| |].
        -- simpl in Hti. destruct Hti as [-> Hti], Hm as [-> [->| ->]].
           ++ exact (tin_more o seg _ (TRun o own2 h) (conj eq_refl Hti)).
           ++ apply (tin_push o seg _ w2 (TRun o own2 h)); [split; auto|]. symmetry. exact Em.
        -- destruct Hm as (-> & <- & Hf). destruct Hti as [-> _]. split; auto. exists s, {| sm := fst (pstep (sm s) p); running := tset (running s) t (Some (o, snd (pstep (sm s) p))) |}.
           split; [|exact Hf]. right. destruct (later_head _ _ _ _ Hl) as [Hh _]. inversion Hl; subst; eexists [], _; simpl; reflexivity.
      * destruct (Ho t Hne) as [->| ->]; [apply tin_more; auto|apply tin_push; auto].
    + assert (Hne : t <> u) by (intros ->; apply (Hn o' r); left; auto).
      eexists _, _, _, _. split; [eapply step_ret; eauto; discriminate|]. split; [left; reflexivity|]. rewrite tset_other by auto. apply tin_more; auto.
Qed.

Lemma moment_at tr ss s0 tr' ss' s t o r : exec tr ss s0 -> later s0 tr' ss' s -> call_in tr' t o r ->
  exists s1 s2, moment ss' s1 s2 /\ forall full, (full = true -> exact_at o (sm s1)) -> effect full o (contents (sm s1)) (contents (sm s2)) r.
Proof.
  intros Hx Hl (a & b & c & -> & Hn).
  replace (a ++ ERet t o r :: b ++ ECall t o :: c) with ((a ++ [ERet t o r]) ++ b ++ (ECall t o :: c)) in Hl by (rewrite <- app_assoc; reflexivity).
  apply later_split in Hl as (s3 & ss3 & ss4 & Hl & Hl4 & r3 & r4 & E3 & E4 & ->).
  apply later_split in Hl as (s2 & ss2 & ss5 & Hl & Hl5 & r2 & r5 & E2 & E5 & ->).
  inversion Hl as [|c' ssc sc e s2' Hlc Hsc]; subst e c' s2'. destruct (exec_later _ _ _ Hx _ _ _ Hlc) as (ssx & Hxc).
  destruct (exec_ginv false _ _ _ Hxc) as (w & g & Hg); [discriminate|].
  inversion Hsc as [sx u o' fuel Hr| |]; subst sx u o'.
  pose proof (step_call _ _ _ _ _ _ t o fuel Hg Hr (exec_head _ _ _ Hxc)) as Hg1.
  rewrite H3 in Hg1.
  destruct (tin_run t o _ _ s2 w _ Hg1) with (b := b) (seg := ss5) (s := s3) as (trf & ssf & wf & gf & Hgf & _ & Ht); auto.
  - rewrite tset_same. simpl. split; auto. intros w' [<-|[]]. exists s2. split; [left; auto|]. rewrite <- H3. simpl. symmetry. apply Hg.
  - apply later_split in Hl4 as (s6 & ss6 & ss7 & Hl6 & _ & r6 & r7 & E6 & E7 & E8).
    inversion Hl6 as [|c6 ss6' s6' e6 s6'' Hl6' Hs6]; subst e6 c6 s6''. inversion Hl6'; subst s6' ss6'.
    inversion Hs6 as [| |sx u o' r' Hr6]; subst sx u o' r'.
    assert (HM : forall x y, moment ss5 x y -> moment (r4 ++ r5 ++ ss2) x y).
    { intros x y M. apply (moment_app r4 ss5 r2) in M. rewrite E5, <- app_assoc in M. rewrite E2. exact M. }
    rewrite H3, H1. destruct (gf t) as [|o1 own h|o1 r1] eqn:Egf; [destruct Ht| |].
    + pose proof (gi_thread _ _ _ _ _ _ Hgf t) as X. rewrite Egf in X. destruct X as (p & X & Hsf & Hgd & _ & _). rewrite Hr6 in X. injection X as <- <-.
      destruct (Hsf h (hext_refl _ _ Hgd)) as (w1 & X & Y). destruct Ht as [_ Ht]. destruct (Ht w1 X) as (s' & A & B).
      exists s', s'. split; [apply HM; left; auto|]. rewrite B. exact Y.
    + pose proof (gi_thread _ _ _ _ _ _ Hgf t) as X. rewrite Egf in X. simpl in X. rewrite Hr6 in X. injection X as <- <-.
      destruct Ht as [_ (x & y & M & Hf)]. exists x, y. split; [apply HM, M|]. intros full _. apply Hf.
Qed.
Lemma moment_ok tr ss s0 tr' ss' s t o r : exec tr ss s0 -> later s0 tr' ss' s -> call_in tr' t o r ->
  exists s1 s2, moment ss' s1 s2 /\ forall full, (full = true -> leaves_clean (sm s1)) -> effect full o (contents (sm s1)) (contents (sm s2)) r.
Proof.
  intros Hx Hl Hc. destruct (moment_at _ _ _ _ _ _ _ _ _ Hx Hl Hc) as (s1 & s2 & M & H). exists s1, s2. split; [exact M|].
  intros full Hf. apply H. intros Ht. apply clean_exact. auto.
Qed.

(** * What the calls under way can do *)
Lemma step_called s0 tr ss s e s' : later s0 tr ss s -> sstep s e s' ->
  (forall t o p, running s t = Some (o, p) -> called s0 tr o) ->
  forall t o p, running s' t = Some (o, p) -> called s0 (e :: tr) o.
Proof.
  intros Hl Hs H t o p.
  assert (W : called s0 tr o -> called s0 (e :: tr) o) by (intros [C|[u C]]; [left; auto|right; exists u; right; auto]).
  inversion Hs as [sx u o' fuel Hru|sx u o' q Hru H1 H2|sx u o' r Hru]; subst sx e s'; simpl; unfold tset; destruct (t =? u) eqn:E; try (intros F; apply W; eapply H; exact F).
  - intros F. injection F as <- <-. right. exists u. left. auto.
  - intros F. injection F as <- _. apply W. eapply H; eauto.
  - discriminate.
Qed.
Lemma later_called s0 tr ss s : later s0 tr ss s -> forall t o p, running s t = Some (o, p) -> called s0 tr o.
Proof.
  induction 1 as [|tr ss s e s' Hl IH Hs]; [intros t o p H; left; eauto|]. eapply step_called; eauto.
Qed.
(** A step changes the pairs by one of the calls under way. *)
Lemma later_change tr0 ss0 s0 tr ss s e s' : exec tr0 ss0 s0 -> later s0 tr ss s -> sstep s e s' ->
  same (contents (sm s)) (contents (sm s')) \/ exists o r, called s0 tr o /\ effect false o (contents (sm s)) (contents (sm s')) r.
Proof.
  intros Hx Hl Hs. destruct (exec_later _ _ _ Hx _ _ _ Hl) as (ss2 & Hx2).
  pose proof Hs as Hs'. inversion Hs' as [sx u o' fuel Hru|sx u o' p Hru H1 H2|sx u o' r Hru]; subst sx e s'; [left; intros k v; simpl; tauto| |left; intros k v; simpl; tauto].
  pose proof (step_spec_ok _ _ _ _ _ _ _ Hx2 Hru Hs) as [H|(r & _ & H)]; [left; exact H|]. right. exists o', r. split; [eapply later_called; eauto|apply H].
Qed.
Lemma called_more s0 e tr o : called s0 tr o -> called s0 (e :: tr) o.
Proof. intros [C|[u C]]; [left; auto|right; exists u; right; auto]. Qed.
(** Pairs that nobody deletes stay, pairs that nobody inserts stay away. *)
Lemma kept tr0 ss0 s0 tr ss s k v : exec tr0 ss0 s0 -> later s0 tr ss s -> contents (sm s0) k v -> ~ called s0 tr (OpDel k v) -> always ss k v.
Proof.
  intros Hx Hl H0. induction Hl as [|tr ss s e s' Hl IH Hs]; intros Hc; [intros s [<-|[]]; exact H0|].
  assert (Ha : always ss k v) by (apply IH; intros C; apply Hc, called_more, C). intros x [<-|Hi]; [|apply Ha, Hi].
  pose proof (Ha s (proj1 (later_head _ _ _ _ Hl))) as Hv. destruct (later_change _ _ _ _ _ _ _ _ Hx Hl Hs) as [H|(o & r & C & H)]; [apply H, Hv|].
  destruct o as [a b|a b|a b pr|a|a|a|], r as [[]|[] []|l|low items high]; simpl in H; try tauto; try (apply H; exact Hv).
  - apply H. auto.
  - apply H. split; auto. intros [-> ->]. apply Hc, called_more, C.
  - apply H. auto.
Qed.
Lemma kept_out tr0 ss0 s0 tr ss s k v : exec tr0 ss0 s0 -> later s0 tr ss s -> ~ contents (sm s0) k v ->
  ~ called s0 tr (OpIns k v) -> (forall pr, ~ called s0 tr (OpCond k v pr)) -> ~ sometime ss k v.
Proof.
  intros Hx Hl H0 Hc1 Hc2. cut (forall x, In x ss -> ~ contents (sm x) k v); [intros H (x & Hi & Hv); exact (H x Hi Hv)|].
  induction Hl as [|tr ss s e s' Hl IH Hs]; [intros s [<-|[]]; exact H0|].
  assert (Ha : forall x, In x ss -> ~ contents (sm x) k v).
  { apply IH; [intros C; apply Hc1, called_more, C|intros pr C; apply (Hc2 pr), called_more, C]. }
  intros x [<-|Hi]; [|apply Ha, Hi]. pose proof (Ha s (proj1 (later_head _ _ _ _ Hl))) as Hv. intros Hv'. apply Hv.
  destruct (later_change _ _ _ _ _ _ _ _ Hx Hl Hs) as [H|(o & r & C & H)]; [apply H, Hv'|].
  destruct o as [a b|a b|a b pr|a|a|a|], r as [[]|[] []|l|low items high]; simpl in H; try tauto; try (apply H; exact Hv').
  - destruct H as [_ H]. apply H in Hv'. destruct Hv' as [Hv'|[-> ->]]; auto. exfalso. apply Hc1, called_more, C.
  - destruct H as (_ & _ & H). apply H in Hv'. destruct Hv' as [Hv'|[-> ->]]; auto. exfalso. apply (Hc2 pr), called_more, C.
Qed.
Lemma readers_same tr0 ss0 s0 tr ss s : exec tr0 ss0 s0 -> later s0 tr ss s -> readers_only s0 tr ->
  forall s', In s' ss -> same (contents (sm s0)) (contents (sm s')).
Proof.
  intros Hx Hl. induction Hl as [|tr ss s e s' Hl IH Hs]; intros Hc; [intros s' [<-|[]] k v; tauto|].
  assert (Hsm : forall s', In s' ss -> same (contents (sm s0)) (contents (sm s'))) by (apply IH; intros o C; apply Hc, called_more, C).
  intros x [<-|Hi]; [|apply Hsm, Hi]. eapply same_trans; [apply (Hsm s (proj1 (later_head _ _ _ _ Hl)))|].
  destruct (later_change _ _ _ _ _ _ _ _ Hx Hl Hs) as [H|(o & r & C & H)]; [exact H|]. apply (called_more s0 e) in C. apply Hc in C.
  destruct o, r as [[]|[] []|l|low items high]; simpl in H, C; try tauto.
Qed.

(** A thread idle at the beginning is answered only calls made since. *)
Lemma idle_calls s0 tr ss s t : later s0 tr ss s -> running s0 t = None ->
  (forall o p, running s t = Some (o, p) -> exists b c, tr = b ++ ECall t o :: c /\ forall o' r', ~ In (ERet t o' r') b) /\
  forall o r, In (ERet t o r) tr -> call_in tr t o r.
Proof.
  intros Hl H0. induction Hl as [|tr ss s e s' Hl [IH1 IH2] Hs]; [split; [congruence|intros o r []]|].
  assert (K : forall x o r, call_in tr t o r -> call_in (x :: tr) t o r).
  { intros x o r (a & b & c & -> & Hn). exists (x :: a), b, c. auto. }
  assert (M : forall x o p, running s t = Some (o, p) -> (forall o' r', x <> ERet t o' r') -> exists b c, x :: tr = b ++ ECall t o :: c /\ forall o' r', ~ In (ERet t o' r') b).
  { intros x o p E Hx. destruct (IH1 o p E) as (b & c & -> & Hn). exists (x :: b), c. split; auto. intros o' r' [F|F]; [eapply Hx; eauto|eapply Hn; eauto]. }
  inversion Hs as [sx u o' fuel Hru|sx u o' q Hru H1 H2|sx u o' r Hru]; subst sx e s'; simpl; unfold tset.
  - split; [|intros o r [F|F]; [discriminate|auto]]. intros o p. destruct (t =? u) eqn:E.
    + apply Nat.eqb_eq in E. subst u. intros F. injection F as <- <-. exists [], tr. split; auto.
    + intros F. eapply M; eauto. discriminate.
  - split; [|intros o r [F|F]; [discriminate|auto]]. intros o p. destruct (t =? u) eqn:E.
    + apply Nat.eqb_eq in E. subst u. intros F. injection F as <- <-. eapply M; eauto. discriminate.
    + intros F. eapply M; eauto. discriminate.
  - split.
    + intros o p. destruct (t =? u) eqn:E; [discriminate|]. apply Nat.eqb_neq in E. intros F. eapply M; eauto. intros o1 r1 F1. injection F1. congruence.
    + intros o r1 [F|F]; [|auto]. injection F as -> -> ->. destruct (IH1 o (Ret r1) Hru) as (b & c & -> & Hn). exists [], b, c. auto.
Qed.
End Moment.
