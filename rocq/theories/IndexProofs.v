(** Scans of the Peloton index, from the results on iterators (C02, C15, C16,
    C17, C35). *)
From Coq Require Import List Arith Lia Bool Sorted.
From Verif Require Import Base Leaf LeafSpec LeafProofs Inner Tree TreeSpec TreeLin SeqTrav SeqOps SeqRun Iter IterSpec IterProofs IterBack Index IndexSpec.
Import ListNotations.

Section IndexProofs.
Context {P : Params}.
Definition keep (ok : K -> bool) (l : list (K * V)) : list (K * V) := filter (fun x => ok (fst x)) l.

(** * Reading only *)
Definition reading (o : op) : bool := match o with OpPage _ | OpFirst | OpGet _ => true | _ => false end.
Fixpoint reads {A} (c : icode A) : Prop :=
  match c with
  | IRet _ | IFail _ => True
  | ICall o k => reading o = true /\ forall r, reads (k r)
  end.
Lemma reads_bind {A B} (c : icode A) (g : A -> icode B) : reads c -> (forall a, reads (g a)) -> reads (ibind c g).
Proof. intros Hc Hg. induction c; simpl in *; auto. split; [tauto|]. intros r. apply H. apply Hc. Qed.
Lemma reads_lift {A} (r : res A) : reads (ilift r).
Proof. destruct r; simpl; auto. Qed.
Lemma reads_lower f : forall k, reads (lower f k).
Proof.
  induction f; simpl; auto. intros k. split; auto. intros [| | |low items high]; simpl; auto. destruct (negb _); simpl; auto. destruct high as [[]|]; simpl; auto.
Qed.
Lemma reads_next f it : reads (next f it).
Proof.
  unfold next, move_ahead. destruct (is_end it); simpl; auto. destruct (at_end it); simpl; auto. destruct (at_end _); simpl; auto. destruct (i_high it) as [[]|]; simpl; auto. apply reads_lower.
Qed.
Lemma reads_collect n f ok stop : forall it, reads (collect n f ok stop it).
Proof.
  induction n; simpl; auto. intros it. destruct (is_end it); simpl; auto. apply reads_bind; [apply reads_lift|]. intros x. destruct (ok (fst x)).
  - apply reads_bind; [apply reads_next|]. intros it'. apply reads_bind; auto. simpl. auto.
  - destruct stop; simpl; auto. apply reads_bind; [apply reads_next|]. auto.
Qed.
Lemma reads_same {A} (c : icode A) f : forall l m m' a, reads c -> seqrun l m -> irun m f c = (m', Ok a) -> same (contents m) (contents m').
Proof.
  induction c as [a|e|o k IH]; simpl; intros l m m' a0 Hr Hq E.
  - injection E as <- _. intros x v. tauto.
  - discriminate.
  - destruct (prun m (code f o)) as [m1 [r|e]] eqn:E1; [|discriminate]. destruct Hr as [Ho Hr]. pose proof (call_effect _ _ _ _ _ _ Hq E1) as He.
    pose proof (IH r _ _ _ _ (Hr r) (Q_call _ _ _ _ _ _ Hq E1) E) as Hs.
    assert (H1 : same (contents m) (contents m1)).
    { destruct o; try discriminate; destruct r; simpl in He; tauto. }
    intros x v. specialize (H1 x v). specialize (Hs x v). tauto.
Qed.

(** * The loop of Scan and [walk] *)
Lemma collect_walk f f2 ok : forall n m it m' outs it', irun m f2 (walk n f it) = (m', Ok (outs, it')) -> is_end it' = true ->
  irun m f2 (collect (S n) f ok false it) = (m', Ok (map snd (keep ok outs))).
Proof.
  induction n as [|n IH]; intros m it m' outs it' E He.
  - simpl in E. injection E as <- <- <-. simpl. rewrite He. reflexivity.
  - cbn [walk] in E. remember (S n) as n1. cbn [collect]. destruct (is_end it) eqn:Ei; [simpl in *; injection E as <- <- <-; reflexivity|].
    rewrite irun_bind in E. rewrite irun_bind. destruct (deref it) as [x|e]; simpl in E; [|discriminate]. cbn [ilift irun]. rewrite irun_bind in E.
    destruct (irun m f2 (next f it)) as [m1 [it1|e]] eqn:En; [|discriminate]. rewrite irun_bind in E. destruct (irun m1 f2 (walk n f it1)) as [m2 [[o2 i2]|e]] eqn:Ew; [|discriminate].
    simpl in E. injection E as <- <- <-. pose proof (IH _ _ _ _ _ Ew He) as Hc. unfold keep. cbn [filter]. destruct (ok (fst x)).
    + rewrite irun_bind, En, irun_bind, Hc. reflexivity.
    + rewrite irun_bind, En. exact Hc.
Qed.
(** With the early exit: only the leading matches. *)
Fixpoint leading (ok : K -> bool) (l : list (K * V)) : list (K * V) :=
  match l with
  | [] => []
  | x :: l' => if ok (fst x) then x :: leading ok l' else []
  end.
Lemma collect_stop f f2 ok : forall n m it m' outs it', irun m f2 (walk n f it) = (m', Ok (outs, it')) -> is_end it' = true ->
  exists m1, irun m f2 (collect (S n) f ok true it) = (m1, Ok (map snd (leading ok outs))).
Proof.
  induction n as [|n IH]; intros m it m' outs it' E He.
  - simpl in E. injection E as <- <- <-. simpl. rewrite He. eexists. reflexivity.
  - cbn [walk] in E. remember (S n) as n1. cbn [collect]. destruct (is_end it) eqn:Ei; [simpl in *; injection E as <- <- <-; eexists; reflexivity|].
    rewrite irun_bind in E. rewrite irun_bind. destruct (deref it) as [x|e]; simpl in E; [|discriminate]. cbn [ilift irun]. rewrite irun_bind in E.
    destruct (irun m f2 (next f it)) as [m1 [it1|e]] eqn:En; [|discriminate]. rewrite irun_bind in E. destruct (irun m1 f2 (walk n f it1)) as [m2 [[o2 i2]|e]] eqn:Ew; [|discriminate].
    simpl in E. injection E as <- <- <-. destruct (IH _ _ _ _ _ Ew He) as [m3 Hc]. cbn [leading]. destruct (ok (fst x)).
    + exists m3. rewrite irun_bind, En, irun_bind, Hc. reflexivity.
    + exists m. reflexivity.
Qed.
(** If only the smallest key matches nothing is missed. *)
Lemma leading_keep ok k : (forall x, ok x = true <-> x = k) -> forall l : list (K * V), ascending l -> (forall x v, In (x, v) l -> klt x k = false) -> leading ok l = keep ok l.
Proof.
  intros Hok. induction l as [|[x v] l IH]; intros Ha Hk; auto. unfold keep. cbn [leading filter fst]. inversion Ha as [|? ? H1 H2]; subst.
  destruct (ok x) eqn:E; [f_equal; apply IH; auto; intros; apply (Hk x0 v0); right; auto|].
  assert (Hkx : klt k x = true).
  { destruct (klt k x) eqn:E1; auto. pose proof (Hk x v (or_introl eq_refl)). assert (x = k) by (apply klt_total; auto). subst. rewrite (proj2 (Hok k) eq_refl) in E. discriminate. }
  clear IH. symmetry. clear Ha H1 Hk E. induction l as [|[y w] l IH]; auto. inversion H2 as [|? ? H3 H4]; subst. simpl. simpl in H3. destruct (ok y) eqn:E; [|apply IH; auto].
  apply Hok in E. subst y. congruence.
Qed.

(** * Results *)
Lemma asc_filter ok : forall l : list (K * V), ascending l -> ascending (keep ok l).
Proof.
  induction l as [|x l IH]; intros Ha; [constructor|]. inversion Ha as [|? ? H1 H2]; subst. unfold keep. cbn [filter]. destruct (ok (fst x)); [|apply IH, H1]. constructor; [apply IH, H1|].
  rewrite Forall_forall in *. intros y Hy. apply filter_In in Hy. apply H2, Hy.
Qed.
Lemma found_keep (A : pairs) ok k outs : listing A k outs -> (forall x, ok x = true -> from k x) -> found A ok (map snd (keep ok outs)).
Proof.
  intros (Ha & Hn & Hi) Hk. exists (keep ok outs). split; [apply asc_filter, Ha|]. split; [apply NoDup_filter, Hn|]. split; auto. intros x v. unfold keep. rewrite filter_In, Hi. simpl. split; [tauto|].
  intros [Hx Ho]. auto.
Qed.

Lemma lower_scan l m k ok stop : calmrun l m -> (forall x, ok x = true -> klt x k = false) -> (stop = true -> forall x, ok x = true <-> x = k) ->
  exists n0 f0 res, (forall n f f2, n0 <= n -> f0 <= f -> f0 <= f2 -> exists m', irun m f2 (ibind (lower f k) (collect n f ok stop)) = (m', Ok res) /\ same (contents m) (contents m')) /\
    found (contents m) ok res.
Proof.
  intros Hq Hok Hst. destruct (scan_exact_key l m k Hq) as (N & f0 & m' & outs & it & Hw & He & Hs & Hl).
  assert (Hf : found (contents m) ok (map snd (keep ok outs))) by (apply (found_keep _ _ _ _ Hl); intros x Hx; simpl; auto).
  exists (S N), f0, (map snd (keep ok outs)). split; [|exact Hf]. intros n f f2 H1 H2 H3. destruct n as [|n]; [lia|]. specialize (Hw n f f2 ltac:(lia) H2 H3).
  rewrite irun_bind in Hw. rewrite irun_bind. destruct (irun m f2 (lower f k)) as [m1 [it1|e]] eqn:E1; [|discriminate].
  assert (Hrun : exists m2, irun m1 f2 (collect (S n) f ok stop it1) = (m2, Ok (map snd (keep ok outs)))).
  { destruct stop.
    - destruct (collect_stop f f2 ok n _ _ _ _ _ Hw He) as [m2 E2]. exists m2. rewrite <- (leading_keep ok k (Hst eq_refl) outs); auto; [apply Hl|]. intros x v Hx. apply Hl in Hx. apply Hx.
    - exists m'. apply collect_walk with it; auto. }
  destruct Hrun as [m2 E2]. exists m2. split; [exact E2|]. eapply (reads_same (ibind (lower f k) (collect (S n) f ok stop)) f2); [apply reads_bind; [apply reads_lower|apply reads_collect]|apply (calmrun_seqrun _ _ Hq)|].
  rewrite irun_bind, E1. exact E2.
Qed.
Lemma first_scan l m ok : calmrun l m -> begins m ->
  exists n0 f0 res, (forall n f f2, n0 <= n -> f0 <= f -> f0 <= f2 -> exists m', irun m f2 (ibind begin_first (collect n f ok false)) = (m', Ok res) /\ same (contents m) (contents m')) /\
    found (contents m) ok res.
Proof.
  intros Hq (it0 & Hb & Hu). destruct (begin_scan l m Hq) as (it1 & Hb1 & Hr). assert (it1 = it0). { pose proof (Hb 0) as X. rewrite Hb1 in X. congruence. } subst it1.
  destruct (Hr Hu) as (_ & N & f0 & m' & outs & it & Hw & He & Hs & Hl). exists (S N), f0, (map snd (keep ok outs)). split; [|apply (found_keep _ _ _ _ Hl); intros; exact I].
  intros n f f2 H1 H2 H3. destruct n as [|n]; [lia|]. specialize (Hw n f f2 ltac:(lia) H2 H3). rewrite irun_bind, Hb in Hw. exists m'. split; auto. rewrite irun_bind, Hb. apply collect_walk with it; auto.
Qed.
Lemma point l m k ok : calmrun l m -> calm m -> (forall x, ok x = true <-> x = k) ->
  exists f0 res, (forall f2, f0 <= f2 -> exists m', irun m f2 (scan_key_entry k) = (m', Ok res) /\ same (contents m) (contents m')) /\ found (contents m) ok res.
Proof.
  intros Hq Hc Hok. destruct (seq_set l m (OpGet k) Hq I Hc) as (f0 & m' & r & Hr & He). destruct r as [|a b|vs|a b c]; try contradiction. simpl in He. destruct He as [[He _] Hs]. destruct (He eq_refl) as [Hn Hv].
  exists f0, vs. split.
  - intros f2 Hf. exists m'. split; auto. unfold scan_key_entry. cbn [irun]. rewrite Hr by auto. reflexivity.
  - exists (map (fun v => (k, v)) vs). split; [|split; [|split]].
    + clear. induction vs as [|v vs IH]; constructor; auto. rewrite Forall_forall. intros x Hx. apply in_map_iff in Hx as (w & <- & _). simpl. apply klt_irrefl.
    + clear - Hn. induction Hn; simpl; constructor; auto. intros Hi. apply in_map_iff in Hi as (w & E & Hi). injection E as ->. contradiction.
    + intros x v. rewrite in_map_iff, Hok. split.
      * intros (w & E & Hi). injection E as <- <-. rewrite <- Hv. auto.
      * intros [Hx ->]. exists v. rewrite Hv. auto.
    + rewrite map_map. simpl. rewrite map_id. auto.
Qed.

(** * With other threads *)
Lemma follows_join {A B} (c : icode A) (g : A -> icode B) l1 l2 a b : follows c l1 a -> follows (g a) l2 b -> follows (ibind c g) (l1 ++ l2) b.
Proof. induction 1; simpl; auto. intros. constructor. auto. Qed.
Lemma collect_follows f ok stop : forall n it log res, follows (collect n f ok stop it) log res ->
  exists n' outs it', follows (walk n' f it) log (outs, it') /\ res = map snd (keep ok outs).
Proof.
  induction n as [|n IH]; intros it log res Hf; [inversion Hf|]. cbn [collect] in Hf. destruct (is_end it) eqn:Ei.
  - inversion Hf; subst. exists 0, [], it. split; [constructor|]. auto.
  - apply follows_bind in Hf as (l1 & l2 & x & -> & F1 & F2). apply follows_lift in F1 as [-> Ed]. destruct (ok (fst x)) eqn:Eo.
    + apply follows_bind in F2 as (l3 & l4 & it1 & -> & F3 & F4). apply follows_bind in F4 as (l5 & l6 & ys & -> & F5 & F6). inversion F6; subst.
      destruct (IH _ _ _ F5) as (n' & outs & it' & Hw & ->). exists (S n'), (x :: outs), it'. split; [|unfold keep; cbn [filter]; rewrite Eo; auto].
      cbn [walk]. rewrite Ei, Ed. cbn [ilift ibind app]. eapply follows_join; [exact F3|]. eapply follows_join; [exact Hw|constructor].
    + destruct stop; [inversion F2; subst; exists 0, [], it; split; [constructor|auto]|].
      apply follows_bind in F2 as (l3 & l4 & it1 & -> & F3 & F4). destruct (IH _ _ _ F4) as (n' & outs & it' & Hw & ->). exists (S n'), (x :: outs), it'. split; [|unfold keep; cbn [filter]; rewrite Eo; auto].
      cbn [walk]. rewrite Ei, Ed. cbn [ilift ibind app]. eapply follows_join; [exact F3|]. rewrite <- (app_nil_r l4). eapply follows_join; [exact Hw|constructor].
Qed.
End IndexProofs.
