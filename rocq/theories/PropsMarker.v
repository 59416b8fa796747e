(** Pages blocked by a removal (C44). *)
From Coq Require Import NArith List Arith Bool.
From Verif Require Import Base Leaf Inner Tree TreeSpec TreeRun Inst PropsTree SeqRun PropsSeq PropsProgress MarkerSpec Marker.
Import ListNotations.

Section C44.
Context {P : Params}.
Lemma exec_after tr ss (s s' : sys) : exec tr ss s -> after s s' -> exists tr' ss', exec tr' ss' s'.
Proof.
  intros Hx Ha. induction Ha as [|s s1 e s2 Ha IH Hs]; [eauto|]. destruct (IH Hx) as (tr' & ss' & H). exists (e :: tr'), (s2 :: ss'). econstructor; eauto.
Qed.

Lemma after_heap tr ss (s s' : sys) : exec tr ss s -> after s s' -> forall p n, heap (sm s) p = Some n -> heap (sm s') p = Some n.
Proof.
  intros Hx Ha. induction Ha as [|s s1 e s2 Ha IH Hs]; auto. intros p n E. eapply heap_step; [|exact Hs|apply IH; auto].
  destruct (exec_after _ _ _ _ Hx Ha) as (tr' & ss' & X). eapply exec_minv, X.
Qed.

(** A blocked page has exactly one owner, which unblocks it in its next step or
    in the one after that. *)
Theorem C44_one_owner : forall tr ss (s : sys) i p q, exec tr ss s -> blocked (sm s) i p q ->
  exists t, (unblocks s t i p q \/ unblocks_soon s t i p q) /\
    forall u p' q', unblocks s u i p' q' \/ unblocks_soon s u i p' q' -> u = t /\ p' = p /\ q' = q.
Proof.
  intros tr ss s i p q Hx Hb. destruct (exec_minv _ _ _ Hx) as [D H]. destruct (blocked_owner _ _ _ _ _ H Hb) as (t & Eo & Hu & _). exists t. split; auto. intros u p' q' Hu'.
  assert (Eo' : owes (D u) = Some (i, p', q')) by (destruct Hu' as [Hu'|Hu']; [rewrite (unblocks_owes _ _ _ _ _ _ H Hu')|rewrite (soon_owes _ _ _ _ _ _ H Hu')]; auto).
  pose proof (mi_one _ _ H _ _ _ _ _ _ _ Eo Eo') as <-. rewrite Eo in Eo'. injection Eo' as -> ->. auto.
Qed.
(** Nobody but the owner changes a blocked page, and the owner puts back what
    was there. *)
Theorem C44_nobody_else : forall tr ss (s : sys) i p q e s', exec tr ss s -> blocked (sm s) i p q -> sstep s e s' ->
  blocked (sm s') i p q \/ (tab (sm s') i = Some q /\ exists t, e = EStep t /\ unblocks s t i p q).
Proof.
  intros tr ss s i p q e s' Hx Hb Hs. destruct (exec_minv _ _ _ Hx) as [D H]. destruct Hb as [Ht [c Hc]].
  destruct (entry_step _ _ _ _ _ _ H Hs Ht) as [E|[(t & r & -> & Hu & E)|(n & Hn & Hu & _)]].
  - left. split; auto. exists c. eapply heap_step; eauto.
  - right. pose proof (unblocks_owes _ _ _ _ _ _ H Hu) as Ed. assert (Eo : owes (D t) = Some (i, p, r)) by (rewrite Ed; auto).
    destruct (mi_hold _ _ H _ _ _ _ Eo) as [_ [c' Hc']]. rewrite Hc in Hc'. injection Hc' as -> ->. split; auto. exists t. auto.
  - rewrite Hc in Hn. injection Hn as <-. destruct Hu. contradiction.
Qed.
(** From the moment a page becomes blocked: as long as it is not unblocked its
    entry is the marker, and the first other entry it has is the one it had
    before, with the same node. *)
Theorem C44_restored : forall tr ss (s : sys) e s1 s2 e' s3 i p q, exec tr ss s -> sstep s e s1 ->
  ~ (exists p' q', blocked (sm s) i p' q') -> blocked (sm s1) i p q -> tab (sm s) i <> None ->
  after s1 s2 -> blocked (sm s2) i p q -> sstep s2 e' s3 -> tab (sm s3) i <> Some p ->
  exists c, get (sm s) i = Some (q, NInner c) /\ get (sm s3) i = Some (q, NInner c).
Proof.
  intros tr ss s e s1 s2 e' s3 i p q Hx Hs Hnb Hb Hd Ha Hb2 Hs3 Hne. destruct (exec_minv _ _ _ Hx) as [D H].
  destruct (tab (sm s) i) as [x|] eqn:Et; [|destruct Hd; auto]. destruct Hb as [Hp [c Hc]].
  assert (Hq : x = q /\ heap (sm s) x = Some (NInner c)).
  { destruct (entry_step _ _ _ _ _ _ H Hs Et) as [E|[(t & r & -> & Hu & E)|(n & Hn & Hu & E & Hm)]].
    - rewrite E in Hp. injection Hp as ->. destruct (heap (sm s) p) as [n|] eqn:Eh.
      + pose proof (heap_step _ _ _ _ _ (ex_intro _ D H) Hs Eh) as E2. rewrite Hc in E2. injection E2 as <-. destruct Hnb. exists p, q. split; eauto.
      + exfalso. clear Hc. destruct (proj2 (mi_tab _ _ H _ _ Et)) as [n En]. congruence.
    - pose proof (unblocks_owes _ _ _ _ _ _ H Hu) as Ed. assert (Eo : owes (D t) = Some (i, x, r)) by (rewrite Ed; auto). destruct (mi_hold _ _ H _ _ _ _ Eo) as [_ [c' Hc']].
      destruct Hnb. exists x, r. split; eauto.
    - rewrite E in Hp. injection Hp as <-. destruct (Hm _ _ Hc) as [-> E']. auto. }
  destruct Hq as [-> Hq]. exists c. unfold get. rewrite Et, Hq. split; auto.
  assert (X1 : exec (e :: tr) (s1 :: ss) s1) by (econstructor; eauto). destruct (exec_after _ _ _ _ X1 Ha) as (tr2 & ss2 & X2).
  assert (Hq3 : heap (sm s3) q = Some (NInner c)).
  { apply (after_heap _ _ _ _ X1); [econstructor; eauto|]. eapply heap_step; eauto. }
  destruct (C44_nobody_else _ _ _ _ _ _ _ _ X2 Hb2 Hs3) as [[E _]|[E _]]; [contradiction|]. rewrite E, Hq3. auto.
Qed.
(** RemoveAbortOnParent always finds its marker: the assertion at 6805 holds. *)
Theorem C44_unblock_succeeds : forall tr ss (s : sys) t i p q, exec tr ss s -> unblocks s t i p q -> blocked (sm s) i p q.
Proof.
  intros tr ss s t i p q Hx Hu. destruct (exec_minv _ _ _ Hx) as [D H]. pose proof (unblocks_owes _ _ _ _ _ _ H Hu) as Ed.
  apply (mi_hold _ _ H t). rewrite Ed. auto.
Qed.
(** If no call is in progress, no page is blocked. *)
Theorem C44_quiet : forall tr ss (s : sys) i p q, exec tr ss s -> (forall t, running s t = None) -> ~ blocked (sm s) i p q.
Proof.
  intros tr ss s i p q Hx Hq Hb. destruct (C44_one_owner _ _ _ _ _ _ Hx Hb) as (t & [(o & k & E)|(o & j & a & n & k & E & _)] & _); rewrite Hq in E; discriminate.
Qed.
End C44.
Print Assumptions C44_one_owner.
Print Assumptions C44_nobody_else.
Print Assumptions C44_restored.
Print Assumptions C44_unblock_succeeds.
Print Assumptions C44_quiet.

#[local] Existing Instance natP.
(** Thread 0 deletes a key of a page that becomes too small: its fifth step
    blocks page 1, the sixth marks the small page, the seventh unblocks. *)
Definition next (s : sys) (t : nat) : sys :=
  match running s t with
  | Some (o, p) => {| sm := fst (pstep (sm s) p); running := tset (running s) t (Some (o, snd (pstep (sm s) p))) |}
  | None => s
  end.
Definition goes (s : sys) (t : nat) : bool := match running s t with Some (_, Ret _) | Some (_, Err _) | None => false | Some _ => true end.
Lemma next_ok s t : goes s t = true -> sstep s (EStep t) (next s t).
Proof.
  unfold goes, next. destruct (running s t) as [[o p]|] eqn:E; [|discriminate]. intros G. apply (S_step s t o p E); intros r ->; discriminate.
Qed.
Definition marker (m : mem) (i : nat) : option (N * N) :=
  match tab m i with Some p => match heap m p with Some (NInner (IAbort q _)) => Some (p, q) | _ => None end | None => None end.
Lemma marker_ok m i p q : marker m i = Some (p, q) <-> blocked m i p q.
Proof.
  unfold marker, blocked. split.
  - destruct (tab m i) as [x|]; [|discriminate]. destruct (heap m x) as [[|[]]|] eqn:E; try discriminate. intros H. injection H as -> ->. eauto.
  - intros [-> [c ->]]. auto.
Qed.
Definition marked_case (s4 : sys) : bool :=
  let s5 := next s4 0 in let s6 := next s5 0 in let s7 := next s6 0 in
  goes s4 0 && goes s5 0 && goes s6 0 &&
  match marker (sm s4) 1, marker (sm s5) 1, marker (sm s6) 1, tab (sm s4) 1, tab (sm s7) 1 with
  | None, Some (p, q), Some (p', q'), Some x, Some y => N.eqb p p' && N.eqb q q' && N.eqb x q && N.eqb y q && negb (N.eqb p q)
  | _, _, _, _, _ => false
  end.
(** The hypotheses of the theorems above. *)
Definition case_seen (s4 s5 s6 s7 : sys) : Prop := exists p q, sstep s4 (EStep 0) s5 /\ ~ (exists p' q', blocked (sm s4) 1 p' q') /\
  blocked (sm s5) 1 p q /\ tab (sm s4) 1 <> None /\ after s5 s6 /\ blocked (sm s6) 1 p q /\ sstep s6 (EStep 0) s7 /\ tab (sm s7) 1 <> Some p.
Lemma marked_case_ok s4 : marked_case s4 = true -> exists s5 s6 s7, case_seen s4 s5 s6 s7.
Proof.
  unfold marked_case. remember (next s4 0) as s5 eqn:H5. remember (next s5 0) as s6 eqn:H6. remember (next s6 0) as s7 eqn:H7. intros E.
  destruct (goes s4 0) eqn:G4; [|discriminate]. destruct (goes s5 0) eqn:G5; [|discriminate]. destruct (goes s6 0) eqn:G6; [|discriminate]. cbn [andb] in E.
  destruct (marker (sm s4) 1) as [|] eqn:M4; [discriminate|]. destruct (marker (sm s5) 1) as [[p q]|] eqn:M5; [|discriminate]. destruct (marker (sm s6) 1) as [[p' q']|] eqn:M6; [|discriminate].
  destruct (tab (sm s4) 1) as [x|] eqn:T4; [|discriminate]. destruct (tab (sm s7) 1) as [y|] eqn:T7; [|discriminate].
  apply andb_true_iff in E as [E E5]. apply andb_true_iff in E as [E E4]. apply andb_true_iff in E as [E E3]. apply andb_true_iff in E as [E1 E2].
  apply N.eqb_eq in E1, E2, E3, E4. subst p' q' x y. apply negb_true_iff, N.eqb_neq in E5.
  exists s5, s6, s7, p, q. split; [subst s5; apply next_ok, G4|].
  split; [intros (p' & q' & Hb); apply marker_ok in Hb; congruence|]. split; [apply marker_ok, M5|]. split; [congruence|].
  split; [eapply af_step; [apply af_refl|subst s6; apply next_ok, G5]|]. split; [apply marker_ok, M6|]. split; [subst s7; apply next_ok, G6|]. congruence.
Qed.
Example C44_example : exists tr ss s4 s5 s6 s7, exec tr ss s4 /\ case_seen s4 s5 s6 s7.
Proof.
  exists (c_tr (play (suspended 4))), (c_ss (play (suspended 4))), (c_s (play (suspended 4))).
  destruct (marked_case_ok (c_s (play (suspended 4)))) as (s5 & s6 & s7 & H); [vm_compute; reflexivity|]. exists s5, s6, s7. split; [apply play_exec|exact H].
Qed.
