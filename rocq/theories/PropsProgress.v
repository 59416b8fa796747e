(** Calls that do not return or read what was never written (C40, C41). *)
From Coq Require Import List Arith Lia Bool NArith.
From Verif Require Import Base Leaf LeafSpec Inner Tree TreeSpec TreeInv TreeRun TreeNot TreeFast Inst PropsTree SeqRun PropsSeq ProgressSpec Progress.
Import ListNotations.

(** * C41: a call that runs alone returns *)
(** C41 for one thread: after any single-threaded history (with the
    restrictions of C02) every call returns.  Missing: suspended threads, where
    the claim is false, see below. *)
Theorem C41_runs_alone_partial : forall {P : Params} l s t o,
  calmrun l (sm s) -> plain o -> need l (sm s) o -> returns_alone s t o.
Proof.
  intros P l s t o Hl Hp Hn. destruct (C02_sequential_set_partial l _ o Hl Hp Hn) as (f & m' & r & E & _).
  eapply (returns_run s t o f). apply E. auto.
Qed.
Print Assumptions C41_runs_alone_partial.

#[local] Existing Instance natP.
(** Thread 0 deletes [65]; its page becomes too small.  After 5 steps it has
    blocked the parent page; after 6 steps it has also marked the small page as
    removed. *)
Definition suspended (j : nat) : list cmd :=
  ins 1 136 ++ del 97 40 ++ [CCall 0 (OpDel 65 1) 40; CStep 0 j].
Definition only (c : conf) (t : nat) : Prop := forall u, u <> t -> running (c_s c) u = None.
Lemma only_steps n t : forall c, only c t -> only (steps n t c) t.
Proof.
  induction n as [|n IH]; intros c H; simpl; auto. destruct (running (c_s c) t) as [[o p]|] eqn:E; auto.
  assert (G : only (let '(m', p') := pstep (sm (c_s c)) p in steps n t (push_event c (EStep t) {| sm := m'; running := tset (running (c_s c)) t (Some (o, p')) |})) t).
  { destruct (pstep (sm (c_s c)) p) as [m' p']. apply IH. intros u Hu. simpl. unfold tset. apply Nat.eqb_neq in Hu as Hu'. rewrite Hu'. apply H, Hu. }
  destruct p; auto.
Qed.
Definition act_of (t : nat) (x : cmd) : bool := match x with CCall u _ _ | CStep u _ | CRet u => u =? t end.
Lemma only_play t l : forallb (act_of t) l = true -> only (play l) t.
Proof.
  unfold play. assert (H : only cinit t) by (intros u _; reflexivity). revert H. generalize cinit. induction l as [|x l IH]; intros c H Hl; [exact H|].
  cbn [fold_left]. cbn [forallb] in Hl. apply andb_true_iff in Hl as [Hx Hl]. apply IH; [|exact Hl]. destruct x as [u o f|u n|u]; simpl in Hx; apply Nat.eqb_eq in Hx; subst u; simpl.
  - destruct (running (c_s c) t); auto. intros u Hu. simpl. unfold tset. apply Nat.eqb_neq in Hu as Hu'. rewrite Hu'. apply H, Hu.
  - apply only_steps, H.
  - destruct (running (c_s c) t) as [[o p]|]; auto. destruct p; auto. intros u Hu. simpl. unfold tset. apply Nat.eqb_neq in Hu as Hu'. rewrite Hu'. apply H, Hu.
Qed.

(** What was inserted and never deleted is stored. *)
Lemma stored k v t tr ss (s : sys) : exec tr ss s -> In (VRet t (OpIns k v) (RBool true)) (visible tr) ->
  (forall w, ~ In (VCall w (OpDel k v)) (visible tr)) -> contents (sm s) k v.
Proof.
  intros Hx Hi Hd. destruct (C01_linearizable _ _ _ Hx) as (atr & A & st & Ha & Ev & Hs). apply Hs.
  apply aexec_naive with (k := k) (v := v) in Ha as [_ _ Hn]. rewrite Ev in Hn. eapply Hn; eauto.
Qed.

(** C41 is false.  One thread, suspended inside a Delete, keeps every Insert
    and Delete of a key of the small page, and every GetValue of such a key,
    from ever returning, although the pair is stored. *)
Theorem C41_refuted :
  (exists tr ss (s : sys) k v, exec tr ss s /\ (forall u, u <> 0 -> running s u = None) /\
     forall t, t <> 0 -> ~ returns_alone s t (OpIns k v) /\ ~ returns_alone s t (OpDel k v)) /\
  (exists tr ss (s : sys) k v, exec tr ss s /\ (forall u, u <> 0 -> running s u = None) /\
     contents (sm s) k v /\ forall t, t <> 0 -> ~ returns_alone s t (OpGet k)).
Proof.
  split.
  - exists (c_tr (play (suspended 5))), (c_ss (play (suspended 5))), (c_s (play (suspended 5))), 66, 1.
    split; [apply play_exec|]. split; [apply (only_play 0); vm_compute; reflexivity|].
    assert (E : vain (sm (c_s (play (suspended 5)))) (fun f => attempt kge inavigate f (66 : K)) 2 = true) by (vm_compute; reflexivity).
    intros t _. split; apply never_returns; [apply (insert_vain _ _ _ _ E)|apply (delete_vain _ _ _ _ E)].
  - exists (c_tr (play (suspended 6))), (c_ss (play (suspended 6))), (c_s (play (suspended 6))), 66, 1.
    split; [apply play_exec|]. split; [apply (only_play 0); vm_compute; reflexivity|].
    split.
    { apply (stored 66 1 0 _ _ _ (play_exec (suspended 6))).
      - apply (nth_error_In _ 221). vm_compute. reflexivity.
      - apply not_del_ok. vm_compute. reflexivity. }
    assert (E : vain (sm (c_s (play (suspended 6)))) (attempt_ro (66 : K)) 2 = true) by (vm_compute; reflexivity).
    intros t _. apply never_returns, (get_vain _ _ _ E).
Qed.
Print Assumptions C41_refuted.
(** The same calls return before thread 0 is suspended there, and after it has
    gone on. *)
Definition ends (s : sys) (o : op) : bool := match snd (prun (sm s) (code 40 o)) with Ok _ => true | Er _ => false end.
Lemma ends_ok s t o : ends s o = true -> returns_alone s t o.
Proof. unfold ends. destruct (prun (sm s) (code 40 o)) as [m' [r|]] eqn:E; [|discriminate]. intros _. eapply returns_run, E. Qed.
Example suspended_4 : returns_alone (c_s (play (suspended 4))) 1 (OpIns 66 2) /\ returns_alone (c_s (play (suspended 4))) 1 (OpGet 66).
Proof. split; apply ends_ok; vm_compute; reflexivity. Qed.
Example suspended_15 : returns_alone (c_s (play (suspended 15))) 1 (OpIns 66 2) /\ returns_alone (c_s (play (suspended 15))) 1 (OpGet 66).
Proof. split; apply ends_ok; vm_compute; reflexivity. Qed.
(** The hypotheses of [C41_runs_alone_partial] are met by the history [busy]. *)
Example busy_alone : exists x, calmrun (fst x) (snd x) /\ busy_seen x /\
  forall s t, sm s = snd x -> returns_alone s t (OpGet 77) /\ returns_alone s t (OpDel 77 2).
Proof.
  destruct busy_runs as (x & Hc & Hq & Hs). exists x. split; [exact Hc|]. split; [exact Hs|].
  intros s t E. rewrite <- E in Hc, Hq. split; (apply (C41_runs_alone_partial (fst x)); [exact Hc|exact I|]); [exact Hq|exact I].
Qed.
