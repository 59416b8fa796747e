(** Running schedules of the index with its epoch manager. *)
From Coq Require Import NArith List Arith Bool Lia.
From Verif Require Import Base Leaf Inner InnerSpec Tree TreeSpec MarkerSpec GarbageSpec TreeInv Marker Garbage LinkSpec Links LinkProg LinkExec FateSpec Fate ReleaseSpec.
From Verif Require Epoch.
Import ListNotations.

Section ReleasePlay.
Context {P : Params}.
Variables (n th : nat) (R : sys -> Prop) (Rb : wst -> bool).
(** What is known of the states. *)
Definition usual (w : wst) : Prop := fated (w_s w) (w_f w) /\ forall t, n <= t -> running (w_s w) t = None.
Hypothesis Rb_ok : forall w, usual w -> Rb w = true -> R (w_s w).
Hypothesis R0 : R sinit.

Definition pe (w : wst) (a : Epoch.act) : option wst :=
  match a with
  | Epoch.AUnlink _ _ => None
  | Epoch.ALeave t =>
      match running (w_s w) t with
      | Some _ => None
      | None => option_map (fun e => {| w_s := w_s w; w_f := w_f w; w_e := e; w_held := drop w a |}) (Epoch.step n th a (w_e w))
      end
  | _ => option_map (fun e => {| w_s := w_s w; w_f := w_f w; w_e := e; w_held := drop w a |}) (Epoch.step n th a (w_e w))
  end.
Definition chk (o : option wst) : option wst := match o with Some w => if Rb w then Some w else None | None => None end.
Definition pt (w : wst) (e : event) (s' : sys) : option wst :=
  chk match Epoch.pcs (w_e w) (thread_of e) with
  | Epoch.Running =>
      let F' := fate (w_s w) e (w_f w) in
      if length (handed F') =? length (handed (w_f w)) then
        Some {| w_s := s'; w_f := F'; w_e := w_e w; w_held := hold w e |}
      else if length (handed F') =? S (length (handed (w_f w))) then
        option_map (fun e' => {| w_s := s'; w_f := F'; w_e := e'; w_held := hold w e |})
          (Epoch.step n th (Epoch.AUnlink (thread_of e) (length (handed (w_f w)))) (w_e w))
      else None
  | _ => None
  end.
Lemma fate_handed s e F : exists l, handed (fate s e F) = l ++ handed F.
Proof.
  destruct e as [t o|t|t o r]; cbn [fate]; try (exists []; reflexivity).
  destruct (running s t) as [[o [r|er|i k|i old nn k|i old nn k|k|old nn k|nn k]]|]; try (exists []; reflexivity); destruct (swaps (sm s) i old); try (exists []; reflexivity).
  - destruct nn as [[]|[ | |[s0 d]| | | | ]]; cbn [handed]; try (exists []; reflexivity); try (exists [old]; reflexivity); try (exists (entry (sm s) d); reflexivity).
  - exists [old]; reflexivity.
Qed.
Lemma chk_ok o w : chk o = Some w -> o = Some w /\ Rb w = true.
Proof. unfold chk. destruct o as [w'|]; [|discriminate]. destruct (Rb w') eqn:E; [|discriminate]. intros H. injection H as <-. auto. Qed.
Lemma pe_ok w a w' : pe w a = Some w' -> wstep n th w w' /\ w_s w' = w_s w.
Proof.
  unfold pe. intros E. assert (H : alone w a /\ exists e, Epoch.step n th a (w_e w) = Some e /\ w' = {| w_s := w_s w; w_f := w_f w; w_e := e; w_held := drop w a |}).
  { destruct a as [|t|t x|t|t|t]; try discriminate; unfold alone.
    1,2,4,5: destruct (Epoch.step n th _ (w_e w)) as [e|] eqn:Es; [|discriminate]; injection E as <-; split; [exact I|exists e; auto].
    destruct (running (w_s w) t); [discriminate|]. destruct (Epoch.step n th _ (w_e w)) as [e|] eqn:Es; [|discriminate]. injection E as <-. split; auto. exists e; auto. }
  destruct H as (Ha & e & Es & ->). split; [constructor; auto|reflexivity].
Qed.
Lemma pt_ok w e s' w' : sstep (w_s w) e s' -> pt w e s' = Some w' -> wstep n th w w' /\ Rb w' = true.
Proof.
  unfold pt. intros Hs E. apply chk_ok in E as [E Eb]. split; auto. destruct (Epoch.pcs (w_e w) (thread_of e)) eqn:Ep; try discriminate. destruct (fate_handed (w_s w) e (w_f w)) as [l El].
  destruct (length (handed (fate (w_s w) e (w_f w))) =? length (handed (w_f w))) eqn:E1.
  - injection E as <-. apply ws_tree; auto. left. split; auto. apply Nat.eqb_eq in E1. rewrite El, app_length in E1. destruct l; [exact El|simpl in E1; lia].
  - destruct (length (handed (fate (w_s w) e (w_f w))) =? S (length (handed (w_f w)))) eqn:E2; [|discriminate]. apply Nat.eqb_eq in E2. rewrite El, app_length in E2.
    destruct (Epoch.step n th _ (w_e w)) as [e'|] eqn:Es; [|discriminate]. injection E as <-. apply ws_tree; auto. right. destruct l as [|g [|g' l]]; try (simpl in E2; lia). exists g. split; auto.
Qed.
(** Thread [t] until AddGarbageNode has returned. *)
Fixpoint gc (fuel : nat) (t : nat) (w : wst) : option wst :=
  match Epoch.pcs (w_e w) t with
  | Epoch.Running => Some w
  | _ => match fuel with O => None | S f => match pe w (Epoch.AStep t) with Some w' => gc f t w' | None => None end end
  end.
(** Up to [k] steps of the call of thread [t]. *)
Fixpoint works (k : nat) (t : nat) (w : wst) : option wst :=
  match k with
  | O => Some w
  | S k' =>
      match running (w_s w) t with
      | None | Some (_, Ret _) | Some (_, Err _) => Some w
      | Some (o, p) =>
          let x := pstep (sm (w_s w)) p in
          match pt w (EStep t) {| sm := fst x; running := tset (running (w_s w)) t (Some (o, snd x)) |} with
          | Some w' => match gc 200 t w' with Some w'' => works k' t w'' | None => None end
          | None => None
          end
      end
  end.
Inductive wcmd := WEp (a : Epoch.act) | WCall (t : nat) (o : op) (fuel : nat) | WWork (t k : nat) | WRet (t : nat) | WRenew.
Definition wdo (w : wst) (c : wcmd) : option wst :=
  match c with
  | WEp a => pe w a
  | WCall t o fuel =>
      match running (w_s w) t with
      | None => pt w (ECall t o) {| sm := sm (w_s w); running := tset (running (w_s w)) t (Some (o, code fuel o)) |}
      | Some _ => None
      end
  | WWork t k => works k t w
  | WRet t =>
      match running (w_s w) t with
      | Some (o, Ret r) => pt w (ERet t o r) {| sm := sm (w_s w); running := tset (running (w_s w)) t None |}
      | _ => None
      end
  | WRenew => if forallb (fun t => match Epoch.pcs (w_e w) t with Epoch.Idle => true | _ => false end) (seq 0 n)
              then Some {| w_s := w_s w; w_f := w_f w; w_e := renew n (w_e w); w_held := w_held w |} else None
  end.
Fixpoint wplay (l : list wcmd) (w : wst) : option wst :=
  match l with [] => Some w | c :: r => match wdo w c with Some w' => wplay r w' | None => None end end.
(** One operation of thread [t] from JoinEpoch to LeaveEpoch. *)
Definition whole (t : nat) (o : op) : list wcmd :=
  [WEp (Epoch.AInvoke t); WEp (Epoch.AStep t); WCall t o 60; WWork t 200; WRet t; WEp (Epoch.ALeave t); WEp (Epoch.AStep t)].

(** Threads that do not exist are idle. *)
Definition outs (w : wst) : Prop := forall t, n <= t -> Epoch.pcs (w_e w) t = Epoch.Idle.
Lemma gc_iter_pcs s o m : Epoch.pcs (fst (Epoch.gc_iter s o m)) = Epoch.pcs s.
Proof.
  unfold Epoch.gc_iter. destruct (Epoch.hdr (Epoch.slots s o)); [|reflexivity]. destruct (nth_error (Epoch.cells s) n0); [|reflexivity]. destruct (negb (Epoch.alive c)); [reflexivity|].
  destruct (Epoch.elt (Epoch.de c) m); [|reflexivity]. destruct (Nat.eqb _ _); reflexivity.
Qed.
Lemma step_pcs a s s' : Epoch.step n th a s = Some s' -> forall t, n <= t -> Epoch.pcs s t = Epoch.Idle -> Epoch.pcs s' t = Epoch.Idle.
Proof.
  intros E t Ht H. assert (U : forall u (p : Epoch.tpc), Epoch.pcs s u <> Epoch.Idle -> Epoch.upd (Epoch.pcs s) u p t = Epoch.Idle).
  { intros u p Hu. unfold Epoch.upd. destruct (Nat.eqb_spec t u); auto. subst. congruence. }
  destruct a as [|u|u x|u|u|u]; cbn [Epoch.step] in E.
  - injection E as <-. exact H.
  - destruct (Nat.ltb u n) eqn:El; [|discriminate]. apply Nat.ltb_lt in El. destruct (Epoch.pcs s u) eqn:Eu; try discriminate. injection E as <-. cbn [Epoch.pcs]. unfold Epoch.upd. destruct (Nat.eqb_spec t u); [lia|auto].
  - destruct (Epoch.pcs s u) eqn:Eu; try discriminate. destruct (existsb _ _); [discriminate|]. injection E as <-. cbn [Epoch.pcs]. apply U. congruence.
  - destruct (Epoch.pcs s u) eqn:Eu; try discriminate. injection E as <-. cbn [Epoch.pcs Epoch.set_pc]. apply U. congruence.
  - destruct (Nat.ltb u n); [|discriminate]. destruct (Epoch.pcs s u); try discriminate. injection E as <-. exact H.
  - destruct (Epoch.pcs s u) as [|e| |x|i m|m|e] eqn:Eu; try discriminate.
    + injection E as <-. cbn [Epoch.pcs Epoch.set_pc Epoch.set_slot]. apply U. congruence.
    + injection E as <-. unfold Epoch.add_garbage. destruct (Epoch.last (Epoch.slots s u)) as [p|]; [destruct (nth_error (Epoch.cells s) p) as [c|]; [destruct (Epoch.alive c)|]|]; cbn [Epoch.pcs Epoch.set_pc Epoch.set_slot Epoch.set_cells Epoch.set_bad]; apply U; congruence.
    + destruct (Nat.ltb i n); injection E as <-; cbn [Epoch.pcs Epoch.set_pc]; apply U; congruence.
    + pose proof (gc_iter_pcs s u m) as G. destruct (Epoch.gc_iter s u m) as [s1 more]. cbn [fst] in G. injection E as <-. destruct more; [rewrite G; auto|]. cbn [Epoch.pcs Epoch.set_pc]. rewrite G. apply U. congruence.
    + injection E as <-. cbn [Epoch.pcs Epoch.set_pc Epoch.set_slot]. apply U. congruence.
Qed.
Lemma unregister_pcs l : forall s, Epoch.pcs (fold_left Epoch.unregister l s) = Epoch.pcs s.
Proof. induction l as [|t l IH]; intros s; simpl; auto. rewrite IH. reflexivity. Qed.
Lemma gc_loop_pcs o m f : forall s, Epoch.pcs (Epoch.gc_loop f s o m) = Epoch.pcs s.
Proof. induction f as [|f IH]; intros s; [reflexivity|]. cbn [Epoch.gc_loop]. pose proof (gc_iter_pcs s o m) as G. destruct (Epoch.gc_iter s o m) as [s1 []]; cbn [fst] in G; auto. rewrite IH. auto. Qed.
Lemma clear_pcs l : forall s, Epoch.pcs (fold_left (Epoch.clear_one n) l s) = Epoch.pcs s.
Proof.
  induction l as [|t l IH]; intros s; simpl; auto. rewrite IH. unfold Epoch.clear_one. cbv zeta. destruct (Nat.eqb _ 0); cbn [Epoch.set_bad Epoch.pcs]; apply gc_loop_pcs.
Qed.
Lemma renew_pcs s : Epoch.pcs (renew n s) = Epoch.pcs s.
Proof. unfold renew. cbv zeta. cbn [Epoch.pcs]. unfold Epoch.shutdown. rewrite clear_pcs. apply unregister_pcs. Qed.
Lemma wstep_outs w w' : outs w -> wstep n th w w' -> outs w'.
Proof.
  intros H Hs. inversion Hs as [w0 a e' _ Es|w0 e s' e' _ _ Ht|w0 _]; subst; intros t Hn; cbn [w_e].
  - eapply step_pcs; eauto.
  - destruct Ht as [[_ ->]|(g & _ & Es)]; [apply H; auto|]. eapply step_pcs; eauto.
  - rewrite renew_pcs. apply H; auto.
Qed.
Lemma wrun_outs R' w : wrun n th R' w -> outs w.
Proof. induction 1 as [|w w' _ IH Hs _]; [intros t _; reflexivity|]. eapply wstep_outs; eauto. Qed.
Lemma wstep_usual w w' : outs w -> usual w -> wstep n th w w' -> usual w'.
Proof.
  intros Ho [H1 H2] Hs. inversion Hs as [w0 a e' _ Es|w0 e s' e' Hp Hst Ht|w0 _]; subst; split; cbn [w_s w_f]; auto; [econstructor; eauto|].
  intros t Hn. destruct (Nat.eq_dec t (thread_of e)) as [-> |Hne]; [rewrite (Ho _ Hn) in Hp; discriminate|]. specialize (H2 t Hn). inversion Hst; subst; cbn [running thread_of] in *; unfold tset; destruct (Nat.eqb_spec t t0); congruence.
Qed.
Lemma wrun_usual R' w : wrun n th R' w -> usual w.
Proof. induction 1 as [|w w' Hw IH Hs _]; [split; [constructor|reflexivity]|]. eapply wstep_usual; eauto. eapply wrun_outs; eauto. Qed.
Lemma wrun_R w : wrun n th R w -> R (w_s w).
Proof. destruct 1; auto. Qed.
Lemma wrun_e w w' : wrun n th R w -> wstep n th w w' -> w_s w' = w_s w -> wrun n th R w'.
Proof. intros H Hs E. eapply wr_step; eauto. rewrite E. apply wrun_R; auto. Qed.
Lemma wrun_t w w' : wrun n th R w -> wstep n th w w' -> Rb w' = true -> wrun n th R w'.
Proof. intros H Hs E. eapply wr_step; eauto. apply Rb_ok; auto. eapply wstep_usual; eauto; [eapply wrun_outs; eauto|eapply wrun_usual; eauto]. Qed.

Lemma gc_ok t : forall f w w', wrun n th R w -> gc f t w = Some w' -> wrun n th R w'.
Proof.
  induction f as [|f IH]; intros w w' H E; cbn [gc] in E.
  - destruct (Epoch.pcs (w_e w) t); try discriminate. injection E as <-. auto.
  - assert (G : match pe w (Epoch.AStep t) with Some w'0 => gc f t w'0 | None => None end = Some w' -> wrun n th R w').
    { intros E'. destruct (pe w (Epoch.AStep t)) as [w1|] eqn:E1; [|discriminate]. apply (IH w1); auto. apply pe_ok in E1 as [A B]. eapply wrun_e; eauto. }
    destruct (Epoch.pcs (w_e w) t); try (apply G; exact E). injection E as <-. auto.
Qed.
Lemma works_ok t : forall k w w', wrun n th R w -> works k t w = Some w' -> wrun n th R w'.
Proof.
  induction k as [|k IH]; intros w w' H E; cbn [works] in E; [injection E as <-; auto|].
  destruct (running (w_s w) t) as [[o p]|] eqn:Er; [|injection E as <-; auto].
  assert (G : (forall r, p <> Ret r) -> (forall e, p <> Err e) ->
    match pt w (EStep t) {| sm := fst (pstep (sm (w_s w)) p); running := tset (running (w_s w)) t (Some (o, snd (pstep (sm (w_s w)) p))) |} with
            | Some w' => match gc 200 t w' with Some w'' => works k t w'' | None => None end | None => None end = Some w' -> wrun n th R w').
  { intros A B E'. destruct (pt w (EStep t) _) as [w1|] eqn:E1; [|discriminate]. destruct (gc 200 t w1) as [w2|] eqn:E2; [|discriminate].
    apply (IH w2); auto. apply (gc_ok t 200 w1); auto. apply pt_ok in E1 as [C1 C2]; [eapply wrun_t; eauto|]. apply S_step; auto. }
  destruct p; try (apply G; [discriminate|discriminate|exact E]); injection E as <-; auto.
Qed.
Lemma wdo_ok w c w' : wrun n th R w -> wdo w c = Some w' -> wrun n th R w'.
Proof.
  intros H E. unfold wdo in E. destruct c as [a|t o fuel|t k|t|].
  - apply pe_ok in E as [A B]. eapply wrun_e; eauto.
  - destruct (running (w_s w) t) eqn:Er; [discriminate|]. apply pt_ok in E as [A B]; [eapply wrun_t; eauto|]. apply S_call; auto.
  - eapply works_ok; eauto.
  - destruct (running (w_s w) t) as [[o [r| | | | | | |]]|] eqn:Er; try discriminate. apply pt_ok in E as [A B]; [eapply wrun_t; eauto|]. apply S_ret; auto.
  - destruct (forallb _ _) eqn:Ef; [|discriminate]. injection E as <-. eapply wrun_e; [exact H| |reflexivity]. apply ws_renew. intros t.
    destruct (Nat.lt_ge_cases t n) as [Hl|Hg]; [|apply (wrun_outs _ _ H); auto].
    rewrite forallb_forall in Ef. specialize (Ef t). rewrite in_seq in Ef. specialize (Ef ltac:(lia)). destruct (Epoch.pcs (w_e w) t); auto; discriminate.
Qed.
Lemma wplay_ok l : forall w w', wrun n th R w -> wplay l w = Some w' -> wrun n th R w'.
Proof. induction l as [|c l IH]; intros w w' H E; cbn [wplay] in E; [injection E as <-; auto|]. destruct (wdo w c) as [w1|] eqn:E1; [|discriminate]. apply (IH w1); auto. eapply wdo_ok; eauto. Qed.

(** Deciding [routed]. *)
Definition staysb (o : op) (high : option (K * nat)) : bool :=
  match o, high with
  | (OpIns k _ | OpDel k _ | OpCond k _ _ | OpGet k | OpPage k), Some (h, _) => klt k h
  | OpPageBI k, Some (h, _) => negb (klt h k)
  | _, _ => true
  end.
Lemma staysb_ok o high : stays o high -> staysb o high = true.
Proof. unfold stays, staysb. destruct o, high as [[h d]|]; auto. intros ->. auto. Qed.
Definition routedb (w : wst) : bool :=
  let s := w_s w in
  forallb (fun t => match running s t with
    | None => true
    | Some (o, _) => forallb (fun i => match node_of (sm s) i with
        | Some (NInner c) => is_remove (NInner c) || negb (staysb o (ihigh c)) || match routes_to o (unmark c) with
            | Ok j => match tab (sm s) j with Some q => negb (existsb (N.eqb q) (handed (w_f w))) | None => false end
            | _ => true end
        | _ => true
        end) (seq 0 (nid (sm s)))
    end) (seq 0 n).
Lemma routedb_ok w : usual w -> routedb w = true -> routed (w_s w).
Proof.
  intros [HF Hn] E t o p i c j Hr Hi Hm Hs Hj Hc. unfold routedb in E. cbv zeta in E. rewrite forallb_forall in E. destruct (Nat.lt_ge_cases t n) as [Ht|Ht]; [|rewrite Hn in Hr by auto; discriminate].
  destruct (fated_rel _ _ HF) as (L & Hl & HR). specialize (E t). rewrite in_seq, Hr in E. specialize (E ltac:(lia)). cbv beta iota in E. rewrite forallb_forall in E. specialize (E i). rewrite in_seq, Hi, Hm, Hj, (staysb_ok _ _ Hs) in E. cbn [negb orb] in E.
  destruct (tab (sm (w_s w)) j) as [q|] eqn:Et.
  - assert (Hin : In q (handed (w_f w))) by (apply (r_handed _ _ _ HR); eauto). assert (X : existsb (N.eqb q) (handed (w_f w)) = true) by (apply existsb_exists; exists q; split; auto; apply N.eqb_refl). rewrite X in E. cbn [negb] in E. assert (false = true); [|discriminate]. apply E.
    split; [lia|]. destruct (lived_exec _ _ Hl) as (tr & ss & Hx). destruct (exec_minv _ _ _ Hx) as [D Hmi]. apply node_of_get in Hi as [q' Hg]. apply get_tab in Hg as [Hg _]. apply (mi_tab _ _ Hmi) in Hg. lia.
  - pose proof (f_cut _ (lived_facts _ _ Hl) _ Hc) as Hmg. destruct (merged_tab _ _ (lived_facts _ _ Hl) Hmg) as (q & rn & A & _). congruence.
Qed.

(** [h] is released. *)
Definition releasedb (w : wst) (h : BinNums.N) : bool :=
  existsb (fun k => match nth_error (rev (handed (w_f w))) k with Some g => N.eqb g h | None => false end) (Epoch.freed (w_e w)).
Lemma releasedb_ok w h : releasedb w h = true -> released w h.
Proof.
  unfold releasedb. intros E. apply existsb_exists in E as (k & Hk & E). destruct (nth_error (rev (handed (w_f w))) k) as [g|] eqn:En; [|discriminate]. apply N.eqb_eq in E. subst g.
  exists k, h. split; auto. split; [exact En|]. constructor.
Qed.
End ReleasePlay.
