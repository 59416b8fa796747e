(** Calls that run alone: how they relate to [prun]; calls that never return. *)
From Coq Require Import NArith List Arith Lia Bool.
From Verif Require Import Base Leaf LeafSpec Inner Tree TreeSpec SeqFuel SeqProg SeqRun ProgressSpec.
Import ListNotations.

Section Progress.
Context {P : Params}.

(** The outcome of running alone does not change along the run. *)
Lemma alone_run t o fuel s s' : alone t (called s t o fuel) s' ->
  exists p, running s' t = Some (o, p) /\ prun (sm s) (code fuel o) = prun (sm s') p.
Proof.
  induction 1 as [|s1 s2 Ha (p & Hp & E) Hs].
  - exists (code fuel o). simpl. rewrite tset_eq. auto.
  - inversion Hs as [| ? ? o' p' Hr Hn1 Hn2 |]; subst. rewrite Hp in Hr. injection Hr as <- <-. simpl.
    exists (snd (pstep (sm s1) p)). rewrite tset_eq. split; auto. rewrite E. apply prun_pstep.
Qed.
Lemma run_alone t s o (p : prog resp) : forall s1 m' r, alone t s s1 -> running s1 t = Some (o, p) -> prun (sm s1) p = (m', Ok r) ->
  exists s', alone t s s' /\ running s' t = Some (o, Ret r).
Proof.
  assert (G : forall q s1 m' r, alone t s s1 -> running s1 t = Some (o, q) -> prun (sm s1) q = (m', Ok r) -> (forall a, q <> Ret a) -> (forall e, q <> Err e) ->
    (forall m s1 m' r, alone t s s1 -> running s1 t = Some (o, snd (pstep m q)) -> prun (sm s1) (snd (pstep m q)) = (m', Ok r) -> exists s', alone t s s' /\ running s' t = Some (o, Ret r)) ->
    exists s', alone t s s' /\ running s' t = Some (o, Ret r)).
  { intros q s1 m' r Ha Hr Hp N1 N2 IH. eapply (IH (sm s1)).
    - eapply A_more; [exact Ha|]. eapply S_step; [exact Hr|exact N1|exact N2].
    - simpl. apply tset_eq.
    - simpl. rewrite <- prun_pstep. exact Hp. }
  assert (Gn : forall m e s1 m' r, alone t s s1 -> running s1 t = Some (o, Err e) -> prun m (Err e : prog resp) = (m', Ok r) -> exists s', alone t s s' /\ running s' t = Some (o, Ret r)) by (intros; discriminate).
  induction p as [a|e|i k IH|i old n k IH|i old n k IH|k IH|old n k IH|n k IH]; intros s1 m' r Ha Hr Hp.
  - simpl in Hp. injection Hp as <- <-. eauto.
  - discriminate.
  - eapply G; [exact Ha|exact Hr|exact Hp|discriminate|discriminate|]. intros m. simpl. destruct (get m i); simpl; [apply IH|]. intros. eapply Gn; eauto.
  - eapply G; [exact Ha|exact Hr|exact Hp|discriminate|discriminate|]. intros m. simpl. destruct (tab m i) as [p'|]; [destruct (N.eqb p' old)|]; simpl; apply IH.
  - eapply G; [exact Ha|exact Hr|exact Hp|discriminate|discriminate|]. intros m. simpl. destruct (tab m i) as [p'|]; [destruct (N.eqb p' old)|]; simpl; apply IH.
  - eapply G; [exact Ha|exact Hr|exact Hp|discriminate|discriminate|]. intros m. simpl. apply IH.
  - eapply G; [exact Ha|exact Hr|exact Hp|discriminate|discriminate|]. intros m. simpl. destruct (root m =? old); simpl; apply IH.
  - eapply G; [exact Ha|exact Hr|exact Hp|discriminate|discriminate|]. intros m. simpl. apply IH.
Qed.
Lemma returns_run s t o fuel m' r : prun (sm s) (code fuel o) = (m', Ok r) -> returns_alone s t o.
Proof.
  intros E. destruct (run_alone t (called s t o fuel) o (code fuel o) (called s t o fuel) m' r) as (s' & Ha & Hr); eauto; [constructor|simpl; apply tset_eq|].
  exists fuel, s', r. auto.
Qed.
Lemma never_returns s t o : (forall fuel, snd (prun (sm s) (code fuel o)) = Er EFuel) -> ~ returns_alone s t o.
Proof.
  intros H (fuel & s' & r & Ha & Hr). apply alone_run in Ha as (p & Hp & E). rewrite Hr in Hp. injection Hp as <-. specialize (H fuel). rewrite E in H. discriminate.
Qed.

(** * Attempts that change nothing *)
(** Run alone, as long as nothing is written. *)
Fixpoint quiet {A} (m : mem) (p : prog A) : option (res A) :=
  match p with
  | Ret a => Some (Ok a)
  | Err e => Some (Er e)
  | PLoad i k => match get m i with Some x => quiet m (k x) | None => Some (Er ENull) end
  | Cas i o n k => match tab m i with Some p' => if N.eqb p' o then None else quiet m (k None) | None => quiet m (k None) end
  | CasPtr i o n k => match tab m i with Some p' => if N.eqb p' o then None else quiet m (k false) | None => quiet m (k false) end
  | LoadRoot k => quiet m (k (root m))
  | CasRoot o n k => if root m =? o then None else quiet m (k false)
  | NewNode n k => None
  end.
Lemma quiet_run {A} (p : prog A) m r : quiet m p = Some r -> prun m p = (m, r).
Proof.
  induction p; simpl; intros E; try (injection E as <-; auto; fail); auto.
  - destruct (get m i); auto. injection E as <-. auto.
  - destruct (tab m i) as [p'|]; auto. destruct (N.eqb p' old); [discriminate|auto].
  - destruct (tab m i) as [p'|]; auto. destruct (N.eqb p' old); [discriminate|auto].
  - destruct (root m =? old); [discriminate|auto].
  - discriminate.
Qed.
(** An attempt to reach a leaf is in vain: it ends with an abort. *)
Definition vain {A} (m : mem) (p : nat -> prog (option A)) (f0 : nat) : bool :=
  forallb (fun f => match quiet m (p f) with Some (Er EFuel) => true | _ => false end) (seq 0 f0) &&
  match quiet m (p f0) with Some (Ok None) => true | _ => false end.
Lemma vain_ok {A} m (p : nat -> prog (option A)) f0 : (forall f f', f <= f' -> ple (p f) (p f')) -> vain m p f0 = true ->
  forall f, prun m (p f) = (m, Er EFuel) \/ prun m (p f) = (m, Ok None).
Proof.
  intros Hm Hv f. unfold vain in Hv. apply andb_true_iff in Hv as [Hl Hn]. destruct (Nat.lt_ge_cases f f0) as [Hf|Hf].
  - left. rewrite forallb_forall in Hl. specialize (Hl f ltac:(apply in_seq; lia)).
    destruct (quiet m (p f)) as [[a|[]]|] eqn:E; try discriminate. apply quiet_run, E.
  - right. destruct (quiet m (p f0)) as [[[a|]|]|] eqn:E; try discriminate. apply quiet_run in E. eapply ple_run; [apply (Hm f0); auto|exact E].
Qed.
Lemma traverse_vain m go nav k f0 : vain m (fun f => attempt go nav f k) f0 = true -> forall f, prun m (traverse_with go nav f k) = (m, Er EFuel).
Proof.
  intros Hv f. induction f as [|f IH]; auto. cbn [traverse_with]. rewrite prun_bind.
  destruct (vain_ok m _ f0 (fun a b H => attempt_mono go nav a b k H) Hv f) as [E|E]; rewrite E; auto.
Qed.
Lemma insert_vain m k v f0 : vain m (fun f => attempt kge inavigate f k) f0 = true -> forall f, snd (prun m (code f (OpIns k v))) = Er EFuel.
Proof.
  intros Hv f. simpl. rewrite prun_bind. destruct f as [|f]; auto. cbn [insert]. rewrite prun_bind. unfold traverse. rewrite (traverse_vain _ _ _ _ _ Hv). auto.
Qed.
Lemma delete_vain m k v f0 : vain m (fun f => attempt kge inavigate f k) f0 = true -> forall f, snd (prun m (code f (OpDel k v))) = Er EFuel.
Proof.
  intros Hv f. simpl. rewrite prun_bind. destruct f as [|f]; auto. cbn [delete]. rewrite prun_bind. unfold traverse. rewrite (traverse_vain _ _ _ _ _ Hv). auto.
Qed.
(** One attempt of GetValue. *)
Definition attempt_ro (k : K) (f : nat) : prog (option ctx) :=
  LoadRoot (fun r => pbind (load_ro k r) (fun o => match o with None => Ret None | Some x => descend_ro f x end)).
Lemma attempt_ro_mono k f f' : f <= f' -> ple (attempt_ro k f) (attempt_ro k f').
Proof. intros H. constructor. intros r. apply ple_bind; [apply ple_refl|]. intros [x|]; [apply descend_ro_mono; auto|apply ple_refl]. Qed.
Lemma get_vain m k f0 : vain m (attempt_ro k) f0 = true -> forall f, snd (prun m (code f (OpGet k))) = Er EFuel.
Proof.
  intros Hv f. simpl. rewrite prun_bind. assert (E : prun m (get_value f k) = (m, Er EFuel)); [|rewrite E; auto].
  induction f as [|f IH]; auto. pose proof (vain_ok m _ f0 (attempt_ro_mono k) Hv f) as H. cbn [get_value prun attempt_ro] in *.
  rewrite prun_bind in H. rewrite prun_bind. destruct (prun m (load_ro k (root m))) as [m1 [[x|]|e]].
  - rewrite prun_bind. destruct H as [H|H]; rewrite H; auto.
  - simpl in H. destruct H as [H|H]; injection H as ->; auto; discriminate.
  - destruct H as [H|H]; [inversion H; subst; reflexivity|discriminate].
Qed.
End Progress.
