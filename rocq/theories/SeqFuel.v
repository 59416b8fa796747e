(** More fuel never changes the outcome of a run that ends; a run of one
    thread is an execution. *)
From Coq Require Import NArith List Arith Lia Bool ZArith.
From Verif Require Import Base Leaf LeafSpec Inner Tree TreeSpec.
Import ListNotations.

Section SeqFuel.
Context {P : Params}.

(** [q] does what [p] does unless [p] runs out of fuel. *)
Inductive ple {A} : prog A -> prog A -> Prop :=
| ple_fuel q : ple (Err EFuel) q
| ple_ret a : ple (Ret a) (Ret a)
| ple_err e : ple (Err e) (Err e)
| ple_load i k k' : (forall x, ple (k x) (k' x)) -> ple (PLoad i k) (PLoad i k')
| ple_cas i o n k k' : (forall x, ple (k x) (k' x)) -> ple (Cas i o n k) (Cas i o n k')
| ple_ptr i o n k k' : (forall x, ple (k x) (k' x)) -> ple (CasPtr i o n k) (CasPtr i o n k')
| ple_lroot k k' : (forall x, ple (k x) (k' x)) -> ple (LoadRoot k) (LoadRoot k')
| ple_croot o n k k' : (forall x, ple (k x) (k' x)) -> ple (CasRoot o n k) (CasRoot o n k')
| ple_new n k k' : (forall x, ple (k x) (k' x)) -> ple (NewNode n k) (NewNode n k').
Lemma ple_refl {A} (p : prog A) : ple p p.
Proof. induction p; constructor; auto. Qed.
Lemma ple_bind {A B} (p p' : prog A) (f f' : A -> prog B) : ple p p' -> (forall a, ple (f a) (f' a)) -> ple (pbind p f) (pbind p' f').
Proof. intros Hp Hf. induction Hp; simpl; auto; constructor; auto. Qed.
Lemma ple_run {A} (p q : prog A) : ple p q -> forall m m' a, prun m p = (m', Ok a) -> prun m q = (m', Ok a).
Proof.
  induction 1; simpl; intros m m' r; auto; try discriminate.
  - destruct (get m i); auto; try discriminate.
  - destruct (tab m i) as [p'|]; auto. destruct (N.eqb p' o); auto.
  - destruct (tab m i) as [p'|]; auto. destruct (N.eqb p' o); auto.
  - destruct (root m =? o); auto.
Qed.

Ltac ple_go := repeat first
  [ apply ple_refl
  | match goal with
    | H : forall _ _, ple _ _ |- _ => apply H
    | |- ple (pbind _ _) (pbind _ _) => apply ple_bind; [|let a := fresh in intros a; try destruct a]
    | |- ple (match ?x with _ => _ end) (match ?x with _ => _ end) => destruct x
    | |- ple (PLoad _ _) (PLoad _ _) => apply ple_load; intros
    | |- ple (Cas _ _ _ _) (Cas _ _ _ _) => apply ple_cas; intros
    | |- ple (LoadRoot _) (LoadRoot _) => apply ple_lroot; intros
    end ].

Section Jump.
Variables j j' : nat -> ctx -> prog (option ctx).
Hypothesis Hj : forall i x, ple (j i x) (j' i x).
Lemma jump_left_mono x : ple (jump_left j x) (jump_left j' x).
Proof. unfold jump_left. ple_go. Qed.
Lemma finish_smo_mono x : ple (finish_smo j x) (finish_smo j' x).
Proof. unfold finish_smo. cbv zeta. pose proof jump_left_mono as HL. ple_go. all: apply HL. Qed.
Lemma settle_mono x : ple (settle j x) (settle j' x).
Proof. unfold settle. pose proof finish_smo_mono as HS. apply ple_bind; [apply HS|]. intros [a|]; ple_go. Qed.
End Jump.

Lemma jump_to_mono f : forall f', f <= f' -> forall i x, ple (jump_to f i x) (jump_to f' i x).
Proof.
  induction f as [|f IH]; intros f' Hf i x; [apply ple_fuel|]. destruct f' as [|f']; [lia|]. cbn [jump_to]. apply ple_load. intros y.
  destruct (Bool.eqb _ _ && _); [|apply ple_refl]. apply settle_mono. apply IH. lia.
Qed.
Lemma load_node_mono f f' k p i : f <= f' -> ple (load_node f k p i) (load_node f' k p i).
Proof. intros Hf. unfold load_node. apply ple_load. intros y. apply settle_mono. apply jump_to_mono. auto. Qed.
Lemma chain_mono go f : forall f', f <= f' -> forall x, ple (sibling_chain go f x) (sibling_chain go f' x).
Proof.
  induction f as [|f IH]; intros f' Hf x; [apply ple_fuel|]. destruct f' as [|f']; [lia|]. cbn [sibling_chain].
  destruct (nhigh _) as [[h n]|]; [|apply ple_refl]. destruct (go _ _); [|apply ple_refl]. apply ple_bind; [apply jump_to_mono; lia|].
  intros [a|]; [apply IH; lia|apply ple_refl].
Qed.
Lemma nav_inner_mono go nav f f' x : f <= f' -> ple (nav_inner go nav f x) (nav_inner go nav f' x).
Proof. intros Hf. unfold nav_inner. apply ple_bind; [apply chain_mono; auto|]. intros [a|]; ple_go. Qed.
Lemma descend_mono go nav f : forall f', f <= f' -> forall x, ple (descend go nav f x) (descend go nav f' x).
Proof.
  induction f as [|f IH]; intros f' Hf x; [apply ple_fuel|]. destruct f' as [|f']; [lia|]. cbn [descend].
  apply ple_bind; [apply nav_inner_mono; lia|]. intros [[i y]|]; [|apply ple_refl].
  apply ple_bind; [apply load_node_mono; lia|]. intros [a|]; [|apply ple_refl]. destruct (is_leaf _); [apply ple_refl|apply IH; lia].
Qed.
Lemma attempt_mono go nav f f' k : f <= f' -> ple (attempt go nav f k) (attempt go nav f' k).
Proof.
  intros Hf. unfold attempt. apply ple_lroot. intros r. apply ple_bind; [apply load_node_mono; auto|]. intros [x|]; [|apply ple_refl].
  apply ple_bind; [apply descend_mono; auto|]. intros [y|]; [|apply ple_refl]. apply chain_mono; auto.
Qed.
Lemma traverse_mono go nav f : forall f', f <= f' -> forall k, ple (traverse_with go nav f k) (traverse_with go nav f' k).
Proof.
  induction f as [|f IH]; intros f' Hf k; [apply ple_fuel|]. destruct f' as [|f']; [lia|]. cbn [traverse_with].
  apply ple_bind; [apply attempt_mono; lia|]. intros [x|]; [apply ple_refl|apply IH; lia].
Qed.
Lemma insert_mono f : forall f', f <= f' -> forall k v, ple (insert f k v) (insert f' k v).
Proof.
  induction f as [|f IH]; intros f' Hf k v; [apply ple_fuel|]. destruct f' as [|f']; [lia|]. cbn [insert].
  apply ple_bind; [apply traverse_mono; lia|]. intros x. apply ple_bind; [apply ple_refl|]. intros c. apply ple_bind; [apply ple_refl|]. intros r.
  destruct (fst r); [apply ple_refl|]. apply ple_cas. intros [p|]; [apply ple_refl|apply IH; lia].
Qed.
Lemma delete_mono f : forall f', f <= f' -> forall k v, ple (delete f k v) (delete f' k v).
Proof.
  induction f as [|f IH]; intros f' Hf k v; [apply ple_fuel|]. destruct f' as [|f']; [lia|]. cbn [delete].
  apply ple_bind; [apply traverse_mono; lia|]. intros x. apply ple_bind; [apply ple_refl|]. intros c. apply ple_bind; [apply ple_refl|]. intros r.
  destruct (fst r); [|apply ple_refl]. apply ple_cas. intros [p|]; [apply ple_refl|apply IH; lia].
Qed.
Lemma cond_insert_mono f : forall f', f <= f' -> forall k v pred, ple (cond_insert f k v pred) (cond_insert f' k v pred).
Proof.
  induction f as [|f IH]; intros f' Hf k v pred; [apply ple_fuel|]. destruct f' as [|f']; [lia|]. cbn [cond_insert].
  apply ple_bind; [apply traverse_mono; lia|]. intros x. apply ple_bind; [apply ple_refl|]. intros c. apply ple_bind; [apply ple_refl|]. intros r.
  destruct r; try apply ple_refl. apply ple_cas. intros [p|]; [apply ple_refl|apply IH; lia].
Qed.
Lemma descend_ro_mono f : forall f', f <= f' -> forall x, ple (descend_ro f x) (descend_ro f' x).
Proof.
  induction f as [|f IH]; intros f' Hf x; [apply ple_fuel|]. destruct f' as [|f']; [lia|]. cbn [descend_ro].
  apply ple_bind; [apply nav_inner_mono; lia|]. intros [[i y]|]; [|apply ple_refl].
  apply ple_bind; [apply ple_refl|]. intros [a|]; [|apply ple_refl]. destruct (is_leaf _); [apply chain_mono; lia|apply IH; lia].
Qed.
Lemma get_value_mono f : forall f', f <= f' -> forall k, ple (get_value f k) (get_value f' k).
Proof.
  induction f as [|f IH]; intros f' Hf k; [apply ple_fuel|]. destruct f' as [|f']; [lia|]. cbn [get_value]. apply ple_lroot. intros r.
  apply ple_bind; [apply ple_refl|]. intros [x|]; [|apply IH; lia].
  apply ple_bind; [apply descend_ro_mono; lia|]. intros [y|]; [apply ple_refl|apply IH; lia].
Qed.
Lemma code_mono f f' o : f <= f' -> ple (code f o) (code f' o).
Proof.
  intros Hf. destruct o; simpl; try (unfold fetch, traverse, traverseBI); try apply ple_refl; (apply ple_bind; [|intros; apply ple_refl]).
  - apply insert_mono; auto.
  - apply delete_mono; auto.
  - apply cond_insert_mono; auto.
  - apply get_value_mono; auto.
  - apply traverse_mono; auto.
  - apply traverse_mono; auto.
Qed.
Lemma code_more f f' o m m' r : f <= f' -> prun m (code f o) = (m', Ok r) -> prun m (code f' o) = (m', Ok r).
Proof. intros Hf. apply ple_run, code_mono, Hf. Qed.

(** * A run of one thread is an execution *)
Lemma prun_pstep {A} m (p : prog A) : prun m p = prun (fst (pstep m p)) (snd (pstep m p)).
Proof.
  destruct p; simpl; auto.
  - destruct (get m i); auto.
  - destruct (tab m i) as [p'|]; auto. destruct (N.eqb p' old); auto.
  - destruct (tab m i) as [p'|]; auto. destruct (N.eqb p' old); auto.
  - destruct (root m =? old); auto.
Qed.
Lemma tset_eq {A} (f : nat -> A) t x : tset f t x t = x. Proof. unfold tset. rewrite Nat.eqb_refl. auto. Qed.
Lemma tset_ne {A} (f : nat -> A) t x u : u <> t -> tset f t x u = f u. Proof. unfold tset. intros E. apply Nat.eqb_neq in E. rewrite E. auto. Qed.
Lemma run_exec t o (p : prog resp) : forall tr ss s m' r, exec tr ss s -> running s t = Some (o, p) -> prun (sm s) p = (m', Ok r) ->
  exists tr' ss' s', exec tr' ss' s' /\ visible tr' = visible tr /\ sm s' = m' /\ running s' t = Some (o, Ret r) /\ forall u, u <> t -> running s' u = running s u.
Proof.
  assert (Hone : forall p tr ss s m' r, exec tr ss s -> running s t = Some (o, p) -> prun (sm s) p = (m', Ok r) -> (forall a, p <> Ret a) -> (forall e, p <> Err e) ->
    (forall tr ss s, exec tr ss s -> running s t = Some (o, snd (pstep (sm s) p)) -> True) ->
    exists s1, exec (EStep t :: tr) (s1 :: ss) s1 /\ sm s1 = fst (pstep (sm s) p) /\ running s1 t = Some (o, snd (pstep (sm s) p)) /\
      prun (sm s1) (snd (pstep (sm s) p)) = (m', Ok r) /\ forall u, u <> t -> running s1 u = running s u).
  { intros q tr ss s m' r He Hr Hp Hn1 Hn2 _. eexists. split; [eapply X_step; [exact He|eapply S_step; eauto]|]. simpl. rewrite tset_eq. split; auto. split; auto. split; [rewrite <- prun_pstep; auto|].
    intros u Hu. apply tset_ne; auto. }
  assert (Hgo : forall q, (forall m, exists x, snd (pstep m q) = x /\ (forall tr ss s m' r, exec tr ss s -> running s t = Some (o, x) -> prun (sm s) x = (m', Ok r) ->
      exists tr' ss' s', exec tr' ss' s' /\ visible tr' = visible tr /\ sm s' = m' /\ running s' t = Some (o, Ret r) /\ forall u, u <> t -> running s' u = running s u)) ->
      (forall a, q <> Ret a) -> (forall e, q <> Err e) -> forall tr ss s m' r, exec tr ss s -> running s t = Some (o, q) -> prun (sm s) q = (m', Ok r) ->
      exists tr' ss' s', exec tr' ss' s' /\ visible tr' = visible tr /\ sm s' = m' /\ running s' t = Some (o, Ret r) /\ forall u, u <> t -> running s' u = running s u).
  { intros q Hq Hn1 Hn2 tr ss s m' r He Hr Hp. destruct (Hone q tr ss s m' r He Hr Hp Hn1 Hn2 ltac:(auto)) as (s1 & He1 & Es1 & Hr1 & Hp1 & Ho1).
    destruct (Hq (sm s)) as (x & Ex & Hx). rewrite Ex in Hr1, Hp1. destruct (Hx _ _ _ m' r He1 Hr1 Hp1) as (tr' & ss' & s' & a1 & a2 & a3 & a4 & a5).
    exists tr', ss', s'. split; auto. split; [rewrite a2; reflexivity|]. split; auto. split; auto. intros u Hu. rewrite a5, Ho1; auto. }
  assert (Herr : forall e tr ss s m' r, exec tr ss s -> running s t = Some (o, Err e) -> prun (sm s) (Err e : prog resp) = (m', Ok r) ->
      exists tr' ss' s', exec tr' ss' s' /\ visible tr' = visible tr /\ sm s' = m' /\ running s' t = Some (o, Ret r) /\ forall u, u <> t -> running s' u = running s u) by (intros; discriminate).
  induction p as [a|e|i k IH|i old n k IH|i old n k IH|k IH|old n k IH|n k IH].
  - intros tr ss s m' r He Hr Hp. simpl in Hp. injection Hp as <- <-. exists tr, ss, s. auto.
  - apply Herr.
  - apply Hgo; try discriminate. intros m. simpl. destruct (get m i); eexists; split; try reflexivity; [apply IH|apply Herr].
  - apply Hgo; try discriminate. intros m. simpl. destruct (tab m i) as [p'|]; [destruct (N.eqb p' old)|]; eexists; split; try reflexivity; apply IH.
  - apply Hgo; try discriminate. intros m. simpl. destruct (tab m i) as [p'|]; [destruct (N.eqb p' old)|]; eexists; split; try reflexivity; apply IH.
  - apply Hgo; try discriminate. intros m. simpl. eexists; split; try reflexivity; apply IH.
  - apply Hgo; try discriminate. intros m. simpl. destruct (root m =? old); eexists; split; try reflexivity; apply IH.
  - apply Hgo; try discriminate. intros m. simpl. eexists; split; try reflexivity; apply IH.
Qed.

(** One whole operation by an otherwise idle index. *)
Lemma call_exec f o tr ss s m' r : exec tr ss s -> (forall t, running s t = None) -> prun (sm s) (code f o) = (m', Ok r) ->
  exists tr' ss' s', exec tr' ss' s' /\ visible tr' = VRet 0 o r :: VCall 0 o :: visible tr /\ sm s' = m' /\ forall t, running s' t = None.
Proof.
  intros He Hi Hp.
  pose proof (X_step _ _ _ _ _ He (S_call s 0 o f (Hi 0))) as He1. set (s1 := {| sm := sm s; running := tset (running s) 0 (Some (o, code f o)) |}) in *.
  destruct (run_exec 0 o (code f o) _ _ s1 m' r He1 (tset_eq _ _ _) Hp) as (tr2 & ss2 & s2 & He2 & Hv2 & Em & Hr & Ho).
  pose proof (X_step _ _ _ _ _ He2 (S_ret s2 0 o r Hr)) as He3. eexists _, _, _. split; [exact He3|]. simpl. split; [rewrite Hv2; reflexivity|]. split; auto.
  intros t. destruct (Nat.eq_dec t 0) as [->|Hne]; [apply tset_eq|]. rewrite tset_ne; auto. rewrite Ho; auto. simpl. rewrite tset_ne; auto.
Qed.
End SeqFuel.
