(** Running schedules from a given state, to exhibit executions that go on
    from it. *)
From Coq Require Import List Arith Bool.
From Verif Require Import Base Leaf LeafSpec Inner Tree TreeSpec TreeRun Iter IterSpec IterPlay MomentSpec Moment Stuck.
Import ListNotations.

Section MomentPlay.
Context {P : Params}.

Definition start (s : sys) : conf := {| c_tr := []; c_ss := [s]; c_s := s |}.
Definition play_on (s : sys) (l : list cmd) : conf := fold_left step_cmd l (start s).
Definition clater (s0 : sys) (c : conf) : Prop := later s0 (c_tr c) (c_ss c) (c_s c).
Lemma steps_later s0 n t : forall c, clater s0 c -> clater s0 (steps n t c).
Proof.
  induction n as [|n IH]; intros c H; simpl; auto.
  destruct (running (c_s c) t) as [[o p]|] eqn:E; auto.
  assert (G : (forall r, p <> Ret r) -> (forall e, p <> Err e) ->
    clater s0 (steps n t (push_event c (EStep t) {| sm := fst (pstep (sm (c_s c)) p);
                          running := tset (running (c_s c)) t (Some (o, snd (pstep (sm (c_s c)) p))) |}))).
  { intros A B. apply IH. unfold clater, push_event. simpl. eapply L_step; [exact H|]. apply S_step; auto. }
  destruct (pstep (sm (c_s c)) p) as [m' p']. destruct p; auto; apply G; discriminate.
Qed.
Lemma play_later s0 l : clater s0 (play_on s0 l).
Proof.
  unfold play_on. assert (H : clater s0 (start s0)) by constructor. revert H. generalize (start s0).
  induction l as [|x l IH]; intros c H; simpl; auto. apply IH. destruct x as [t o fuel|t n|t]; simpl.
  - destruct (running (c_s c) t) eqn:E; auto. eapply L_step; [exact H|]. apply S_call; auto.
  - apply steps_later; auto.
  - destruct (running (c_s c) t) as [[o p]|] eqn:E; auto. destruct p; auto.
    eapply L_step; [exact H|]. apply S_ret; auto.
Qed.
Lemma returns_calls s0 tr ss s t : later s0 tr ss s -> running s0 t = None -> calls_in tr (returns t tr).
Proof.
  intros Hl H0 o r H. apply in_rev in H. apply in_flat_map in H as ([u o'|u|u o' r'] & Hi & H); simpl in H; try tauto.
  destruct (u =? t) eqn:E; [|destruct H]. apply Nat.eqb_eq in E. subst u. destruct H as [H|[]]. injection H as -> ->. exists t. apply (idle_calls _ _ _ _ t Hl H0); auto.
Qed.
(** The operations under way or begun. *)
Definition ops_of (tr : list event) : list op := flat_map (fun e => match e with ECall _ o => [o] | _ => [] end) tr.
Lemma called_ops s0 tr o : (forall t, running s0 t = None) -> called s0 tr o -> In o (ops_of tr).
Proof.
  intros H [(t & p & E)|[t E]]; [rewrite H in E; discriminate|]. apply in_flat_map. exists (ECall t o). split; [exact E|left; auto].
Qed.
Lemma ops_called s0 tr o : In o (ops_of tr) -> called s0 tr o.
Proof.
  intros H. apply in_flat_map in H as ([t o'|t|t o' r] & Hi & H); simpl in H; try tauto. destruct H as [->|[]]. right. eauto.
Qed.
(** Looking for a pair along the leaf pages. *)
Fixpoint stored (n : nat) (m : mem) (i : nat) (k : K) (v : V) : bool :=
  match n with
  | O => false
  | S n' => match node_of m i with
            | Some (NLeaf c) => if inb c k then lmemb c k v else match lhigh c with Some (_, j) => stored n' m j k v | None => false end
            | _ => false
            end
  end.
Lemma stored_ok n m k v : forall i, reach m i -> stored n m i k v = true -> contents m k v.
Proof.
  induction n as [|n IH]; intros i Hi H; [discriminate|]. cbn [stored] in H. destruct (node_of m i) as [[c|c]|] eqn:E; try discriminate. destruct (inb c k) eqn:Ei.
  - exists i, c. split; [exact Hi|]. split; [exact E|]. split; [apply inb_ok, Ei|apply lmemb_ok, H].
  - destruct (lhigh c) as [[h j]|] eqn:Eh; [|discriminate]. eapply IH; [|exact H]. eapply R_next; eauto.
Qed.
End MomentPlay.
