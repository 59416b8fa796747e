(** Running given schedules of the index model, to exhibit executions. *)
From Coq Require Import List Arith Bool.
From Verif Require Import Base Leaf LeafSpec Inner Tree TreeSpec.
Import ListNotations.

Section TreeRun.
Context {P : Params}.

(** Commands of a schedule: a call, up to [n] steps of a thread, a return. *)
Inductive cmd := CCall (t : nat) (o : op) (fuel : nat) | CStep (t n : nat) | CRet (t : nat).
Record conf := { c_tr : list event; c_ss : list sys; c_s : sys }.
Definition cinit : conf := {| c_tr := []; c_ss := [sinit]; c_s := sinit |}.
Definition push_event (c : conf) (e : event) (s : sys) : conf :=
  {| c_tr := e :: c_tr c; c_ss := s :: c_ss c; c_s := s |}.
Fixpoint steps (n t : nat) (c : conf) : conf :=
  match n with
  | O => c
  | S n' =>
      match running (c_s c) t with
      | None | Some (_, Ret _) | Some (_, Err _) => c
      | Some (o, p) =>
          let '(m', p') := pstep (sm (c_s c)) p in
          steps n' t (push_event c (EStep t) {| sm := m'; running := tset (running (c_s c)) t (Some (o, p')) |})
      end
  end.
Definition step_cmd (c : conf) (x : cmd) : conf :=
  match x with
  | CCall t o fuel =>
      match running (c_s c) t with
      | None => push_event c (ECall t o) {| sm := sm (c_s c); running := tset (running (c_s c)) t (Some (o, code fuel o)) |}
      | Some _ => c
      end
  | CStep t n => steps n t c
  | CRet t =>
      match running (c_s c) t with
      | Some (o, Ret r) => push_event c (ERet t o r) {| sm := sm (c_s c); running := tset (running (c_s c)) t None |}
      | _ => c
      end
  end.
Definition play (l : list cmd) : conf := fold_left step_cmd l cinit.

Definition cexec (c : conf) : Prop := exec (c_tr c) (c_ss c) (c_s c).
Lemma steps_exec n t : forall c, cexec c -> cexec (steps n t c).
Proof.
  induction n as [|n IH]; intros c H; simpl; auto.
  destruct (running (c_s c) t) as [[o p]|] eqn:E; auto.
  assert (G : (forall r, p <> Ret r) -> (forall e, p <> Err e) ->
    cexec (steps n t (push_event c (EStep t) {| sm := fst (pstep (sm (c_s c)) p);
                          running := tset (running (c_s c)) t (Some (o, snd (pstep (sm (c_s c)) p))) |}))).
  { intros A B. apply IH. unfold cexec, push_event. simpl. eapply X_step; [exact H|]. apply S_step; auto. }
  destruct (pstep (sm (c_s c)) p) as [m' p']. destruct p; auto; apply G; discriminate.
Qed.
Lemma play_exec l : cexec (play l).
Proof.
  unfold play. assert (H : cexec cinit) by constructor. revert H. generalize cinit.
  induction l as [|x l IH]; intros c H; simpl; auto. apply IH. destruct x as [t o fuel|t n|t]; simpl.
  - destruct (running (c_s c) t) eqn:E; auto. eapply X_step; [exact H|]. apply S_call; auto.
  - apply steps_exec; auto.
  - destruct (running (c_s c) t) as [[o p]|] eqn:E; auto. destruct p; auto.
    eapply X_step; [exact H|]. apply S_ret; auto.
Qed.

(** A whole call of thread [t]. *)
Definition whole (t : nat) (o : op) : list cmd := [CCall t o 40; CStep t 400; CRet t].
(** What thread [t] is doing: [None] idle, [Some None] running, [Some (Some e)] failed. *)
Definition fate (c : conf) (t : nat) : option (option (resp + err)) :=
  match running (c_s c) t with
  | None => None
  | Some (_, Ret r) => Some (Some (inl r))
  | Some (_, Err e) => Some (Some (inr e))
  | Some _ => Some None
  end.
(** Thread [t] can take a step. *)
Definition can_step (c : conf) (t : nat) : bool :=
  match running (c_s c) t with None | Some (_, Ret _) | Some (_, Err _) => false | _ => true end.
Lemma can_step_ok c t : can_step c t = true -> sstep (c_s c) (EStep t) (c_s (steps 1 t c)).
Proof.
  unfold can_step. simpl. destruct (running (c_s c) t) as [[o p]|] eqn:E; [|discriminate]. intros H.
  assert (Hp : forall r, p <> Ret r) by (intros r ->; discriminate).
  assert (Hq : forall e, p <> Err e) by (intros e ->; discriminate).
  pose proof (S_step (c_s c) t o p E Hp Hq) as G. clear Hp Hq.
  destruct (pstep (sm (c_s c)) p) as [m' p'].
  destruct p; try discriminate; exact G.
Qed.
End TreeRun.
