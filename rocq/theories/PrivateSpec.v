(** Pairs that only one thread inserts and deletes, as in the basic tests
    (test/basic_test.cpp 24-86: every thread works on keys of its own).  What
    is stated here mentions calls and responses only. *)
From Coq Require Import List Arith Bool.
From Verif Require Import Base TreeSpec BalanceSpec.
Import ListNotations.

Section PrivateSpec.
Context {P : Params}.

(** The pair an operation may add or remove. *)
Definition target (o : op) : option (K * V) :=
  match o with OpIns k v | OpDel k v | OpCond k v _ => Some (k, v) | _ => None end.
(** Only thread [t] has called an update of the pair. *)
Definition private (t : nat) (k : K) (v : V) (l : list vis) : Prop :=
  forall u o, In (VCall u o) l -> target o = Some (k, v) -> u = t.
(** Whether the pair is there according to the responses (latest first). *)
Fixpoint own (k : K) (v : V) (l : list vis) : bool :=
  match l with
  | [] => false
  | VRet _ (OpIns k' v') (RBool true) :: l | VRet _ (OpCond k' v' _) (RCond true _) :: l =>
      if only k v k' v' then true else own k v l
  | VRet _ (OpDel k' v') (RBool true) :: l => if only k v k' v' then false else own k v l
  | _ :: l => own k v l
  end.
(** The response to an update of the pair, when [b] says whether it is there. *)
Definition answer (o : op) (b : bool) (r : resp) : Prop :=
  match o, r with
  | OpIns _ _, RBool x => x = negb b
  | OpDel _ _, RBool x => x = b
  | OpCond _ _ _, RCond true sat => sat = false /\ b = false
  | OpCond _ _ _, RCond false false => b = true
  | OpCond _ _ _, RCond false true => True
  | _, _ => False
  end.
(** Only thread [t] has called updates with key [k]. *)
Definition keeper (t : nat) (k : K) (l : list vis) : Prop := forall v, private t k v l.
(** Neither Delete nor ConditionalInsert. *)
Definition no_removal (o : op) : Prop := match o with OpDel _ _ | OpCond _ _ _ => False | _ => True end.
End PrivateSpec.
