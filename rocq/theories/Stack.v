(** Model of src/atomic_stack.h (class AtomicStack): one producer, any number
    of consumers, all interleavings of their atomic steps. *)
From Coq Require Import List Arith Lia Bool.
Import ListNotations.

Section Stack.
Context {A : Type} (SIZE : nat).

(** atomic_stack.h 25-150 (VersionedPointer).  [VAt n ver] is the pointer
    [data + (n - 1)] with version [ver] (so [VAt 0 _] is [data - 1], the empty
    stack); [VNull] is the null pointer, whose version is irrelevant.
    Simplification: versions are unbounded (the code uses uint64_t). *)
Inductive vptr := VNull | VAt (n ver : nat).

Definition vptr_eqb (a b : vptr) : bool :=
  match a, b with
  | VNull, VNull => true
  | VAt n v, VAt m w => Nat.eqb n m && Nat.eqb v w
  | _, _ => false
  end.

(** Program counter of a consumer inside Pop() (atomic_stack.h 312-363). *)
Inductive ppc :=
| PIdle
| PHave (n ver : nat)            (* snapshot taken, non-empty: line 336 *)
| PRead (n ver : nat) (v : A).   (* element copied: line 340 *)

(** Program counter of the producer inside SingleThreadPush() or
    SingleThreadCommitPush() (atomic_stack.h 260-296): items still to be
    written, items already written (ghost, newest first), snapshot position. *)
Inductive upc :=
| UIdle
| UWriting (n ver : nat) (todo : list A) (done : list A) (batch : bool).

(** [cells] is [data[STACK_SIZE]] (178); [buffer] is the push buffer (197). *)
Record st := {
  cells : list A; top : vptr; pops : nat -> ppc; push : upc; buffer : list A;
  overflow : bool (* a write outside [data] happened *)
}.

(** Observable events of a run. *)
Inductive ev :=
| EPushBegin
| EPushEnd (items : list A)  (* in pushing order *)
| EPopOk (t : nat) (v : A)
| EPopNone (t : nat).

(** Scheduler choices. *)
Inductive act :=
| APop (t : nat)             (* consumer [t] executes its next step *)
| ABuffer (x : A)            (* SingleThreadBufferPush *)
| ABegin (x : A)             (* SingleThreadPush(x): PreparePush *)
| ABeginCommit               (* SingleThreadCommitPush: PreparePush *)
| APush.                     (* next step of the running push *)

Fixpoint set_nth (l : list A) (i : nat) (x : A) : list A :=
  match l, i with
  | nil, _ => nil
  | _ :: r, 0 => x :: r
  | y :: r, S j => y :: set_nth r j x
  end.

Definition upd (f : nat -> ppc) (t : nat) (p : ppc) : nat -> ppc :=
  fun u => if Nat.eqb u t then p else f u.

(** atomic_stack.h 319-334 and 350-351: taking a snapshot (the first load, or
    the reload done by a failed compare_exchange) and testing it. *)
Definition pop_snapshot (t : nat) (s : st) : st * list ev :=
  match top s with
  | VNull | VAt 0 _ =>
      ({| cells := cells s; top := top s; pops := upd (pops s) t PIdle;
          push := push s; buffer := buffer s; overflow := overflow s |},
       [EPopNone t])
  | VAt n ver =>
      ({| cells := cells s; top := top s; pops := upd (pops s) t (PHave n ver);
          push := push s; buffer := buffer s; overflow := overflow s |}, [])
  end.

Definition step (a : act) (s : st) : option (st * list ev) :=
  match a with
  | APop t =>
      match pops s t with
      | PIdle => Some (pop_snapshot t s)
      | PHave n ver =>                                   (* line 337 *)
          match nth_error (cells s) (n - 1) with
          | Some v =>
              Some ({| cells := cells s; top := top s;
                       pops := upd (pops s) t (PRead n ver v);
                       push := push s; buffer := buffer s;
                       overflow := overflow s |}, [])
          | None => None
          end
      | PRead n ver v =>                                 (* lines 340-358 *)
          if vptr_eqb (top s) (VAt n ver)
          then Some ({| cells := cells s; top := VAt (n - 1) (S ver);
                        pops := upd (pops s) t PIdle; push := push s;
                        buffer := buffer s; overflow := overflow s |},
                     [EPopOk t v])
          else Some (pop_snapshot t s)
      end
  | ABuffer x =>                                         (* lines 244-248 *)
      match push s with
      | UIdle =>
          Some ({| cells := cells s; top := top s; pops := pops s; push := UIdle;
                   buffer := buffer s ++ [x]; overflow := overflow s |}, [])
      | _ => None
      end
  | ABegin x =>                                          (* lines 209-219, 261 *)
      match push s, top s with
      | UIdle, VAt n ver =>
          Some ({| cells := cells s; top := VNull; pops := pops s;
                   push := UWriting n ver [x] [] false;
                   buffer := buffer s; overflow := overflow s |}, [EPushBegin])
      | _, _ => None
      end
  | ABeginCommit =>                                      (* lines 209-219, 284 *)
      match push s, top s with
      | UIdle, VAt n ver =>
          Some ({| cells := cells s; top := VNull; pops := pops s;
                   push := UWriting n ver (buffer s) [] true;
                   buffer := buffer s; overflow := overflow s |}, [EPushBegin])
      | _, _ => None
      end
  | APush =>
      match push s with
      | UIdle => None
      | UWriting n ver (x :: todo) done b =>             (* lines 265, 286-288 *)
          if Nat.ltb n (length (cells s))
          then Some ({| cells := set_nth (cells s) n x; top := top s; pops := pops s;
                        push := UWriting (S n) ver todo (x :: done) b;
                        buffer := buffer s; overflow := overflow s |}, [])
          else Some ({| cells := cells s; top := top s; pops := pops s;
                        push := UWriting (S n) ver todo (x :: done) b;
                        buffer := buffer s; overflow := true |}, [])
      | UWriting n ver [] done b =>                      (* lines 268-271, 290-293 *)
          Some ({| cells := cells s; top := VAt n (S ver); pops := pops s;
                   push := UIdle; buffer := if b then [] else buffer s;
                   overflow := overflow s |}, [EPushEnd (rev done)])
      end
  end.

(** atomic_stack.h 230-232 (constructor); the array content is arbitrary. *)
Definition init (garbage : list A) : st :=
  {| cells := garbage; top := VAt 0 0; pops := fun _ => PIdle; push := UIdle;
     buffer := []; overflow := false |}.

(** [run s acts]: final state and trace; a scheduler choice that is not
    enabled is skipped. *)
Fixpoint run (s : st) (acts : list act) : st * list ev :=
  match acts with
  | [] => (s, [])
  | a :: r =>
      match step a s with
      | Some (s', e) => let '(s'', tr) := run s' r in (s'', e ++ tr)
      | None => run s r
      end
  end.

(** * Specification: a sequential stack with a "push in progress" flag. *)
Definition spec := (list A * bool)%type.

Inductive spec_step : spec -> ev -> spec -> Prop :=
| SBegin l : spec_step (l, false) EPushBegin (l, true)
| SEnd l items : spec_step (l, true) (EPushEnd items) (rev items ++ l, false)
| SPop l v t : spec_step (v :: l, false) (EPopOk t v) (l, false)
| SNoneEmpty t b : spec_step ([], b) (EPopNone t) ([], b)
| SNoneBusy l t : spec_step (l, true) (EPopNone t) (l, true).

Inductive spec_run : spec -> list ev -> spec -> Prop :=
| SRnil s : spec_run s [] s
| SRcons s e s1 tr s2 : spec_step s e s1 -> spec_run s1 tr s2 -> spec_run s (e :: tr) s2.

(** Items pushed / popped in a trace. *)
Fixpoint pushed (tr : list ev) : list A :=
  match tr with
  | [] => []
  | EPushEnd items :: r => items ++ pushed r
  | _ :: r => pushed r
  end.
Fixpoint popped (tr : list ev) : list A :=
  match tr with
  | [] => []
  | EPopOk _ v :: r => v :: popped r
  | _ :: r => popped r
  end.

(** Number of items handed to the stack by a schedule. *)
Fixpoint offered (acts : list act) : nat :=
  match acts with
  | [] => 0
  | ABuffer _ :: r => S (offered r)
  | ABegin _ :: r => S (offered r)
  | _ :: r => offered r
  end.
End Stack.
