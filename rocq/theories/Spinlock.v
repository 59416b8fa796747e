(** Model of the reader-writer lock that protects the B+-tree of the
    benchmarks: benchmark/spinlock/spinlock.cpp 22-115, spinlock.h, used by
    test/benchmark_btree_full.cpp 39-66 and 112-149.

    All accesses to the lock word are [memory_order_relaxed]; ordering comes
    from fences only, so the model is not sequentially consistent.  It follows
    the C++11 rules for one atomic variable:
    - the values written form a modification order ([hist], oldest first);
    - a relaxed load may return any value not older than the latest one the
      thread has read or written ([pos], coherence);
    - a successful compare-exchange reads the last value and appends.  (Every
      write after rwlock_init is a compare-exchange, so none can be put in the
      middle of the order.)
    - a weak compare-exchange may fail at any time and then reads like a load;
    - happens-before is tracked by the sets of accesses to the protected data
      that happen before: [cur] before the current point of the thread, [acq]
      before a write the thread has read relaxed (an acquire fence turns them
      into [cur]), [rel] what was in [cur] at the last release fence (published
      by later writes).  A compare-exchange continues the release sequence of
      the value it replaces, so its set includes the one of that value.
    Simplified: the compiler's freedom to see values "from the future" (loads
    moved after later writes) is left out; [int] is [Z], the range is a theorem. *)
From Coq Require Import List Arith ZArith Bool.
Import ListNotations.
Local Open Scope Z_scope.

(** One value of the lock word with the accesses that are released by it. *)
Record msg := { val : Z; view : list nat }.

(** Where a thread is.  A thread repeats: lock, accesses, unlock. *)
Inductive pc :=
| Idle
| RLoad                 (* read_lock: loop (32-34) *)
| RCas (e : Z)          (* [expected] is [e], e >= 0 (36-39) *)
| RFence                (* acquire fence (44) *)
| RIn                   (* between read_lock and read_unlock *)
| RULoad                (* read_unlock: loop (52-54) *)
| RUFence (e : Z)       (* e > 0, release fence (56-60) *)
| RUCas (e : Z)         (* (61) *)
| WLoad                 (* write_lock: loop (76-78) *)
| WCas (e : Z)          (* e = 0 (80-83) *)
| WFence                (* the fence of line 88 *)
| WIn                   (* between write_lock and write_unlock *)
| WULoad                (* write_unlock: loop (96-98) *)
| WUFence (e : Z)       (* e = -1, release fence (100-104) *)
| WUCas (e : Z)         (* (105) *)
| Failed.               (* assert(false) (66, 110) *)

Record thr := { at_ : pc; pos : nat; cur : list nat; acq : list nat; rel : list nat }.
(** [log]: the accesses to the protected data so far, oldest first; [true] is a
    write.  An access is named by its index. *)
Record st := { hist : list msg; ths : nat -> thr; log : list bool }.

(** spinlock.h 10-11. *)
Definition UNLOCK : Z := 0.
Definition WRITE_LOCK : Z := -1.

(** rwlock_init (22-25) before the threads are started. *)
Definition thr0 : thr := {| at_ := Idle; pos := 0; cur := []; acq := []; rel := [] |}.
Definition init : st := {| hist := [{| val := UNLOCK; view := [] |}]; ths := fun _ => thr0; log := [] |}.

Definition msg0 : msg := {| val := 0; view := [] |}.
Definition top (s : st) : msg := last (hist s) msg0.
Definition upd {A} (f : nat -> A) (t : nat) (x : A) : nat -> A := fun u => if Nat.eqb u t then x else f u.
Definition set_t (s : st) (t : nat) (x : thr) : st := {| hist := hist s; ths := upd (ths s) t x; log := log s |}.
Definition goto (x : thr) (p : pc) : thr := {| at_ := p; pos := pos x; cur := cur x; acq := acq x; rel := rel x |}.

(** atomic_load_explicit(&l, relaxed), the [j]-th value is read. *)
Definition load (s : st) (x : thr) (j : nat) : option (Z * thr) :=
  if (pos x <=? j)%nat then
    match nth_error (hist s) j with
    | Some m => Some (val m, {| at_ := at_ x; pos := j; cur := cur x; acq := view m ++ acq x; rel := rel x |})
    | None => None
    end
  else None.
(** A successful compare-exchange of [e] by [d]. *)
Definition cas (s : st) (t : nat) (e d : Z) (p : pc) : option st :=
  let m := top s in
  let x := ths s t in
  if val m =? e then
    Some {| hist := hist s ++ [{| val := d; view := rel x ++ view m |}];
            ths := upd (ths s) t {| at_ := p; pos := length (hist s); cur := cur x; acq := view m ++ acq x; rel := rel x |};
            log := log s |}
  else None.
(** atomic_thread_fence(memory_order_acquire), (…release). *)
Definition acquire (x : thr) (p : pc) : thr := {| at_ := p; pos := pos x; cur := acq x ++ cur x; acq := acq x; rel := rel x |}.
Definition release (x : thr) (p : pc) : thr := {| at_ := p; pos := pos x; cur := cur x; acq := acq x; rel := cur x |}.
(** An access to the protected data. *)
Definition access (s : st) (t : nat) (w : bool) : st :=
  let x := ths s t in
  {| hist := hist s; ths := upd (ths s) t {| at_ := at_ x; pos := pos x; cur := length (log s) :: cur x; acq := acq x; rel := rel x |};
     log := log s ++ [w] |}.

(** What a thread does next where there is a choice: [Rd], [Wr]: which lock an
    idle thread takes, or which access it makes; [Done]: it unlocks; [See j]:
    the value read, also by a compare-exchange that fails; [Swap]: the
    compare-exchange succeeds; [Go]: no choice. *)
Inductive choice := Rd | Wr | Done | See (j : nat) | Swap | Go.

(** One step of thread [t].  [fix_] selects an acquire fence in write_lock: the
    code has [fix_ = false], a release fence (88). *)
Definition step (fix_ : bool) (s : st) (t : nat) (c : choice) : option st :=
  let x := ths s t in
  let go p := Some (set_t s t (goto x p)) in
  let look j (k : Z -> pc) :=
    match load s x j with Some (v, x') => Some (set_t s t (goto x' (k v))) | None => None end in
  match at_ x, c with
  | Idle, Rd => go RLoad
  | Idle, Wr => go WLoad
  | RLoad, See j => look j (fun v => if 0 <=? v then RCas v else RLoad)
  | RCas e, Swap => cas s t e (1 + e) RFence
  | RCas _, See j => look j (fun _ => RLoad)
  | RFence, Go => Some (set_t s t (acquire x RIn))
  | RIn, Rd => Some (access s t false)
  | RIn, Done => go RULoad
  | RULoad, See j => look j (fun v => if 0 <? v then RUFence v else Failed)
  | RUFence e, Go => Some (set_t s t (release x (RUCas e)))
  | RUCas e, Swap => cas s t e (e - 1) Idle
  | RUCas _, See j => look j (fun _ => RULoad)
  | WLoad, See j => look j (fun v => if v =? UNLOCK then WCas v else WLoad)
  | WCas e, Swap => cas s t e WRITE_LOCK WFence
  | WCas _, See j => look j (fun _ => WLoad)
  | WFence, Go => Some (set_t s t (if fix_ then acquire x WIn else release x WIn))
  | WIn, Rd => Some (access s t false)
  | WIn, Wr => Some (access s t true)
  | WIn, Done => go WULoad
  | WULoad, See j => look j (fun v => if v =? WRITE_LOCK then WUFence v else Failed)
  | WUFence e, Go => Some (set_t s t (release x (WUCas e)))
  | WUCas e, Swap => cas s t e UNLOCK Idle
  | WUCas _, See j => look j (fun _ => WULoad)
  | _, _ => None
  end.

(** An execution of [n] threads; steps that are not possible are skipped. *)
Fixpoint run (n : nat) (fix_ : bool) (s : st) (l : list (nat * choice)) : st :=
  match l with
  | [] => s
  | (t, c) :: r =>
      match (if (t <? n)%nat then step fix_ s t c else None) with
      | Some s' => run n fix_ s' r
      | None => run n fix_ s r
      end
  end.

(** Who holds the lock: from the successful compare-exchange of the lock to the
    one of the unlock. *)
Definition reading (p : pc) : bool :=
  match p with RFence | RIn | RULoad | RUFence _ | RUCas _ => true | _ => false end.
Definition writing (p : pc) : bool :=
  match p with WFence | WIn | WULoad | WUFence _ | WUCas _ => true | _ => false end.
