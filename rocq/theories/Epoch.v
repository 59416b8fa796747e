(** Model of the default (non USE_OLD_EPOCH) garbage collection: bwtree.h
    193-576 (class BwTreeBase), 8148-8180 (EpochManager), 9393-9464
    (AddGarbageNode, PerformGC), 2739-2760 (ClearThreadLocalGarbage). *)
From Coq Require Import List Arith Lia Bool.
Import ListNotations.

(** A 64 bit epoch value; [None] is the value 0xFFFFFFFFFFFFFFFF stored by
    UnregisterThread (518-520).  Simplification: other values are unbounded. *)
Definition eval := option nat.
Definition emin (a b : eval) : eval :=
  match a, b with
  | None, x => x
  | x, None => x
  | Some x, Some y => Some (Nat.min x y)
  end.
(** [e < m] as in line 9441. *)
Definition elt (e : nat) (m : eval) : bool :=
  match m with None => true | Some x => Nat.ltb e x end.

(** GarbageNode (210-233).  Addresses are positions in the list of all garbage
    nodes ever created; [alive] is cleared by [delete]. *)
Record cell := { de : nat; gnode : nat; nx : option nat; alive : bool }.

(** GCMetaData (238-270); [last = None] is the address of the header. *)
Record slot := { lae : eval; hdr : option nat; last : option nat; cnt : nat }.

(** GCMetaData() (264-269). *)
Definition slot0 : slot := {| lae := Some 0; hdr := None; last := None; cnt := 0 |}.

(** Program counter of a worker thread. *)
Inductive tpc :=
| Idle
| JoinRead (e : nat)          (* JoinEpoch: epoch read, slot not yet written (508) *)
| Running                     (* inside an operation *)
| Unlinking (x : nat)         (* page [x] unlinked, AddGarbageNode(x) called *)
| GCSum (i : nat) (m : eval)  (* SummarizeGCEpoch: slots < i read (559-575) *)
| GCFree (m : eval)           (* PerformGC: loop head (9440) *)
| LeaveRead (e : nat).        (* LeaveEpoch: epoch read, slot not yet written *)

Definition running (p : tpc) : bool := match p with Idle => false | _ => true end.

Record st := {
  ep : nat;                          (* global epoch (329) *)
  slots : nat -> slot;
  cells : list cell;
  pcs : nat -> tpc;
  opno : nat -> nat;                 (* ghost: number of the current operation *)
  unl : list (nat * list (nat * nat)); (* ghost: unlinked pages and the operations
                                          that were running when unlinked *)
  freed : list nat;                  (* released pages, newest first *)
  bad : bool                         (* a bad access or an assertion failure *)
}.

Definition upd {A} (f : nat -> A) (t : nat) (p : A) : nat -> A :=
  fun u => if Nat.eqb u t then p else f u.

Fixpoint set_nth {A} (l : list A) (i : nat) (x : A) : list A :=
  match l, i with
  | nil, _ => nil
  | _ :: r, O => x :: r
  | y :: r, S j => y :: set_nth r j x
  end.

Inductive act :=
| ATick                       (* IncreaseEpoch (492), by one thread only *)
| AInvoke (t : nat)           (* an operation starts: JoinEpoch (8161) *)
| AUnlink (t x : nat)         (* the operation unlinks page [x] *)
| ALeave (t : nat)            (* the operation is about to return: LeaveEpoch (8167) *)
| AUnregister (t : nat)       (* UnregisterThread (518-520) of a thread that is not in an operation *)
| AStep (t : nat).            (* next step of [t] *)

Section Epoch.
Variable N : nat.             (* thread_num (325) *)
Variable threshold : nat.     (* GC_NODE_COUNT_THREADHOLD (201) *)

Definition set_pc (s : st) (t : nat) (p : tpc) : st :=
  {| ep := ep s; slots := slots s; cells := cells s; pcs := upd (pcs s) t p;
     opno := opno s; unl := unl s; freed := freed s; bad := bad s |}.
Definition set_slot (s : st) (t : nat) (sl : slot) : st :=
  {| ep := ep s; slots := upd (slots s) t sl; cells := cells s; pcs := pcs s;
     opno := opno s; unl := unl s; freed := freed s; bad := bad s |}.
Definition set_cells (s : st) (cs : list cell) : st :=
  {| ep := ep s; slots := slots s; cells := cs; pcs := pcs s;
     opno := opno s; unl := unl s; freed := freed s; bad := bad s |}.
Definition set_bad (s : st) : st :=
  {| ep := ep s; slots := slots s; cells := cells s; pcs := pcs s;
     opno := opno s; unl := unl s; freed := freed s; bad := true |}.

(** The operation of thread [t] is running and known to the others.  After
    UnregisterThread this is so when JoinEpoch has written the slot; until then
    the operation has not read anything. *)
Definition known (s : st) (t : nat) : bool :=
  match pcs s t, lae (slots s t) with Idle, _ => false | JoinRead _, None => false | _, _ => true end.
(** Operations running at this moment. *)
Definition running_ops (s : st) : list (nat * nat) :=
  map (fun t => (t, opno s t)) (filter (known s) (seq 0 N)).

(** Some operation that was running when [x] was unlinked still runs. *)
Definition still_used (s : st) (x : nat) : bool :=
  existsb (fun '(y, ops) => Nat.eqb x y &&
     existsb (fun '(t, k) => running (pcs s t) && Nat.eqb (opno s t) k) ops) (unl s).

(** FreeEpochDeltaChain (9449): releasing a page that is still in use, or a
    second time, is recorded as an error. *)
Definition free_page (s : st) (x : nat) : st :=
  {| ep := ep s; slots := slots s; cells := cells s; pcs := pcs s;
     opno := opno s; unl := unl s; freed := x :: freed s;
     bad := bad s || still_used s x || existsb (Nat.eqb x) (freed s) |}.

(** AddGarbageNode (9393-9416) by thread [t]. *)
Definition add_garbage (s : st) (t x : nat) : st :=
  let a := length (cells s) in
  let sl := slots s t in
  let new := {| de := ep s; gnode := x; nx := None; alive := true |} in
  let sl' := {| lae := lae sl; hdr := hdr sl; last := Some a; cnt := S (cnt sl) |} in
  let s' :=
    match last sl with
    | None =>
        set_slot (set_cells s (cells s ++ [new])) t
          {| lae := lae sl; hdr := Some a; last := Some a; cnt := S (cnt sl) |}
    | Some p =>
        match nth_error (cells s) p with
        | Some c =>
            if alive c
            then set_slot (set_cells s
                   (set_nth (cells s) p
                      {| de := de c; gnode := gnode c; nx := Some a; alive := true |} ++ [new])) t sl'
            else set_bad (set_slot (set_cells s (cells s ++ [new])) t sl')
        | None => set_bad (set_slot (set_cells s (cells s ++ [new])) t sl')
        end
    end in
  set_pc s' t (if Nat.ltb threshold (S (cnt sl)) then GCSum 0 None else Running).

(** One iteration of the loop of PerformGC (9440-9461) on the garbage list of
    slot [o]; [None] means that the loop has ended. *)
Definition gc_iter (s : st) (o : nat) (m : eval) : st * bool :=
  let sl := slots s o in
  match hdr sl with
  | None => (set_slot s o {| lae := lae sl; hdr := None; last := None; cnt := cnt sl |}, false)
  | Some p =>
      match nth_error (cells s) p with
      | Some c =>
          if negb (alive c) then (set_bad s, false)
          else if elt (de c) m
          then
            let s1 := set_slot s o {| lae := lae sl; hdr := nx c; last := last sl;
                                      cnt := cnt sl - 1 |} in
            let s2 := free_page s1 (gnode c) in
            let s3 := set_cells s2 (set_nth (cells s2) p
                        {| de := de c; gnode := gnode c; nx := nx c; alive := false |}) in
            (if Nat.eqb (cnt sl) 0 then set_bad s3 else s3, true)
          else (s, false)
      | None => (set_bad s, false)
      end
  end.

(** UnregisterThread (518-520). *)
Definition unregister (s : st) (t : nat) : st :=
  let sl := slots s t in
  set_slot s t {| lae := None; hdr := hdr sl; last := last sl; cnt := cnt sl |}.

(** One step; [None] if it is not possible. *)
Definition step (a : act) (s : st) : option st :=
  match a with
  | ATick =>
      Some {| ep := S (ep s); slots := slots s; cells := cells s; pcs := pcs s;
              opno := opno s; unl := unl s; freed := freed s; bad := bad s |}
  | AInvoke t =>
      if Nat.ltb t N then
      match pcs s t with
      | Idle =>
          Some {| ep := ep s; slots := slots s; cells := cells s;
                  pcs := upd (pcs s) t (JoinRead (ep s));
                  opno := upd (opno s) t (S (opno s t));
                  unl := unl s; freed := freed s; bad := bad s |}
      | _ => None
      end else None
  | AUnlink t x =>
      match pcs s t with
      | Running =>
          if existsb (fun '(y, _) => Nat.eqb x y) (unl s) then None
          else Some {| ep := ep s; slots := slots s; cells := cells s;
                       pcs := upd (pcs s) t (Unlinking x); opno := opno s;
                       unl := (x, running_ops s) :: unl s; freed := freed s; bad := bad s |}
      | _ => None
      end
  | ALeave t =>
      match pcs s t with
      | Running => Some (set_pc s t (LeaveRead (ep s)))
      | _ => None
      end
  | AUnregister t =>
      if Nat.ltb t N then
      match pcs s t with
      | Idle => Some (unregister s t)
      | _ => None
      end else None
  | AStep t =>
      let sl := slots s t in
      match pcs s t with
      | Idle | Running => None
      | JoinRead e =>
          Some (set_pc (set_slot s t {| lae := Some e; hdr := hdr sl; last := last sl;
                                        cnt := cnt sl |}) t Running)
      | LeaveRead e =>
          Some (set_pc (set_slot s t {| lae := Some e; hdr := hdr sl; last := last sl;
                                        cnt := cnt sl |}) t Idle)
      | Unlinking x => Some (add_garbage s t x)
      | GCSum i m =>
          if Nat.ltb i N
          then Some (set_pc s t (GCSum (S i) (emin m (lae (slots s i)))))
          else Some (set_pc s t (GCFree m))
      | GCFree m =>
          let '(s', more) := gc_iter s t m in
          Some (if more then s' else set_pc s' t Running)
      end
  end.

(** BwTreeBase() (414-424). *)
Definition init : st :=
  {| ep := 0; slots := fun _ => slot0; cells := []; pcs := fun _ => Idle;
     opno := fun _ => 0; unl := []; freed := []; bad := false |}.

Fixpoint run (s : st) (acts : list act) : st :=
  match acts with
  | [] => s
  | a :: r => match step a s with Some s' => run s' r | None => run s r end
  end.

(** PerformGC(o) run to completion with bound [m] (9429-9464). *)
Fixpoint gc_loop (fuel : nat) (s : st) (o : nat) (m : eval) : st :=
  match fuel with
  | 0 => set_bad s
  | S f => let '(s', more) := gc_iter s o m in if more then gc_loop f s' o m else s'
  end.

(** SummarizeGCEpoch without interference. *)
Definition summarize (s : st) : eval :=
  fold_left (fun m i => emin m (lae (slots s i))) (seq 0 N) None.

(** ClearThreadLocalGarbage (2739-2760), single threaded: unregister all
    slots, collect all slots, assert that each count is zero. *)
Definition clear_one (s : st) (t : nat) : st :=
  let s' := gc_loop (S (cnt (slots s t))) s t (summarize s) in
  if Nat.eqb (cnt (slots s' t)) 0 then s' else set_bad s'.
Definition shutdown (s : st) : st :=
  fold_left clear_one (seq 0 N) (fold_left unregister (seq 0 N) s).
End Epoch.
