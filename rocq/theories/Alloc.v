(** Model of the pre-allocation chunks for delta nodes (bwtree.h 1896-2064,
    class AllocationMeta) and of the placement of the per-thread slots
    (bwtree.h 372-400, PrepareThreadLocal). *)
From Coq Require Import List Arith Lia Bool ZArith.
Import ListNotations.
Local Open Scope Z_scope.

(** bwtree.h 1905-1915: [tail], [limit], [next].  Chunks are named by their
    position in the list of all chunks ever created, [next] holds such a
    name; [top] is ghost: the initial value of [tail].
    Simplification: addresses are unbounded integers; see
    [alloc_no_wrap] for why the real pointer does not wrap around. *)
Record chunk := { tail : Z; limit : Z; next : option nat; top : Z }.

(** Program counter of a thread inside Allocate(size) (2012-2034). *)
Inductive tpc :=
| TIdle
| TTry (c : nat) (size : Z)              (* TryAllocate entered (1932) *)
| TSub (c : nat) (size : Z)              (* guard at 1935 passed *)
| TGrow (c : nat) (size : Z)             (* GrowChunk entered (1963) *)
| TCas (c : nat) (size : Z) (n : nat).   (* new chunk [n] built (1971-1985) *)

Record st := {
  chunks : list chunk;
  pcs : nat -> tpc;
  freed : list nat;                       (* chunks released so far *)
  allocs : list (nat * Z * Z)             (* chunk, address, size handed out *)
}.

Inductive act :=
| AStart (t : nat) (size : Z)             (* thread [t] calls Allocate(size) *)
| AStep (t : nat) (addr : Z).             (* next step of [t]; [addr]: address
                                             operator new returns, if called *)

Definition upd (f : nat -> tpc) (t : nat) (p : tpc) : nat -> tpc :=
  fun u => if Nat.eqb u t then p else f u.

Fixpoint set_nth (l : list chunk) (i : nat) (x : chunk) : list chunk :=
  match l, i with
  | nil, _ => nil
  | _ :: r, O => x :: r
  | y :: r, S j => y :: set_nth r j x
  end.

Section Alloc.
(** bwtree.h 1901-1902: CHUNK_SIZE - sizeof(AllocationMeta). *)
Variable usable : Z.
(** bwtree.h 1984: sizeof(AllocationMeta). *)
Variable meta : Z.

Definition with_pc (s : st) (t : nat) (p : tpc) : st :=
  {| chunks := chunks s; pcs := upd (pcs s) t p; freed := freed s; allocs := allocs s |}.

Definition step (a : act) (s : st) : option st :=
  match a with
  | AStart t size =>
      match pcs s t with
      | TIdle => if 0 <=? size then Some (with_pc s t (TTry 0%nat size)) else None
      | _ => None
      end
  | AStep t addr =>
      match pcs s t with
      | TIdle => None
      | TTry c size =>                                   (* 1935-1937 *)
          match nth_error (chunks s) c with
          | Some ch => Some (with_pc s t (if tail ch <? limit ch then TGrow c size
                                          else TSub c size))
          | None => None
          end
      | TSub c size =>                                   (* 1941-1951 *)
          match nth_error (chunks s) c with
          | Some ch =>
              let nt := tail ch - size in
              let cs := set_nth (chunks s) c
                 {| tail := nt; limit := limit ch; next := next ch; top := top ch |} in
              if nt <? limit ch
              then Some {| chunks := cs; pcs := upd (pcs s) t (TGrow c size);
                           freed := freed s; allocs := allocs s |}
              else Some {| chunks := cs; pcs := upd (pcs s) t TIdle;
                           freed := freed s; allocs := (c, nt, size) :: allocs s |}
          | None => None
          end
      | TGrow c size =>                                  (* 1966-1985 *)
          match nth_error (chunks s) c with
          | Some ch =>
              match next ch with
              | Some m => Some (with_pc s t (TTry m size))
              | None =>
                  let n := length (chunks s) in
                  Some {| chunks := chunks s ++
                            [{| tail := addr + meta + usable; limit := addr + meta;
                                next := None; top := addr + meta + usable |}];
                          pcs := upd (pcs s) t (TCas c size n);
                          freed := freed s; allocs := allocs s |}
              end
          | None => None
          end
      | TCas c size n =>                                 (* 1989-2003 *)
          match nth_error (chunks s) c with
          | Some ch =>
              match next ch with
              | None =>
                  Some {| chunks := set_nth (chunks s) c
                            {| tail := tail ch; limit := limit ch;
                               next := Some n; top := top ch |};
                          pcs := upd (pcs s) t (TTry n size);
                          freed := freed s; allocs := allocs s |}
              | Some m =>
                  Some {| chunks := chunks s; pcs := upd (pcs s) t (TTry m size);
                          freed := n :: freed s; allocs := allocs s |}
              end
          | None => None
          end
      end
  end.

(** The header chunk is embedded in the base node (ElasticNode::Get,
    bwtree.h 2272-2315): some usable region [lim, tl). *)
Definition init (lim tl : Z) : st :=
  {| chunks := [{| tail := tl; limit := lim; next := None; top := tl |}];
     pcs := fun _ => TIdle; freed := []; allocs := [] |}.

Fixpoint run (s : st) (acts : list act) : st :=
  match acts with
  | [] => s
  | a :: r => match step a s with Some s' => run s' r | None => run s r end
  end.

(** Destroy() (2045-2063): walk the list from the header, releasing every
    chunk; the result lists the released chunks.  [fuel] = number of chunks. *)
Fixpoint destroy (fuel : nat) (cs : list chunk) (c : nat) : list nat :=
  match fuel with
  | O => []
  | S f => match nth_error cs c with
           | Some ch => c :: match next ch with
                             | Some m => destroy f cs m
                             | None => []
                             end
           | None => []
           end
  end.

(** Two allocations overlap. *)
Definition overlap (a1 s1 a2 s2 : Z) : Prop := a1 < a2 + s2 /\ a2 < a1 + s1.
End Alloc.

(** * Per-thread slots *)

(** bwtree.h 379-386: [malloc(64 * (n+1))] returned [p]; address of slot [i]. *)
Definition slot_base (p : Z) : Z := Z.land (p + 64 - 1) (Z.lnot 63).
Definition slot_addr (p : Z) (i : Z) : Z := slot_base p + i * 64.
