(** Which nodes are released while threads use them (C54): the index (Tree.v)
    together with the epoch manager (Epoch.v). *)
From Coq Require Import NArith List Arith Bool.
From Verif Require Import Base Leaf Inner InnerSpec Tree TreeSpec MarkerSpec GarbageSpec LinkSpec FateSpec.
From Verif Require Epoch.
Import ListNotations.

Section ReleaseSpec.
Context {P : Params}.
Variable N : nat.             (* thread_num (325) *)
Variable th : nat.            (* GC_NODE_COUNT_THREADHOLD (201) *)

(** [w_held t]: the nodes the current operation of thread [t] has got hold of. *)
Record wst := { w_s : sys; w_f : flog; w_e : Epoch.st; w_held : nat -> list BinNums.N }.
Definition winit : wst :=
  {| w_s := sinit; w_f := {| handed := []; goes := []; pend := [] |}; w_e := Epoch.init; w_held := fun _ => [] |}.
(** The [n]-th call of AddGarbageNode was given [g]. *)
Definition handed_at (F : flog) (n : nat) (g : BinNums.N) : Prop := nth_error (rev (handed F)) n = Some g.
(** PerformGC (9429-9464) has released the [n]-th garbage node, and with it all
    that FreeEpochDeltaChain (8196-8361) visits. *)
Definition released (w : wst) (x : BinNums.N) : Prop :=
  exists n g, In n (Epoch.freed (w_e w)) /\ handed_at (w_f w) n g /\ under (w_f w) g x.
(** The nodes a step gets hold of: the entry that is loaded (GetNode, 3198-3203);
    what is below it if it is an InnerAbortNode (5886-5897); if the right
    neighbour of the page has a RemoveNode as its entry, what is below that
    (merge_right_branch, 5904-5906); and nodes the thread installs.
    Simplification: the thread has had the address merge_right_branch since it
    loaded the RemoveNode, but reads the node itself only in PostLeafMergeNode
    or PostInnerMergeNode (5936-5950), which it calls when JumpToLeftSibling has
    loaded the left neighbour and found the removed page to be next to it. *)
Definition below_marker (m : mem) (q : BinNums.N) : list BinNums.N :=
  match heap m q with Some (NInner (IAbort p _)) => [p] | _ => [] end.
Definition next_removed (m : mem) (F : flog) (q : BinNums.N) : list BinNums.N :=
  match heap m q with
  | Some n => if is_remove n then [] else match nhigh n with Some (_, d) => flat_map (below_remove F) (entry m d) | None => [] end
  | None => []
  end.
Definition takes (m : mem) (F : flog) (p : prog resp) : list BinNums.N :=
  match p with
  | PLoad i _ => flat_map (fun q => q :: below_marker m q ++ next_removed m F q) (entry m i)
  | Cas i o _ _ => if swaps m i o then [nptr m] else []
  | NewNode _ _ => [nptr m]
  | _ => []
  end.
Definition thread_of (e : event) : nat := match e with ECall t _ | EStep t | ERet t _ _ => t end.
Definition hold (w : wst) (e : event) : nat -> list BinNums.N :=
  match e with
  | EStep t => match running (w_s w) t with
               | Some (_, p) => Epoch.upd (w_held w) t (takes (sm (w_s w)) (w_f w) p ++ w_held w t)
               | None => w_held w
               end
  | _ => w_held w
  end.
(** Steps of the epoch manager alone.  An operation leaves its epoch
    (LeaveEpoch, 8167) when it no longer works on the tree. *)
Definition alone (w : wst) (a : Epoch.act) : Prop :=
  match a with
  | Epoch.AUnlink _ _ => False
  | Epoch.ALeave t => running (w_s w) t = None
  | _ => True
  end.
Definition drop (w : wst) (a : Epoch.act) : nat -> list BinNums.N :=
  match a with Epoch.ALeave t => Epoch.upd (w_held w) t [] | _ => w_held w end.
(** UpdateThreadLocal (2767-2782): ClearThreadLocalGarbage, then new
    GCMetaData.  Simplification: the number of threads is not changed; [N] is the
    largest number ever asked for, and a thread that does not exist for a while
    is one that is unregistered (Epoch.AUnregister) and runs no operation, so
    that SummarizeGCEpoch (544-568) does not count it. *)
Definition renew (s : Epoch.st) : Epoch.st :=
  let s' := Epoch.shutdown N s in
  {| Epoch.ep := Epoch.ep s'; Epoch.slots := fun _ => Epoch.slot0; Epoch.cells := Epoch.cells s'; Epoch.pcs := Epoch.pcs s';
     Epoch.opno := Epoch.opno s'; Epoch.unl := Epoch.unl s'; Epoch.freed := Epoch.freed s'; Epoch.bad := Epoch.bad s' |}.
(** What the epoch manager is told when a step of thread [t] changes the log
    from [F] to [F'].  Simplification as in FateSpec: a node is handed over in
    the step that unlinks it. *)
Definition told (t : nat) (F F' : flog) (e e' : Epoch.st) : Prop :=
  handed F' = handed F /\ e' = e \/
  exists g, handed F' = g :: handed F /\ Epoch.step N th (Epoch.AUnlink t (length (handed F))) e = Some e'.
(** One step of the index with its epoch manager.  Calls on the tree are made
    between JoinEpoch and LeaveEpoch, and a thread goes on with the tree when
    AddGarbageNode has returned. *)
Inductive wstep : wst -> wst -> Prop :=
| ws_epoch w a e' : alone w a -> Epoch.step N th a (w_e w) = Some e' ->
    wstep w {| w_s := w_s w; w_f := w_f w; w_e := e'; w_held := drop w a |}
| ws_tree w e s' e' : Epoch.pcs (w_e w) (thread_of e) = Epoch.Running -> sstep (w_s w) e s' ->
    told (thread_of e) (w_f w) (fate (w_s w) e (w_f w)) (w_e w) e' ->
    wstep w {| w_s := s'; w_f := fate (w_s w) e (w_f w); w_e := e'; w_held := hold w e |}
| ws_renew w : (forall t, Epoch.pcs (w_e w) t = Epoch.Idle) ->
    wstep w {| w_s := w_s w; w_f := w_f w; w_e := renew (w_e w); w_held := w_held w |}.
(** Executions all of whose states satisfy [R]. *)
Inductive wrun (R : sys -> Prop) : wst -> Prop :=
| wr_init : wrun R winit
| wr_step w w' : wrun R w -> wstep w w' -> R (w_s w') -> wrun R w'.

(** No page routes the search key of a running operation to a page that has
    been taken out of its parent.  [routes_to o c]: where NavigateInnerNode (3534-3729) or
    NavigateInnerNodeBI (3736-3862) goes from [c]. *)
Definition routes_to (o : op) (c : ichain) : res nat :=
  match o with
  | OpIns k _ | OpDel k _ | OpCond k _ _ | OpGet k | OpPage k => inavigate k c
  | OpPageBI k => inavBI k c
  | OpFirst => Er EAssert
  end.
(** The operation does not go right from a page with this high key. *)
Definition stays (o : op) (high : option (K * nat)) : Prop :=
  match o, high with
  | (OpIns k _ | OpDel k _ | OpCond k _ _ | OpGet k | OpPage k), Some (h, _) => klt k h = true
  | OpPageBI k, Some (h, _) => klt h k = false
  | _, _ => True
  end.
Definition unmark (c : ichain) : ichain := match c with IAbort _ c' => c' | _ => c end.
Definition routed (s : sys) : Prop :=
  forall t o p i c j, running s t = Some (o, p) -> node_of (sm s) i = Some (NInner c) -> is_remove (NInner c) = false ->
    stays o (ihigh c) -> routes_to o (unmark c) = Ok j -> ~ cut (sm s) j.
End ReleaseSpec.
