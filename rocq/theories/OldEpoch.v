(** Model of the reclamation scheme selected by USE_OLD_EPOCH (bwtree.h 91):
    EpochManager, bwtree.h 7792-8149 and 8364-8490.

    One cleaner thread runs PerformGarbageCollection, [N] worker threads run
    operations.  Every access to a shared variable is one step; so are
    [current_epoch_p] and the CAS of the garbage lists. *)
From Coq Require Import List Arith ZArith Bool.
Import ListNotations.
Local Open Scope Z_scope.

(** EpochNode (7817-7830): [cnt] is active_thread_count, [gl] the pages of the
    garbage list, latest first, [dead] is set by [delete].  Epochs are numbered
    in the order of their creation, which is the order of the list. *)
Record enode := { cnt : Z; gl : list nat; dead : bool }.
Definition enode0 : enode := {| cnt := 0; gl := []; dead := false |}.

(** A worker thread. *)
Inductive wpc :=
| Out                          (* no operation *)
| Join (e : nat)               (* JoinEpoch: current_epoch_p read (8090) *)
| Retreat (e : nat)               (* the count was negative (8096) *)
| Again                        (* try_join_again (8086) *)
| Inside (e : nat)             (* in an operation, JoinEpoch has returned [e] *)
| Unlinked (e x : nat)         (* page [x] unlinked, AddGarbageNode(x) called *)
| Adding (e x c : nat)         (* current_epoch_p read (8048) *)
| Pushing (e x c n : nat).     (* garbage list read, it had [n] elements (8054) *)
(** The cleaner thread. *)
Inductive gpc :=
| GOut
| GTop                         (* loop of ClearEpoch (8377) *)
| GSub                         (* the count was 0 (8387-8397) *)
| GBack                        (* the count was positive after all (8403-8412) *)
| GLoad                        (* the epoch is closed (8414-8424) *)
| GWalk (l : list nat)         (* pages to be released (8424-8442) *)
| GNew.                        (* CreateNewEpoch (8005-8027) *)

Record st := {
  es : nat -> enode;
  cur : nat;                   (* current_epoch_p *)
  hd : nat;                    (* head_epoch_p; next_p is the next number *)
  wp : nat -> wpc;
  gp : gpc;
  opno : nat -> nat;                   (* ghost: number of the current operation *)
  unl : list (nat * list (nat * nat)); (* ghost: unlinked pages, and the operations
                                          that were inside when it was unlinked *)
  freed : list nat;            (* released pages, latest first *)
  late : bool;                 (* JoinEpoch accessed a deleted epoch *)
  bad : bool                   (* another access to a deleted epoch, or a failed assertion *)
}.
Definition init : st :=
  {| es := fun _ => enode0; cur := 0; hd := 0; wp := fun _ => Out; gp := GOut; opno := fun _ => 0%nat;
     unl := []; freed := []; late := false; bad := false |}.

Definition upd {A} (f : nat -> A) (t : nat) (p : A) : nat -> A := fun u => if Nat.eqb u t then p else f u.
Definition set_w (s : st) (t : nat) (p : wpc) : st :=
  {| es := es s; cur := cur s; hd := hd s; wp := upd (wp s) t p; gp := gp s; opno := opno s;
     unl := unl s; freed := freed s; late := late s; bad := bad s |}.
Definition set_g (s : st) (p : gpc) : st :=
  {| es := es s; cur := cur s; hd := hd s; wp := wp s; gp := p; opno := opno s;
     unl := unl s; freed := freed s; late := late s; bad := bad s |}.
Definition set_e (s : st) (e : nat) (n : enode) : st :=
  {| es := upd (es s) e n; cur := cur s; hd := hd s; wp := wp s; gp := gp s; opno := opno s;
     unl := unl s; freed := freed s; late := late s; bad := bad s |}.
Definition add (s : st) (e : nat) (d : Z) : st :=
  set_e s e {| cnt := cnt (es s e) + d; gl := gl (es s e); dead := dead (es s e) |}.
(** A deleted epoch is accessed; the model goes on with its old contents. *)
Definition mark_late (s : st) (e : nat) : st :=
  {| es := es s; cur := cur s; hd := hd s; wp := wp s; gp := gp s; opno := opno s;
     unl := unl s; freed := freed s; late := late s || dead (es s e); bad := bad s |}.
Definition mark_bad (s : st) (b : bool) : st :=
  {| es := es s; cur := cur s; hd := hd s; wp := wp s; gp := gp s; opno := opno s;
     unl := unl s; freed := freed s; late := late s; bad := bad s || b |}.

(** The epoch of an operation that has passed JoinEpoch. *)
Definition inside (p : wpc) : option nat :=
  match p with
  | Inside e | Unlinked e _ | Adding e _ _ | Pushing e _ _ _ => Some e
  | _ => None
  end.
Definition is_in (p : wpc) : bool := match inside p with Some _ => true | None => false end.

Inductive act :=
| AInvoke (t : nat)            (* an operation starts: JoinEpoch (8085-8116) *)
| AUnlink (t x : nat)          (* it unlinks page [x] *)
| ALeave (t : nat)             (* LeaveEpoch (8124-8134) *)
| AStep (t : nat)              (* next step of worker [t] *)
| AClean                       (* the cleaner calls PerformGarbageCollection (8143-8148) *)
| AGStep.                      (* next step of the cleaner *)

Section OldEpoch.
Variable N : nat.              (* number of workers *)
Variable M : Z.                (* MAX_THREAD_COUNT (146) *)

Definition inside_ops (s : st) : list (nat * nat) :=
  map (fun t => (t, opno s t)) (filter (fun t => is_in (wp s t)) (seq 0 N)).
(** FreeEpochDeltaChain (8427). *)
Definition free_page (s : st) (x : nat) : st :=
  {| es := es s; cur := cur s; hd := hd s; wp := wp s; gp := gp s; opno := opno s;
     unl := unl s; freed := x :: freed s; late := late s; bad := bad s |}.

Definition step (a : act) (s : st) : option st :=
  match a with
  | AInvoke t =>
      if Nat.ltb t N then
        match wp s t with
        | Out => Some {| es := es s; cur := cur s; hd := hd s; wp := upd (wp s) t (Join (cur s)); gp := gp s;
                         opno := upd (opno s) t (S (opno s t)); unl := unl s; freed := freed s; late := late s; bad := bad s |}
        | _ => None
        end
      else None
  | AUnlink t x =>
      match wp s t with
      | Inside e =>
          if existsb (fun y => Nat.eqb x (fst y)) (unl s) then None
          else Some {| es := es s; cur := cur s; hd := hd s; wp := upd (wp s) t (Unlinked e x); gp := gp s; opno := opno s;
                       unl := (x, inside_ops s) :: unl s; freed := freed s; late := late s; bad := bad s |}
      | _ => None
      end
  | ALeave t =>
      match wp s t with
      | Inside e => Some (set_w (mark_bad (add s e (-1)) (dead (es s e))) t Out)
      | _ => None
      end
  | AStep t =>
      match wp s t with
      | Out | Inside _ => None
      | Join e => Some (set_w (mark_late (add s e 1) e) t (if cnt (es s e) <? 0 then Retreat e else Inside e))
      | Retreat e => Some (set_w (mark_late (add s e (-1)) e) t Again)
      | Again => Some (set_w s t (Join (cur s)))
      | Unlinked e x => Some (set_w s t (Adding e x (cur s)))
      | Adding e x c => Some (set_w (mark_bad s (dead (es s c))) t (Pushing e x c (length (gl (es s c)))))
      | Pushing e x c n =>
          (* the list only grows, so its head is the one read iff its length is *)
          let g := gl (es s c) in
          let s' := mark_bad s (dead (es s c)) in
          if Nat.eqb n (length g)
          then Some (set_w (set_e s' c {| cnt := cnt (es s c); gl := x :: g; dead := dead (es s c) |}) t (Inside e))
          else Some (set_w s' t (Pushing e x c (length g)))
      end
  | AClean => match gp s with GOut => Some (set_g s GTop) | _ => None end
  | AGStep =>
      let h := hd s in
      match gp s with
      | GOut => None
      | GTop =>
          if Nat.eqb h (cur s) then Some (set_g s GNew)
          else if cnt (es s h) <? 0 then Some (set_g (mark_bad s true) GOut)
          else if cnt (es s h) =? 0 then Some (set_g s GSub)
          else Some (set_g s GNew)
      | GSub => Some (set_g (add s h (- M)) (if 0 <? cnt (es s h) then GBack else GLoad))
      | GBack => Some (set_g (add s h M) GNew)
      | GLoad => Some (set_g s (GWalk (gl (es s h))))
      | GWalk (x :: l) => Some (set_g (free_page s x) (GWalk l))
      | GWalk [] =>
          Some {| es := upd (es s) h {| cnt := cnt (es s h); gl := gl (es s h); dead := true |}; cur := cur s; hd := S h;
                  wp := wp s; gp := GTop; opno := opno s; unl := unl s; freed := freed s; late := late s; bad := bad s |}
      | GNew =>
          Some {| es := upd (es s) (S (cur s)) enode0; cur := S (cur s); hd := hd s; wp := wp s; gp := GOut; opno := opno s;
                  unl := unl s; freed := freed s; late := late s; bad := bad s |}
      end
  end.
Fixpoint run (s : st) (acts : list act) : st :=
  match acts with
  | [] => s
  | a :: r => run (match step a s with Some s' => s' | None => s end) r
  end.
(** The destructor (7930-7979) once the cleaner has stopped: ClearEpoch with
    [current_epoch_p == nullptr], so the loop ends at the end of the list;
    [fuel] epochs are left.  The second, forced, run (7963-7978) happens if a
    count is not zero; it is the same with all counts set to 0. *)
Fixpoint clear_all (fuel : nat) (s : st) : st :=
  match fuel with
  | O => s
  | S f =>
      if cnt (es s (hd s)) =? 0
      then clear_all f {| es := upd (es s) (hd s) {| cnt := - M; gl := gl (es s (hd s)); dead := true |}; cur := cur s; hd := S (hd s);
                          wp := wp s; gp := gp s; opno := opno s; unl := unl s; freed := rev (gl (es s (hd s))) ++ freed s; late := late s; bad := bad s |}
      else s
  end.
Definition destroy (s : st) : st := clear_all (S (cur s) - hd s) s.
End OldEpoch.
