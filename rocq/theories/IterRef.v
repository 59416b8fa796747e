(** Model of the life cycle of iterator page buffers: bwtree.h 8558-8735
    (class IteratorContext) and the constructors, assignments and destructor of
    class ForwardIterator (8747-9085).  Only ownership is modelled: the content
    of a page buffer is not. *)
From Coq Require Import List Arith Bool.
From Verif Require Import Epoch.
Import ListNotations.

(** IteratorContext (8558-8567): reference count; [live] is cleared by
    DecRef() when it calls Destroy() (8650-8655). *)
Record ctx := { rc : nat; live : bool }.

(** A ForwardIterator object: destroyed, null (ic_p = nullptr, 8769-8772), or
    holding a context.  The position kv_p is not modelled (it is null exactly
    when ic_p is). *)
Inductive ivar := VDead | VNull | VCtx (c : nat).

Record st := { vars : list ivar; ctxs : list ctx }.

Inductive err := ENull (* null pointer dereference *)
               | EFreed (* access to a released context, or assertion in DecRef *)
               | EProg (* the program uses an object that does not exist *).
Inductive res (A : Type) := Ok (a : A) | Er (e : err).
Arguments Ok {A}. Arguments Er {A}.

(** IncRef (8616-8621). *)
Definition inc_ref (cs : list ctx) (c : nat) : res (list ctx) :=
  match nth_error cs c with
  | Some x => if live x then Ok (set_nth cs c {| rc := S (rc x); live := true |}) else Er EFreed
  | None => Er EFreed
  end.

(** DecRef (8643-8659): assert(ref_count != 0); the last reference destroys. *)
Definition dec_ref (cs : list ctx) (c : nat) : res (list ctx) :=
  match nth_error cs c with
  | Some x => if live x then
                match rc x with
                | 0 => Er EFreed
                | S n => Ok (set_nth cs c {| rc := n; live := negb (Nat.eqb n 0) |})
                end
              else Er EFreed
  | None => Er EFreed
  end.

(** IteratorContext::Get (8680-8713): a new context with one reference. *)
Definition get_ctx (cs : list ctx) : list ctx * nat := (cs ++ [{| rc := 1; live := true |}], length cs).

Inductive op :=
| ONull             (* ForwardIterator(): 8769 *)
| ONew              (* ForwardIterator(tree[, key]): 8780, 8816 *)
| OCopy (w : nat)   (* copy constructor: 8836 *)
| OAssign (v w : nat)  (* operator=(const &): 8852 *)
| OMove (v w : nat)    (* operator=(&&): 8883 *)
| OLoad (v : nat)      (* LowerBound / MoveBackByOne replace the page: 9202-9208, 9306-9308 *)
| OPostInc (v : nat) (moves : bool)   (* it++: 9127-9139; [moves]: a new page is loaded *)
| ODestroy (v : nat).  (* ~ForwardIterator: 9073 *)

(** Copy construction (8836-8844): other.ic_p is dereferenced unconditionally. *)
Definition copy_var (s : st) (w : nat) : res st :=
  match nth_error (vars s) w with
  | Some (VCtx c) =>
      match inc_ref (ctxs s) c with
      | Ok cs => Ok {| vars := vars s ++ [VCtx c]; ctxs := cs |}
      | Er e => Er e
      end
  | Some VNull => Er ENull
  | _ => Er EProg
  end.

(** Replacing the page of an iterator: DecRef of the old one, Get of a new one. *)
Definition load_var (s : st) (v : nat) : res st :=
  match nth_error (vars s) v with
  | Some (VCtx c) =>
      match dec_ref (ctxs s) c with
      | Ok cs => let '(cs', n) := get_ctx cs in Ok {| vars := set_nth (vars s) v (VCtx n); ctxs := cs' |}
      | Er e => Er e
      end
  | Some VNull => let '(cs', n) := get_ctx (ctxs s) in Ok {| vars := set_nth (vars s) v (VCtx n); ctxs := cs' |}
  | _ => Er EProg
  end.

Definition step (s : st) (o : op) : res st :=
  match o with
  | ONull => Ok {| vars := vars s ++ [VNull]; ctxs := ctxs s |}
  | ONew => let '(cs', n) := get_ctx (ctxs s) in Ok {| vars := vars s ++ [VCtx n]; ctxs := cs' |}
  | OCopy w => copy_var s w
  | OAssign v w =>
      if Nat.eqb v w then Ok s else
      match nth_error (vars s) v, nth_error (vars s) w with
      | Some VDead, _ | _, Some VDead | None, _ | _, None => Er EProg
      | Some a, Some b =>
          match (match a with VCtx c => dec_ref (ctxs s) c | _ => Ok (ctxs s) end) with
          | Er e => Er e
          | Ok cs =>
              match b with
              | VCtx d => match inc_ref cs d with
                          | Ok cs' => Ok {| vars := set_nth (vars s) v (VCtx d); ctxs := cs' |}
                          | Er e => Er e
                          end
              | _ => Er ENull
              end
          end
      end
  | OMove v w =>
      if Nat.eqb v w then Ok s else
      match nth_error (vars s) v, nth_error (vars s) w with
      | Some VDead, _ | _, Some VDead | None, _ | _, None => Er EProg
      | Some _, Some b =>
          Ok {| vars := set_nth (set_nth (vars s) v b) w VNull; ctxs := ctxs s |}
      end
  | OLoad v => load_var s v
  | OPostInc v moves =>
      (* both branches of 9127-9139 copy *this first; the copy becomes the result *)
      match copy_var s v with
      | Ok s' => if moves then load_var s' v else Ok s'
      | Er e => Er e
      end
  | ODestroy v =>
      match nth_error (vars s) v with
      | Some (VCtx c) =>
          match dec_ref (ctxs s) c with
          | Ok cs => Ok {| vars := set_nth (vars s) v VDead; ctxs := cs |}
          | Er e => Er e
          end
      | Some VNull => Ok {| vars := set_nth (vars s) v VDead; ctxs := ctxs s |}
      | _ => Er EProg
      end
  end.

Definition init : st := {| vars := []; ctxs := [] |}.
Fixpoint run (s : st) (l : list op) : res st :=
  match l with
  | [] => Ok s
  | o :: r => match step s o with Ok s' => run s' r | Er e => Er e end
  end.
