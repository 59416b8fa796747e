(** Which nodes are handed to reclamation (C45, C46). *)
From Coq Require Import NArith List Arith Bool.
From Verif Require Import Base Leaf Inner Tree TreeSpec MarkerSpec.
Import ListNotations.

Section GarbageSpec.
Context {P : Params}.
(** What has happened to the nodes so far: [given] are those handed to
    AddGarbageNode, [over] has [(a, b)] if the update at [a] was put on top of
    the chain at [b]. *)
Record log := { given : list N; over : list (N * N) }.
(** A compare-and-swap of page [i] from [o] succeeds in [m]. *)
Definition swaps (m : mem) (i : nat) (o : N) : bool := match tab m i with Some x => N.eqb x o | None => false end.
(** The consequences of a step.
    - A base node replaces a chain: ConsolidateLeafNode (6292-6308),
      ConsolidateInnerNode (6317-6333) and FindLeftSibling (7231-7249) hand
      over the chain.
    - An InnerAbortNode replaces a chain: it goes back below it
      (RemoveAbortOnParent), which hands over the marker (6820).
    - Anything else is an update placed on the chain.
    Simplifications: a node is handed over in the step that unlinks it (in the
    code by the next statement of the same thread); nodes that were never
    published and the remove nodes of merged pages (5825) are not recorded. *)
Definition note (s : sys) (e : event) (L : log) : log :=
  match e with
  | EStep t =>
      match running s t with
      | Some (_, Cas i o n _) =>
          if swaps (sm s) i o then
            if is_delta n then
              match n with
              | NInner (IAbort _ _) => L
              | _ => {| given := given L; over := (nptr (sm s), o) :: over L |}
              end
            else {| given := o :: given L; over := over L |}
          else L
      | Some (_, CasPtr i o _ _) => if swaps (sm s) i o then {| given := o :: given L; over := over L |} else L
      | _ => L
      end
  | _ => L
  end.
(** Executions with their log. *)
Inductive lived : sys -> log -> Prop :=
| lv_init : lived sinit {| given := []; over := [] |}
| lv_step s L e s' : lived s L -> sstep s e s' -> lived s' (note s e L).

(** The nodes of a chain: what FreeEpochDeltaChain (8196-8361) visits from its
    head, except right branches of merges. *)
Inductive chain (L : log) (g : N) : N -> Prop :=
| ch_head : chain L g g
| ch_next a b : chain L g a -> In (a, b) (over L) -> chain L g b.
(** The heads of chains: the entries of the mapping table, what is below the
    marker of a blocked page, and what was handed over. *)
Definition head (s : sys) (L : log) (g : N) : Prop :=
  (exists i, tab (sm s) i = Some g) \/ (exists i p, blocked (sm s) i p g) \/ In g (given L).
(** Page [i] has been removed. *)
Definition removed (m : mem) (i : nat) : Prop := exists p n, get m i = Some (p, n) /\ is_remove n = true.
End GarbageSpec.
