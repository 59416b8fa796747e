(** Destroying an index given by a table of finite maps; the outcome does not
    depend on the recursion bound once it is large enough. *)
From Coq Require Import List Arith Lia Bool NArith.
From Verif Require Import Base Leaf LeafSpec Inner Tree TreeSpec TreeFast Free FreeSpec Stuck.
Import ListNotations.

Section FreeFast.
Context {P : Params}.

Definition eqt (t t' : table) : Prop := forall i, t i = t' i.
Definition agree (a b : res (table * list ev)) : Prop :=
  forall t l, a = Ok (t, l) -> exists t', b = Ok (t', l) /\ eqt t t'.
Lemma tnull_eqt t t' i : eqt t t' -> eqt (tnull t i) (tnull t' i).
Proof. intros H j. unfold tnull. rewrite H. reflexivity. Qed.

Section Chains.
Variables rec rec' : table -> nat -> res (table * list ev).
Hypothesis Hrec : forall t t' i, eqt t t' -> agree (rec t i) (rec' t' i).

Lemma leaf_agree c : forall t t' i p, eqt t t' -> agree (free_leaf rec t i p c) (free_leaf rec' t' i p c).
Proof.
  induction c as [nl its hk|k v r c IH|k v r c IH|k s r c IH|id c IH|k rid r IHr c IHc]; intros t t' i p E t0 l H; cbn [free_leaf] in *.
  - injection H as <- <-. exists t'. auto.
  - destruct (free_leaf rec t i (false :: p) c) as [[t1 l1]|] eqn:E1; [|discriminate]. cbn in H. injection H as <- <-.
    destruct (IH _ _ _ _ E _ _ E1) as (t1' & -> & Et). eexists. split; [reflexivity|exact Et].
  - destruct (free_leaf rec t i (false :: p) c) as [[t1 l1]|] eqn:E1; [|discriminate]. cbn in H. injection H as <- <-.
    destruct (IH _ _ _ _ E _ _ E1) as (t1' & -> & Et). eexists. split; [reflexivity|exact Et].
  - destruct (rec t s) as [[t1 l1]|] eqn:E1; [|discriminate]. cbn [bind fst snd] in H.
    destruct (free_leaf rec t1 i (false :: p) c) as [[t2 l2]|] eqn:E2; [|discriminate]. cbn in H. injection H as <- <-.
    destruct (Hrec _ _ _ E _ _ E1) as (t1' & -> & Et). cbn [bind fst snd]. destruct (IH _ _ _ _ Et _ _ E2) as (t2' & -> & Et2). eexists. split; [reflexivity|exact Et2].
  - discriminate.
  - destruct (free_leaf rec t i (false :: p) c) as [[t1 l1]|] eqn:E1; [|discriminate]. cbn [bind fst snd] in H.
    destruct (free_leaf rec t1 i (true :: p) r) as [[t2 l2]|] eqn:E2; [|discriminate]. cbn in H. injection H as <- <-.
    destruct (IHc _ _ _ _ E _ _ E1) as (t1' & -> & Et). cbn [bind fst snd]. destruct (IHr _ _ _ _ Et _ _ E2) as (t2' & -> & Et2). eexists. split; [reflexivity|exact Et2].
Qed.
Lemma items_agree its : forall t t' i p, eqt t t' -> agree (free_items rec t i p its) (free_items rec' t' i p its).
Proof.
  induction its as [|[k j] its IH]; intros t t' i p E t0 l H; cbn [free_items] in *.
  - injection H as <- <-. exists t'. auto.
  - destruct (rec t j) as [[t1 l1]|] eqn:E1; [|discriminate]. cbn [bind fst snd] in H.
    destruct (free_items rec t1 i p its) as [[t2 l2]|] eqn:E2; [|discriminate]. cbn in H. injection H as <- <-.
    destruct (Hrec _ _ _ E _ _ E1) as (t1' & -> & Et). cbn [bind fst snd]. destruct (IH _ _ _ _ Et _ _ E2) as (t2' & -> & Et2). eexists. split; [reflexivity|exact Et2].
Qed.
Lemma inner_agree c : forall t t' i p, eqt t t' -> agree (free_inner rec t i p c) (free_inner rec' t' i p c).
Proof.
  induction c; intros t t' i q E t0 l H; cbn [free_inner] in *.
  all: repeat match goal with x : sep |- _ => destruct x end.
  all: try discriminate.
  all: repeat match goal with
    | H : bind ?a _ = Ok _ |- _ => let E := fresh "Q" in destruct a as [[? ?]|] eqn:E; [cbn [bind fst snd] in H|discriminate]
    end.
  all: try (injection H as <- <-).
  all: repeat first
    [ match goal with Q : rec ?t _ = Ok _, E : eqt ?t _ |- _ => let t' := fresh in let R := fresh in let E' := fresh "E" in destruct (Hrec _ _ _ E _ _ Q) as (t' & R & E'); rewrite R; cbn [bind fst snd]; clear Q R end
    | match goal with Q : free_items rec ?t _ _ _ = Ok _, E : eqt ?t _ |- _ => let t' := fresh in let R := fresh in let E' := fresh "E" in destruct (items_agree _ _ _ _ _ E _ _ Q) as (t' & R & E'); rewrite R; cbn [bind fst snd]; clear Q R end
    | match goal with Q : free_inner rec ?t _ _ _ = Ok _, E : eqt ?t _, IH : _ |- _ => let t' := fresh in let R := fresh in let E' := fresh "E" in destruct (IH _ _ _ _ E _ _ Q) as (t' & R & E'); rewrite R; cbn [bind fst snd]; clear Q R end
    | match goal with Q : free_inner rec (tnull ?t ?s) _ _ _ = Ok _, E : eqt ?t _, IH : _ |- _ => let t' := fresh in let R := fresh in let E' := fresh "E" in destruct (IH _ _ _ _ (tnull_eqt _ _ s E) _ _ Q) as (t' & R & E'); rewrite R; cbn [bind fst snd]; clear Q R end ].
  all: try (eexists; split; [reflexivity|eassumption]).
Qed.
End Chains.

Lemma free_agree f : forall f' t t' i, f <= f' -> eqt t t' -> agree (free_id f t i) (free_id f' t' i).
Proof.
  induction f as [|f IH]; intros f' t t' i Hf E t0 l H; [discriminate|]. destruct f' as [|f']; [lia|]. cbn [free_id] in *. rewrite <- (E i).
  assert (Hr : forall t t' i, eqt t t' -> agree (free_id f t i) (free_id f' t' i)) by (intros; apply IH; [lia|assumption]).
  destruct (t i) as [[c|c]|].
  - exact (leaf_agree _ _ Hr c _ _ i [] (tnull_eqt _ _ i E) _ _ H).
  - exact (inner_agree _ _ Hr c _ _ i [] (tnull_eqt _ _ i E) _ _ H).
  - injection H as <- <-. exists t'. auto.
Qed.

Definition fcleared (f : fmem) : table := fun i =>
  match fget f i with Some (_, n) => if is_remove n then None else Some n | None => None end.
Lemma fcleared_ok f m : rep f m -> eqt (fcleared f) (cleared m).
Proof. intros Hr i. unfold fcleared, cleared. rewrite (fget_ok f m i Hr). reflexivity. Qed.

(** The leaf page in which the walk from page [i] along the leaf pages finds [(k, v)]. *)
Fixpoint fpage (n : nat) (f : fmem) (i : nat) (k : K) (v : V) : option nat :=
  match n with
  | O => None
  | S n' => match fget f i with
            | Some (_, NLeaf c) =>
                if inb c k then if lmemb c k v then match c with LRemove _ _ => None | _ => Some i end else None
                else match lhigh c with Some (_, j) => fpage n' f j k v | None => None end
            | _ => None
            end
  end.
Lemma fpage_ok n f m k v j : rep f m -> forall i, reach m i -> fpage n f i k v = Some j ->
  exists c, reach m j /\ node_of m j = Some (NLeaf c) /\ live_pages m j = Some (NLeaf c) /\ in_range c k /\ lmem c k v.
Proof.
  intros Hr. induction n as [|n IH]; intros i Hi H; [discriminate|]. cbn [fpage] in H. rewrite (fget_ok f m i Hr) in H.
  destruct (get m i) as [[q [c|c]]|] eqn:E; try discriminate. assert (En : node_of m i = Some (NLeaf c)) by (unfold node_of; rewrite E; auto).
  destruct (inb c k) eqn:Ei.
  - destruct (lmemb c k v) eqn:El; [|discriminate]. exists c.
    assert (Hc : is_remove (NLeaf c) = false /\ j = i) by (destruct c; try discriminate; injection H as <-; auto). destruct Hc as [Hc ->].
    split; [exact Hi|]. split; [exact En|]. split; [unfold live_pages; rewrite En, Hc; reflexivity|]. split; [apply inb_ok, Ei|apply lmemb_ok, El].
  - destruct (lhigh c) as [[h j']|] eqn:Eh; [|discriminate]. eapply IH; [|exact H]. eapply R_next; eauto.
Qed.

(** Destroying the index leaves page [j], in which [(k, v)] is stored, alone. *)
Definition leavesb (f : fmem) (fuel n : nat) (k : K) (v : V) : bool :=
  match fpage n f FIRST_LEAF k v with
  | Some j => match free_id fuel (fcleared f) (f_root f) with
              | Ok (t, l) => negb (existsb (fun e => match e with ERead i _ | EDtor i _ | EFree i _ => i =? j end) l) && match t j with Some _ => true | None => false end
              | Er _ => false
              end
  | None => false
  end.
Lemma leavesb_ok f m fuel n k v : rep f m -> leavesb f fuel n k v = true ->
  exists j c fuel0, reach m j /\ live_pages m j = Some (NLeaf c) /\ in_range c k /\ lmem c k v /\
    forall fuel', fuel0 <= fuel' -> exists t l, destroy fuel' m = Ok (t, l) /\ t j <> None /\ forall p, ~ In (j, p) (dtors l) /\ ~ In (j, p) (frees l).
Proof.
  intros Hr H. unfold leavesb in H. destruct (fpage n f FIRST_LEAF k v) as [j|] eqn:Ep; [|discriminate].
  destruct (fpage_ok n f m k v j Hr _ (R_first m) Ep) as (c & A & _ & B & C & D).
  destruct (free_id fuel (fcleared f) (f_root f)) as [[t l]|] eqn:Ed; [|discriminate]. apply andb_true_iff in H as [H1 H2].
  exists j, c, fuel. split; [exact A|]. split; [exact B|]. split; [exact C|]. split; [exact D|]. intros fuel' Hf.
  rewrite (r_root _ _ Hr) in Ed. destruct (free_agree fuel fuel' _ _ (root m) Hf (fcleared_ok f m Hr) t l Ed) as (t' & E' & Et).
  exists t', l. split; [exact E'|]. split; [rewrite <- Et; destruct (t j); discriminate|].
  apply negb_true_iff in H1. assert (Hn : forall e, In e l -> match e with ERead i _ | EDtor i _ | EFree i _ => i =? j end = false).
  { intros e He. destruct (match e with ERead i _ | EDtor i _ | EFree i _ => i =? j end) eqn:X; [|reflexivity]. rewrite <- H1. symmetry. apply existsb_exists. exists e. auto. }
  intros p. unfold dtors, frees. split; intros Hi; apply in_flat_map in Hi as (e & He & Hi); specialize (Hn e He); destruct e; try contradiction; destruct Hi as [Hi|[]]; injection Hi as -> _; rewrite Nat.eqb_refl in Hn; discriminate.
Qed.
End FreeFast.
