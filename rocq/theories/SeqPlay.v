(** Computing histories of a single thread, to exhibit concrete ones. *)
From Coq Require Import List Arith Lia Bool.
From Verif Require Import Base Leaf LeafSpec Inner Tree TreeSpec TreeInv SeqOps SeqRun.
Import ListNotations.

Section SeqPlay.
Context {P : Params}.

(** [calm], by going through the mapping table. *)
Definition calm_at (m : mem) (i : nat) : bool :=
  match node_of m i with
  | Some (NLeaf (LSplit _ s _ _)) =>
      match node_of m s with
      | Some (NLeaf (LBase low items high)) => (length items <? LEAF_SIZE_UPPER) || match lsplit_sibling (LBase low items high) with Ok None => true | _ => false end
      | _ => true
      end
  | Some (NInner (ISplit _ s _ _)) =>
      match node_of m s with
      | Some (NInner (IBase _ _ _ items _)) => length items <? INNER_SIZE_UPPER
      | _ => true
      end
  | _ => true
  end.
Definition calm_b (m : mem) : bool := forallb (calm_at m) (seq 0 (nid m)).
Lemma calm_b_ok m : mbound m -> calm_b m = true -> calm m.
Proof.
  intros B E i n En. assert (Hi : i < nid m). { unfold node_of, get in En. destruct (tab m i) as [p|] eqn:Et; [|discriminate]. apply (b_tab _ B i p Et). }
  unfold calm_b in E. rewrite forallb_forall in E. specialize (E i). unfold calm_at in E. rewrite En in E. specialize (E ltac:(apply in_seq; lia)).
  destruct n as [[]|[]]; auto.
  - destruct (node_of m sib) as [[[]|]|]; auto. apply orb_true_iff in E as [E|E]; [left; apply Nat.ltb_lt; auto|right]. destruct (lsplit_sibling _) as [[]|]; try discriminate. auto.
  - destruct (node_of m sib) as [[|[]]|]; auto. apply Nat.ltb_lt; auto.
Qed.

Definition need_b (l : list (op * resp)) (m : mem) (o : op) : bool :=
  match o with
  | OpGet _ => calm_b m
  | OpCond k v _ => negb (existsb (fun x => match fst x with OpDel k' v' => keq k' k && veq v' v | _ => false end) l)
  | _ => true
  end.
Definition plain_b (o : op) : bool := match o with OpPageBI _ => false | _ => true end.
Fixpoint run_calls (fuel : nat) (ops : list op) (l : list (op * resp)) (m : mem) : option (list (op * resp) * mem) :=
  match ops with
  | [] => Some (l, m)
  | o :: ops => match prun m (code fuel o) with (m', Ok r) => run_calls fuel ops ((o, r) :: l) m' | _ => None end
  end.
Fixpoint run_calm (fuel : nat) (ops : list op) (l : list (op * resp)) (m : mem) : option (list (op * resp) * mem) :=
  match ops with
  | [] => Some (l, m)
  | o :: ops =>
      if plain_b o && need_b l m o then
        match prun m (code fuel o) with (m', Ok r) => run_calm fuel ops ((o, r) :: l) m' | _ => None end
      else None
  end.
Lemma run_calls_ok fuel ops : forall l m l' m', seqrun l m -> run_calls fuel ops l m = Some (l', m') -> seqrun l' m'.
Proof.
  induction ops as [|o ops IH]; simpl; intros l m l' m' Hq E; [injection E as <- <-; auto|].
  destruct (prun m (code fuel o)) as [m1 [r|e]] eqn:Ep; [|discriminate]. apply (IH _ _ _ _ (Q_call _ _ _ _ _ _ Hq Ep) E).
Qed.
Lemma run_calm_ok fuel ops : forall l m l' m', calmrun l m -> run_calm fuel ops l m = Some (l', m') -> calmrun l' m'.
Proof.
  induction ops as [|o ops IH]; simpl; intros l m l' m' Hq E; [injection E as <- <-; auto|].
  destruct (plain_b o && need_b l m o) eqn:Eb; [|discriminate]. apply andb_true_iff in Eb as [E1 E2].
  destruct (prun m (code fuel o)) as [m1 [r|e]] eqn:Ep; [|discriminate]. refine (IH _ _ _ _ (C_call _ _ fuel _ _ _ Hq _ _ Ep) E).
  - destruct o; simpl in *; auto; discriminate.
  - destruct o as [k v|k v|k v pred|k|k|k|]; simpl in *; auto.
    + apply negb_true_iff in E2. intros Hi. apply in_map_iff in Hi as ([o1 r1] & E1' & Hi). simpl in E1'. subst o1.
      assert (Ht : existsb (fun x => match fst x with OpDel k' v' => keq k' k && veq v' v | _ => false end) l = true); [|congruence].
      apply existsb_exists. exists (OpDel k v, r1). split; auto. simpl. apply andb_true_iff. split; [apply keq_refl|apply veq_refl].
    + destruct (calmrun_ready _ _ Hq) as (lev & H & R). apply calm_b_ok; [apply (r_bound _ _ _ R)|auto].
Qed.
End SeqPlay.
