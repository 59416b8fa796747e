(** A concrete instance of the parameters (natural numbers as keys and
    values), and an executable way to build leaf pages.  Only used for
    examples and refutation witnesses. *)
From Coq Require Import List Arith Lia Bool ZArith NArith.
From Verif Require Import Base SmallSet Bloom Leaf LeafSpec.
Import ListNotations.

(** [KeyType{}] is 0, as for integer keys in the code's own tests. *)
Program Definition natP : Params := {|
  K := nat; klt := Nat.ltb; keq := Nat.eqb; kdef := 0;
  V := nat; veq := Nat.eqb; vhash := N.of_nat;
  phash := fun x => (N.of_nat (fst x) + N.of_nat (snd x))%N |}.
Next Obligation. apply Nat.ltb_irrefl. Qed.
Next Obligation. rewrite Nat.ltb_lt in *. lia. Qed.
Next Obligation. rewrite Nat.ltb_ge in *. lia. Qed.
Next Obligation. rewrite Nat.eqb_eq. tauto. Qed.
Next Obligation. rewrite Nat.eqb_eq. tauto. Qed.

Section Exec.
Context {P : Params}.
Definition in_rangeb (c : lchain) (k : K) : bool :=
  match llow c with None => true | Some x => negb (klt k x) end &&
  match lhigh c with None => true | Some (x, _) => klt k x end.
Lemma in_rangeb_ok c k : in_rangeb c k = true -> in_range c k.
Proof.
  unfold in_rangeb, in_range, above, below. rewrite andb_true_iff.
  destruct (llow c), (lhigh c) as [[? ?]|]; simpl; rewrite ?negb_true_iff; tauto.
Qed.

Inductive lop := OIns (k : K) (v : V) | ODel (k : K) (v : V) | OCons | OSplit (sib : nat) | OSibling.
Definition lstep (c : lchain) (o : lop) : option lchain :=
  match o with
  | OIns k v => if in_rangeb c k
      then match lcheck k v c with Ok (false, ix) => Some (LIns k v ix c) | _ => None end else None
  | ODel k v => if in_rangeb c k
      then match lcheck k v c with Ok (true, ix) => Some (LDel k v ix c) | _ => None end else None
  | OCons => match lconsolidate c with Ok c' => Some c' | _ => None end
  | OSplit sib =>
      match c with
      | LBase low items high =>
          match lsplit_sibling c with
          | Ok (Some (LBase (Some key) si _)) => Some (LSplit key sib (length si) c)
          | _ => None
          end
      | _ => None
      end
  | OSibling => match lsplit_sibling c with Ok (Some s) => Some s | _ => None end
  end.
Lemma lstep_built c o c' : built c -> lstep c o = Some c' -> built c'.
Proof.
  intros Hb. destruct o; simpl.
  - destruct (in_rangeb c k) eqn:Er; [|discriminate]. apply in_rangeb_ok in Er.
    destruct (lcheck k v c) as [[[|] ix]|] eqn:E; intros H; inversion H; subst. eapply B_ins; eauto.
  - destruct (in_rangeb c k) eqn:Er; [|discriminate]. apply in_rangeb_ok in Er.
    destruct (lcheck k v c) as [[[|] ix]|] eqn:E; intros H; inversion H; subst. eapply B_del; eauto.
  - destruct (lconsolidate c) eqn:E; intros H; inversion H; subst. eapply B_consolidate; eauto.
  - destruct c as [low items high| | | | |]; try discriminate.
    destruct (lsplit_sibling (LBase low items high)) as [[[[key|] si h| | | | |]|]|] eqn:E; intros H; inversion H; subst.
    assert (h = high).
    { simpl in E. destruct (find_split_point items) as [[i|]|]; simpl in E; try discriminate.
      destruct (nth_error items i); inversion E; auto. }
    subst. apply B_split; auto.
  - destruct (lsplit_sibling c) as [[s|]|] eqn:E; intros H; inversion H; subst. eapply B_sibling; eauto.
Qed.
Fixpoint lrun (c : lchain) (l : list lop) : option lchain :=
  match l with
  | [] => Some c
  | o :: r => match lstep c o with Some c' => lrun c' r | None => None end
  end.
Lemma lrun_built l : forall c c', built c -> lrun c l = Some c' -> built c'.
Proof.
  induction l as [|o l IH]; simpl; intros c c' Hb H; [congruence|].
  destruct (lstep c o) as [c1|] eqn:E; [|discriminate].
  apply (IH c1); auto. apply (lstep_built _ _ _ Hb E).
Qed.
End Exec.
