(** More about executions without Delete: iterators, index scans and room in
    the pages (C05, C43, C49, C59). *)
From Coq Require Import List Arith Lia Bool.
From Verif Require Import Base Leaf LeafSpec LeafProofs Inner Tree TreeSpec SeqRun Iter IterSpec IterProofs IterBack IterCmp RoomSpec Keeps FillSpec Fill.
Import ListNotations.

Section Fill2.
Context {P : Params}.
Lemma never_past e tr : never_deletes (e :: tr) -> never_deletes tr.
Proof. intros H t o X. apply (H t o). right. exact X. Qed.
Lemma never_deleted tr k v : never_deletes tr -> ~ deleted tr k v.
Proof. intros H (t & X). exact (H t _ X). Qed.
Lemma never_fresh tr : never_deletes tr -> conds_fresh tr.
Proof. induction tr as [|e tr IH]; [exact (fun _ => I)|]. intros H. split; [apply IH, (never_past e), H|]. intros t k v pred _. apply never_deleted, H. Qed.

(** Pages of iterators are not empty unless they are the last. *)
Definition filled (it : iter) : Prop := i_high it = None \/ i_items it <> [].
Definition pages_filled (l : list (op * resp)) : Prop := forall o low items high, In (o, RPage low items high) l -> high = None \/ items <> [].
Lemma filled_cons x l : pages_filled (x :: l) -> pages_filled l.
Proof. intros H o low items high X. apply (H o low). right. exact X. Qed.
Lemma filled_lower f : forall k l it, follows (lower f k) l it -> pages_filled l -> filled it.
Proof.
  induction f as [|f IH]; intros k l it H Hl; [inversion H|]. cbn [lower] in H. inversion H as [|o c r l' a Hf]; subst. destruct r as [b|b s|vs|low items high]; try (inversion Hf; fail).
  destruct (negb _); [inversion Hf; subst; apply (Hl (OpPage k) low); left; reflexivity|].
  destruct high as [[h n]|]; [eapply IH; [exact Hf|eapply filled_cons; eauto]|]. inversion Hf; subst. left. reflexivity.
Qed.
Lemma filled_back f : forall k l it, follows (lower_back f k) l it -> pages_filled l -> filled it.
Proof.
  induction f as [|f IH]; intros k l it H Hl; [inversion H|]. cbn [lower_back] in H. inversion H as [|o c r l' a Hf]; subst. destruct r as [b|b s|vs|low items high]; try (inversion Hf; fail).
  destruct (match low with None => true | Some l => klt l k end); [|inversion Hf].
  assert (Hp : high = None \/ items <> []) by (apply (Hl (OpPageBI k) low); left; reflexivity).
  destruct (lower_bound k items =? 0); [|inversion Hf; subst; exact Hp]. destruct low as [lo|]; [eapply IH; [exact Hf|eapply filled_cons; eauto]|inversion Hf; subst; exact Hp].
Qed.
Lemma answered_filled tr ss s log : exec tr ss s -> never_deletes tr -> answered tr log -> pages_filled log.
Proof.
  intros Hx Hd Ha o low items high X. destruct (Ha _ _ X) as (t & Ht). exact (proj2 (fed_returned _ _ _ _ _ _ _ _ Hx Hd Ht)).
Qed.
Lemma obtained_filled tr ss s it : exec tr ss s -> never_deletes tr -> obtained tr it -> filled it.
Proof.
  intros Hx Hd H. assert (Ho : forall log, answered tr log -> pages_filled log) by (intros log; apply (answered_filled _ _ _ _ Hx Hd)).
  induction H as [log it Ha Hf|f k log it Ha Hf|f it log it' _ IH Ha Hf|f it log it' _ IH Ha Hf].
  - apply Ho in Ha. unfold begin_first in Hf. inversion Hf as [|o c r l' a Hf']; subst. destruct r as [b|b s0|vs|low items high]; try (inversion Hf'; fail).
    inversion Hf'; subst. apply (Ha OpFirst low). left. reflexivity.
  - eapply filled_lower; eauto.
  - unfold next in Hf. destruct (is_end it) eqn:Ee; [inversion Hf; subst; exact IH|]. unfold move_ahead in Hf. rewrite Ee in Hf.
    destruct (at_end it); [inversion Hf|]. destruct (at_end (move it (S (i_pos it)))); [|inversion Hf; subst; exact IH].
    cbn [move i_high] in Hf. destruct (i_high it) as [[h n]|] eqn:Eh; [eapply filled_lower; eauto|]. inversion Hf; subst. left. exact Eh.
  - unfold prev in Hf. destruct (is_rend it) eqn:Ee; [inversion Hf; subst; exact IH|]. unfold move_back in Hf. rewrite Ee in Hf.
    destruct (i_pos it) as [|p]; [inversion Hf|]. destruct (p =? 0); [|inversion Hf; subst; exact IH].
    destruct (i_low it) as [lo|]; [eapply filled_back; eauto|]. inversion Hf; subst. exact IH.
Qed.
Lemma obtained_readable tr ss s it : exec tr ss s -> never_deletes tr -> obtained tr it -> is_rend it = false -> readable it.
Proof.
  intros Hx Hd Ho Hr. split; [exact Hr|]. pose proof (obtained_iok _ _ _ _ Hx Ho) as Hi. destruct (obtained_filled _ _ _ _ Hx Hd Ho) as [Hf|Hf]; [|right; exact Hf].
  destruct (i_items it) as [|x items] eqn:Ei; [left|right; discriminate]. pose proof (iok_pos _ Hi Hr) as Hp. destruct Hi as (_ & Hl & _).
  unfold is_end, at_end. rewrite Hf, Ei in *. simpl in *. apply Nat.eqb_eq. lia.
Qed.
Lemma obtained_stands tr ss s it : exec tr ss s -> never_deletes tr -> obtained tr it -> is_rend it = false -> exists p, stands it p.
Proof. intros Hx Hd Ho Hr. apply iok_stands; [eapply obtained_iok; eauto|eapply obtained_readable; eauto]. Qed.
End Fill2.
