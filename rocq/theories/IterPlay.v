(** Computing what iterators do on a memory they leave unchanged. *)
From Coq Require Import NArith List Arith Lia Bool.
From Verif Require Import Base Leaf LeafSpec Inner Tree TreeSpec SeqFuel Iter IterSpec.
Import ListNotations.

Section IterPlay.
Context {P : Params}.

(** [prun] and [irun], given up at the first write. *)
Fixpoint ro {A} (m : mem) (p : prog A) : option (res A) :=
  match p with
  | Ret a => Some (Ok a)
  | Err e => Some (Er e)
  | PLoad i k => match get m i with Some x => ro m (k x) | None => Some (Er ENull) end
  | LoadRoot k => ro m (k (root m))
  | _ => None
  end.
Lemma ro_ok {A} m (p : prog A) r : ro m p = Some r -> prun m p = (m, r).
Proof.
  revert r. induction p as [a|e|i k IH|i o n k IH|i o n k IH|k IH|o n k IH|n k IH]; simpl; intros r E; try discriminate; try (injection E as <-; reflexivity); auto.
  destruct (get m i); [auto|injection E as <-; reflexivity].
Qed.
Fixpoint iro {A} (m : mem) (fuel : nat) (c : icode A) : option (res A) :=
  match c with
  | IRet a => Some (Ok a)
  | IFail e => Some (Er e)
  | ICall o k => match ro m (code fuel o) with Some (Ok r) => iro m fuel (k r) | Some (Er e) => Some (Er e) | None => None end
  end.
Lemma iro_ok {A} m f (c : icode A) r : iro m f c = Some r -> irun m f c = (m, r).
Proof.
  revert r. induction c as [a|e|o k IH]; simpl; intros r E; try (injection E as <-; reflexivity).
  destruct (ro m (code f o)) as [[x|e]|] eqn:Er; [|injection E as <-|discriminate]; apply ro_ok in Er; rewrite Er; auto.
Qed.
(** A traversal that starts over for ever. *)
Definition again (m : mem) (go : K -> K -> bool) nav (k : K) (f : nat) : bool :=
  match ro m (attempt go nav f k) with Some (Er EFuel) | Some (Ok None) => true | _ => false end.
Lemma stuck m go nav k n : ro m (attempt go nav n k) = Some (Ok None) -> forallb (again m go nav k) (seq 0 n) = true ->
  forall f, prun m (traverse_with go nav f k) = (m, Er EFuel).
Proof.
  intros Hn Hs. assert (Hp : forall {A B} (p : prog A) (g : A -> prog B), prun m (pbind p g) = match prun m p with (m', Ok a) => prun m' (g a) | (m', Er e) => (m', Er e) end).
  { intros A B p g. generalize m. induction p as [a|e|i k' IH|i o nn k' IH|i o nn k' IH|k' IH|o nn k' IH|nn k' IH]; simpl; intros mm; auto.
    - destruct (get mm i); auto.
    - destruct (tab mm i) as [q|]; [destruct (N.eqb q o)|]; auto.
    - destruct (tab mm i) as [q|]; [destruct (N.eqb q o)|]; auto.
    - destruct (root mm =? o); auto. }
  induction f as [|f IH]; [reflexivity|]. cbn [traverse_with]. rewrite Hp. destruct (Nat.lt_ge_cases f n) as [C|C].
  - rewrite forallb_forall in Hs. specialize (Hs f). unfold again in Hs. specialize (Hs ltac:(apply in_seq; lia)).
    destruct (ro m (attempt go nav f k)) as [r|] eqn:E; [|discriminate]. apply ro_ok in E. rewrite E.
    destruct r as [[x|]|[]]; try discriminate; auto.
  - apply ro_ok in Hn. rewrite (ple_run _ _ (attempt_mono go nav n f k C) _ _ _ Hn). exact IH.
Qed.
Lemma stuck_page m k n : ro m (attempt kgt inavBI n k) = Some (Ok None) -> forallb (again m kgt inavBI k) (seq 0 n) = true ->
  forall f, prun m (code f (OpPageBI k)) = (m, Er EFuel).
Proof.
  intros H1 H2 f. pose proof (stuck m kgt inavBI k n H1 H2 f) as H. cbn [code]. unfold fetch, traverseBI. revert H. generalize (traverse_with kgt inavBI f k). intros p.
  generalize (fun x => pbind (leaf_of x) (fun c => pbind (lift (lconsolidate c)) page_resp)). intros g. revert p m H1 H2.
  assert (Hb : forall {A B} (p : prog A) (g : A -> prog B) m m' e, prun m p = (m', Er e) -> prun m (pbind p g) = (m', Er e)).
  { intros A B p g'. induction p as [a|e|i k' IH|i o nn k' IH|i o nn k' IH|k' IH|o nn k' IH|nn k' IH]; simpl; intros mm m' e' E; try discriminate; auto.
    - congruence.
    - destruct (get mm i); [auto|congruence].
    - destruct (tab mm i) as [q|]; [destruct (N.eqb q o)|]; auto.
    - destruct (tab mm i) as [q|]; [destruct (N.eqb q o)|]; auto.
    - destruct (root mm =? o); auto. }
  intros p m0 _ _ H. apply Hb. exact H.
Qed.
Lemma stuck_prev m it lo n : i_pos it = 1 -> i_low it = Some lo ->
  ro m (attempt kgt inavBI n lo) = Some (Ok None) -> forallb (again m kgt inavBI lo) (seq 0 n) = true ->
  forall f f2, snd (irun m f2 (prev f it)) = Er EFuel.
Proof.
  intros Hp Hl H1 H2 f f2. unfold prev, move_back, is_rend. rewrite Hl, Hp. destruct f as [|f]; [reflexivity|]. cbn [Nat.eqb lower_back irun].
  rewrite (stuck_page m lo n H1 H2 f2). reflexivity.
Qed.

(** Client code fed with given responses: the calls it makes. *)
Fixpoint feed {A} (c : icode A) (rs : list resp) : option (list (op * resp) * A) :=
  match c, rs with
  | IRet a, [] => Some ([], a)
  | ICall o k, r :: rs => match feed (k r) rs with Some (l, a) => Some ((o, r) :: l, a) | None => None end
  | _, _ => None
  end.
Lemma feed_ok {A} (c : icode A) : forall rs l a, feed c rs = Some (l, a) -> follows c l a.
Proof.
  induction c as [a|e|o k IH]; intros [|r rs] l a' E; simpl in E; try discriminate; [injection E as <- <-; constructor|].
  destruct (feed (k r) rs) as [[l1 a1]|] eqn:Ef; [|discriminate]. injection E as <- <-. constructor. eapply IH; eauto.
Qed.
(** What thread [t] was answered, in order. *)
Definition returns (t : nat) (tr : list event) : list (op * resp) :=
  rev (flat_map (fun e => match e with ERet u o r => if u =? t then [(o, r)] else [] | _ => [] end) tr).
Lemma returns_answered t tr : answered tr (returns t tr).
Proof.
  intros o r H. apply in_rev in H. apply in_flat_map in H as ([u o'|u|u o' r'] & Hi & H); simpl in H; try tauto.
  destruct (u =? t); [|destruct H]. destruct H as [H|[]]. injection H as -> ->. eauto.
Qed.
End IterPlay.
