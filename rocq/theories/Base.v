(** Base definitions shared by all parts of the model: the key and value
    parameters of the index and the standard binary searches. *)
From Coq Require Import List Arith Lia Bool ZArith NArith.
Import ListNotations.

(** bwtree.h 580-660 (template parameters KeyType, ValueType, KeyComparator,
    KeyEqualityChecker, ValueEqualityChecker) and 936-973 (KeyCmpLess & co).
    Simplification: the equality checkers are required to coincide with
    equality of keys/values, and the comparator to be a strict total order
    compatible with it.  [kdef] is the default-constructed key [KeyType{}]. *)
Class Params := {
  K : Type;
  klt : K -> K -> bool;
  keq : K -> K -> bool;
  klt_irrefl : forall a, klt a a = false;
  klt_trans : forall a b c, klt a b = true -> klt b c = true -> klt a c = true;
  klt_total : forall a b, klt a b = false -> klt b a = false -> a = b;
  keq_spec : forall a b, keq a b = true <-> a = b;
  kdef : K;
  V : Type;
  veq : V -> V -> bool;
  veq_spec : forall a b, veq a b = true <-> a = b;
  vhash : V -> N;          (* ValueHashFunc *)
  phash : K * V -> N       (* KeyValuePairHashFunc, bwtree.h 890-918 *)
}.

(** Results of the executable model: a value, or the reason why the C++ code
    has left its defined behaviour. *)
Inductive err :=
| EAssert     (* an assert() fails *)
| EOverrun    (* a write beyond the end of a buffer *)
| ERange      (* an iterator or index outside its array *)
| EUninit     (* a read of a variable that was never written *)
| ENull       (* a null pointer dereference *)
| EKind       (* a page is used as a page of the wrong kind *)
| EFuel.      (* the fuel of the model ran out; not a statement about the code *)
Inductive res (A : Type) := Ok (a : A) | Er (e : err).
Arguments Ok {A}. Arguments Er {A}.
Definition bind {A B} (r : res A) (f : A -> res B) : res B :=
  match r with Ok a => f a | Er e => Er e end.
Notation "'do' x <- r ; f" := (bind r (fun x => f))
  (at level 200, x pattern, r at level 100, f at level 200, right associativity).

Section Base.
Context {P : Params}.

(** bwtree.h 947-973: KeyCmpGreaterEqual, KeyCmpGreater, KeyCmpLessEqual,
    KeyCmpNotEqual, all defined from KeyCmpLess/KeyCmpEqual. *)
Definition kge (a b : K) : bool := negb (klt a b).
Definition kgt (a b : K) : bool := klt b a.
Definition kle (a b : K) : bool := negb (klt b a).

Lemma keq_refl a : keq a a = true.
Proof. apply keq_spec; reflexivity. Qed.
Lemma veq_refl a : veq a a = true.
Proof. apply veq_spec; reflexivity. Qed.
Lemma keq_false a b : keq a b = false <-> a <> b.
Proof.
  rewrite <- keq_spec; destruct (keq a b); split; congruence.
Qed.
Lemma veq_false a b : veq a b = false <-> a <> b.
Proof.
  rewrite <- veq_spec; destruct (veq a b); split; congruence.
Qed.
Lemma K_eq_dec (a b : K) : {a = b} + {a <> b}.
Proof.
  destruct (keq a b) eqn:E; [left; apply keq_spec|right; apply keq_false]; auto.
Qed.
Lemma V_eq_dec (a b : V) : {a = b} + {a <> b}.
Proof.
  destruct (veq a b) eqn:E; [left; apply veq_spec|right; apply veq_false]; auto.
Qed.

(** A finite set of keys embeds in Z; the [order] tactic below uses this to
    reduce order reasoning to [lia]. *)
Definition rank (l : list K) (x : K) : Z :=
  Z.of_nat (length (filter (fun y => klt y x) l)).

Lemma filter_length_le {A} (f g : A -> bool) l :
  (forall x, f x = true -> g x = true) ->
  length (filter f l) <= length (filter g l).
Proof.
  intros H; induction l as [|a l IH]; simpl; auto.
  destruct (f a) eqn:E.
  - rewrite (H _ E); simpl; lia.
  - destruct (g a); simpl; lia.
Qed.

Lemma filter_length_lt {A} (f g : A -> bool) l a :
  (forall x, f x = true -> g x = true) ->
  In a l -> f a = false -> g a = true ->
  length (filter f l) < length (filter g l).
Proof.
  intros H; induction l as [|b l IH]; simpl; [tauto|].
  intros [->|Hin] Hf Hg.
  - rewrite Hf, Hg; simpl. pose proof (filter_length_le f g l H); lia.
  - specialize (IH Hin Hf Hg).
    destruct (f b) eqn:E; [rewrite (H _ E); simpl; lia|].
    destruct (g b); simpl; lia.
Qed.

Lemma klt_le_trans a b c : klt b a = false -> klt b c = true -> klt a c = true.
Proof.
  intros H1 H2. destruct (klt a b) eqn:E; [eapply klt_trans; eauto|].
  assert (a = b) by (apply klt_total; auto). subst; auto.
Qed.

Lemma rank_lt l a b : In a l -> klt a b = true -> (rank l a < rank l b)%Z.
Proof.
  intros Hin H; unfold rank. apply inj_lt.
  apply filter_length_lt with (a := a); auto.
  - intros x Hx; eapply klt_trans; eauto.
  - apply klt_irrefl.
Qed.

Lemma rank_lt_inv l a b : (rank l a < rank l b)%Z -> klt a b = true.
Proof.
  intros H. destruct (klt a b) eqn:E; auto. exfalso.
  unfold rank in H.
  pose proof (filter_length_le (fun y => klt y b) (fun y => klt y a) l) as H1.
  assert (length (filter (fun y => klt y b) l) <= length (filter (fun y => klt y a) l)).
  { apply H1. intros x Hx.
    destruct (klt b a) eqn:E2; [eapply klt_trans; eauto|].
    assert (a = b) by (apply klt_total; auto); subst; auto. }
  lia.
Qed.

Lemma rank_ge l a b : klt a b = false -> (rank l b <= rank l a)%Z.
Proof.
  intros H. destruct (Z_lt_le_dec (rank l a) (rank l b)); auto.
  apply rank_lt_inv in l0; congruence.
Qed.
Lemma rank_ge_inv l a b : In a l -> (rank l b <= rank l a)%Z -> klt a b = false.
Proof.
  intros Hin H. destruct (klt a b) eqn:E; auto.
  apply (rank_lt l) in E; auto; lia.
Qed.
Lemma rank_eq_inv l a b : In a l -> In b l -> rank l a = rank l b -> a = b.
Proof.
  intros Ha Hb H. apply klt_total.
  - apply (rank_ge_inv l); auto; lia.
  - apply (rank_ge_inv l); auto; lia.
Qed.
Lemma rank_neq l a b : In a l -> In b l -> a <> b -> rank l a <> rank l b.
Proof. intros Ha Hb H E. apply H. eapply rank_eq_inv; eauto. Qed.
Lemma rank_eq l a b : a = b -> rank l a = rank l b.
Proof. intros ->; auto. Qed.

Lemma not_lt_true a b : klt a b <> true <-> klt a b = false.
Proof. destruct (klt a b); split; congruence. Qed.

End Base.

Arguments rank : simpl never.

(** [order]: decides goals about [klt]/[keq]/equality on keys from the
    hypotheses in context. *)
Ltac in_list x l :=
  lazymatch l with
  | nil => constr:(false)
  | x :: _ => constr:(true)
  | _ :: ?r => in_list x r
  end.
Ltac add_to x l :=
  let b := in_list x l in
  lazymatch b with true => l | false => constr:(x :: l) end.

Ltac order_norm :=
  unfold kge, kgt, kle in *;
  repeat match goal with
  | H : negb _ = true |- _ => apply negb_true_iff in H
  | H : negb _ = false |- _ => apply negb_false_iff in H
  | H : keq _ _ = true |- _ => apply keq_spec in H
  | H : keq _ _ = false |- _ => apply keq_false in H
  | H : klt _ _ <> true |- _ => apply not_lt_true in H
  | H : ~ (klt _ _ = true) |- _ => apply not_lt_true in H
  | H : klt _ _ <> false |- _ => apply not_false_iff_true in H
  | |- negb _ = true => apply negb_true_iff
  | |- negb _ = false => apply negb_false_iff
  | |- keq _ _ = true => apply keq_spec
  | |- keq _ _ = false => apply keq_false
  | |- klt _ _ <> true => apply not_lt_true
  | |- ~ (klt _ _ = true) => apply not_lt_true
  end.

Ltac order_list l k :=
  match goal with
  | H : klt ?a ?b = _ |- _ =>
      let l1 := add_to a l in let l2 := add_to b l1 in
      lazymatch l2 with l => fail | _ => order_list l2 k end
  | H : @eq (@K _) ?a ?b |- _ =>
      let l1 := add_to a l in let l2 := add_to b l1 in
      lazymatch l2 with l => fail | _ => order_list l2 k end
  | H : @eq (@K _) ?a ?b -> False |- _ =>
      let l1 := add_to a l in let l2 := add_to b l1 in
      lazymatch l2 with l => fail | _ => order_list l2 k end
  | H : ~ @eq (@K _) ?a ?b |- _ =>
      let l1 := add_to a l in let l2 := add_to b l1 in
      lazymatch l2 with l => fail | _ => order_list l2 k end
  | _ => k l
  end.

Ltac order_conv L :=
  repeat match goal with
  | H : klt ?a ?b = true |- _ =>
      apply (rank_lt L) in H; [|solve [simpl; tauto]]
  | H : klt ?a ?b = false |- _ => apply (rank_ge L) in H
  | H : ~ (?a = ?b :> K) |- _ =>
      apply (rank_neq L) in H; [|solve [simpl; tauto]|solve [simpl; tauto]]
  | H : ?a = ?b :> K |- _ => apply (rank_eq L) in H
  end.

Ltac order_goal_to_hyp :=
  match goal with
  | |- klt ?a ?b = true => apply not_false_iff_true; intro
  | |- klt ?a ?b = false => apply not_true_iff_false; intro
  | |- ?a = ?b :> K => destruct (K_eq_dec a b); [assumption|exfalso]
  | |- ~ (?a = ?b) => intro
  | |- False => idtac
  | _ => exfalso
  end.

Ltac order :=
  intros; order_norm; order_goal_to_hyp; order_norm;
  order_list (@nil K) ltac:(fun l =>
    let L := fresh "L" in
    order_conv l; lia).

Section OrderTest.
Context {P : Params}.
Goal forall a b c, klt a b = true -> klt c b = false -> kle a c = true /\ a <> c.
Proof. intros; split; order. Qed.
Goal forall a b c, klt a b = false -> kge b c = true -> keq a c = true -> a = b.
Proof. intros; order. Qed.
Goal forall a b, a = b -> klt a b = false.
Proof. intros; order. Qed.
Goal forall a b c d: K, a <> b -> klt a b = false -> klt c a = false -> klt d c = false -> klt d b = false.
Proof. intros; order. Qed.
End OrderTest.

(** * Binary search *)

(** Index of the first element of [l] that does not satisfy [p]
    ([length l] if all do). *)
Fixpoint first_not {A} (p : A -> bool) (l : list A) : nat :=
  match l with
  | nil => 0
  | x :: r => if p x then S (first_not p r) else 0
  end.

(** libstdc++ [std::lower_bound] / [std::upper_bound] (the algorithms called
    in bwtree.h 3474, 3508, 4026, 4386, 4994 ...): [lower_bound] uses
    [p x = x < val], [upper_bound] uses [p x = !(val < x)].  [fuel] bounds the
    number of halvings, [length l] always suffices. *)
Fixpoint bsearch_loop {A} (fuel : nat) (p : A -> bool) (l : list A)
         (first len : nat) : nat :=
  match fuel with
  | 0 => first
  | S f =>
      if Nat.eqb len 0 then first
      else
        let half := Nat.div2 len in
        let middle := first + half in
        match nth_error l middle with
        | Some x =>
            if p x then bsearch_loop f p l (S middle) (len - half - 1)
            else bsearch_loop f p l first half
        | None => first
        end
  end.
Definition bsearch {A} (p : A -> bool) (l : list A) : nat :=
  bsearch_loop (S (length l)) p l 0 (length l).

(** [l] is partitioned: once [p] fails it keeps failing. *)
Fixpoint partitioned {A} (p : A -> bool) (l : list A) : Prop :=
  match l with
  | nil => True
  | x :: r => (p x = false -> forall y, In y r -> p y = false) /\ partitioned p r
  end.

Section Search.
Context {A : Type} (p : A -> bool).

Lemma first_not_le l : first_not p l <= length l.
Proof. induction l; simpl; auto. destruct (p a); simpl; lia. Qed.

Lemma first_not_before l i x :
  i < first_not p l -> nth_error l i = Some x -> p x = true.
Proof.
  revert i; induction l as [|a l IH]; simpl; intros i H1 H2; [lia|].
  destruct (p a) eqn:E; [|lia].
  destruct i; simpl in H2; [congruence|]. eapply IH; eauto; lia.
Qed.

Lemma first_not_at l x : nth_error l (first_not p l) = Some x -> p x = false.
Proof.
  induction l as [|a l IH]; simpl; [congruence|].
  destruct (p a) eqn:E; simpl; auto. congruence.
Qed.

Lemma first_not_after l i x :
  partitioned p l -> first_not p l <= i -> nth_error l i = Some x -> p x = false.
Proof.
  revert i; induction l as [|a l IH]; simpl; intros i Hp H1 H2.
  - destruct i; discriminate.
  - destruct Hp as [H0 H]. destruct (p a) eqn:E.
    + destruct i; [lia|]. simpl in H2. apply (IH i); auto; lia.
    + destruct i; simpl in H2; [congruence|].
      apply H0; auto. eapply nth_error_In; eauto.
Qed.

Lemma first_not_unique l n :
  n <= length l ->
  (forall i x, i < n -> nth_error l i = Some x -> p x = true) ->
  (forall x, nth_error l n = Some x -> p x = false) ->
  first_not p l = n.
Proof.
  revert n; induction l as [|a l IH]; simpl; intros n H1 H2 H3; [lia|].
  destruct n.
  - rewrite (H3 a); auto.
  - rewrite (H2 0 a); auto; [|lia]. f_equal. apply IH; [lia| |auto].
    intros i x Hi. apply (H2 (S i)); lia.
Qed.

Lemma bsearch_loop_spec l : partitioned p l -> forall fuel first len,
  len < fuel -> first <= first_not p l <= first + len -> first + len <= length l ->
  bsearch_loop fuel p l first len = first_not p l.
Proof.
  intros Hp; induction fuel as [|f IH]; intros first len Hf Hr Hl; [lia|].
  cbn [bsearch_loop]. destruct (Nat.eqb_spec len 0); [lia|].
  assert (Nat.div2 len < len) by (apply Nat.lt_div2; lia).
  destruct (nth_error l (first + Nat.div2 len)) as [x|] eqn:E.
  - destruct (p x) eqn:Ex.
    + apply IH; [lia| |lia].
      destruct (le_lt_dec (first_not p l) (first + Nat.div2 len)).
      * pose proof (first_not_after l _ _ Hp l0 E). congruence.
      * lia.
    + apply IH; [lia| |lia].
      destruct (le_lt_dec (first_not p l) (first + Nat.div2 len)); [lia|].
      pose proof (first_not_before l _ _ l0 E). congruence.
  - apply nth_error_None in E. lia.
Qed.

(** The linear [first_not] used throughout the model computes the result of
    the C++ binary search on every range partitioned by the predicate. *)
Lemma bsearch_spec l : partitioned p l -> bsearch p l = first_not p l.
Proof.
  intros H. apply bsearch_loop_spec; auto; try lia.
  pose proof (first_not_le l); lia.
Qed.
End Search.
