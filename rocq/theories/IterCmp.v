(** Comparing iterators (C43). *)
From Coq Require Import List Arith Lia Bool Sorted.
From Verif Require Import Base Leaf LeafSpec LeafProofs Inner Tree TreeSpec SeqRun Iter IterSpec IterProofs IterBack.
Import ListNotations.

Section IterCmp.
Context {P : Params}.

(** What all iterators have in common. *)
Definition iok (it : iter) : Prop :=
  (exists A, fresh A it) /\ i_pos it <= S (length (i_items it)) /\ (i_pos it = 0 -> i_low it = None) /\
  (at_end it = true -> i_high it = None \/ i_items it = []).
Lemma iok_good it : iok it -> 1 <= i_pos it -> good it.
Proof.
  intros ((A & Pa & Pn & Pi) & Hl & _) H. split; [exact Pa|split; [exact Pn|split; [|lia]]]. intros [x v] Hx. apply Pi in Hx. apply Hx.
Qed.
Lemma iok_goodb it : iok it -> i_pos it <= length (i_items it) -> goodb it.
Proof.
  intros ((A & Pa & Pn & Pi) & Hl & H0 & _) H. split; [exact Pa|split; [exact Pn|split; [|split; [exact H0|exact H]]]]. intros [x v] Hx. apply Pi in Hx. apply Hx.
Qed.
Lemma iok_lower f k l it : follows (lower f k) l it -> okl l -> iok it /\ 1 <= i_pos it /\ settled it /\ ahead k it.
Proof.
  intros H Hl. destruct (lower_follows_page _ _ _ _ H Hl) as [[Hp Hq] Hf]. destruct (lower_follows _ _ _ _ H Hl) as (_ & Ha & Hs).
  split; [|auto]. split; [exact Hf|split; [exact Hq|split; [lia|auto]]].
Qed.
Lemma lower_back_page f : forall k l it, follows (lower_back f k) l it -> okl l -> exists A, fresh A it.
Proof.
  induction f as [|f IH]; intros k l it H Hl; [inversion H|]. cbn [lower_back] in H. inversion H as [|o c r l' a Hf]; subst.
  destruct (okl_cons _ _ _ Hl) as [(A & A' & He) Hl']. destruct r as [b|b s|vs|low items high]; try (simpl in He; tauto).
  destruct (match low with None => true | Some l => klt l k end); [|inversion Hf]. destruct He as (_ & Hp & _).
  destruct (lower_bound k items =? 0); [|inversion Hf; subst; exists A; exact Hp]. destruct low as [lo|]; [eapply IH; eauto|inversion Hf; subst; exists A; exact Hp].
Qed.
Lemma not_end it : i_pos it <= length (i_items it) -> at_end it = false.
Proof. intros H. apply Nat.eqb_neq. lia. Qed.
Lemma iok_back f k l it : follows (lower_back f k) l it -> okl l -> iok it /\ i_pos it <= length (i_items it) /\ upto k it.
Proof.
  intros H Hl. pose proof (lower_back_page _ _ _ _ H Hl) as Hf. destruct (lower_back_follows _ _ _ _ H Hl) as ((_ & _ & _ & H0 & Hp) & Hu).
  split; [|auto]. split; [exact Hf|split; [lia|split; [exact H0|]]]. rewrite not_end; [discriminate|auto].
Qed.
Lemma iok_move it p : iok it -> p <= S (length (i_items it)) -> (p = 0 -> i_low it = None) -> (p = S (length (i_items it)) -> i_high it = None \/ i_items it = []) -> iok (move it p).
Proof.
  intros ((A & Hf) & _) H1 H2 H3. split; [exists A; exact Hf|]. split; [exact H1|]. split; [exact H2|]. intros E. apply Nat.eqb_eq in E. apply H3, E.
Qed.
Lemma iok_next f it l it' : iok it -> follows (next f it) l it' -> okl l -> iok it'.
Proof.
  intros Hi H Hl. unfold next in H. destruct (is_end it) eqn:Ee; [inversion H; subst; exact Hi|]. unfold move_ahead in H. rewrite Ee in H.
  destruct (at_end it) eqn:Ea; [inversion H|]. apply Nat.eqb_neq in Ea. pose proof Hi as (_ & Hp & _).
  destruct (at_end (move it (S (i_pos it)))) eqn:Em.
  - cbn [move i_high] in H. destruct (i_high it) as [[h n]|] eqn:Eh; [eapply iok_lower; eauto|]. inversion H; subst. apply iok_move; [exact Hi|lia|lia|auto].
  - inversion H; subst. apply Nat.eqb_neq in Em. cbn in Em. apply iok_move; [exact Hi|lia|lia|lia].
Qed.
Lemma iok_prev f it l it' : iok it -> follows (prev f it) l it' -> okl l -> iok it'.
Proof.
  intros Hi H Hl. unfold prev in H. destruct (is_rend it) eqn:Ee; [inversion H; subst; exact Hi|]. unfold move_back in H. rewrite Ee in H.
  pose proof Hi as (_ & Hp & _). destruct (i_pos it) as [|p] eqn:Ep; [inversion H|]. destruct (p =? 0) eqn:E0.
  - apply Nat.eqb_eq in E0. subst p. destruct (i_low it) as [lo|] eqn:El; [eapply iok_back; eauto|]. inversion H; subst. apply iok_move; [exact Hi|lia|auto|lia].
  - apply Nat.eqb_neq in E0. inversion H; subst. apply iok_move; [exact Hi|lia|lia|lia].
Qed.
Lemma obtained_iok tr ss s it : exec tr ss s -> obtained tr it -> iok it.
Proof.
  intros Hx H. assert (Ho : forall log, answered tr log -> okl log) by (intros log Ha; exact (answered_effect _ _ _ _ Hx Ha)).
  induction H as [log it Ha Hf|f k log it Ha Hf|f it log it' _ IH Ha Hf|f it log it' _ IH Ha Hf].
  - apply Ho in Ha. unfold begin_first in Hf. inversion Hf as [|o c r l' a Hf']; subst. destruct (okl_cons _ _ _ Ha) as [(A & A' & He) _].
    destruct r as [b|b s0|vs|low items high]; try (simpl in He; tauto). inversion Hf'; subst. destruct He as (-> & Hp & _).
    split; [exists A; exact Hp|]. cbn [i_pos i_items i_low i_high]. split; [lia|split; [auto|]]. intros E. apply Nat.eqb_eq in E. cbn in E. right. destruct items; [auto|simpl in E; lia].
  - eapply iok_lower; eauto.
  - eapply iok_next; eauto.
  - eapply iok_prev; eauto.
Qed.

(** Iterators that may be compared: not the reverse end, and, unless it is the
    end iterator, on a page with items. *)
Definition readable (it : iter) : Prop := is_rend it = false /\ (is_end it = true \/ i_items it <> []).
Lemma iok_pos it : iok it -> is_rend it = false -> 1 <= i_pos it.
Proof.
  intros (_ & _ & H0 & _) Hr. unfold is_rend in Hr. destruct (i_pos it); [|lia]. rewrite H0 in Hr by auto. discriminate.
Qed.
Lemma iok_stands it : iok it -> readable it -> exists p, stands it p.
Proof.
  intros Hi [Hr Hd]. destruct (is_end it) eqn:Ee; [exists Last; exact Ee|]. destruct Hd as [Hd|Hd]; [discriminate|].
  pose proof (iok_pos it Hi Hr) as Hp. assert (Ea : at_end it = false).
  { destruct (at_end it) eqn:Ea; auto. pose proof Hi as (_ & _ & _ & H). destruct (H Ea) as [H'|H']; [|contradiction]. unfold is_end in Ee. rewrite H' in Ee. congruence. }
  destruct (deref_ok it (iok_good it Hi Hp) Ea) as ([k v] & E). exists (At k). split; eauto.
Qed.
Lemma lt_stands a b p q : stands a p -> stands b q -> exists r, iter_lt a b = Ok r /\ (r = true <-> before p q).
Proof.
  unfold stands, iter_lt, before. destruct p as [j|], q as [k|].
  - intros [-> (v & ->)] [-> (w & ->)]. simpl. eauto using iff_refl.
  - intros [-> _] ->. simpl. exists true. split; auto. tauto.
  - intros -> [-> _]. simpl. exists false. split; auto. split; [discriminate|tauto].
  - intros -> ->. simpl. exists false. split; auto. split; [discriminate|tauto].
Qed.
Lemma eq_stands a b p q : stands a p -> stands b q -> exists r, iter_eq a b = Ok r /\ (r = true <-> p = q).
Proof.
  unfold stands, iter_eq. destruct p as [j|], q as [k|].
  - intros [-> (v & ->)] [-> (w & ->)]. simpl. eexists. split; [reflexivity|]. rewrite keq_spec. split; congruence.
  - intros [-> _] ->. simpl. exists false. split; auto. split; discriminate.
  - intros -> [-> _]. simpl. exists false. split; auto. split; discriminate.
  - intros -> ->. simpl. exists true. split; auto. tauto.
Qed.
Lemma compare_ok tr ss s a b : exec tr ss s -> obtained tr a -> obtained tr b -> readable a -> readable b ->
  exists p q x y, stands a p /\ stands b q /\ iter_lt a b = Ok x /\ (x = true <-> before p q) /\ iter_eq a b = Ok y /\ (y = true <-> p = q).
Proof.
  intros Hx Ha Hb Ra Rb. destruct (iok_stands a (obtained_iok _ _ _ _ Hx Ha) Ra) as (p & Hp). destruct (iok_stands b (obtained_iok _ _ _ _ Hx Hb) Rb) as (q & Hq).
  destruct (lt_stands _ _ _ _ Hp Hq) as (x & Ex & Hx'). destruct (eq_stands _ _ _ _ Hp Hq) as (y & Ey & Hy). exists p, q, x, y. auto 10.
Qed.

(** Moving. *)
Lemma stands_deref it x : deref it = Ok x -> is_end it = false -> stands it (At (fst x)).
Proof. destruct x as [k v]. simpl. eauto. Qed.
Lemma deref_in it x : deref it = Ok x -> In x (i_items it).
Proof. unfold deref. destruct (i_pos it); [discriminate|]. destruct (nth_error (i_items it) n) eqn:E; [|discriminate]. intros H. injection H as <-. eapply nth_error_In; eauto. Qed.
Lemma asc_nth {B} (l : list (K * B)) : ascending l -> forall i j x y, i <= j -> nth_error l i = Some x -> nth_error l j = Some y -> klt (fst y) (fst x) = false.
Proof.
  induction 1 as [|z l Hs IH Hf]; intros i j x y Hij Hi Hj; [destruct i; discriminate|].
  destruct i as [|i], j as [|j]; simpl in *; try lia.
  - replace y with x by congruence. apply klt_irrefl.
  - injection Hi as <-. rewrite Forall_forall in Hf. apply Hf. eapply nth_error_In; eauto.
  - eapply (IH i j); eauto; lia.
Qed.
Lemma next_order tr ss s f it log it' p q : exec tr ss s -> obtained tr it -> answered tr log -> follows (next f it) log it' ->
  stands it p -> stands it' q -> ~ before q p.
Proof.
  intros Hx Ho Ha Hf Hp Hq. pose proof (obtained_iok _ _ _ _ Hx Ho) as Hi. pose proof (answered_effect _ _ _ _ Hx Ha) as Hl. fold (okl log) in Hl.
  destruct p as [k|].
  - destruct Hp as [Ee (v & Ed)]. destruct q as [k'|]; [|simpl; auto]. destruct Hq as [Ee' (v' & Ed')]. simpl. rewrite not_true_iff_false.
    assert (Hp1 : 1 <= i_pos it) by (unfold deref in Ed; destruct (i_pos it); [discriminate|lia]).
    pose proof (iok_good it Hi Hp1) as G. destruct (next_follows _ _ _ _ _ G Ed Hf Hl) as (_ & G' & [->|(h & n & Eh & Er & Hah)]).
    + unfold deref in Ed, Ed'. cbn in Ed'. destruct (i_pos it) as [|i]; [discriminate|].
      destruct (nth_error (i_items it) i) as [x|] eqn:E1; [|discriminate]. destruct (nth_error (i_items it) (S i)) as [x'|] eqn:E2; [|discriminate].
      injection Ed as ->. injection Ed' as ->. destruct G as (Gs & _). apply (asc_nth _ Gs i (S i) _ _ ltac:(lia) E1 E2).
    + destruct (deref_rest _ _ G' Ed') as [Er' _]. assert (H1 : klt k' h = false) by (apply (Hah (k', v')); rewrite Er'; left; auto).
      destruct G as (_ & _ & Gb & _). specialize (Gb _ (deref_in _ _ Ed)). rewrite Eh in Gb. simpl in Gb. order.
  - simpl in Hp. unfold next in Hf. rewrite Hp in Hf. inversion Hf; subst. destruct q as [k|]; [destruct Hq; congruence|simpl; auto].
Qed.
Lemma prev_order tr ss s f it log it' p q : exec tr ss s -> obtained tr it -> answered tr log -> follows (prev f it) log it' ->
  stands it p -> stands it' q -> ~ before p q.
Proof.
  intros Hx Ho Ha Hf Hp Hq. pose proof (obtained_iok _ _ _ _ Hx Ho) as Hi. pose proof (answered_effect _ _ _ _ Hx Ha) as Hl. fold (okl log) in Hl.
  destruct p as [k|]; [|simpl; auto]. destruct Hp as [Ee (v & Ed)].
  assert (Hp1 : 1 <= i_pos it <= length (i_items it)) by (unfold deref in Ed; destruct (i_pos it) as [|i]; [discriminate|]; destruct (nth_error (i_items it) i) eqn:E; [|discriminate]; assert (i < length (i_items it)) by (apply nth_error_Some; congruence); lia).
  pose proof (iok_goodb it Hi ltac:(lia)) as G. destruct (prev_follows _ _ _ _ _ G Ed Hf Hl) as (G' & [->|(lo & El & Er & Hu)]).
  - destruct q as [k'|].
    + destruct Hq as [_ (v' & Ed')]. simpl. rewrite not_true_iff_false. unfold deref in Ed, Ed'. cbn in Ed'. destruct (i_pos it) as [|i]; [discriminate|]. simpl in Ed'. rewrite Nat.sub_0_r in Ed'.
      destruct (nth_error (i_items it) i) as [x|] eqn:E1; [|discriminate]. destruct i as [|i]; [discriminate|]. destruct (nth_error (i_items it) i) as [x'|] eqn:E2; [|discriminate].
      injection Ed as ->. injection Ed' as ->. destruct G as (Gs & _). apply (asc_nth _ Gs i (S i) _ _ ltac:(lia) E2 E1).
    + simpl in Hq. unfold is_end in Hq. cbn in Hq. destruct (i_high it); [discriminate|]. unfold at_end in Hq. cbn in Hq. apply Nat.eqb_eq in Hq. lia.
  - destruct q as [k'|].
    + destruct Hq as [_ (v' & Ed')]. simpl. rewrite not_true_iff_false. destruct (deref_restb _ _ Ed') as (j & _ & Er'). assert (H1 : klt k' lo = true) by (apply (Hu (k', v')); rewrite Er'; left; auto).
      destruct G as (_ & _ & Gb & _). specialize (Gb _ (deref_in _ _ Ed)). rewrite El in Gb. simpl in Gb. order.
    + simpl in Hq. unfold is_end in Hq. destruct (i_high it'); [discriminate|]. apply Nat.eqb_eq in Hq. destruct G' as (_ & _ & _ & _ & H). lia.
Qed.
End IterCmp.
