(** Proofs about the small containers (SmallSet.v, Bloom.v). *)
From Coq Require Import List Arith Lia Bool NArith Permutation Sorted.
From Verif Require Import Base SmallSet Bloom.
Import ListNotations.

(** * Sorted small set *)
Section SSS.
Context {A : Type} (lt eqb : A -> A -> bool).
Hypothesis lt_irrefl : forall x, lt x x = false.
Hypothesis lt_trans : forall x y z, lt x y = true -> lt y z = true -> lt x z = true.
Hypothesis lt_negtrans : forall x y z, lt x z = true -> lt x y = true \/ lt y z = true.
Hypothesis eqb_spec : forall x y, eqb x y = true <-> lt x y = false /\ lt y x = false.

Lemma lt_asym x y : lt x y = true -> lt y x = false.
Proof.
  intros H; destruct (lt y x) eqn:E; auto.
  rewrite <- (lt_irrefl x), (lt_trans _ _ _ H E); auto.
Qed.

Lemma nlt_trans x y z : lt y x = false -> lt z y = false -> lt z x = false.
Proof.
  intros H1 H2. destruct (lt z x) eqn:E; auto.
  destruct (lt_negtrans z y x E); congruence.
Qed.

Definition slt x y := lt x y = true.
Definition nlt x y := lt y x = false.

Lemma insert_In v s x : In x (SmallSet.insert lt eqb v s) -> x = v \/ In x s.
Proof.
  induction s as [|a s IH]; simpl; [intuition|].
  destruct (lt a v); simpl; [intuition|].
  destruct (eqb a v); simpl; intuition.
Qed.

Lemma insert_keeps v s x : In x s -> In x (SmallSet.insert lt eqb v s).
Proof.
  induction s as [|a s IH]; simpl; [tauto|].
  destruct (lt a v); simpl; [intuition|].
  destruct (eqb a v); simpl; intuition.
Qed.

Lemma insert_new v s :
  (forall y, In y s -> eqb y v = false) -> In v (SmallSet.insert lt eqb v s).
Proof.
  induction s as [|a s IH]; simpl; [tauto|]. intros H.
  destruct (lt a v); simpl; [right; apply IH; intuition|].
  rewrite (H a); simpl; auto.
Qed.

Lemma insert_sorted v s :
  StronglySorted slt s -> StronglySorted slt (SmallSet.insert lt eqb v s).
Proof.
  induction s as [|a s IH]; simpl; intros H.
  - constructor; constructor.
  - inversion H as [|? ? Hs Hf]; subst.
    destruct (lt a v) eqn:E.
    + constructor; auto. apply Forall_forall. intros x Hx.
      apply insert_In in Hx. destruct Hx as [->|Hx]; [exact E|].
      rewrite Forall_forall in Hf; auto.
    + destruct (eqb a v) eqn:E2; auto.
      assert (Hva : lt v a = true).
      { destruct (lt v a) eqn:E3; auto.
        assert (eqb a v = true) by (apply eqb_spec; auto). congruence. }
      constructor; auto. constructor; auto.
      rewrite Forall_forall in *. intros x Hx. specialize (Hf x Hx).
      eapply lt_trans; eauto.
Qed.

Lemma insert_dup_keeps v s y :
  StronglySorted slt s -> In y s -> eqb y v = true -> SmallSet.insert lt eqb v s = s.
Proof.
  induction s as [|a s IH]; simpl; [tauto|]. intros H Hin He.
  inversion H as [|? ? Hs Hf]; subst. apply eqb_spec in He as [E1 E2].
  destruct Hin as [->|Hin].
  - rewrite E1. assert (eqb y v = true) as -> by (apply eqb_spec; auto). auto.
  - rewrite Forall_forall in Hf. specialize (Hf _ Hin). unfold slt in Hf.
    assert (lt a v = true) as ->.
    { destruct (lt_negtrans a v y Hf); congruence. }
    f_equal. apply IH; auto. apply eqb_spec; auto.
Qed.

Definition insert_all (l : list A) : list A :=
  fold_left (fun s v => SmallSet.insert lt eqb v s) l [].

(** [x] is, in [l], the first of its equivalence class. *)
Definition first_of (l : list A) (x : A) : Prop :=
  exists l1 l2, l = l1 ++ x :: l2 /\ forall y, In y l1 -> eqb y x = false.

Lemma eqb_sym x y : eqb x y = eqb y x.
Proof.
  destruct (eqb x y) eqn:E.
  - apply eqb_spec in E. symmetry; apply eqb_spec; tauto.
  - destruct (eqb y x) eqn:E2; auto. apply eqb_spec in E2.
    rewrite <- E. apply eqb_spec; tauto.
Qed.

Lemma eqb_trans x y z : eqb x y = true -> eqb y z = true -> eqb x z = true.
Proof.
  rewrite !eqb_spec. intros [H1 H2] [H3 H4]. split.
  - destruct (lt x z) eqn:E; auto. destruct (lt_negtrans x y z E); congruence.
  - destruct (lt z x) eqn:E; auto. destruct (lt_negtrans z y x E); congruence.
Qed.

Lemma insert_all_spec l :
  StronglySorted slt (insert_all l) /\
  (forall x, In x (insert_all l) <-> first_of l x).
Proof.
  induction l as [|v l [IHs IHm]] using rev_ind.
  { split; [constructor|]. intros x; split; [intros []|].
    intros (l1 & l2 & E & _). destruct l1; discriminate. }
  unfold insert_all. rewrite fold_left_app. simpl. fold (insert_all l).
  split; [apply insert_sorted; auto|].
  intros x.
  destruct (existsb (fun y => eqb y v) (insert_all l)) eqn:E.
  - apply existsb_exists in E as (y & Hy & He).
    rewrite (insert_dup_keeps v _ y) by auto. rewrite IHm.
    split.
    + intros (l1 & l2 & -> & H). exists l1, (l2 ++ [v]).
      split; auto. rewrite <- app_assoc; auto.
    + intros (l1 & l2 & Heq & H).
      destruct l2 as [|z l2 _] using rev_ind.
      * apply app_inj_tail in Heq as [-> <-]. exfalso.
        apply IHm in Hy as (m1 & m2 & -> & _).
        rewrite (H y) in He; [discriminate|]. rewrite in_app_iff; simpl; auto.
      * rewrite app_comm_cons, app_assoc in Heq.
        apply app_inj_tail in Heq as [-> <-]. exists l1, l2; auto.
  - assert (Hno : forall y, In y (insert_all l) -> eqb y v = false).
    { intros y Hy. destruct (eqb y v) eqn:E2; auto.
      rewrite <- E. symmetry. apply existsb_exists; eauto. }
    assert (Hnol : forall y, In y l -> eqb y v = false).
    { intros y Hy. destruct (eqb y v) eqn:E2; auto. exfalso.
      (* the first element of y's class in l *)
      assert (exists x, first_of l x /\ eqb x y = true) as (x0 & Hx0 & Hxy).
      { clear - Hy eqb_spec lt_negtrans lt_irrefl.
        induction l as [|a l IHl]; [contradiction|].
        destruct (eqb a y) eqn:Ea.
        - exists a; split; auto. exists [], l; split; auto. intros ? [].
        - destruct Hy as [->|Hy].
          + assert (eqb y y = true) by (apply eqb_spec; auto). congruence.
          + destruct (IHl Hy) as (x & (l1 & l2 & -> & H) & He).
            exists x; split; auto. exists (a :: l1), l2; split; auto.
            intros z [<-|Hz]; auto.
            destruct (eqb a x) eqn:Eax; auto.
            rewrite (eqb_trans a x y) in Ea; congruence. }
      apply IHm in Hx0. apply Hno in Hx0.
      rewrite (eqb_trans x0 y v) in Hx0; congruence. }
    split.
    + intros Hx. apply insert_In in Hx as [->|Hx].
      * exists l, []; split; auto.
      * apply IHm in Hx as (l1 & l2 & -> & H). exists l1, (l2 ++ [v]).
        split; auto. rewrite <- app_assoc; auto.
    + intros (l1 & l2 & Heq & H).
      destruct l2 as [|z l2 _] using rev_ind.
      * apply app_inj_tail in Heq as [-> <-]. apply insert_new; auto.
      * rewrite app_comm_cons, app_assoc in Heq.
        apply app_inj_tail in Heq as [-> <-].
        apply insert_keeps, IHm. exists l1, l2; auto.
Qed.

Lemma nd_split v s : let it := first_not (fun x => negb (lt v x)) s in
  StronglySorted nlt s ->
  (forall x, In x (firstn it s) -> lt v x = false) /\
  (forall x, In x (skipn it s) -> lt v x = true).
Proof.
  simpl. induction s as [|a s IH]; simpl; [intros; split; intros ? []|].
  intros H; inversion H as [|? ? Hs Hf]; subst.
  destruct (lt v a) eqn:E; simpl.
  - split; [intros ? []|]. intros x [<-|Hx]; auto.
    rewrite Forall_forall in Hf. specialize (Hf x Hx). unfold nlt in Hf.
    destruct (lt_negtrans v x a E); congruence.
  - destruct (IH Hs) as [H1 H2]. split; auto.
    intros x [<-|Hx]; auto.
Qed.

Lemma SSorted_app {R : A -> A -> Prop} l1 l2 :
  StronglySorted R l1 -> StronglySorted R l2 ->
  (forall x y, In x l1 -> In y l2 -> R x y) -> StronglySorted R (l1 ++ l2).
Proof.
  induction l1 as [|a l1 IH]; simpl; auto.
  intros H1 H2 H. inversion H1; subst. constructor; auto.
  rewrite Forall_forall in *. intros x Hx. apply in_app_iff in Hx as [|]; auto.
Qed.
Lemma SSorted_app_inv {R : A -> A -> Prop} l1 l2 :
  StronglySorted R (l1 ++ l2) -> StronglySorted R l1 /\ StronglySorted R l2 /\
  (forall x y, In x l1 -> In y l2 -> R x y).
Proof.
  induction l1 as [|a l1 IH]; simpl; intros H.
  - split; [constructor|split; auto]. intros ? ? [].
  - inversion H; subst. destruct (IH H2) as (I1 & I2 & I3).
    rewrite Forall_forall in H3.
    split; [constructor; auto; apply Forall_forall; intros; apply H3, in_app_iff; auto|].
    split; auto. intros x y [<-|Hx] Hy; auto. apply H3, in_app_iff; auto.
Qed.

Lemma insert_nodedup_sorted v s :
  StronglySorted nlt s -> StronglySorted nlt (insert_nodedup lt v s).
Proof.
  intros H. unfold insert_nodedup.
  destruct (nd_split v s H) as [H1 H2].
  set (it := first_not _ s) in *.
  rewrite <- (firstn_skipn it s) in H. apply SSorted_app_inv in H as (S1 & S2 & S3).
  apply SSorted_app; auto.
  - constructor; auto. apply Forall_forall. intros x Hx. apply lt_asym; auto.
  - intros x y Hx [<-|Hy]; auto. apply H1; auto.
Qed.

Definition insert_all_nd (l : list A) : list A :=
  fold_left (fun s v => insert_nodedup lt v s) l [].

Lemma insert_all_nd_spec l :
  StronglySorted nlt (insert_all_nd l) /\
  Permutation l (insert_all_nd l) /\
  (forall v, filter (eqb v) (insert_all_nd l) = filter (eqb v) l).
Proof.
  induction l as [|a l (IHs & IHp & IHf)] using rev_ind.
  { repeat split; constructor. }
  unfold insert_all_nd. rewrite fold_left_app; simpl. fold (insert_all_nd l).
  split; [apply insert_nodedup_sorted; auto|].
  destruct (nd_split a _ IHs) as [H1 H2].
  unfold insert_nodedup. set (it := first_not _ _) in *.
  split.
  - rewrite Permutation_app_comm; simpl.
    apply Permutation_cons_app. rewrite firstn_skipn; auto.
  - intros v. rewrite !filter_app. simpl.
    rewrite <- IHf.
    assert (filter (eqb v) (insert_all_nd l) =
            filter (eqb v) (firstn it (insert_all_nd l)) ++
            filter (eqb v) (skipn it (insert_all_nd l))) as ->
      by (rewrite <- filter_app, firstn_skipn; auto).
    destruct (eqb v a) eqn:E; [|rewrite !app_nil_r; auto].
    rewrite <- app_assoc. f_equal.
    assert (filter (eqb v) (skipn it (insert_all_nd l)) = []) as ->; auto.
    apply eqb_spec in E as [E1 E2].
    induction (skipn it (insert_all_nd l)) as [|x r IH]; auto.
    simpl. destruct (eqb v x) eqn:Ex; [|apply IH; simpl in *; auto].
    apply eqb_spec in Ex as [E3 E4].
    assert (Hax : lt a x = true) by (apply H2; simpl; auto).
    destruct (lt_negtrans a v x Hax); congruence.
Qed.
End SSS.

(** * Membership filter *)
Section BF.
Context {A : Type} (eqb : A -> A -> bool) (hash : A -> N).

Lemma byte_of_lt h : byte_of h < 32.
Proof.
  unfold byte_of. assert (N.shiftr (N.land h 248) 3 < 32)%N; [|lia].
  rewrite N.shiftr_div_pow2. apply N.div_lt_upper_bound; [discriminate|].
  assert (N.land h 248 = N.land (N.land h 255) 248) as ->.
  { rewrite <- N.land_assoc. f_equal. }
  change 255%N with (N.ones 8). rewrite N.land_ones.
  assert (h mod 2 ^ 8 < 2 ^ 8)%N by (apply N.mod_lt; discriminate).
  apply N.le_lt_trans with (m := (h mod 2^8)%N); [|exact H].
  generalize (h mod 2^8)%N as x. intros x.
  apply N.ldiff_le. apply N.bits_inj. intros n.
  rewrite N.ldiff_spec, N.land_spec, N.bits_0.
  destruct (N.testbit x n); simpl; auto. rewrite andb_false_r; auto.
Qed.

Lemma bit_of_lt h : (bit_of h < 8)%N.
Proof.
  unfold bit_of. change 7%N with (N.ones 3). rewrite N.land_ones.
  apply N.mod_lt; discriminate.
Qed.

Lemma update_length l i f : length (update l i f) = length l.
Proof. revert i; induction l; destruct i; simpl; auto. Qed.
Lemma nth_update_same l i f d : i < length l -> nth i (update l i f) d = f (nth i l d).
Proof. revert i; induction l; destruct i; simpl; intros; try lia; auto. apply IHl; lia. Qed.
Lemma nth_update_other l i j f d : i <> j -> nth i (update l j f) d = nth i l d.
Proof. revert i j; induction l; destruct i, j; simpl; intros; try lia; auto. Qed.

(** The filter after inserting the elements of [l] in order. *)
Definition filled (l : list A) : bloom :=
  fold_left (fun b v => Bloom.insert hash v b) l empty.

Definition bit_set (h : N) (b : bloom) : bool :=
  negb (N.eqb (N.land (nth (byte_of h) (@bits A b) 0%N) (N.shiftl 1 (bit_of h))) 0).

Lemma bit_set_spec h b :
  bit_set h b = N.testbit (nth (byte_of h) (@bits A b) 0%N) (bit_of h).
Proof.
  unfold bit_set. set (x := nth _ _ _).
  destruct (N.testbit x (bit_of h)) eqn:E.
  - apply negb_true_iff, N.eqb_neq. intros H.
    assert (H2 : N.testbit (N.land x (N.shiftl 1 (bit_of h))) (bit_of h) = false)
      by (rewrite H; apply N.bits_0).
    rewrite N.land_spec, E, N.shiftl_1_l, N.pow2_bits_true in H2. discriminate.
  - apply negb_false_iff, N.eqb_eq. apply N.bits_inj. intros n.
    rewrite N.land_spec, N.bits_0, N.shiftl_1_l.
    destruct (N.eq_dec n (bit_of h)) as [->|Hn]; [rewrite E; auto|].
    rewrite N.pow2_bits_false; auto. apply andb_false_r.
Qed.

Lemma filled_snoc l v : filled (l ++ [v]) = Bloom.insert hash v (filled l).
Proof. unfold filled; rewrite fold_left_app; auto. Qed.

Lemma filled_inv l :
  length (bits (filled l)) = 32 /\ data (filled l) = l /\
  forall v, In v l -> bit_set (hash v) (filled l) = true.
Proof.
  induction l as [|a l (I1 & I2 & I3)] using rev_ind.
  { simpl; repeat split; auto; intros ? []. }
  rewrite filled_snoc. unfold Bloom.insert; cbn [bits data]. repeat split.
  - rewrite update_length; auto.
  - rewrite I2; auto.
  - intros v Hv. rewrite bit_set_spec. cbn [bits].
    pose proof (byte_of_lt (hash v)) as Hb.
    destruct (Nat.eq_dec (byte_of (hash v)) (byte_of (hash a))) as [E|E].
    + rewrite E, nth_update_same by (rewrite I1; lia).
      rewrite N.lor_spec, N.shiftl_1_l.
      apply in_app_iff in Hv as [Hv|[<-|[]]].
      * specialize (I3 v Hv). rewrite bit_set_spec, E in I3. rewrite I3; auto.
      * rewrite N.pow2_bits_true. apply orb_true_r.
    + rewrite nth_update_other; auto.
      apply in_app_iff in Hv as [Hv|[<-|[]]]; [|congruence].
      rewrite <- bit_set_spec; auto.
Qed.

Hypothesis hash_compat : forall x y, eqb x y = true -> hash x = hash y.

Lemma exists_exact l v :
  exists_ eqb hash v (filled l) = true <-> exists x, In x l /\ eqb v x = true.
Proof.
  destruct (filled_inv l) as (I1 & I2 & I3).
  unfold exists_. rewrite I2.
  fold (negb (negb (N.eqb (N.land (nth (byte_of (hash v)) (bits (filled l)) 0%N)
                 (N.shiftl 1 (bit_of (hash v)))) 0))).
  destruct (N.eqb _ 0) eqn:E; simpl.
  - split; [discriminate|]. intros (x & Hx & He).
    specialize (I3 x Hx). unfold bit_set in I3.
    rewrite <- (hash_compat _ _ He), E in I3. discriminate.
  - apply existsb_exists.
Qed.
End BF.
