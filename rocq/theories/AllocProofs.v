(** Proofs about the chunk allocator and the slot layout (Alloc.v). *)
From Coq Require Import List Arith Lia Bool ZArith Permutation Sorted.
From Verif Require Import Alloc.
Import ListNotations.
Local Open Scope Z_scope.

Lemma set_nth_length l i x : length (set_nth l i x) = length l.
Proof. revert i; induction l; destruct i; simpl; auto. Qed.
Lemma nth_set_same l i x : (i < length l)%nat -> nth_error (set_nth l i x) i = Some x.
Proof. revert i; induction l; destruct i; simpl; intros; try lia; auto. apply IHl; lia. Qed.
Lemma nth_set_other l i j x : i <> j -> nth_error (set_nth l i x) j = nth_error l j.
Proof. revert i j; induction l; destruct i, j; simpl; intros; auto; lia. Qed.
Lemma upd_same f t p : upd f t p t = p.
Proof. unfold upd; rewrite Nat.eqb_refl; auto. Qed.
Lemma upd_other f t u p : u <> t -> upd f t p u = f u.
Proof. intros; unfold upd; destruct (Nat.eqb_spec u t); congruence. Qed.
Lemma nth_error_lt {A} (l : list A) i x : nth_error l i = Some x -> (i < length l)%nat.
Proof. intros H. apply nth_error_Some. congruence. Qed.

Section AllocProofs.
Variables usable meta : Z.
Hypothesis usable_pos : 0 <= usable.
Notation step := (step usable meta).
Notation run := (run usable meta).

(** * C26: no overlap *)
Definition size_ok (p : tpc) : Prop :=
  match p with
  | TIdle => True
  | TTry _ z | TSub _ z | TGrow _ z | TCas _ z _ => 0 <= z
  end.

Definition ainv (s : st) : Prop :=
  (forall t, size_ok (pcs s t)) /\
  (forall c ch, nth_error (chunks s) c = Some ch -> tail ch <= top ch) /\
  (forall c a z, In (c, a, z) (allocs s) -> 0 <= z /\
     exists ch, nth_error (chunks s) c = Some ch /\
       limit ch <= a /\ tail ch <= a /\ a + z <= top ch) /\
  (forall l1 c a z l2 a' z', allocs s = l1 ++ (c, a, z) :: l2 ->
     In (c, a', z') l2 -> a + z <= a').

(** A step only lowers tails and sets absent [next]s. *)
Definition chunk_le (x y : chunk) : Prop :=
  limit y = limit x /\ top y = top x /\ tail y <= tail x /\
  (next x <> None -> next y = next x).

Lemma chunk_le_refl x : chunk_le x x.
Proof. unfold chunk_le; intuition lia. Qed.

Lemma step_chunks a s s' : (forall t, size_ok (pcs s t)) -> step a s = Some s' ->
  (length (chunks s) <= length (chunks s'))%nat /\
  (forall c ch, nth_error (chunks s) c = Some ch ->
     exists ch', nth_error (chunks s') c = Some ch' /\ chunk_le ch ch').
Proof.
  intros Hz H.
  assert (Hsame : (length (chunks s) <= length (chunks s))%nat /\
     (forall c ch, nth_error (chunks s) c = Some ch ->
     exists ch', nth_error (chunks s) c = Some ch' /\ chunk_le ch ch')).
  { split; auto. intros c ch Hc; exists ch; split; auto. apply chunk_le_refl. }
  destruct a as [t z|t addr]; simpl in H.
  - destruct (pcs s t); try discriminate. destruct (0 <=? z); inversion H; subst; auto.
  - specialize (Hz t). destruct (pcs s t) as [|c z|c z|c z|c z n] eqn:Ep; try discriminate;
    destruct (nth_error (chunks s) c) as [ch|] eqn:Ec; try discriminate.
    + inversion H; subst; auto.
    + assert (Hg : (length (chunks s) <= length (set_nth (chunks s) c
         {| tail := tail ch - z; limit := limit ch; next := next ch; top := top ch |}))%nat /\
       (forall c0 ch0, nth_error (chunks s) c0 = Some ch0 ->
         exists ch', nth_error (set_nth (chunks s) c
         {| tail := tail ch - z; limit := limit ch; next := next ch; top := top ch |}) c0 = Some ch'
           /\ chunk_le ch0 ch')).
      { rewrite set_nth_length; split; auto. intros c0 ch0 H0.
        destruct (Nat.eq_dec c c0) as [<-|Hn].
        - rewrite nth_set_same by (eapply nth_error_lt; eauto).
          eexists; split; eauto. rewrite Ec in H0; inversion H0; subst.
          unfold chunk_le; simpl in *; intuition lia.
        - rewrite nth_set_other by auto. exists ch0; split; auto. apply chunk_le_refl. }
      destruct (tail ch - z <? limit ch); inversion H; subst; simpl; auto.
    + destruct (next ch) eqn:En; inversion H; subst; simpl; auto.
      rewrite app_length; simpl. split; [lia|].
      intros c0 ch0 H0. exists ch0; split; [|apply chunk_le_refl].
      rewrite nth_error_app1; auto. eapply nth_error_lt; eauto.
    + destruct (next ch) eqn:En; inversion H; subst; simpl; auto.
      rewrite set_nth_length; split; auto. intros c0 ch0 H0.
      destruct (Nat.eq_dec c c0) as [<-|Hn].
      * rewrite nth_set_same by (eapply nth_error_lt; eauto).
        eexists; split; eauto. rewrite Ec in H0; inversion H0; subst.
        unfold chunk_le; simpl; intuition lia.
      * rewrite nth_set_other by auto. exists ch0; split; auto. apply chunk_le_refl.
Qed.

Lemma step_sizes a s s' : (forall t, size_ok (pcs s t)) -> step a s = Some s' ->
  forall t, size_ok (pcs s' t).
Proof.
  intros Hz H u. destruct a as [t z|t addr]; simpl in H; pose proof (Hz t) as Ht.
  - destruct (pcs s t); try discriminate. destruct (Z.leb_spec 0 z); inversion H; subst.
    simpl. unfold upd; destruct (Nat.eqb u t); simpl; auto.
  - destruct (pcs s t) as [|c z|c z|c z|c z n]; try discriminate;
    destruct (nth_error (chunks s) c) as [ch|]; try discriminate; simpl in H;
    repeat match type of H with
    | context [if ?b then _ else _] => destruct b
    | context [match next ?b with _ => _ end] => destruct (next b)
    end; inversion H; subst; simpl; unfold upd;
    destruct (Nat.eqb u t); simpl; auto.
Qed.

Lemma step_ainv a s s' : ainv s -> step a s = Some s' -> ainv s'.
Proof.
  intros (I1 & I2 & I3 & I4) H.
  pose proof (step_chunks _ _ _ I1 H) as [_ Hle].
  pose proof (step_sizes _ _ _ I1 H) as Hsz.
  assert (Htop : forall c ch, nth_error (chunks s') c = Some ch -> tail ch <= top ch).
  { intros c ch Hc. destruct a as [t z|t addr]; simpl in H.
    - destruct (pcs s t); try discriminate. destruct (0 <=? z); inversion H; subst.
      simpl in Hc; eauto.
    - pose proof (I1 t) as Ht. destruct (pcs s t) as [|c0 z|c0 z|c0 z|c0 z n]; try discriminate;
      destruct (nth_error (chunks s) c0) as [ch0|] eqn:E0; try discriminate; simpl in H.
      + inversion H; subst; eauto.
      + assert (Hc' : nth_error (set_nth (chunks s) c0
           {| tail := tail ch0 - z; limit := limit ch0; next := next ch0; top := top ch0 |}) c
           = Some ch) by (destruct (_ <? _); inversion H; subst; auto).
        destruct (Nat.eq_dec c0 c) as [<-|Hn].
        * rewrite nth_set_same in Hc' by (eapply nth_error_lt; eauto).
          inversion Hc'; subst; simpl in *. specialize (I2 _ _ E0). lia.
        * rewrite nth_set_other in Hc' by auto. eauto.
      + destruct (next ch0); inversion H; subst; simpl in Hc; eauto.
        destruct (lt_dec c (length (chunks s))).
        * rewrite nth_error_app1 in Hc by auto; eauto.
        * rewrite nth_error_app2 in Hc by lia.
          destruct (c - length (chunks s))%nat as [|k]; simpl in Hc;
          [inversion Hc; subst; simpl; lia|destruct k; discriminate].
      + destruct (next ch0); inversion H; subst; simpl in Hc; eauto.
        destruct (Nat.eq_dec c0 c) as [<-|Hn].
        * rewrite nth_set_same in Hc by (eapply nth_error_lt; eauto).
          inversion Hc; subst; simpl in *. eauto.
        * rewrite nth_set_other in Hc by auto. eauto. }
  assert (Hold : forall c a z, In (c, a, z) (allocs s) -> 0 <= z /\
     exists ch, nth_error (chunks s') c = Some ch /\
       limit ch <= a /\ tail ch <= a /\ a + z <= top ch).
  { intros c b z Hin. destruct (I3 _ _ _ Hin) as (Hz & ch & E & H1 & H2 & H3).
    split; auto. destruct (Hle _ _ E) as (ch' & E' & L1 & L2 & L3 & _).
    exists ch'; split; auto. lia. }
  assert (Hcase : allocs s' = allocs s \/
     exists c ch z, nth_error (chunks s) c = Some ch /\ 0 <= z /\
       limit ch <= tail ch - z /\
       nth_error (chunks s') c = Some {| tail := tail ch - z; limit := limit ch;
                                        next := next ch; top := top ch |} /\
       allocs s' = (c, tail ch - z, z) :: allocs s).
  { destruct a as [t z|t addr]; simpl in H.
    - destruct (pcs s t); try discriminate. destruct (0 <=? z); inversion H; subst; auto.
    - pose proof (I1 t) as Ht. destruct (pcs s t) as [|c0 z|c0 z|c0 z|c0 z n]; try discriminate;
      destruct (nth_error (chunks s) c0) as [ch0|] eqn:E0; try discriminate; simpl in H.
      + inversion H; subst; auto.
      + destruct (Z.ltb_spec (tail ch0 - z) (limit ch0)); inversion H; subst; auto.
        right. exists c0, ch0, z. simpl in *. repeat split; auto.
        apply nth_set_same. eapply nth_error_lt; eauto.
      + destruct (next ch0); inversion H; subst; auto.
      + destruct (next ch0); inversion H; subst; auto. }
  destruct Hcase as [E|(c & ch & z & E0 & Hz & Hlim & E1 & E)].
  - split; auto. split; auto. rewrite E. split; eauto.
  - split; auto. split; auto. split.
    + intros c' a' z' Hin. rewrite E in Hin. destruct Hin as [Heq|Hin]; [|eauto].
      inversion Heq; subst. split; auto. eexists; split; eauto. simpl.
      pose proof (I2 _ _ E0). lia.
    + intros l1 c1 a1 z1 l2 a2 z2 Heq Hin. rewrite E in Heq.
      destruct l1 as [|x l1]; simpl in Heq; inversion Heq; subst.
      * destruct (I3 _ _ _ Hin) as (_ & ch2 & E2 & _ & H2 & _).
        rewrite E0 in E2; inversion E2; subst. lia.
      * eapply I4; eauto.
Qed.

Lemma run_ainv acts : forall s, ainv s -> ainv (run s acts).
Proof.
  induction acts as [|a r IH]; simpl; intros s H; auto.
  destruct (step a s) eqn:E; auto. apply IH. eapply step_ainv; eauto.
Qed.

Lemma init_ainv lim tl : ainv (init lim tl).
Proof.
  repeat split; simpl; auto; try contradiction.
  - intros [|c] ch H; simpl in H; [inversion H; simpl; lia|destruct c; discriminate].
  - intros l1 ? ? ? l2 ? ? H. destruct l1; discriminate.
Qed.

Lemma allocs_disjoint s : ainv s -> forall l1 l2 l3 c a1 z1 a2 z2,
  allocs s = l1 ++ (c, a1, z1) :: l2 ++ (c, a2, z2) :: l3 -> ~ overlap a1 z1 a2 z2.
Proof.
  intros (_ & _ & _ & I4) l1 l2 l3 c a1 z1 a2 z2 E [H1 H2].
  assert (a1 + z1 <= a2).
  { eapply I4; eauto. apply in_app_iff; right; left; auto. }
  lia.
Qed.

(** * C27: growth *)
Definition pend (s : st) (t n : nat) : Prop := exists c z, pcs s t = TCas c z n.
Definition pos (p : tpc) : option nat :=
  match p with
  | TIdle => None
  | TTry c _ | TSub c _ | TGrow c _ | TCas c _ _ => Some c
  end.

(** [P] is the chain of installed chunks. *)
Definition ginv (s : st) (P : list nat) : Prop :=
  hd_error P = Some 0%nat /\
  StronglySorted lt P /\
  (forall i c, nth_error P i = Some c -> exists ch,
      nth_error (chunks s) c = Some ch /\ next ch = nth_error P (S i)) /\
  NoDup (freed s) /\
  (forall n, In n (freed s) -> (n < length (chunks s))%nat /\ ~ In n P) /\
  (forall t n, pend s t n -> (n < length (chunks s))%nat /\ ~ In n P /\ ~ In n (freed s) /\
      exists c, pos (pcs s t) = Some c /\ (c < n)%nat) /\
  (forall t u n, pend s t n -> pend s u n -> t = u) /\
  (forall t c, pos (pcs s t) = Some c -> In c P) /\
  (forall n, (n < length (chunks s))%nat -> In n P \/ In n (freed s) \/ exists t, pend s t n) /\
  (forall n ch, nth_error (chunks s) n = Some ch -> ~ In n P -> next ch = None).

Lemma SSorted_snoc P x :
  StronglySorted lt P -> (forall y, In y P -> (y < x)%nat) -> StronglySorted lt (P ++ [x]).
Proof.
  induction P as [|a P IH]; simpl; intros H1 H2.
  - constructor; constructor.
  - inversion H1; subst. constructor; auto.
    apply Forall_app; split; auto.
Qed.

Lemma ginv_in s P c : ginv s P -> In c P -> (c < length (chunks s))%nat.
Proof.
  intros (_ & _ & I3 & _) Hin. apply In_nth_error in Hin as [i Hi].
  destruct (I3 _ _ Hi) as (ch & E & _). eapply nth_error_lt; eauto.
Qed.

Lemma SSorted_last P i c j d : StronglySorted lt P ->
  nth_error P i = Some c -> nth_error P j = Some d -> (i < j)%nat -> (c < d)%nat.
Proof.
  revert i j; induction P as [|a P IH]; intros i j HS Hi Hj Hlt;
    [destruct i; discriminate|].
  inversion HS as [|? ? HS' HF]; subst. destruct j as [|j]; [lia|]. simpl in Hj.
  destruct i as [|i]; simpl in Hi.
  - inversion Hi; subst. rewrite Forall_forall in HF. apply HF. eapply nth_error_In; eauto.
  - eapply IH; eauto; lia.
Qed.

(** If [next] of an installed chunk is unset, it is the last of the chain. *)
Lemma last_of_chain s P c ch : ginv s P -> In c P ->
  nth_error (chunks s) c = Some ch -> next ch = None ->
  exists P', P = P' ++ [c].
Proof.
  intros (_ & _ & I3 & _) Hin E En. apply In_nth_error in Hin as [i Hi].
  destruct (I3 _ _ Hi) as (ch' & E' & Hn). rewrite E in E'; inversion E'; subst.
  rewrite En in Hn. symmetry in Hn. apply nth_error_None in Hn.
  pose proof (nth_error_lt _ _ _ Hi).
  exists (firstn i P). rewrite <- (firstn_skipn i P) at 1. f_equal.
  pose proof (skipn_length i P).
  destruct (skipn i P) as [|x [|y r]] eqn:Es; simpl in *; try lia.
  f_equal. assert (nth_error (skipn i P) 0 = Some c).
  { rewrite <- (firstn_skipn i P) in Hi. rewrite nth_error_app2 in Hi by (rewrite firstn_length; lia).
    rewrite firstn_length in Hi. replace (i - Nat.min i (length P))%nat with 0%nat in Hi by lia. auto. }
  rewrite Es in H1. simpl in H1. congruence.
Qed.

(** A change of program counter that is neither entering nor leaving [TCas]. *)
Lemma ginv_pc s P t p cs al :
  ginv s P ->
  length cs = length (chunks s) ->
  (forall c ch, nth_error (chunks s) c = Some ch -> exists ch', nth_error cs c = Some ch' /\ next ch' = next ch) ->
  (forall n, ~ pend s t n) ->
  (forall c z n, p <> TCas c z n) ->
  (forall c, pos p = Some c -> In c P) ->
  ginv {| chunks := cs; pcs := upd (pcs s) t p; freed := freed s; allocs := al |} P.
Proof.
  intros (I1 & I2 & I3 & I4 & I5 & I6 & I7 & I8 & I9 & I10) Hlen Hcs Hnp Hp Hpos.
  assert (Hpend : forall u n, pend {| chunks := cs; pcs := upd (pcs s) t p; freed := freed s;
            allocs := al |} u n <-> pend s u n).
  { intros u n; unfold pend; simpl. destruct (Nat.eq_dec u t) as [->|Hu].
    - rewrite upd_same. split; intros (c & z & E); [exfalso; eapply Hp; eauto|].
      exfalso; eapply Hnp; exists c, z; eauto.
    - rewrite upd_other by auto. tauto. }
  unfold ginv; simpl. rewrite Hlen. repeat split; auto.
  - intros i c Hi. destruct (I3 i c Hi) as (ch & E & En).
    destruct (Hcs _ _ E) as (ch' & E' & En'). exists ch'; split; [auto|rewrite En'; exact En].
  - apply (I5 n); auto.
  - apply (I5 n); auto.
  - apply Hpend in H. apply (I6 _ _ H).
  - apply Hpend in H. apply (I6 _ _ H).
  - apply Hpend in H. apply (I6 _ _ H).
  - pose proof H as H'. apply Hpend in H. destruct (I6 _ _ H) as (_ & _ & _ & c & Hc & Hcn).
    exists c; split; auto. destruct (Nat.eq_dec t0 t) as [->|Hu].
    + exfalso; eapply Hnp; eauto.
    + rewrite upd_other; auto.
  - intros u v n Hu Hv. apply Hpend in Hu. apply Hpend in Hv. eauto.
  - intros u c. destruct (Nat.eq_dec u t) as [->|Hu].
    + rewrite upd_same. auto.
    + rewrite upd_other by auto. apply I8.
  - intros n Hn. destruct (I9 n Hn) as [|[|[u Hu]]]; auto. right; right; exists u. apply Hpend; auto.
  - intros n ch E HnP. destruct (nth_error (chunks s) n) as [ch0|] eqn:E0.
    + destruct (Hcs _ _ E0) as (ch' & E' & En'). rewrite E in E'; inversion E'; subst.
      rewrite En'. eauto.
    + apply nth_error_None in E0. apply nth_error_lt in E. lia.
Qed.

Lemma step_ginv a s s' P : ginv s P -> step a s = Some s' ->
  exists P', ginv s' P' /\ exists suf, P' = P ++ suf.
Proof.
  intros HG H. pose proof HG as (I1 & I2 & I3 & I4 & I5 & I6 & I7 & I8 & I9 & I10).
  assert (H0P : In 0%nat P) by (destruct P; inversion I1; subst; left; auto).
  assert (Hrefl : forall c ch, nth_error (chunks s) c = Some ch ->
     exists ch', nth_error (chunks s) c = Some ch' /\ next ch' = next ch) by (intros; eauto).
  destruct a as [t z|t addr]; simpl in H.
  - destruct (pcs s t) eqn:Ep; try discriminate. destruct (0 <=? z); inversion H; subst.
    exists P; split; [|exists []; rewrite app_nil_r; auto].
    apply ginv_pc; auto; simpl; try (intros; congruence).
    intros n (c & z' & E). congruence.
  - pose proof (I8 t) as Hpos.
    destruct (pcs s t) as [|c z|c z|c z|c z n] eqn:Ep; try discriminate; simpl in Hpos;
    specialize (Hpos _ eq_refl);
    destruct (nth_error (chunks s) c) as [ch|] eqn:Ec; try discriminate.
    + inversion H; subst. exists P; split; [|exists []; rewrite app_nil_r; auto].
      apply ginv_pc; auto.
      * intros n (c' & z' & E). congruence.
      * intros; destruct (_ <? _); congruence.
      * intros c' Hc. destruct (_ <? _) in Hc; inversion Hc; subst; auto.
    + exists P; split; [|exists []; rewrite app_nil_r; auto].
      set (cs := set_nth (chunks s) c {| tail := tail ch - z; limit := limit ch;
                     next := next ch; top := top ch |}) in *.
      assert (Hcs : forall c ch, nth_error (chunks s) c = Some ch ->
         exists ch', nth_error cs c = Some ch' /\ next ch' = next ch).
      { intros c0 ch0 E0. unfold cs. destruct (Nat.eq_dec c c0) as [<-|Hn].
        - rewrite nth_set_same by (eapply nth_error_lt; eauto). eexists; split; eauto.
          simpl; congruence.
        - rewrite nth_set_other by auto; eauto. }
      destruct (tail ch - z <? limit ch); inversion H; subst; apply ginv_pc; auto;
        try (apply set_nth_length); try (intros n (c' & z' & E); congruence); try (intros; congruence).
      intros c' Hc; inversion Hc; subst; auto. discriminate.
    + destruct (next ch) as [m|] eqn:En; inversion H; subst.
      * exists P; split; [|exists []; rewrite app_nil_r; auto].
        apply ginv_pc; auto; try (intros; congruence).
        -- intros n (c' & z' & E). congruence.
        -- intros c' Hc; inversion Hc; subst.
           apply In_nth_error in Hpos as [i Hi]. destruct (I3 _ _ Hi) as (ch' & E' & En').
           rewrite Ec in E'; inversion E'; subst. rewrite En in En'. symmetry in En'.
           eapply nth_error_In; eauto.
      * exists P; split; [|exists []; rewrite app_nil_r; auto].
        set (cnew := {| tail := addr + meta + usable; limit := addr + meta; next := None;
                        top := addr + meta + usable |}).
        assert (Hpend : forall u n, pend {| chunks := chunks s ++ [cnew];
                   pcs := upd (pcs s) t (TCas c z (length (chunks s)));
                   freed := freed s; allocs := allocs s |} u n <->
                 (u = t /\ n = length (chunks s)) \/ (u <> t /\ pend s u n)).
        { intros u n; unfold pend; simpl. destruct (Nat.eq_dec u t) as [->|Hu].
          - rewrite upd_same. split.
            + intros (c' & z' & E); inversion E; subst; auto.
            + intros [[_ ->]|[X _]]; [eauto|congruence].
          - rewrite upd_other by auto. split; [right; auto|]. intros [[X _]|[_ X]]; auto; congruence. }
        assert (HnewP : ~ In (length (chunks s)) P).
        { intros X. apply (ginv_in s) in X; auto. lia. }
        unfold ginv; simpl. rewrite app_length; simpl.
        repeat split; auto.
        -- intros i c0 Hi. destruct (I3 _ _ Hi) as (ch0 & E0 & En0).
           exists ch0; split; auto. rewrite nth_error_app1; auto. eapply nth_error_lt; eauto.
        -- destruct (I5 n H0); lia.
        -- apply (I5 n H0).
        -- apply Hpend in H0 as [[_ ->]|[_ H0]]; [lia|]. destruct (I6 _ _ H0); lia.
        -- apply Hpend in H0 as [[_ ->]|[_ H0]]; auto. apply (I6 _ _ H0).
        -- apply Hpend in H0 as [[_ ->]|[_ H0]].
           ++ intros X. destruct (I5 _ X); lia.
           ++ apply (I6 _ _ H0).
        -- apply Hpend in H0 as [[-> ->]|[Hu H0]].
           ++ rewrite upd_same. exists c; simpl; split; auto. eapply nth_error_lt; eauto.
           ++ rewrite upd_other by auto. apply (I6 _ _ H0).
        -- intros u v n Hu Hv. apply Hpend in Hu. apply Hpend in Hv.
           destruct Hu as [[-> ->]|[Hu1 Hu]], Hv as [[-> E]|[Hv1 Hv]]; auto.
           ++ destruct (I6 _ _ Hv); lia.
           ++ subst. destruct (I6 _ _ Hu); lia.
           ++ eauto.
        -- intros u c0. destruct (Nat.eq_dec u t) as [->|Hu].
           ++ rewrite upd_same; simpl. intros X; inversion X; subst; auto.
           ++ rewrite upd_other by auto. apply I8.
        -- intros n Hn. destruct (Nat.eq_dec n (length (chunks s))) as [->|Hne].
           ++ right; right; exists t. apply Hpend; auto.
           ++ destruct (I9 n) as [|[|[u Hu]]]; auto; [lia|].
              right; right; exists u. apply Hpend. right; split; auto.
              intros ->. destruct Hu as (c' & z' & E). congruence.
        -- intros n ch0 E0 HnP0. destruct (lt_dec n (length (chunks s))).
           ++ rewrite nth_error_app1 in E0 by auto. eauto.
           ++ rewrite nth_error_app2 in E0 by lia.
              destruct (n - length (chunks s))%nat as [|k]; simpl in E0;
              [inversion E0; subst; auto|destruct k; discriminate].
    + assert (Hpt : pend s t n) by (exists c, z; auto).
      destruct (I6 _ _ Hpt) as (Hn & HnP & Hnf & c1 & Hc1 & Hcn).
      rewrite Ep in Hc1; simpl in Hc1; inversion Hc1; subst c1; clear Hc1.
      destruct (next ch) as [m|] eqn:En; inversion H; subst; clear H.
      * (* lost the race *)
        exists P; split; [|exists []; rewrite app_nil_r; auto].
        assert (HmP : In m P).
        { apply In_nth_error in Hpos as [i Hi]. destruct (I3 _ _ Hi) as (ch' & E' & En').
          rewrite Ec in E'; inversion E'; subst. rewrite En in En'. symmetry in En'.
          eapply nth_error_In; eauto. }
        assert (Hpend : forall u n', pend {| chunks := chunks s;
                   pcs := upd (pcs s) t (TTry m z); freed := n :: freed s;
                   allocs := allocs s |} u n' <-> u <> t /\ pend s u n').
        { intros u n'; unfold pend; simpl. destruct (Nat.eq_dec u t) as [->|Hu].
          - rewrite upd_same. split; [intros (? & ? & E); discriminate|tauto].
          - rewrite upd_other by auto. tauto. }
        unfold ginv; simpl. repeat split; auto.
        -- constructor; auto.
        -- destruct H as [<-|H]; auto. apply (I5 _ H).
        -- destruct H as [<-|H]; auto. apply (I5 _ H).
        -- apply Hpend in H as [Hu H]. apply (I6 _ _ H).
        -- apply Hpend in H as [Hu H]. apply (I6 _ _ H).
        -- apply Hpend in H as [Hu H]. intros [<-|X].
           ++ apply Hu. eapply I7; eauto.
           ++ destruct (I6 _ _ H) as (_ & _ & X2 & _). auto.
        -- apply Hpend in H as [Hu H]. rewrite upd_other by auto. apply (I6 _ _ H).
        -- intros u v n' Hu Hv. apply Hpend in Hu as [_ Hu]. apply Hpend in Hv as [_ Hv]. eauto.
        -- intros u c0. destruct (Nat.eq_dec u t) as [->|Hu].
           ++ rewrite upd_same; simpl. intros X; inversion X; subst; auto.
           ++ rewrite upd_other by auto. apply I8.
        -- intros n' Hn'. destruct (I9 n' Hn') as [|[|[u Hu]]]; auto.
           destruct (Nat.eq_dec u t) as [->|Hut].
           ++ destruct Hu as (c' & z' & E). rewrite Ep in E; inversion E; subst. auto.
           ++ right; right; exists u. apply Hpend; auto.
      * (* won the race *)
        exists (P ++ [n]); split; [|eauto].
        destruct (last_of_chain _ _ _ _ HG Hpos Ec En) as [P' HP'].
        assert (Hall : forall y, In y P -> (y < n)%nat).
        { intros y Hy. subst P. apply In_nth_error in Hy as [i Hi].
          pose proof (nth_error_lt _ _ _ Hi) as Hlt. rewrite app_length in Hlt; simpl in Hlt.
          destruct (Nat.eq_dec i (length P')) as [->|Hne].
          - rewrite nth_error_app2, Nat.sub_diag in Hi by lia. simpl in Hi. inversion Hi; lia.
          - assert (y < c)%nat; [|lia]. eapply (SSorted_last (P' ++ [c]) i y (length P') c); eauto; [|lia].
            rewrite nth_error_app2, Nat.sub_diag by lia. auto. }
        assert (Hpend : forall u n', pend {| chunks := set_nth (chunks s) c
                   {| tail := tail ch; limit := limit ch; next := Some n; top := top ch |};
                   pcs := upd (pcs s) t (TTry n z); freed := freed s;
                   allocs := allocs s |} u n' <-> u <> t /\ pend s u n').
        { intros u n'; unfold pend; simpl. destruct (Nat.eq_dec u t) as [->|Hu].
          - rewrite upd_same. split; [intros (? & ? & E); discriminate|tauto].
          - rewrite upd_other by auto. tauto. }
        unfold ginv; simpl. rewrite set_nth_length. repeat split; auto.
        -- destruct P; simpl in *; auto. discriminate.
        -- apply SSorted_snoc; auto.
        -- intros i d Hi. pose proof (nth_error_lt _ _ _ Hi) as Hlt.
           rewrite app_length in Hlt; simpl in Hlt.
           destruct (Nat.eq_dec i (length P)) as [->|Hne].
           ++ rewrite nth_error_app2, Nat.sub_diag in Hi by lia. simpl in Hi. inversion Hi; subst d.
              destruct (nth_error (chunks s) n) as [chn|] eqn:E'.
              2:{ apply nth_error_None in E'. lia. }
              exists chn. rewrite nth_set_other by lia. split; auto.
              change (next chn = nth_error (P ++ [n]) (S (length P))).
              assert (nth_error (P ++ [n]) (S (length P)) = None) as ->
                by (apply nth_error_None; rewrite app_length; simpl; lia).
              eauto.
           ++ rewrite nth_error_app1 in Hi by lia. destruct (I3 _ _ Hi) as (ch' & E' & En').
              destruct (Nat.eq_dec c d) as [<-|Hcd].
              ** rewrite nth_set_same by (eapply nth_error_lt; eauto).
                 eexists; split; eauto. cbn [next].
                 change (Some n = nth_error (P ++ [n]) (S i)).
                 rewrite Ec in E'; inversion E'; subst ch'.
                 rewrite En in En'. symmetry in En'. apply nth_error_None in En'.
                 assert (S i = length P)%nat as -> by lia.
                 rewrite nth_error_app2, Nat.sub_diag by lia. auto.
              ** exists ch'. rewrite nth_set_other by auto. split; auto.
                 change (next ch' = nth_error (P ++ [n]) (S i)).
                 rewrite En'. destruct (Nat.eq_dec (S i) (length P)) as [Ei|Ei].
                 2:{ rewrite nth_error_app1 by lia. auto. }
                 exfalso. subst P. rewrite app_length in Ei; simpl in Ei.
                 assert (i = length P')%nat as -> by lia.
                 rewrite nth_error_app2, Nat.sub_diag in Hi by lia. simpl in Hi. congruence.
        -- apply (I5 _ H).
        -- intros X. apply in_app_iff in X as [X|[<-|[]]]; auto. destruct (I5 _ H); auto.
        -- apply Hpend in H as [Hu H]. apply (I6 _ _ H).
        -- apply Hpend in H as [Hu H]. intros X. apply in_app_iff in X as [X|[<-|[]]]; auto.
           ++ destruct (I6 _ _ H) as (_ & X2 & _); auto.
           ++ apply Hu. eapply I7; eauto.
        -- apply Hpend in H as [Hu H]. apply (I6 _ _ H).
        -- apply Hpend in H as [Hu H]. rewrite upd_other by auto. apply (I6 _ _ H).
        -- intros u v n' Hu Hv. apply Hpend in Hu as [_ Hu]. apply Hpend in Hv as [_ Hv]. eauto.
        -- intros u c0. destruct (Nat.eq_dec u t) as [->|Hu].
           ++ rewrite upd_same; simpl. intros X; inversion X; subst. apply in_app_iff; simpl; auto.
           ++ rewrite upd_other by auto. intros X. apply in_app_iff; left. eapply I8; eauto.
        -- intros n' Hn'. destruct (I9 n' Hn') as [|[|[u Hu]]]; auto.
           ++ left; apply in_app_iff; auto.
           ++ destruct (Nat.eq_dec u t) as [->|Hut].
              ** destruct Hu as (c' & z' & E). rewrite Ep in E; inversion E; subst.
                 left; apply in_app_iff; simpl; auto.
              ** right; right; exists u. apply Hpend; auto.
        -- intros n' ch' E' Hn'. rewrite nth_set_other in E'.
           ++ apply (I10 n'); auto. intros X; apply Hn', in_app_iff; auto.
           ++ intros ->. apply Hn', in_app_iff; auto.
Qed.

Lemma init_ginv lim tl : ginv (init lim tl) [0%nat].
Proof.
  unfold ginv, init, pend; simpl. repeat split; auto; try contradiction;
    try (destruct H as (? & ? & ?); discriminate).
  - constructor; constructor.
  - intros [|i] c H; simpl in H; [|destruct i; discriminate].
    inversion H; subst. eexists; split; simpl; eauto.
  - constructor.
  - intros t u n (? & ? & ?); discriminate.
  - intros; discriminate.
  - intros n Hn. left; lia.
  - intros [|n] ch H; simpl in H; [inversion H; auto|destruct n; discriminate].
Qed.

Lemma run_ginv acts : forall s P, ginv s P ->
  exists P', ginv (run s acts) P' /\ exists suf, P' = P ++ suf.
Proof.
  induction acts as [|a r IH]; simpl; intros s P H.
  - exists P; split; auto. exists []; rewrite app_nil_r; auto.
  - destruct (step a s) eqn:E; auto.
    destruct (step_ginv _ _ _ _ H E) as (P1 & H1 & suf1 & ->).
    destruct (IH _ _ H1) as (P2 & H2 & suf2 & ->).
    exists ((P ++ suf1) ++ suf2); split; auto. exists (suf1 ++ suf2). rewrite app_assoc; auto.
Qed.

Lemma destroy_chain s P : ginv s P -> forall fuel i c, nth_error P i = Some c ->
  (length P - i <= fuel)%nat -> destroy fuel (chunks s) c = skipn i P.
Proof.
  intros HG. pose proof HG as (_ & _ & I3 & _).
  induction fuel as [|f IH]; intros i c Hi Hf.
  - apply nth_error_lt in Hi. lia.
  - cbn [destroy]. destruct (I3 _ _ Hi) as (ch & E & En). rewrite E.
    assert (Hsk : skipn i P = c :: skipn (S i) P).
    { clear - Hi. revert i Hi; induction P as [|a P IHP]; intros [|i] Hi; simpl in *; try discriminate.
      - congruence.
      - rewrite (IHP _ Hi). auto. }
    rewrite Hsk. f_equal. rewrite En.
    destruct (nth_error P (S i)) as [d|] eqn:Ed.
    + apply IH; auto. apply nth_error_lt in Hi. lia.
    + apply nth_error_None in Ed. rewrite skipn_all2; auto.
Qed.

Lemma SSorted_NoDup P : StronglySorted lt P -> NoDup P.
Proof.
  induction 1 as [|a P HS IH HF]; constructor; auto.
  rewrite Forall_forall in HF. intros X. specialize (HF _ X). lia.
Qed.

Lemma SSorted_bound P n : StronglySorted lt P -> (forall c, In c P -> (c < n)%nat) ->
  (length P <= n)%nat.
Proof.
  intros HS Hb. rewrite <- (seq_length n 0). apply NoDup_incl_length.
  - apply SSorted_NoDup; auto.
  - intros c Hc. apply in_seq. specialize (Hb c Hc). lia.
Qed.

Lemma destroy_all s P : ginv s P -> (forall t, pcs s t = TIdle) ->
  Permutation (freed s ++ destroy (length (chunks s)) (chunks s) 0)
              (seq 0 (length (chunks s))).
Proof.
  intros HG Hidle. pose proof HG as (I1 & I2 & I3 & I4 & I5 & I6 & I7 & I8 & I9 & I10).
  assert (E0 : nth_error P 0 = Some 0%nat) by (destruct P; inversion I1; auto).
  rewrite (destroy_chain s P HG (length (chunks s)) 0%nat 0%nat E0).
  2:{ assert (length P <= length (chunks s))%nat; [|lia].
      apply SSorted_bound; auto. intros c Hc. eapply ginv_in; eauto. }
  simpl. apply NoDup_Permutation.
  - clear - I2 I4 I5. induction (freed s) as [|n l IH]; simpl.
    + apply SSorted_NoDup; auto.
    + inversion I4; subst. constructor.
      * intros X. apply in_app_iff in X as [X|X]; auto.
        destruct (I5 n) as [_ Y]; [left; auto|]. auto.
      * apply IH; auto. intros m Hm; apply I5; right; auto.
  - apply seq_NoDup.
  - intros n. rewrite in_app_iff, in_seq. split.
    + intros [H|H]; [destruct (I5 _ H); lia|]. apply (ginv_in s P) in H; auto. lia.
    + intros [_ H]. destruct (I9 n ltac:(lia)) as [|[|[t (c & z & E)]]]; auto.
      rewrite Hidle in E; discriminate.
Qed.

Lemma run_sizes acts : forall s, (forall t, size_ok (pcs s t)) ->
  forall t, size_ok (pcs (run s acts) t).
Proof.
  induction acts as [|a r IH]; simpl; intros s H; auto.
  destruct (step a s) eqn:E; auto. apply IH. eapply step_sizes; eauto.
Qed.

Lemma run_next_stable acts : forall s c ch m, (forall t, size_ok (pcs s t)) ->
  nth_error (chunks s) c = Some ch -> next ch = Some m ->
  exists ch', nth_error (chunks (run s acts)) c = Some ch' /\ next ch' = Some m.
Proof.
  induction acts as [|a r IH]; simpl; intros s c ch m Hz E En; [eauto|].
  destruct (step a s) as [s'|] eqn:Es; [|eauto].
  destruct (step_chunks _ _ _ Hz Es) as [_ Hle].
  destruct (Hle _ _ E) as (ch' & E' & _ & _ & _ & Hn).
  eapply (IH s' c ch' m); [eapply step_sizes; eauto|auto|].
  rewrite Hn; auto. congruence.
Qed.

(** Whoever finishes growing chunk [c] goes on with its one successor. *)
Lemma grow_continues t addr s s' c z m z' :
  (pcs s t = TGrow c z \/ exists n, pcs s t = TCas c z n) ->
  step (AStep t addr) s = Some s' -> pcs s' t = TTry m z' ->
  exists ch, nth_error (chunks s') c = Some ch /\ next ch = Some m.
Proof.
  intros Hp H Hp'. simpl in H. destruct Hp as [Hp|[n Hp]]; rewrite Hp in H;
  destruct (nth_error (chunks s) c) as [ch|] eqn:E; try discriminate;
  destruct (next ch) as [m'|] eqn:En; inversion H; subst; simpl in *;
  rewrite upd_same in Hp'; inversion Hp'; subst; eauto.
  rewrite nth_set_same by (eapply nth_error_lt; eauto). eexists; split; eauto.
Qed.

(** * The pointer never runs far below the chunk *)
Definition is_sub (c : nat) (p : tpc) : bool :=
  match p with TSub c' _ => Nat.eqb c c' | _ => false end.
Definition nsub (n c : nat) (f : nat -> tpc) : nat :=
  length (filter (fun t => is_sub c (f t)) (seq 0 n)).

Definition act_ok (n : nat) (M : Z) (a : act) : Prop :=
  match a with
  | AStart t z => (t < n)%nat /\ z <= M
  | AStep t _ => (t < n)%nat
  end.
Definition size_le (M : Z) (p : tpc) : Prop :=
  match p with
  | TIdle => True
  | TTry _ z | TSub _ z | TGrow _ z | TCas _ z _ => z <= M
  end.
Definition winv (n : nat) (M : Z) (s : st) : Prop :=
  (forall t, size_le M (pcs s t)) /\
  forall c ch, nth_error (chunks s) c = Some ch ->
    limit ch - (Z.of_nat n - Z.of_nat (nsub n c (pcs s))) * M <= tail ch.

Lemma nsub_le n c f : (nsub n c f <= n)%nat.
Proof.
  unfold nsub. rewrite <- (seq_length n 0) at 2. generalize (seq 0 n).
  induction l; simpl; auto. destruct (is_sub c (f a)); simpl; lia.
Qed.

Lemma nsub_upd n c f t p : (t < n)%nat ->
  (nsub n c (upd f t p) + (if is_sub c (f t) then 1 else 0) =
   nsub n c f + (if is_sub c p then 1 else 0))%nat.
Proof.
  intros Ht. unfold nsub.
  assert (G : forall l, NoDup l ->
    (length (filter (fun u => is_sub c (upd f t p u)) l) +
       (if in_dec Nat.eq_dec t l then (if is_sub c (f t) then 1 else 0) else 0) =
     length (filter (fun u => is_sub c (f u)) l) +
       (if in_dec Nat.eq_dec t l then (if is_sub c p then 1 else 0) else 0))%nat).
  { induction l as [|u l IH]; intros Hnd; [simpl; auto|].
    inversion Hnd as [|? ? Hu Hl]; subst. specialize (IH Hl). cbn [filter].
    destruct (Nat.eq_dec u t) as [->|Hut].
    - rewrite upd_same.
      destruct (in_dec Nat.eq_dec t l) as [X|_]; [contradiction|].
      destruct (in_dec Nat.eq_dec t (t :: l)) as [_|X]; [|exfalso; apply X; left; auto].
      destruct (is_sub c p), (is_sub c (f t)); cbn [length]; lia.
    - rewrite upd_other by auto.
      destruct (in_dec Nat.eq_dec t l) as [X|X];
      destruct (in_dec Nat.eq_dec t (u :: l)) as [Y|Y].
      + destruct (is_sub c (f u)); cbn [length]; lia.
      + exfalso; apply Y; right; auto.
      + destruct Y; congruence.
      + destruct (is_sub c (f u)); cbn [length]; lia. }
  specialize (G (seq 0 n) (seq_NoDup n 0)).
  destruct (in_dec Nat.eq_dec t (seq 0 n)) as [_|X]; auto.
  exfalso; apply X, in_seq; lia.
Qed.

Lemma step_winv n M a s s' : 0 <= M -> act_ok n M a -> (forall t, size_ok (pcs s t)) ->
  winv n M s -> step a s = Some s' -> winv n M s'.
Proof.
  intros HM Hok Hz [W1 W2] H. split.
  { intros u. destruct a as [t z|t addr]; simpl in H, Hok; pose proof (W1 t) as Ht.
    - destruct (pcs s t); try discriminate. destruct (0 <=? z); inversion H; subst.
      simpl. unfold upd; destruct (Nat.eqb u t); simpl; auto. lia.
    - destruct (pcs s t) as [|c z|c z|c z|c z k]; try discriminate;
      destruct (nth_error (chunks s) c) as [ch|]; try discriminate; simpl in H;
      repeat match type of H with
      | context [if ?b then _ else _] => destruct b
      | context [match next ?b with _ => _ end] => destruct (next b)
      end; inversion H; subst; simpl; unfold upd;
      destruct (Nat.eqb u t); simpl; auto. }
  assert (Hpc : forall t p, (t < n)%nat -> is_sub 0 p = false \/ True ->
     (forall c, is_sub c (pcs s t) = false) -> (forall c, is_sub c p = false) ->
     forall c, nsub n c (upd (pcs s) t p) = nsub n c (pcs s)).
  { intros t p Ht _ H1 H2 c. pose proof (nsub_upd n c (pcs s) t p Ht) as X.
    rewrite H1, H2 in X. lia. }
  destruct a as [t z|t addr]; simpl in H, Hok.
  - destruct (pcs s t) eqn:Ep; try discriminate. destruct (0 <=? z); inversion H; subst.
    intros c ch E. simpl in *. rewrite Hpc; auto; try tauto. rewrite Ep; auto.
  - pose proof (W1 t) as HzM. specialize (Hz t).
    destruct (pcs s t) as [|c0 z|c0 z|c0 z|c0 z k] eqn:Ep; try discriminate;
    destruct (nth_error (chunks s) c0) as [ch0|] eqn:E0; try discriminate; simpl in H.
    + inversion H; subst. intros c ch E. simpl in *.
      pose proof (W2 _ _ E) as W. pose proof (nsub_upd n c (pcs s) t
         (if tail ch0 <? limit ch0 then TGrow c0 z else TSub c0 z) Hok) as X.
      rewrite Ep in X; simpl in X.
      destruct (Z.ltb_spec (tail ch0) (limit ch0)); simpl in *.
      * replace (nsub n c (upd (pcs s) t (TGrow c0 z))) with (nsub n c (pcs s)) by lia. auto.
      * destruct (Nat.eqb_spec c c0) as [->|Hne].
        -- rewrite E0 in E; inversion E; subst.
           pose proof (nsub_le n c0 (upd (pcs s) t (TSub c0 z))).
           assert (0 <= (Z.of_nat n - Z.of_nat (nsub n c0 (upd (pcs s) t (TSub c0 z)))) * M)
             by (apply Z.mul_nonneg_nonneg; lia). lia.
        -- replace (nsub n c (upd (pcs s) t (TSub c0 z))) with (nsub n c (pcs s)) by lia. auto.
    + assert (Hg : forall p', (forall c, is_sub c p' = false) -> forall c ch,
         nth_error (set_nth (chunks s) c0 {| tail := tail ch0 - z; limit := limit ch0;
            next := next ch0; top := top ch0 |}) c = Some ch ->
         limit ch - (Z.of_nat n - Z.of_nat (nsub n c (upd (pcs s) t p'))) * M <= tail ch).
      { intros p' Hp' c ch E. pose proof (nsub_upd n c (pcs s) t p' Hok) as X.
        rewrite Ep, Hp' in X. simpl in X.
        destruct (Nat.eqb_spec c c0) as [->|Hne].
        - rewrite nth_set_same in E by (eapply nth_error_lt; eauto). inversion E; subst; simpl in *.
          specialize (W2 _ _ E0).
          replace (Z.of_nat (nsub n c0 (pcs s))) with
             (Z.of_nat (nsub n c0 (upd (pcs s) t p')) + 1) in W2 by lia. nia.
        - rewrite nth_set_other in E by auto. specialize (W2 _ _ E).
          replace (nsub n c (upd (pcs s) t p')) with (nsub n c (pcs s)) by lia. auto. }
      destruct (tail ch0 - z <? limit ch0); inversion H; subst; simpl; apply Hg; auto.
    + destruct (next ch0) eqn:En; inversion H; subst; simpl.
      * intros c ch E. rewrite Hpc; auto. rewrite Ep; auto.
      * intros c ch E. rewrite Hpc; auto; [|rewrite Ep; auto].
        destruct (lt_dec c (length (chunks s))).
        -- rewrite nth_error_app1 in E by auto. auto.
        -- rewrite nth_error_app2 in E by lia.
           destruct (c - length (chunks s))%nat as [|k]; simpl in E;
           [inversion E; subst; simpl|destruct k; discriminate].
           pose proof (nsub_le n c (pcs s)).
           assert (0 <= (Z.of_nat n - Z.of_nat (nsub n c (pcs s))) * M)
             by (apply Z.mul_nonneg_nonneg; lia). lia.
    + destruct (next ch0) eqn:En; inversion H; subst; simpl.
      * intros c ch E. rewrite Hpc; auto. rewrite Ep; auto.
      * intros c ch E. rewrite Hpc; auto; [|rewrite Ep; auto].
        destruct (Nat.eq_dec c0 c) as [<-|Hne].
        -- rewrite nth_set_same in E by (eapply nth_error_lt; eauto). inversion E; subst; simpl.
           apply (W2 _ _ E0).
        -- rewrite nth_set_other in E by auto. auto.
Qed.

Lemma run_winv n M acts : forall s, 0 <= M -> Forall (act_ok n M) acts ->
  (forall t, size_ok (pcs s t)) -> winv n M s -> winv n M (run s acts).
Proof.
  induction acts as [|a r IH]; simpl; intros s HM Hok Hz HW; auto.
  inversion Hok; subst. destruct (step a s) eqn:E; auto.
  apply IH; auto; [eapply step_sizes|eapply step_winv]; eauto.
Qed.

Lemma alloc_no_wrap n M lim tl acts : 0 <= M -> lim <= tl -> Forall (act_ok n M) acts ->
  forall c ch, nth_error (chunks (run (init lim tl) acts)) c = Some ch ->
  limit ch - Z.of_nat n * M <= tail ch.
Proof.
  intros HM Hl Hok c ch E.
  assert (HW : winv n M (run (init lim tl) acts)).
  { apply run_winv; auto; simpl; auto. split; simpl; auto.
    intros [|c0] ch0 H; simpl in H; [inversion H; subst; simpl|destruct c0; discriminate].
    pose proof (nsub_le n 0 (fun _ => TIdle)).
    assert (0 <= (Z.of_nat n - Z.of_nat (nsub n 0 (fun _ => TIdle))) * M)
      by (apply Z.mul_nonneg_nonneg; lia). lia. }
  destruct HW as [_ W]. specialize (W _ _ E).
  pose proof (nsub_le n c (pcs (run (init lim tl) acts))). nia.
Qed.
End AllocProofs.

(** * C33: slots *)
Lemma slot_base_spec p : slot_base p mod 64 = 0 /\ p <= slot_base p < p + 64.
Proof.
  unfold slot_base. replace (p + 64 - 1) with (p + 63) by lia.
  assert (E : Z.land (p + 63) (Z.lnot 63) = (p + 63) - (p + 63) mod 64).
  { change 63 with (Z.ones 6) at 2. rewrite <- Z.ldiff_land, Z.ldiff_ones_r by lia.
    rewrite Z.shiftr_div_pow2, Z.shiftl_mul_pow2 by lia. change (2^6) with 64.
    pose proof (Z.div_mod (p + 63) 64). lia. }
  rewrite E. pose proof (Z.mod_pos_bound (p + 63) 64). split; [|lia].
  rewrite Zminus_mod, Zmod_mod, Z.sub_diag. auto.
Qed.
