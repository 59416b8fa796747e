(** Proofs about iterator buffers (IterRef.v). *)
From Coq Require Import List Arith Lia Bool.
From Verif Require Import Epoch EpochProofs IterRef.
Import ListNotations.

Definition holds (c : nat) (v : ivar) : bool :=
  match v with VCtx d => Nat.eqb c d | _ => false end.
(** Number of iterators that hold context [c]. *)
Definition refs (c : nat) (vs : list ivar) : nat := length (filter (holds c) vs).
Definition b2n (b : bool) : nat := if b then 1 else 0.

Lemma refs_app c a b : refs c (a ++ b) = refs c a + refs c b.
Proof. unfold refs. rewrite filter_app, app_length. auto. Qed.
Lemma refs_set c vs i x y : nth_error vs i = Some y ->
  refs c (set_nth vs i x) + b2n (holds c y) = refs c vs + b2n (holds c x).
Proof.
  revert i; induction vs as [|z vs IH]; intros i H; [destruct i; discriminate|].
  destruct i; simpl in *.
  - inversion H; subst. unfold refs; simpl. destruct (holds c x), (holds c y); simpl; lia.
  - specialize (IH _ H). unfold refs in *; simpl. destruct (holds c z); simpl; lia.
Qed.
Lemma refs_pos c vs i : nth_error vs i = Some (VCtx c) -> 1 <= refs c vs.
Proof.
  revert i; induction vs as [|z vs IH]; intros i H; [destruct i; discriminate|].
  destruct i; simpl in *.
  - inversion H; subst. unfold refs; simpl. rewrite Nat.eqb_refl. simpl; lia.
  - specialize (IH _ H). unfold refs in *; simpl. destruct (holds c z); simpl; lia.
Qed.

(** [lk c]: references counted but held by nobody. *)
Definition inv (lk : nat -> nat) (s : st) : Prop :=
  (forall c x, nth_error (ctxs s) c = Some x ->
     rc x = refs c (vars s) + lk c /\ live x = negb (Nat.eqb (rc x) 0)) /\
  (forall c, length (ctxs s) <= c -> refs c (vars s) = 0 /\ lk c = 0).

Definition cinv (f : nat -> nat) (cs : list ctx) : Prop :=
  (forall c x, nth_error cs c = Some x -> rc x = f c /\ live x = negb (Nat.eqb (rc x) 0)) /\
  (forall c, length cs <= c -> f c = 0).

Lemma inv_cinv lk s : inv lk s <-> cinv (fun c => refs c (vars s) + lk c) (ctxs s).
Proof.
  split; intros [H1 H2]; split; auto; intros c Hc.
  - destruct (H2 c Hc); lia.
  - specialize (H2 c Hc). simpl in H2. lia.
Qed.

Lemma inc_ok f cs c : cinv f cs -> 0 < f c ->
  exists cs', inc_ref cs c = Ok cs' /\ cinv (fun d => f d + b2n (Nat.eqb d c)) cs'.
Proof.
  intros [H1 H2] Hf.
  assert (Hc : c < length cs) by (destruct (Nat.lt_ge_cases c (length cs)); auto; specialize (H2 c H); lia).
  destruct (nth_error cs c) as [x|] eqn:E; [|apply nth_error_None in E; lia].
  destruct (H1 _ _ E) as [Hr Hl]. unfold inc_ref. rewrite E, Hl.
  destruct (Nat.eqb_spec (rc x) 0); [lia|]. simpl. eexists; split; [reflexivity|]. split.
  - intros d y. destruct (Nat.eq_dec c d) as [<-|Hn].
    + rewrite nth_set_same by auto. intros X; inversion X; subst; simpl. rewrite Nat.eqb_refl.
      simpl; split; [lia|auto].
    + rewrite nth_set_other by auto. intros X. destruct (H1 _ _ X).
      destruct (Nat.eqb_spec d c); [congruence|]. simpl. split; auto. lia.
  - rewrite set_nth_length. intros d Hd. rewrite H2 by auto. destruct (Nat.eqb_spec d c); simpl; lia.
Qed.

Lemma dec_ok f cs c : cinv f cs -> 0 < f c ->
  exists cs', dec_ref cs c = Ok cs' /\ cinv (fun d => f d - b2n (Nat.eqb d c)) cs'.
Proof.
  intros [H1 H2] Hf.
  assert (Hc : c < length cs) by (destruct (Nat.lt_ge_cases c (length cs)); auto; specialize (H2 c H); lia).
  destruct (nth_error cs c) as [x|] eqn:E; [|apply nth_error_None in E; lia].
  destruct (H1 _ _ E) as [Hr Hl]. unfold dec_ref. rewrite E, Hl.
  destruct (Nat.eqb_spec (rc x) 0); [lia|]. simpl. destruct (rc x) as [|n0] eqn:Er; [lia|].
  eexists; split; [reflexivity|]. split.
  - intros d y. destruct (Nat.eq_dec c d) as [<-|Hn].
    + rewrite nth_set_same by auto. intros X; inversion X; subst; simpl. rewrite Nat.eqb_refl.
      simpl; split; [lia|auto].
    + rewrite nth_set_other by auto. intros X. destruct (H1 _ _ X).
      destruct (Nat.eqb_spec d c); [congruence|]. simpl. split; auto. lia.
  - rewrite set_nth_length. intros d Hd. rewrite H2 by auto. lia.
Qed.

Lemma get_ok f cs cs' n : cinv f cs -> get_ctx cs = (cs', n) ->
  cinv (fun d => f d + b2n (Nat.eqb d n)) cs'.
Proof.
  intros [H1 H2] E. unfold get_ctx in E; inversion E; subst. split.
  - intros d y. destruct (Nat.lt_ge_cases d (length cs)) as [Hd|Hd].
    + rewrite nth_error_app1 by auto. intros X. destruct (H1 _ _ X).
      destruct (Nat.eqb_spec d (length cs)); [lia|]. simpl. split; auto. lia.
    + rewrite nth_error_app2 by auto. intros X.
      assert (d = length cs) by (destruct (d - length cs) eqn:Ed; [lia|]; destruct n; discriminate). subst d.
      rewrite Nat.sub_diag in X. simpl in X. inversion X; subst; simpl. rewrite Nat.eqb_refl.
      rewrite H2 by auto. auto.
  - rewrite app_length; simpl. intros d Hd. rewrite H2 by lia. destruct (Nat.eqb_spec d (length cs)); simpl; lia.
Qed.

Lemma cinv_ext f g cs : cinv f cs -> (forall c, f c = g c) -> cinv g cs.
Proof. intros [H1 H2] E. split; intros; rewrite <- E; auto. Qed.

(** Does the operation overwrite a non-null iterator by move assignment? *)
Definition leaky (s : st) (o : op) : bool :=
  match o with
  | OMove v w => negb (Nat.eqb v w) && match nth_error (vars s) v with Some (VCtx _) => true | _ => false end
  | _ => false
  end.

Lemma set_set_refs c vs v w b a : v <> w -> nth_error vs v = Some a -> nth_error vs w = Some b ->
  refs c (set_nth (set_nth vs v b) w VNull) + b2n (holds c a) = refs c vs.
Proof.
  intros Hn Ha Hb.
  pose proof (refs_set c (set_nth vs v b) w VNull b) as H1. rewrite nth_set_other in H1 by auto.
  specialize (H1 Hb). pose proof (refs_set c vs v b a Ha) as H2. simpl in *. lia.
Qed.

Lemma copy_inv lk s w s' : inv lk s -> copy_var s w = Ok s' -> inv lk s'.
Proof.
  intros HI H. apply inv_cinv in HI. apply inv_cinv. unfold copy_var in H.
  destruct (nth_error (vars s) w) as [[| |c]|] eqn:E; try discriminate.
  pose proof (refs_pos _ _ _ E). destruct (inc_ok _ _ c HI) as (cs' & Ei & HI'); [lia|].
  rewrite Ei in H. inversion H; subst; simpl. eapply cinv_ext; eauto. intros d; simpl.
  rewrite refs_app. unfold refs at 3; simpl. destruct (Nat.eqb d c); simpl; lia.
Qed.

Lemma load_inv lk s w s' : inv lk s -> load_var s w = Ok s' -> inv lk s'.
Proof.
  intros HI H. apply inv_cinv in HI. apply inv_cinv. unfold load_var in H.
  destruct (nth_error (vars s) w) as [[| |c]|] eqn:E; try discriminate.
  - destruct (get_ctx (ctxs s)) as [cs' n] eqn:Eg. pose proof (get_ok _ _ _ _ HI Eg) as HI'.
    inversion H; subst; simpl. eapply cinv_ext; eauto. intros d; simpl.
    pose proof (refs_set d _ _ (VCtx n) _ E) as R. simpl in R. lia.
  - pose proof (refs_pos _ _ _ E). destruct (dec_ok _ _ c HI) as (cs' & Ei & HI'); [lia|].
    rewrite Ei in H. destruct (get_ctx cs') as [cs2 n] eqn:Eg. pose proof (get_ok _ _ _ _ HI' Eg) as HI2.
    inversion H; subst; simpl. eapply cinv_ext; eauto. intros d; simpl.
    pose proof (refs_set d _ _ (VCtx n) _ E) as R. simpl in R.
    destruct (Nat.eqb_spec d c); subst; simpl in *; lia.
Qed.

Lemma copy_err lk s w e : inv lk s -> copy_var s w = Er e -> e <> EFreed.
Proof.
  intros HI H. apply inv_cinv in HI. unfold copy_var in H.
  destruct (nth_error (vars s) w) as [[| |c]|] eqn:E; try (inversion H; discriminate).
  pose proof (refs_pos _ _ _ E). destruct (inc_ok _ _ c HI) as (cs' & Ei & _); [lia|].
  rewrite Ei in H; discriminate.
Qed.
Lemma load_err lk s w e : inv lk s -> load_var s w = Er e -> e <> EFreed.
Proof.
  intros HI H. apply inv_cinv in HI. unfold load_var in H.
  destruct (nth_error (vars s) w) as [[| |c]|] eqn:E; try (inversion H; discriminate).
  pose proof (refs_pos _ _ _ E). destruct (dec_ok _ _ c HI) as (cs' & Ei & _); [lia|].
  rewrite Ei in H; discriminate.
Qed.

Lemma step_ok lk s o : inv lk s ->
  match step s o with
  | Ok s' => exists lk', inv lk' s' /\ (leaky s o = false -> forall c, lk' c = lk c)
  | Er e => e <> EFreed
  end.
Proof.
  intros HI. pose proof (proj1 (inv_cinv _ _) HI) as HC.
  destruct o as [| |w|v w|v w|v|v mv|v]; cbn [step].
  - exists lk. split; auto. apply inv_cinv. eapply cinv_ext; eauto. intros c; simpl.
    rewrite refs_app. unfold refs at 3; simpl. lia.
  - destruct (get_ctx (ctxs s)) as [cs' n] eqn:Eg. exists lk. split; auto. apply inv_cinv.
    eapply cinv_ext; [eapply get_ok; eauto|]. intros d; simpl. rewrite refs_app.
    unfold refs at 3; simpl. destruct (Nat.eqb d n); simpl; lia.
  - destruct (copy_var s w) eqn:E; [exists lk; split; auto; eapply copy_inv; eauto|eapply copy_err; eauto].
  - destruct (Nat.eqb_spec v w) as [->|Hn]; [exists lk; auto|].
    destruct (nth_error (vars s) v) as [[| |c]|] eqn:Ev; try discriminate;
    destruct (nth_error (vars s) w) as [[| |d]|] eqn:Ew; try discriminate.
    + pose proof (refs_pos _ _ _ Ew). destruct (inc_ok _ _ d HC) as (cs' & Ei & HI'); [lia|].
      rewrite Ei. exists lk. split; auto. apply inv_cinv. simpl.
      eapply cinv_ext; eauto. intros e; simpl. pose proof (refs_set e _ _ (VCtx d) _ Ev) as R. simpl in R. lia.
    + pose proof (refs_pos _ _ _ Ev). destruct (dec_ok _ _ c HC) as (cs' & Ei & HI'); [lia|].
      rewrite Ei. discriminate.
    + pose proof (refs_pos _ _ _ Ev). destruct (dec_ok _ _ c HC) as (cs' & Ei & HI'); [lia|].
      rewrite Ei.
      assert (Hd : 0 < refs d (vars s) + lk d - b2n (Nat.eqb d c)).
      { pose proof (refs_pos _ _ _ Ew). destruct (Nat.eqb_spec d c); simpl; [|lia]. subst d.
        pose proof (refs_set c _ _ VNull _ Ev) as R. simpl in R. rewrite Nat.eqb_refl in R. simpl in R.
        assert (1 <= refs c (set_nth (vars s) v VNull)).
        { eapply refs_pos. rewrite nth_set_other; eauto. }
        lia. }
      destruct (inc_ok _ _ d HI' Hd) as (cs2 & Ei2 & HI2). rewrite Ei2.
      exists lk. split; auto. apply inv_cinv. simpl.
      eapply cinv_ext; eauto. intros e; simpl. pose proof (refs_set e _ _ (VCtx d) _ Ev) as R. simpl in R.
      destruct (Nat.eqb_spec e c); subst; simpl in *; lia.
  - destruct (Nat.eqb_spec v w) as [->|Hn]; [exists lk; auto|].
    destruct (nth_error (vars s) v) as [a|] eqn:Ev;
      [|destruct (nth_error (vars s) w) as [[]|]; discriminate].
    destruct a as [| |c]; [destruct (nth_error (vars s) w) as [[]|]; discriminate| |].
    + destruct (nth_error (vars s) w) as [b|] eqn:Ew; try discriminate.
      assert (Hr : forall c, refs c (set_nth (set_nth (vars s) v b) w VNull) = refs c (vars s)).
      { intros c. pose proof (set_set_refs c _ _ _ _ _ Hn Ev Ew) as R. simpl in R. lia. }
      destruct b; try discriminate; exists lk; (split; [|auto]); apply inv_cinv;
        (eapply cinv_ext; [exact HC|]); intros e; cbn [vars]; rewrite Hr; auto.
    + destruct (nth_error (vars s) w) as [b|] eqn:Ew; try discriminate.
      assert (Hr : forall e, refs e (set_nth (set_nth (vars s) v b) w VNull) + b2n (Nat.eqb e c) = refs e (vars s)).
      { intros e. pose proof (set_set_refs e _ _ _ _ _ Hn Ev Ew) as R. simpl in R. lia. }
      destruct b; try discriminate; exists (fun e => lk e + b2n (Nat.eqb e c));
        (split; [|unfold leaky; rewrite Ev; destruct (Nat.eqb_spec v w); [congruence|discriminate]]); apply inv_cinv;
        (eapply cinv_ext; [exact HC|]); intros e; cbn [vars]; rewrite <- (Hr e); lia.
  - destruct (load_var s v) eqn:E; [exists lk; split; auto; eapply load_inv; eauto|eapply load_err; eauto].
  - destruct (copy_var s v) eqn:E; [|eapply copy_err; eauto].
    pose proof (copy_inv _ _ _ _ HI E) as HI1. destruct mv; [|exists lk; auto].
    destruct (load_var a v) eqn:E2; [exists lk; split; auto; eapply load_inv; eauto|eapply load_err; eauto].
  - destruct (nth_error (vars s) v) as [[| |c]|] eqn:Ev; try discriminate.
    + exists lk. split; auto. apply inv_cinv. eapply cinv_ext; eauto. intros e; simpl.
      pose proof (refs_set e _ _ VDead _ Ev) as R. simpl in R. lia.
    + pose proof (refs_pos _ _ _ Ev). destruct (dec_ok _ _ c HC) as (cs' & Ei & HI'); [lia|].
      rewrite Ei. exists lk. split; auto. apply inv_cinv. eapply cinv_ext; eauto. intros e; simpl.
      pose proof (refs_set e _ _ VDead _ Ev) as R. simpl in R. destruct (Nat.eqb_spec e c); subst; simpl in *; lia.
Qed.

(** Programs that never move-assign onto a non-null iterator. *)
Fixpoint no_leaky (s : st) (l : list op) : bool :=
  match l with
  | [] => true
  | o :: r => negb (leaky s o) && match step s o with Ok s' => no_leaky s' r | Er _ => true end
  end.

Lemma run_ok l : forall lk s, inv lk s ->
  match run s l with
  | Ok s' => exists lk', inv lk' s' /\ (no_leaky s l = true -> forall c, lk' c = lk c)
  | Er e => e <> EFreed
  end.
Proof.
  induction l as [|o r IH]; intros lk s HI; simpl; [exists lk; auto|].
  pose proof (step_ok lk s o HI) as H. destruct (step s o) as [s'|e]; auto.
  destruct H as (lk' & HI' & Hl). specialize (IH lk' s' HI'). destruct (run s' r); auto.
  destruct IH as (lk2 & HI2 & Hl2). exists lk2. split; auto.
  intros H. apply andb_true_iff in H as [Ha Hb]. intros c. rewrite Hl2 by auto. apply Hl.
  destruct (leaky s o); auto; discriminate.
Qed.

Lemma init_ok : inv (fun _ => 0) init.
Proof. split; simpl; auto. intros [|c] x; discriminate. Qed.

(** Never released early or twice, whatever the program does. *)
Lemma iter_safe l : run init l <> Er EFreed.
Proof.
  pose proof (run_ok l _ _ init_ok) as H. intros E. rewrite E in H. auto.
Qed.
Lemma iter_held l s : run init l = Ok s ->
  forall v c, nth_error (vars s) v = Some (VCtx c) -> exists x, nth_error (ctxs s) c = Some x /\ live x = true.
Proof.
  intros E v c Hv. pose proof (run_ok l _ _ init_ok) as H. rewrite E in H.
  destruct H as (lk & [H1 H2] & _). pose proof (refs_pos _ _ _ Hv) as Hp.
  destruct (nth_error (ctxs s) c) as [x|] eqn:Ex.
  - exists x. split; auto. destruct (H1 _ _ Ex) as [Hr ->]. destruct (Nat.eqb_spec (rc x) 0); auto. lia.
  - apply nth_error_None in Ex. destruct (H2 _ Ex). lia.
Qed.
(** Not leaked when no move assignment overwrites a non-null iterator. *)
Lemma iter_no_leak l s : run init l = Ok s -> no_leaky init l = true ->
  forall c x, nth_error (ctxs s) c = Some x -> live x = true -> exists v, nth_error (vars s) v = Some (VCtx c).
Proof.
  intros E Hn c x Hx Hl. pose proof (run_ok l _ _ init_ok) as H. rewrite E in H.
  destruct H as (lk & [H1 H2] & H3). destruct (H1 _ _ Hx) as [Hr Hl2].
  rewrite H3, Nat.add_0_r in Hr by auto.
  assert (Hpos : refs c (vars s) <> 0).
  { intros X. rewrite Hr, X in Hl2. simpl in Hl2. congruence. }
  unfold refs in Hpos. destruct (filter (holds c) (vars s)) as [|v vs] eqn:Ef; [simpl in Hpos; lia|].
  assert (Hin : In v (filter (holds c) (vars s))) by (rewrite Ef; simpl; auto).
  apply filter_In in Hin as [Hin Hh]. apply In_nth_error in Hin as (i & Hi). exists i.
  destruct v; simpl in Hh; try discriminate. apply Nat.eqb_eq in Hh. subst. auto.
Qed.
