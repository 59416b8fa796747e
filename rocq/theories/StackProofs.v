(** Proofs about the lock-free stack (Stack.v). *)
From Coq Require Import List Arith Lia Bool Permutation.
From Verif Require Import Stack.
Import ListNotations.

Section StackProofs.
Context {A : Type}.
Implicit Types s : @st A.

Lemma set_nth_length (l : list A) i x : length (set_nth l i x) = length l.
Proof. revert i; induction l; destruct i; simpl; auto. Qed.
Lemma firstn_set_nth (l : list A) i x n : n <= i -> firstn n (set_nth l i x) = firstn n l.
Proof.
  revert i n; induction l; destruct i, n; simpl; intros; auto; try lia.
  rewrite IHl; auto; lia.
Qed.
Lemma firstn_set_nth_S (l : list A) i x :
  i < length l -> firstn (S i) (set_nth l i x) = firstn i l ++ [x].
Proof.
  revert i; induction l; simpl; intros i H; [lia|].
  destruct i; simpl; auto. f_equal. apply IHl; lia.
Qed.
Lemma nth_error_set_nth_other (l : list A) i j x :
  i <> j -> nth_error (set_nth l i x) j = nth_error l j.
Proof.
  revert i j; induction l; destruct i, j; simpl; intros; auto; lia.
Qed.
Lemma firstn_S_nth (l : list A) n v :
  nth_error l n = Some v -> firstn (S n) l = firstn n l ++ [v].
Proof.
  revert n; induction l; destruct n; simpl; intros H; try discriminate.
  - congruence.
  - f_equal. apply IHl; auto.
Qed.

Definition curver s : nat :=
  match push s, top s with
  | UWriting _ ver _ _ _, _ => ver
  | UIdle, VAt _ ver => ver
  | UIdle, VNull => 0
  end.

Definition pop_inv s (p : ppc) : Prop :=
  match p with
  | PIdle => True
  | PHave n ver => 1 <= n /\ n <= length (cells s) /\ ver <= curver s
  | PRead n ver v => 1 <= n /\ n <= length (cells s) /\ ver <= curver s /\
      (top s = VAt n ver -> nth_error (cells s) (n - 1) = Some v)
  end.

Definition inv (sp : spec) s : Prop :=
  overflow s = false ->
  (forall t, pop_inv s (pops s t)) /\
  match push s with
  | UIdle => exists n ver, top s = VAt n ver /\ n <= length (cells s) /\
              sp = (rev (firstn n (cells s)), false)
  | UWriting n ver todo done b =>
      top s = VNull /\ n <= length (cells s) /\ length done <= n /\
      sp = (rev (firstn (n - length done) (cells s)), true) /\
      firstn n (cells s) = firstn (n - length done) (cells s) ++ rev done
  end.

Lemma pop_inv_mono s s' p :
  cells s' = cells s -> top s' = top s -> push s' = push s ->
  pop_inv s p -> pop_inv s' p.
Proof.
  intros E1 E2 E3. unfold pop_inv, curver. rewrite E1, E2, E3. auto.
Qed.

Lemma pop_snapshot_inv sp s t s' e :
  inv sp s -> pop_snapshot t s = (s', e) -> overflow s' = false ->
  exists sp', spec_run sp e sp' /\ inv sp' s'.
Proof.
  intros HI H Ho. unfold pop_snapshot in H.
  assert (Hos : overflow s = false).
  { destruct (top s) as [|[|n] ver]; inversion H; subst; auto. }
  destruct (HI Hos) as [Hp Hu].
  destruct (top s) as [|[|n] ver] eqn:Et; inversion H; subst; clear H; simpl in *.
  - exists sp. split.
    + econstructor; [|constructor].
      destruct (push s); [destruct Hu as (? & ? & ? & _); congruence|].
      destruct Hu as (_ & _ & _ & -> & _). constructor.
    + intros _; simpl. split; [|rewrite ?Et in *; exact Hu].
      intros u. unfold upd. destruct (Nat.eqb u t); [exact I|].
      eapply pop_inv_mono; [| | |apply Hp]; simpl; auto.
  - exists sp. split.
    + econstructor; [|constructor].
      destruct (push s).
      * destruct Hu as (n & v & E & _ & ->). inversion E; subst. simpl. constructor.
      * destruct Hu as (_ & _ & _ & -> & _). constructor.
    + intros _; simpl. split; [|rewrite ?Et in *; exact Hu].
      intros u. unfold upd. destruct (Nat.eqb u t); [exact I|].
      eapply pop_inv_mono; [| | |apply Hp]; simpl; auto.
  - exists sp. split; [constructor|].
    intros _; simpl. split; [|rewrite ?Et in *; exact Hu].
    intros u. unfold upd. destruct (Nat.eqb u t).
    + simpl. destruct (push s) eqn:Ep.
      * destruct Hu as (m & v & E & Hm & _). inversion E; subst.
        unfold curver; simpl. rewrite ?Ep; lia.
      * destruct Hu as (E & _). congruence.
    + eapply pop_inv_mono; [| | |apply Hp]; simpl; auto.
Qed.

Lemma overflow_mono a s s' e : step a s = Some (s', e) -> overflow s = true -> overflow s' = true.
Proof.
  unfold step, pop_snapshot; intros H Ho.
  repeat match type of H with
  | context [match ?x with _ => _ end] => destruct x
  end; inversion H; subst; auto.
Qed.

Lemma vptr_eqb_eq a b : vptr_eqb a b = true -> a = b.
Proof.
  destruct a, b; simpl; try discriminate; auto.
  intros H. apply andb_true_iff in H as [H1 H2].
  apply Nat.eqb_eq in H1, H2. congruence.
Qed.

Lemma step_inv sp a s s' e :
  inv sp s -> step a s = Some (s', e) -> overflow s' = false ->
  exists sp', spec_run sp e sp' /\ inv sp' s'.
Proof.
  intros HI H Ho.
  assert (Hos : overflow s = false).
  { destruct (overflow s) eqn:E; auto. rewrite (overflow_mono _ _ _ _ H E) in Ho; auto. }
  destruct (HI Hos) as [Hp Hu]. destruct a; simpl in H.
  - (* consumer *)
    pose proof (Hp t) as Ht. destruct (pops s t) eqn:Ept.
    + inversion H. eapply pop_snapshot_inv; eauto.
    + destruct (nth_error (cells s) (n - 1)) eqn:En; [|discriminate].
      inversion H; subst; clear H. exists sp; split; [constructor|].
      intros _; simpl in *. split; auto.
      intros u. unfold upd. destruct (Nat.eqb u t).
      * simpl. unfold curver; simpl. fold (curver s). intuition.
      * eapply pop_inv_mono; [| | |apply Hp]; simpl; auto.
    + destruct (vptr_eqb (top s) (VAt n ver)) eqn:Ev.
      2:{ inversion H. eapply pop_snapshot_inv; eauto. }
      apply vptr_eqb_eq in Ev. inversion H; subst; clear H.
      destruct Ht as (H1 & H2 & H3 & H4). specialize (H4 Ev).
      destruct (push s) eqn:Epush; [|destruct Hu; congruence].
      destruct Hu as (m & w & E & Hm & ->). rewrite Ev in E. inversion E; subst m w.
      destruct n as [|n]; [lia|]. replace (S n - 1) with n in * by lia.
      exists (rev (firstn n (cells s)), false). split.
      * econstructor; [|constructor].
        rewrite (firstn_S_nth _ _ _ H4), rev_app_distr. simpl. constructor.
      * intros _; simpl. split.
        -- intros u. unfold upd. destruct (Nat.eqb_spec u t); [exact I|].
           pose proof (Hp u) as Hpu. unfold pop_inv, curver in *; simpl.
           rewrite Epush, Ev in *. simpl in *.
           clear HI Hp. destruct (pops s u); auto; [lia|].
           destruct Hpu as (?&?&?&?). repeat split; try lia. intros EE; inversion EE; subst; lia.
        -- exists n, (S ver). repeat split; auto; lia.
  - (* buffer *)
    destruct (push s) eqn:Epush; [|discriminate].
    inversion H; subst; clear H. exists sp; split; [constructor|].
    intros _; simpl. split; auto.
    intros u. eapply pop_inv_mono; [| | |apply Hp]; simpl; auto.
  - destruct (push s) eqn:Epush; [|discriminate].
    destruct (top s) as [|n ver] eqn:Et; [discriminate|].
    inversion H; subst; clear H.
    destruct Hu as (m & w & E & Hm & ->). inversion E; subst m w.
    exists (rev (firstn n (cells s)), true). split.
    { econstructor; [|constructor]. constructor. }
    intros _; simpl. split.
    + intros u. pose proof (Hp u) as Hpu. unfold pop_inv, curver in *; simpl.
      rewrite Epush, Et in *. simpl in *.
      destruct (pops s u); auto. intuition. discriminate.
    + rewrite Nat.sub_0_r. repeat split; auto; try lia. rewrite app_nil_r; auto.
  - destruct (push s) eqn:Epush; [|discriminate].
    destruct (top s) as [|n ver] eqn:Et; [discriminate|].
    inversion H; subst; clear H.
    destruct Hu as (m & w & E & Hm & ->). inversion E; subst m w.
    exists (rev (firstn n (cells s)), true). split.
    { econstructor; [|constructor]. constructor. }
    intros _; simpl. split.
    + intros u. pose proof (Hp u) as Hpu. unfold pop_inv, curver in *; simpl.
      rewrite Epush, Et in *. simpl in *.
      destruct (pops s u); auto. intuition. discriminate.
    + rewrite Nat.sub_0_r. repeat split; auto; try lia. rewrite app_nil_r; auto.
  - destruct (push s) as [|n ver todo done b] eqn:Epush; [discriminate|].
    destruct Hu as (Et & Hn & Hd & -> & Hf).
    destruct todo as [|x todo].
    + inversion H; subst; clear H.
      exists (rev (firstn n (cells s)), false). split.
      { econstructor; [|constructor]. rewrite Hf, rev_app_distr, rev_involutive at 1.
        rewrite <- (rev_involutive done) at 3. constructor. }
      intros _; simpl. split.
      * intros u. pose proof (Hp u) as Hpu. unfold pop_inv, curver in *; simpl.
        rewrite Epush in *. simpl in *.
        clear HI Hp. destruct (pops s u); auto; [lia|].
        destruct Hpu as (?&?&?&?). repeat split; try lia. intros EE; inversion EE; subst; lia.
      * exists n, (S ver). auto.
    + destruct (Nat.ltb_spec n (length (cells s))).
      2:{ inversion H; subst. simpl in Ho; discriminate. }
      inversion H; subst; clear H.
      eexists. split; [constructor|].
      intros _; simpl. split.
      * intros u. pose proof (Hp u) as Hpu. unfold pop_inv, curver in *; simpl.
        rewrite Epush, Et, set_nth_length in *. simpl in *.
        destruct (pops s u); auto. intuition. discriminate.
      * rewrite set_nth_length. repeat split; auto; try lia.
        -- rewrite firstn_set_nth by lia. auto.
        -- change (firstn (S n) (set_nth (cells s) n x) =
              firstn (n - length done) (set_nth (cells s) n x) ++ rev done ++ [x]).
           rewrite firstn_set_nth_S by lia.
           rewrite firstn_set_nth by lia. rewrite Hf, <- app_assoc. auto.
Qed.

Lemma spec_run_app (s1 s2 s3 : @spec A) t1 t2 :
  spec_run s1 t1 s2 -> spec_run s2 t2 s3 -> spec_run s1 (t1 ++ t2) s3.
Proof. induction 1; simpl; intros; auto. econstructor; eauto. Qed.

Lemma run_overflow_mono acts s : overflow s = true -> overflow (fst (run s acts)) = true.
Proof.
  revert s; induction acts as [|a r IH]; simpl; auto. intros s H.
  destruct (step a s) as [[s' e]|] eqn:E; auto.
  specialize (IH s' (overflow_mono _ _ _ _ E H)).
  destruct (run s' r); auto.
Qed.

Lemma run_inv acts : forall sp s s' tr,
  inv sp s -> run s acts = (s', tr) -> overflow s' = false ->
  exists sp', spec_run sp tr sp' /\ inv sp' s'.
Proof.
  induction acts as [|a r IH]; simpl; intros sp s s' tr HI H Ho.
  - inversion H; subst. exists sp; split; auto. constructor.
  - destruct (step a s) as [[s1 e]|] eqn:E.
    + destruct (run s1 r) as [s2 tr2] eqn:E2. inversion H; subst.
      assert (overflow s1 = false).
      { destruct (overflow s1) eqn:E3; auto.
        pose proof (run_overflow_mono r s1 E3) as X. rewrite E2 in X. simpl in X. congruence. }
      destruct (step_inv _ _ _ _ _ HI E H0) as (sp1 & R1 & I1).
      destruct (IH _ _ _ _ I1 E2 Ho) as (sp2 & R2 & I2).
      exists sp2; split; auto. eapply spec_run_app; eauto.
    + eapply IH; eauto.
Qed.

Lemma init_inv (g : list A) : inv ([], false) (init g).
Proof.
  intros _; simpl. split; auto. exists 0, 0; simpl; repeat split; auto; lia.
Qed.

Lemma stack_linearizable g acts s tr :
  run (init g) acts = (s, tr) -> overflow s = false ->
  exists sp, spec_run ([], false) tr sp /\
    (push s = UIdle -> exists n ver, top s = VAt n ver /\
       fst sp = rev (firstn n (cells s))).
Proof.
  intros H Ho. destruct (run_inv acts _ _ _ _ (init_inv g) H Ho) as (sp & R & I).
  exists sp; split; auto. intros Hp. destruct (I Ho) as [_ I2]. rewrite Hp in I2.
  destruct I2 as (n & ver & E & _ & ->). exists n, ver; auto.
Qed.

Lemma spec_conservation (s1 s2 : @spec A) tr :
  spec_run s1 tr s2 ->
  Permutation (fst s1 ++ pushed tr) (popped tr ++ fst s2).
Proof.
  induction 1 as [s|s e s1 tr s2 Hs Hr IH]; simpl.
  - rewrite app_nil_r; auto.
  - inversion Hs; subst; simpl in *; auto.
    rewrite <- IH. rewrite (Permutation_app_comm (rev items) l), <- app_assoc.
    apply Permutation_app_head. apply Permutation_app_tail. apply Permutation_rev.
Qed.

(** Room: what the producer can still write. *)
Definition room_inv (extra : nat) s : Prop :=
  overflow s = false /\
  match push s with
  | UIdle => match top s with
             | VAt n _ => n + length (buffer s) + extra <= length (cells s)
             | VNull => False
             end
  | UWriting n ver todo done b =>
      n + length todo + (if b then 0 else length (buffer s)) + extra <= length (cells s)
  end.

Lemma room_step a r s s' e :
  room_inv (offered (a :: r)) s -> step a s = Some (s', e) -> room_inv (offered r) s'.
Proof.
  intros [Ho H] Hs. unfold room_inv.
  assert (Hsnap : forall t, let s1 := fst (pop_snapshot t s) in
     overflow s1 = overflow s /\ push s1 = push s /\ top s1 = top s /\
     buffer s1 = buffer s /\ cells s1 = cells s).
  { intros t; unfold pop_snapshot. destruct (top s) as [|[|n] ver] eqn:E; simpl; auto. }
  destruct a; simpl in *.
  - specialize (Hsnap t).
    destruct (pops s t).
    + inversion Hs as [Hs']. rewrite Hs' in Hsnap; simpl in Hsnap.
      destruct Hsnap as (-> & -> & -> & -> & ->); auto.
    + destruct (nth_error _ _); inversion Hs; subst; simpl; auto.
    + destruct (vptr_eqb (top s) (VAt n ver)) eqn:Ev.
      * apply vptr_eqb_eq in Ev. inversion Hs; subst; simpl. split; auto.
        rewrite Ev in H. destruct (push s); auto. lia.
      * inversion Hs as [Hs']. rewrite Hs' in Hsnap; simpl in Hsnap.
        destruct Hsnap as (-> & -> & -> & -> & ->); auto.
  - destruct (push s) eqn:Ep; inversion Hs; subst; simpl. split; auto.
    destruct (top s); auto. rewrite app_length; simpl; lia.
  - destruct (push s) eqn:Ep; [|discriminate].
    destruct (top s) eqn:Et; inversion Hs; subst; simpl. split; auto. lia.
  - destruct (push s) eqn:Ep; [|discriminate].
    destruct (top s) eqn:Et; inversion Hs; subst; simpl. split; auto. lia.
  - destruct (push s) as [|n ver todo done b] eqn:Ep; [discriminate|].
    destruct todo as [|x todo].
    + inversion Hs; subst; simpl in *. split; auto. destruct b; simpl; lia.
    + simpl in H. destruct (Nat.ltb_spec n (length (cells s))).
      * inversion Hs; subst; simpl. rewrite set_nth_length. split; auto. lia.
      * lia.
Qed.

Lemma room_skip (a : @act A) r s : room_inv (offered (a :: r)) s -> room_inv (offered r) s.
Proof.
  assert (offered r <= offered (a :: r)) by (destruct a; simpl; lia).
  unfold room_inv. intros [H1 H2]; split; auto.
  destruct (push s); [destruct (top s)|]; auto; lia.
Qed.

Lemma room_run (acts : list (@act A)) : forall s, room_inv (offered acts) s -> overflow (fst (run s acts)) = false.
Proof.
  induction acts as [|a r IH]; intros s H.
  - apply H.
  - simpl. destruct (step a s) as [[s' e]|] eqn:E.
    + specialize (IH s' (room_step _ _ _ _ _ H E)). destruct (run s' r); auto.
    + apply IH. eapply room_skip; eauto.
Qed.

Lemma stack_no_overflow (g : list A) acts :
  offered acts <= length g -> overflow (fst (run (init g) acts)) = false.
Proof. intros H. apply room_run. split; simpl; auto. Qed.

Lemma stack_conservation g acts s tr :
  run (init g) acts = (s, tr) -> overflow s = false -> push s = UIdle ->
  exists n ver, top s = VAt n ver /\
    Permutation (pushed tr) (popped tr ++ firstn n (cells s)).
Proof.
  intros H Ho Hp. destruct (stack_linearizable _ _ _ _ H Ho) as (sp & R & Hsp).
  destruct (Hsp Hp) as (n & ver & E & E2). exists n, ver; split; auto.
  apply spec_conservation in R. simpl in R. rewrite R, E2.
  apply Permutation_app_head. symmetry. apply Permutation_rev.
Qed.
End StackProofs.
