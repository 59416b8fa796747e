(** Invariant of the reader-writer lock. *)
From Coq Require Import List Arith ZArith Lia Bool.
From Verif Require Import Spinlock.
Import ListNotations.

Lemma upd_same {A} (f : nat -> A) t x : upd f t x t = x.
Proof. unfold upd. rewrite Nat.eqb_refl. auto. Qed.
Lemma upd_other {A} (f : nat -> A) t x u : u <> t -> upd f t x u = f u.
Proof. unfold upd. intros H. apply Nat.eqb_neq in H. rewrite H. auto. Qed.

(** * Counting threads *)
Definition cnt (n : nat) (f : pc -> bool) (g : nat -> thr) : nat := length (filter (fun t => f (at_ (g t))) (seq 0 n)).
Definition one (b : bool) : nat := if b then 1 else 0.

Lemma cnt_in f g t : forall n, t < n -> one (f (at_ (g t))) <= cnt n f g.
Proof.
  intros n Ht. unfold cnt, one. destruct (f (at_ (g t))) eqn:E; [|lia].
  assert (H : In t (filter (fun t => f (at_ (g t))) (seq 0 n))) by (apply filter_In; split; auto; apply in_seq; lia).
  destruct (filter _ _); [destruct H|simpl; lia].
Qed.
Lemma cnt_two f g t u n : t < n -> u < n -> t <> u -> f (at_ (g t)) = true -> f (at_ (g u)) = true -> 2 <= cnt n f g.
Proof.
  intros Ht Hu Hne Et Eu. unfold cnt.
  assert (Hi : incl [t; u] (filter (fun t => f (at_ (g t))) (seq 0 n))) by (intros y [<-|[<-|[]]]; apply filter_In; split; auto; apply in_seq; lia).
  apply NoDup_incl_length in Hi; auto. repeat constructor; simpl; intuition.
Qed.
Lemma cnt_ext n f g g' : (forall t, t < n -> f (at_ (g t)) = f (at_ (g' t))) -> cnt n f g = cnt n f g'.
Proof. intros H. unfold cnt. f_equal. apply filter_ext_in. intros t Ht. apply in_seq in Ht. apply H. lia. Qed.
Lemma cnt_upd f g t x : forall n, t < n -> cnt n f (upd g t x) + one (f (at_ (g t))) = cnt n f g + one (f (at_ x)).
Proof.
  induction n as [|n IH]; intros Ht; [lia|]. unfold cnt in *. rewrite seq_S, !filter_app, !app_length. simpl.
  destruct (Nat.eq_dec t n) as [->|Hn].
  - rewrite upd_same. assert (E : cnt n f (upd g n x) = cnt n f g) by (apply cnt_ext; intros u Hu; rewrite upd_other by lia; auto).
    unfold cnt in E. rewrite E. unfold one. destruct (f (at_ (g n))), (f (at_ x)); simpl; lia.
  - rewrite upd_other by auto. specialize (IH ltac:(lia)). lia.
Qed.
Lemma cnt_idle f n : f Idle = false -> cnt n f (fun _ => thr0) = 0.
Proof. intros H. unfold cnt. simpl. rewrite H. induction (seq 0 n); auto. Qed.
Lemma cnt_pos f g n : 0 < cnt n f g -> exists t, t < n /\ f (at_ (g t)) = true.
Proof.
  unfold cnt. intros H. destruct (filter _ _) as [|t l] eqn:E; [simpl in H; lia|]. exists t.
  assert (Hi : In t (filter (fun t => f (at_ (g t))) (seq 0 n))) by (rewrite E; left; auto). apply filter_In in Hi as [Hi Hf]. apply in_seq in Hi. split; auto. lia.
Qed.

(** * The invariant *)
Definition know (x : thr) (i : nat) : Prop := match at_ x with RUCas _ | WUCas _ => In i (rel x) | _ => In i (cur x) end.
Definition learnt (x : thr) (i : nat) : Prop := match at_ x with RFence | WFence => In i (acq x) | _ => In i (cur x) end.
Definition locok (x : thr) : Prop :=
  incl (rel x) (cur x) /\
  match at_ x with
  | RCas e => (0 <= e)%Z
  | WCas e => e = UNLOCK
  | RUFence e | RUCas e => (0 < e)%Z
  | WUFence e | WUCas e => e = WRITE_LOCK
  | Failed => False
  | _ => True
  end.
Definition rds (n : nat) (s : st) : nat := cnt n reading (ths s).
Definition wrs (n : nat) (s : st) : nat := cnt n writing (ths s).

Record inv (n : nat) (fx : bool) (s : st) : Prop := {
  i_pos : forall t, pos (ths s t) < length (hist s);
  i_out : forall t, n <= t -> at_ (ths s t) = Idle;
  i_val : (wrs n s = 0 /\ val (top s) = Z.of_nat (rds n s)) \/ (wrs n s = 1 /\ rds n s = 0 /\ val (top s) = WRITE_LOCK);
  i_loc : forall t, locok (ths s t);
  i_rd : forall t j m, reading (at_ (ths s t)) = true -> pos (ths s t) <= j -> nth_error (hist s) j = Some m -> (0 < val m)%Z;
  i_wr : forall t j m, writing (at_ (ths s t)) = true -> pos (ths s t) <= j -> nth_error (hist s) j = Some m -> val m = WRITE_LOCK;
  i_sw : forall i, nth_error (log s) i = Some true -> In i (view (top s)) \/ exists t, writing (at_ (ths s t)) = true /\ know (ths s t) i;
  i_sa : forall i, i < length (log s) -> In i (view (top s)) \/ exists t, reading (at_ (ths s t)) || writing (at_ (ths s t)) = true /\ know (ths s t) i;
  i_r : forall t i, reading (at_ (ths s t)) = true -> nth_error (log s) i = Some true -> learnt (ths s t) i;
  i_w : forall t i, fx = true -> writing (at_ (ths s t)) = true -> i < length (log s) -> learnt (ths s t) i }.

Lemma inv_init n fx : inv n fx init.
Proof.
  split; simpl; auto; try discriminate; try lia.
  - left. unfold wrs, rds. simpl. rewrite !cnt_idle by auto. auto.
  - intros t. split; simpl; auto. apply incl_refl.
  - intros i H. destruct i; discriminate.
Qed.

Lemma holds_lt n fx s t : inv n fx s -> reading (at_ (ths s t)) || writing (at_ (ths s t)) = true -> t < n.
Proof. intros I H. destruct (Nat.lt_ge_cases t n) as [Hl|Hl]; auto. rewrite (i_out _ _ _ I t Hl) in H. discriminate. Qed.
Lemma rd_wr n fx s t u : inv n fx s -> reading (at_ (ths s t)) = true -> writing (at_ (ths s u)) = true -> False.
Proof.
  intros I Ht Hu. pose proof (holds_lt n fx s t I ltac:(rewrite Ht; auto)) as Lt. pose proof (holds_lt n fx s u I ltac:(rewrite Hu; apply orb_true_r)) as Lu.
  pose proof (cnt_in reading (ths s) t n Lt) as A. pose proof (cnt_in writing (ths s) u n Lu) as B. rewrite Ht in A. rewrite Hu in B. unfold one in *.
  pose proof (i_val _ _ _ I). unfold rds, wrs in *. lia.
Qed.
Lemma wr_wr n fx s t u : inv n fx s -> writing (at_ (ths s t)) = true -> writing (at_ (ths s u)) = true -> t = u.
Proof.
  intros I Ht Hu. destruct (Nat.eq_dec t u) as [|Hn]; auto. exfalso.
  pose proof (holds_lt n fx s t I ltac:(rewrite Ht; apply orb_true_r)) as Lt. pose proof (holds_lt n fx s u I ltac:(rewrite Hu; apply orb_true_r)) as Lu.
  pose proof (cnt_two writing (ths s) t u n Lt Lu Hn Ht Hu) as B. pose proof (i_val _ _ _ I). unfold wrs in *. lia.
Qed.

(** Steps that write neither the lock word nor the log. *)
Lemma inv_local n fx s t x : inv n fx s -> t < n ->
  pos (ths s t) <= pos x < length (hist s) ->
  reading (at_ x) = reading (at_ (ths s t)) -> writing (at_ x) = writing (at_ (ths s t)) -> locok x ->
  (forall i, know (ths s t) i -> know x i) ->
  (reading (at_ x) = true \/ fx = true -> forall i, learnt (ths s t) i -> learnt x i) ->
  inv n fx (set_t s t x).
Proof.
  intros I Ht Hp Er Ew Hl Hk Hn.
  assert (Cr : rds n (set_t s t x) = rds n s) by (unfold rds; simpl; pose proof (cnt_upd reading (ths s) t x n Ht); rewrite Er in *; lia).
  assert (Cw : wrs n (set_t s t x) = wrs n s) by (unfold wrs; simpl; pose proof (cnt_upd writing (ths s) t x n Ht); rewrite Ew in *; lia).
  split.
  - intros u. simpl. destruct (Nat.eq_dec u t) as [->|Hu]; [rewrite upd_same; lia|rewrite upd_other by auto; apply (i_pos _ _ _ I)].
  - intros u Hu. simpl. rewrite upd_other by lia. apply (i_out _ _ _ I); auto.
  - rewrite Cr, Cw. apply (i_val _ _ _ I).
  - intros u. simpl. destruct (Nat.eq_dec u t) as [->|Hu]; [rewrite upd_same; auto|rewrite upd_other by auto; apply (i_loc _ _ _ I)].
  - intros u j m. simpl. destruct (Nat.eq_dec u t) as [->|Hu]; [rewrite upd_same|rewrite upd_other by auto; apply (i_rd _ _ _ I)].
    rewrite Er. intros A B. apply (i_rd _ _ _ I t); auto. lia.
  - intros u j m. simpl. destruct (Nat.eq_dec u t) as [->|Hu]; [rewrite upd_same|rewrite upd_other by auto; apply (i_wr _ _ _ I)].
    rewrite Ew. intros A B. apply (i_wr _ _ _ I t); auto. lia.
  - intros i Hi. destruct (i_sw _ _ _ I i Hi) as [A|(u & A & B)]; [left; auto|right; exists u]. simpl.
    destruct (Nat.eq_dec u t) as [->|Hu]; [rewrite upd_same, Ew; auto|rewrite upd_other by auto; auto].
  - intros i Hi. destruct (i_sa _ _ _ I i Hi) as [A|(u & A & B)]; [left; auto|right; exists u]. simpl.
    destruct (Nat.eq_dec u t) as [->|Hu]; [rewrite upd_same, Ew, Er; auto|rewrite upd_other by auto; auto].
  - intros u i. simpl. destruct (Nat.eq_dec u t) as [->|Hu]; [rewrite upd_same|rewrite upd_other by auto; apply (i_r _ _ _ I)].
    intros A B. apply Hn; auto. apply (i_r _ _ _ I); auto. congruence.
  - intros u i Hf. simpl. destruct (Nat.eq_dec u t) as [->|Hu]; [rewrite upd_same|rewrite upd_other by auto; apply (i_w _ _ _ I); auto].
    intros A B. apply Hn; auto. apply (i_w _ _ _ I); auto. congruence.
Qed.

(** A relaxed load. *)
Lemma inv_look n fx s t j v x p : inv n fx s -> t < n -> load s (ths s t) j = Some (v, x) ->
  reading p = reading (at_ (ths s t)) -> writing p = writing (at_ (ths s t)) -> locok (goto x p) ->
  (forall i, know (ths s t) i -> know (goto x p) i) -> (forall i, learnt (ths s t) i -> learnt (goto x p) i) ->
  inv n fx (set_t s t (goto x p)).
Proof.
  intros I Ht Hl Er Ew Ho Hk Hn. unfold load in Hl. destruct (Nat.leb_spec (pos (ths s t)) j); [|discriminate].
  destruct (nth_error (hist s) j) as [m|] eqn:E; [|discriminate]. injection Hl as <- <-.
  apply inv_local; auto. simpl. split; auto. apply nth_error_Some. congruence.
Qed.
Lemma load_val s x j v x' : load s x j = Some (v, x') -> exists m, nth_error (hist s) j = Some m /\ pos x <= j /\ val m = v.
Proof.
  unfold load. destruct (Nat.leb_spec (pos x) j); [|discriminate]. destruct (nth_error (hist s) j) as [m|]; [|discriminate]. intros [= <- <-]. eauto.
Qed.

(** The successful compare-exchange of [t]. *)
Lemma top_app s h m : hist s = h ++ [m] -> top s = m.
Proof. intros H. unfold top. rewrite H. apply last_last. Qed.
Lemma nth_snoc {A} (l : list A) y j x : nth_error (l ++ [y]) j = Some x -> nth_error l j = Some x \/ (j = length l /\ x = y).
Proof.
  intros H. destruct (Nat.lt_ge_cases j (length l)) as [Hl|Hl]; [rewrite nth_error_app1 in H; auto|].
  rewrite nth_error_app2 in H by auto. destruct (j - length l) as [|k] eqn:E; [|destruct k; discriminate]. simpl in H. injection H as <-. right. split; auto. lia.
Qed.

Lemma inv_cas n fx s t e d p s' : inv n fx s -> t < n -> cas s t e d p = Some s' ->
  match at_ (ths s t), p with
  | RCas e0, RFence => e0 = e /\ d = (1 + e)%Z
  | RUCas e0, Idle => e0 = e /\ d = (e - 1)%Z
  | WCas e0, WFence => e0 = e /\ d = WRITE_LOCK
  | WUCas e0, Idle => e0 = e /\ d = UNLOCK
  | _, _ => False
  end -> inv n fx s'.
Proof.
  intros I Ht Hc Hp. unfold cas in Hc. destruct (Z.eqb_spec (val (top s)) e) as [Ev|]; [|discriminate]. injection Hc as <-.
  set (x := {| at_ := p; pos := length (hist s); cur := cur (ths s t); acq := view (top s) ++ acq (ths s t); rel := rel (ths s t) |}).
  set (m := {| val := d; view := rel (ths s t) ++ view (top s) |}).
  set (s' := {| hist := hist s ++ [m]; ths := upd (ths s) t x; log := log s |}).
  assert (Etop : top s' = m) by (apply top_app with (hist s); auto).
  pose proof (cnt_upd reading (ths s) t x n Ht) as Cr. pose proof (cnt_upd writing (ths s) t x n Ht) as Cw.
  pose proof (i_val _ _ _ I) as V. pose proof (i_loc _ _ _ I t) as [Lr Lt]. unfold rds, wrs in V.
  assert (Hx : at_ x = p) by auto. rewrite Hx in *.
  pose proof (cnt_in reading (ths s) t n Ht) as Ir. pose proof (cnt_in writing (ths s) t n Ht) as Iw.
  (* what is left of the other threads *)
  assert (Ro : forall u, u <> t -> reading (at_ (ths s u)) = true -> (0 < d)%Z).
  { intros u Hu Hr. pose proof (holds_lt n fx s u I ltac:(rewrite Hr; auto)) as Lu. pose proof (cnt_in reading (ths s) u n Lu) as A. rewrite Hr in A. unfold one in *.
    pose proof (cnt_two reading (ths s) t u n Ht Lu ltac:(auto)) as Two.
    destruct (at_ (ths s t)); destruct p; try contradiction; cbn [reading writing] in *; destruct Hp as [-> ->]; unfold UNLOCK, WRITE_LOCK in *; try lia; specialize (Two eq_refl Hr); lia. }
  assert (Wo : forall u, u <> t -> writing (at_ (ths s u)) = true -> False).
  { intros u Hu Hr. pose proof (holds_lt n fx s u I ltac:(rewrite Hr; apply orb_true_r)) as Lu. pose proof (cnt_in writing (ths s) u n Lu) as A. rewrite Hr in A. unfold one in *.
    pose proof (cnt_two writing (ths s) t u n Ht Lu ltac:(auto)) as Two.
    destruct (at_ (ths s t)); destruct p; try contradiction; cbn [reading writing] in *; destruct Hp as [-> ->]; unfold UNLOCK, WRITE_LOCK in *; try lia; specialize (Two eq_refl Hr); lia. }
  assert (Kt : forall i, reading (at_ (ths s t)) || writing (at_ (ths s t)) = true -> know (ths s t) i -> In i (view m)).
  { intros i Hh Hk. unfold know in Hk. simpl. apply in_or_app. left. destruct (at_ (ths s t)), p; try contradiction; simpl in Hh; try discriminate; auto. }
  split.
  - intros u. simpl. rewrite app_length. simpl. destruct (Nat.eq_dec u t) as [->|Hu]; [rewrite upd_same; simpl; lia|rewrite upd_other by auto; pose proof (i_pos _ _ _ I u); lia].
  - intros u Hu. simpl. rewrite upd_other by lia. apply (i_out _ _ _ I); auto.
  - rewrite Etop. unfold rds, wrs. change (ths s') with (upd (ths s) t x). simpl val. unfold one in *.
    destruct (at_ (ths s t)); destruct p; try contradiction; cbn [reading writing] in *; destruct Hp as [-> ->]; unfold UNLOCK, WRITE_LOCK in *; lia.
  - intros u. simpl. destruct (Nat.eq_dec u t) as [->|Hu]; [rewrite upd_same|rewrite upd_other by auto; apply (i_loc _ _ _ I)].
    split; auto. rewrite Hx. destruct (at_ (ths s t)), p; try contradiction; auto.
  - intros u j y. simpl. destruct (Nat.eq_dec u t) as [->|Hu]; [rewrite upd_same|rewrite upd_other by auto].
    + rewrite Hx. simpl. intros A B C. apply nth_snoc in C as [C|[C ->]]; [apply nth_error_None in B; congruence|]. simpl.
      destruct (at_ (ths s t)), p; try contradiction; simpl in A; try discriminate; destruct Hp as [-> ->]; lia.
    + intros A B C. apply nth_snoc in C as [C|[C ->]]; [apply (i_rd _ _ _ I u j); auto|]. simpl. apply (Ro u); auto.
  - intros u j y. simpl. destruct (Nat.eq_dec u t) as [->|Hu]; [rewrite upd_same|rewrite upd_other by auto].
    + rewrite Hx. simpl. intros A B C. apply nth_snoc in C as [C|[C ->]]; [apply nth_error_None in B; congruence|]. simpl.
      destruct (at_ (ths s t)), p; try contradiction; simpl in A; try discriminate; destruct Hp as [-> ->]; auto.
    + intros A. destruct (Wo u Hu A).
  - intros i Hi. rewrite Etop. left. destruct (i_sw _ _ _ I i Hi) as [A|(u & A & B)]; [simpl; apply in_or_app; auto|].
    destruct (Nat.eq_dec u t) as [->|Hu]; [apply Kt; auto; rewrite A; apply orb_true_r|destruct (Wo u Hu A)].
  - intros i Hi. rewrite Etop. destruct (i_sa _ _ _ I i Hi) as [A|(u & A & B)]; [left; simpl; apply in_or_app; auto|].
    destruct (Nat.eq_dec u t) as [->|Hu]; [left; apply Kt; auto|right; exists u]. simpl. rewrite upd_other by auto. auto.
  - intros u i. simpl. destruct (Nat.eq_dec u t) as [->|Hu]; [rewrite upd_same|rewrite upd_other by auto; apply (i_r _ _ _ I)].
    rewrite Hx. intros A B. unfold learnt. rewrite Hx. simpl. destruct (at_ (ths s t)) eqn:Eat, p; try contradiction; simpl in A; try discriminate.
    apply in_or_app. left. destruct (i_sw _ _ _ I i B) as [D|(u & D & _)]; auto. destruct (Nat.eq_dec u t) as [->|Hu]; [rewrite Eat in D; discriminate|destruct (Wo u Hu D)].
  - intros u i Hf. simpl. destruct (Nat.eq_dec u t) as [->|Hu]; [rewrite upd_same|rewrite upd_other by auto; apply (i_w _ _ _ I); auto].
    rewrite Hx. intros A B. unfold learnt. rewrite Hx. simpl. destruct (at_ (ths s t)) eqn:Eat, p; try contradiction; simpl in A; try discriminate.
    apply in_or_app. left. destruct (i_sa _ _ _ I i B) as [D|(u & D & _)]; auto. exfalso. destruct Hp as [-> ->].
    destruct (Nat.eq_dec u t) as [->|Hu]; [rewrite Eat in D; discriminate|]. apply orb_true_iff in D as [D|D]; [specialize (Ro u Hu D); unfold WRITE_LOCK in *; lia|destruct (Wo u Hu D)].
Qed.

(** An access. *)
Lemma inv_access n fx s t w : inv n fx s -> t < n -> (at_ (ths s t) = RIn /\ w = false) \/ at_ (ths s t) = WIn -> inv n fx (access s t w).
Proof.
  intros I Ht Hp. set (x := {| at_ := at_ (ths s t); pos := pos (ths s t); cur := length (log s) :: cur (ths s t); acq := acq (ths s t); rel := rel (ths s t) |}).
  assert (E : access s t w = {| hist := hist s; ths := upd (ths s) t x; log := log s ++ [w] |}) by auto. rewrite E. clear E. set (s' := {| hist := hist s; ths := upd (ths s) t x; log := log s ++ [w] |}).
  assert (Cr : rds n s' = rds n s) by (unfold rds; simpl; pose proof (cnt_upd reading (ths s) t x n Ht); change (at_ x) with (at_ (ths s t)) in *; lia).
  assert (Cw : wrs n s' = wrs n s) by (unfold wrs; simpl; pose proof (cnt_upd writing (ths s) t x n Ht); change (at_ x) with (at_ (ths s t)) in *; lia).
  assert (Ea : forall u, at_ (ths s' u) = at_ (ths s u)) by (intros u; simpl; destruct (Nat.eq_dec u t) as [->|Hu]; [rewrite upd_same; auto|rewrite upd_other by auto; auto]).
  assert (Ep : forall u, pos (ths s' u) = pos (ths s u)) by (intros u; simpl; destruct (Nat.eq_dec u t) as [->|Hu]; [rewrite upd_same; auto|rewrite upd_other by auto; auto]).
  assert (Kk : forall u i, know (ths s u) i -> know (ths s' u) i).
  { intros u i. simpl. destruct (Nat.eq_dec u t) as [->|Hu]; [rewrite upd_same|rewrite upd_other by auto; auto]. unfold know. simpl. destruct Hp as [[-> _]| ->]; simpl; auto. }
  assert (Kl : forall u i, learnt (ths s u) i -> learnt (ths s' u) i).
  { intros u i. simpl. destruct (Nat.eq_dec u t) as [->|Hu]; [rewrite upd_same|rewrite upd_other by auto; auto]. unfold learnt. simpl. destruct Hp as [[-> _]| ->]; simpl; auto. }
  assert (Kn : know (ths s' t) (length (log s))) by (simpl; rewrite upd_same; unfold know; simpl; destruct Hp as [[-> _]| ->]; simpl; auto).
  assert (Ln : learnt (ths s' t) (length (log s))) by (simpl; rewrite upd_same; unfold learnt; simpl; destruct Hp as [[-> _]| ->]; simpl; auto).
  assert (Et : forall i, i < length (log s') -> i < length (log s) \/ i = length (log s)) by (intros i; simpl; rewrite app_length; simpl; lia).
  split.
  - intros u. rewrite Ep. apply (i_pos _ _ _ I).
  - intros u. rewrite Ea. apply (i_out _ _ _ I).
  - rewrite Cr, Cw. apply (i_val _ _ _ I).
  - intros u. simpl. destruct (Nat.eq_dec u t) as [->|Hu]; [rewrite upd_same|rewrite upd_other by auto; apply (i_loc _ _ _ I)].
    pose proof (i_loc _ _ _ I t) as [A B]. split; [|auto]. simpl. intros y Hy. right. auto.
  - intros u j m. rewrite Ea, Ep. apply (i_rd _ _ _ I).
  - intros u j m. rewrite Ea, Ep. apply (i_wr _ _ _ I).
  - intros i Hi. apply nth_snoc in Hi as [Hi|[-> Hi]].
    + destruct (i_sw _ _ _ I i Hi) as [A|(u & A & B)]; [left; auto|right; exists u]. rewrite Ea. auto.
    + right. exists t. rewrite Ea. split; auto. destruct Hp as [[_ ->]| ->]; [discriminate|auto].
  - intros i Hi. apply Et in Hi as [Hi| ->].
    + destruct (i_sa _ _ _ I i Hi) as [A|(u & A & B)]; [left; auto|right; exists u]. rewrite Ea. auto.
    + right. exists t. rewrite Ea. split; auto. destruct Hp as [[-> _]| ->]; auto.
  - intros u i Hr Hi. rewrite Ea in Hr. apply nth_snoc in Hi as [Hi|[-> Hi]]; [apply Kl; apply (i_r _ _ _ I); auto|]. exfalso.
    destruct Hp as [[_ ->]|Hp]; [discriminate|]. apply (rd_wr n fx s u t I); auto. rewrite Hp. auto.
  - intros u i Hf Hw Hi. rewrite Ea in Hw. apply Et in Hi as [Hi| ->]; [apply Kl; apply (i_w _ _ _ I); auto|].
    assert (u = t) as ->; [|auto]. destruct Hp as [[Hp _]|Hp]; [exfalso; apply (rd_wr n fx s t u I); auto; rewrite Hp; auto|]. apply (wr_wr n fx s u t I); auto. rewrite Hp. auto.
Qed.

Lemma inv_step n fx s t c s' : inv n fx s -> t < n -> step fx s t c = Some s' -> inv n fx s'.
Proof.
  intros I Ht H. unfold step in H. pose proof (i_loc _ _ _ I t) as [Lr Lt]. pose proof (i_pos _ _ _ I t) as Lp.
  destruct (at_ (ths s t)) eqn:E, c; try discriminate; cbv zeta in H;
    (* local steps *)
    try (injection H as <-; apply inv_local; auto; unfold know, learnt, locok; simpl; rewrite ?E; simpl; auto; try (split; auto; fail); try lia; intros; apply in_or_app; auto; fail);
    (* compare-exchanges *)
    try (eapply inv_cas; [exact I|exact Ht|exact H|]; rewrite E; auto; fail);
    try (injection H as <-; apply inv_access; auto; fail).
  all: try (destruct (load s (ths s t) j) as [[v x]|] eqn:El; [|discriminate]; pose proof (load_val _ _ _ _ _ El) as (m & Em & Hj & Hv);
       injection H as <-; unfold load in El; destruct (Nat.leb_spec (pos (ths s t)) j); [|discriminate]; rewrite Em in El; injection El as _ <-;
       assert (Hb : j < length (hist s)) by (apply nth_error_Some; congruence)).
  all: try (apply inv_local; auto; unfold know, learnt, locok; simpl; rewrite ?E; simpl; auto; try lia; fail).
  (* loads *)
  - destruct (Z.leb_spec 0 v); apply inv_local; auto; unfold know, learnt, locok; simpl; rewrite ?E; simpl; auto; lia.
  - injection H as <-. apply inv_local; auto; unfold know, learnt, locok; simpl; rewrite ?E; simpl; auto; solve [lia | split; auto; intros y Hy; apply in_or_app; right; auto | split; auto; apply incl_refl | intros; apply in_or_app; auto | intros [Hf|Hf]; discriminate].
  - pose proof (i_rd _ _ _ I t j m ltac:(rewrite E; auto) Hj Em). destruct (Z.ltb_spec 0 v); [|lia].
    apply inv_local; auto; unfold know, learnt, locok; simpl; rewrite ?E; simpl; auto; lia.
  - injection H as <-. apply inv_local; auto; unfold know, learnt, locok; simpl; rewrite ?E; simpl; auto; solve [lia | split; auto; intros y Hy; apply in_or_app; right; auto | split; auto; apply incl_refl | intros; apply in_or_app; auto | intros [Hf|Hf]; discriminate].
  - destruct (Z.eqb_spec v UNLOCK); apply inv_local; auto; unfold know, learnt, locok; simpl; rewrite ?E; simpl; auto; lia.
  - injection H as <-. destruct fx; apply inv_local; auto; unfold know, learnt, locok; simpl; rewrite ?E; simpl; auto; solve [lia | split; auto; intros y Hy; apply in_or_app; right; auto | split; auto; apply incl_refl | intros; apply in_or_app; auto | intros [Hf|Hf]; discriminate].
  - pose proof (i_wr _ _ _ I t j m ltac:(rewrite E; auto) Hj Em). destruct (Z.eqb_spec v WRITE_LOCK); [|congruence].
    apply inv_local; auto; unfold know, learnt, locok; simpl; rewrite ?E; simpl; auto; lia.
  - injection H as <-. apply inv_local; auto; unfold know, learnt, locok; simpl; rewrite ?E; simpl; auto; solve [lia | split; auto; intros y Hy; apply in_or_app; right; auto | split; auto; apply incl_refl | intros; apply in_or_app; auto | intros [Hf|Hf]; discriminate].
Qed.

Lemma inv_run n fx l : forall s, inv n fx s -> inv n fx (run n fx s l).
Proof.
  induction l as [|[t c] r IH]; intros s I; simpl; auto. destruct (Nat.ltb_spec t n); [|auto].
  destruct (step fx s t c) as [s'|] eqn:E; [|auto]. apply IH. eapply inv_step; eauto.
Qed.
