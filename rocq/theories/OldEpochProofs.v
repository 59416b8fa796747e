(** Proofs about the old epoch manager. *)
From Coq Require Import List Arith ZArith Lia Bool.
From Verif Require Import OldEpoch.
Import ListNotations.

Definition upd_same {A} (f : nat -> A) t p : upd f t p t = p.
Proof. unfold upd. rewrite Nat.eqb_refl. auto. Qed.
Lemma upd_other {A} (f : nat -> A) t p u : u <> t -> upd f t p u = f u.
Proof. unfold upd. intros H. apply Nat.eqb_neq in H. rewrite H. auto. Qed.

(** * Counting workers *)
Definition on (e : nat) (p : wpc) : bool :=
  match p with
  | Retreat e' => Nat.eqb e' e
  | _ => match inside p with Some e' => Nat.eqb e' e | None => false end
  end.
Definition b2z (b : bool) : Z := if b then 1%Z else 0%Z.
Fixpoint num (f : nat -> bool) (n : nat) : Z := match n with O => 0%Z | S k => (num f k + b2z (f k))%Z end.
Lemma num_ext f g n : (forall k, k < n -> f k = g k) -> num f n = num g n.
Proof. induction n; simpl; auto. intros H. rewrite IHn, H; auto. Qed.
Lemma num_upd e w t p n : t < n -> num (fun u => on e (upd w t p u)) n = (num (fun u => on e (w u)) n - b2z (on e (w t)) + b2z (on e p))%Z.
Proof.
  induction n as [|n IH]; intros H; [lia|]. simpl. destruct (Nat.eq_dec t n) as [->|Hn].
  - rewrite upd_same. rewrite (num_ext _ (fun u => on e (w u))); [lia|]. intros k Hk. rewrite upd_other by lia. auto.
  - rewrite IH by lia. rewrite upd_other by lia. lia.
Qed.
Lemma num_bound f n : (0 <= num f n <= Z.of_nat n)%Z.
Proof. induction n; simpl num; [lia|]. unfold b2z. destruct (f n); lia. Qed.
Lemma num_one f n t : t < n -> f t = true -> (1 <= num f n)%Z.
Proof.
  induction n as [|n IH]; [lia|]. intros H E. simpl. pose proof (num_bound f n). destruct (Nat.eq_dec t n) as [->|Hn]; [rewrite E; simpl; lia|]. specialize (IH ltac:(lia) E). unfold b2z. destruct (f n); lia.
Qed.
Lemma num_less f n t : t < n -> f t = false -> (num f n < Z.of_nat n)%Z.
Proof.
  induction n as [|n IH]; [lia|]. intros H E. simpl num. pose proof (num_bound f n). destruct (Nat.eq_dec t n) as [->|Hn]; [rewrite E; simpl b2z; lia|]. specialize (IH ltac:(lia) E). unfold b2z. destruct (f n); lia.
Qed.
Lemma num_zero f n : (forall t, t < n -> f t = false) -> num f n = 0%Z.
Proof. induction n; simpl; auto. intros H. rewrite IHn by auto. rewrite H by lia. auto. Qed.

(** * Invariant *)
Definition shut (p : gpc) : bool := match p with GBack | GLoad | GWalk _ => true | _ => false end.
Definition over (p : gpc) : bool := match p with GLoad | GWalk _ => true | _ => false end.
Definition closed (s : st) (e : nat) : bool := (e <? hd s) || ((e =? hd s) && shut (gp s)).
Definition pend (p : wpc) : option nat := match p with Unlinked _ x | Adding _ x _ | Pushing _ x _ _ => Some x | _ => None end.
Definition dest (p : wpc) : option (nat * nat) := match p with Adding _ x c | Pushing _ x c _ => Some (x, c) | _ => None end.
Definition joining (p : wpc) : bool := match p with Join _ | Retreat _ | Again => true | _ => false end.
Definition gone (s : st) (l : list nat) : Prop :=
  freed s = rev (flat_map (fun c => gl (es s c)) (seq 0 (hd s)) ++ l).

Section OldEpochProofs.
Variable N : nat.
Variable M : Z.
Hypothesis HM : (Z.of_nat N <= M)%Z.

Record inv (s : st) : Prop := {
  i_out : forall t, N <= t -> wp s t = Out;
  i_cnt : forall e, e <= cur s -> cnt (es s e) = (num (fun t => on e (wp s t)) N - (if closed s e then M else 0))%Z;
  i_hd : hd s <= cur s;
  i_gp : match gp s with GOut | GTop | GNew => True | _ => hd s < cur s end;
  i_new : forall e, cur s < e -> es s e = enode0;
  i_in : forall t e, inside (wp s t) = Some e -> hd s <= e <= cur s /\ (over (gp s) = true -> e <> hd s);
  i_join : forall t e, wp s t = Join e \/ wp s t = Retreat e -> e <= cur s;
  i_dead : forall e, dead (es s e) = true -> e < hd s;
  i_dest : forall t e x c, inside (wp s t) = Some e -> dest (wp s t) = Some (x, c) -> e <= c <= cur s;
  i_ops : forall x ops t k, In (x, ops) (unl s) -> In (t, k) ops -> k <= opno s t;
  i_use : forall x ops t k e, In (x, ops) (unl s) -> In (t, k) ops -> opno s t = k -> inside (wp s t) = Some e ->
    (forall c, In x (gl (es s c)) -> e <= c) /\ (forall u c, dest (wp s u) = Some (x, c) -> e <= c);
  i_walk : match gp s with GWalk l => exists d, gl (es s (hd s)) = d ++ l /\ gone s d | _ => gone s [] end;
  i_uniq : NoDup (flat_map (fun c => gl (es s c)) (seq 0 (S (cur s))));
  i_pend : forall t x, pend (wp s t) = Some x -> In x (map fst (unl s)) /\ (forall c, ~ In x (gl (es s c))) /\ forall u, pend (wp s u) = Some x -> u = t;
  i_gl : forall c x, In x (gl (es s c)) -> In x (map fst (unl s));
  i_fresh : forall x ops t k, joining (wp s t) = true -> In (x, ops) (unl s) -> In (t, k) ops -> k <> opno s t;
  i_all : forall x, In x (map fst (unl s)) -> (exists t, pend (wp s t) = Some x) \/ exists c, In x (gl (es s c));
  i_bad : bad s = false
}.

Lemma inv_init : inv init.
Proof.
  constructor; simpl; auto; try discriminate; try (intros; discriminate); try (intros; contradiction).
  - intros e He. rewrite num_zero by auto. unfold closed. simpl. rewrite andb_false_r. reflexivity.
  - intros t e [H|H]; discriminate.
  - reflexivity.
  - constructor.
Qed.

(** A worker changes its place without touching anything else shared. *)
Lemma on_open s e t : inv s -> e <= cur s -> on e (wp s t) = true -> t < N.
Proof. intros I He Ho. destruct (le_lt_dec N t) as [Hl|Hl]; auto. rewrite (i_out _ I t Hl) in Ho. discriminate. Qed.
Lemma wp_in s t : inv s -> wp s t <> Out -> t < N.
Proof. intros I H. destruct (le_lt_dec N t) as [Hl|Hl]; auto. destruct H. apply (i_out _ I t Hl). Qed.

(** [t] moves to [p]; counts are adjusted by [es']. *)
Lemma inv_move s t p es' lt bd : inv s -> t < N -> bd = false ->
  (forall e, gl (es' e) = gl (es s e) /\ dead (es' e) = dead (es s e)) ->
  (forall e, cur s < e -> es' e = enode0) ->
  (forall e, e <= cur s -> cnt (es' e) = (cnt (es s e) - b2z (on e (wp s t)) + b2z (on e p))%Z) ->
  (forall e, inside p = Some e -> hd s <= e <= cur s /\ (over (gp s) = true -> e <> hd s)) ->
  (forall e, p = Join e \/ p = Retreat e -> e <= cur s) ->
  (forall e x c, inside p = Some e -> dest p = Some (x, c) -> e <= c <= cur s) ->
  (inside p = inside (wp s t) \/ inside p = None \/ forall x ops k, In (x, ops) (unl s) -> In (t, k) ops -> k <> opno s t) ->
  (forall x c, dest p = Some (x, c) -> dest (wp s t) = Some (x, c) \/ c = cur s) ->
  (pend p = pend (wp s t)) ->
  (joining p = true -> joining (wp s t) = true) ->
  inv {| es := es'; cur := cur s; hd := hd s; wp := upd (wp s) t p; gp := gp s; opno := opno s; unl := unl s; freed := freed s; late := lt; bad := bd |}.
Proof.
  intros I Ht Hbd Hgl Hnew Hcnt Hin Hjoin Hdest Huse Hd Hp Hj.
  assert (Egl : forall l, flat_map (fun c => gl (es' c)) l = flat_map (fun c => gl (es s c)) l) by (induction l as [|c l IH]; simpl; auto; rewrite IH, (proj1 (Hgl c)); auto).
  constructor; cbn.
  - intros u Hu. rewrite upd_other by lia. apply (i_out _ I u Hu).
  - intros e He. rewrite Hcnt, num_upd, (i_cnt _ I e He) by auto. unfold closed. simpl. lia.
  - apply (i_hd _ I).
  - apply (i_gp _ I).
  - exact Hnew.
  - intros u e. destruct (Nat.eq_dec u t) as [->|Hu]; [rewrite upd_same; auto|rewrite upd_other by auto; apply (i_in _ I)].
  - intros u e. destruct (Nat.eq_dec u t) as [->|Hu]; [rewrite upd_same; auto|rewrite upd_other by auto; apply (i_join _ I)].
  - intros e. rewrite (proj2 (Hgl e)). apply (i_dead _ I).
  - intros u e x c. destruct (Nat.eq_dec u t) as [->|Hu]; [rewrite upd_same; apply Hdest|rewrite upd_other by auto; apply (i_dest _ I)].
  - apply (i_ops _ I).
  - intros x ops u k e Hx Hk Ho He.
    assert (Hold : inside (wp s u) = Some e).
    { destruct (Nat.eq_dec u t) as [->|Hu]; [rewrite upd_same in He|rewrite upd_other in He; auto]. destruct Huse as [E|[E|E]]; [congruence|congruence|]. destruct (E _ _ _ Hx Hk). auto. }
    destruct (i_use _ I x ops u k e Hx Hk Ho Hold) as [H1 H2]. split; [intros c; rewrite (proj1 (Hgl c)); auto|].
    intros v c. destruct (Nat.eq_dec v t) as [->|Hv]; [rewrite upd_same|rewrite upd_other by auto; apply H2]. intros E. destruct (Hd _ _ E) as [E'| ->]; [eauto|]. exact (proj2 (proj1 (i_in _ I u e Hold))).
  - unfold gone. cbn. pose proof (i_walk _ I) as W. destruct (gp s); unfold gone in *; rewrite ?Egl; auto. destruct W as (d & W1 & W2). exists d. rewrite (proj1 (Hgl _)). rewrite ?Egl. auto.
  - pose proof (i_uniq _ I) as U. rewrite <- Egl in U. exact U.
  - intros u x Hu.
    assert (Hold : pend (wp s u) = Some x) by (destruct (Nat.eq_dec u t) as [->|Hn]; [rewrite upd_same in Hu; congruence|rewrite upd_other in Hu; auto]).
    destruct (i_pend _ I u x Hold) as (A & B & C). split; auto. split; [intros c; rewrite (proj1 (Hgl c)); auto|].
    intros v Hv. apply C. destruct (Nat.eq_dec v t) as [->|Hn]; [rewrite upd_same in Hv; congruence|rewrite upd_other in Hv; auto].
  - intros c x. rewrite (proj1 (Hgl c)). apply (i_gl _ I).
  - intros x ops u k Hu. apply (i_fresh _ I). destruct (Nat.eq_dec u t) as [->|Hn]; [rewrite upd_same in Hu; auto|rewrite upd_other in Hu; auto].
  - intros x Hx. destruct (i_all _ I x Hx) as [[u Hu]|[c Hc]].
    + left. exists u. destruct (Nat.eq_dec u t) as [->|Hn]; [rewrite upd_same; congruence|rewrite upd_other; auto].
    + right. exists c. rewrite (proj1 (Hgl c)). auto.
  - exact Hbd.
Qed.
Lemma add_es s e d : forall e', gl (es (add s e d) e') = gl (es s e') /\ dead (es (add s e d) e') = dead (es s e') /\ cnt (es (add s e d) e') = (cnt (es s e') + (if Nat.eqb e' e then d else 0))%Z.
Proof.
  intros e'. unfold add. cbn. unfold upd. destruct (Nat.eqb e' e) eqn:E; cbn; [apply Nat.eqb_eq in E; subst; auto|]. split; auto. split; auto. lia.
Qed.
Lemma add_new s e d : inv s -> e <= cur s -> forall e', cur s < e' -> es (add s e d) e' = enode0.
Proof. intros I He e' H. unfold add. cbn. rewrite upd_other by lia. apply (i_new _ I e' H). Qed.

Lemma inv_invoke s t : inv s -> t < N -> wp s t = Out ->
  inv {| es := es s; cur := cur s; hd := hd s; wp := upd (wp s) t (Join (cur s)); gp := gp s; opno := upd (opno s) t (S (opno s t)); unl := unl s; freed := freed s; late := late s; bad := bad s |}.
Proof.
  intros I Ht E.
  assert (H1 : forall u p, p = upd (wp s) t (Join (cur s)) u -> (u = t /\ p = Join (cur s)) \/ (u <> t /\ p = wp s u)) by (intros u p ->; destruct (Nat.eq_dec u t) as [->|Hu]; [left; rewrite upd_same; auto|right; rewrite upd_other; auto]).
  assert (H2 : forall u, opno s u <= upd (opno s) t (S (opno s t)) u) by (intros u; unfold upd; destruct (u =? t) eqn:Eu; [apply Nat.eqb_eq in Eu; subst; lia|lia]).
  constructor; cbn.
  - intros u Hu. rewrite upd_other by lia. apply (i_out _ I u Hu).
  - intros e He. rewrite num_upd, (i_cnt _ I e He), E by auto. unfold closed, b2z. simpl. lia.
  - apply (i_hd _ I).
  - apply (i_gp _ I).
  - apply (i_new _ I).
  - intros u e. destruct (H1 u _ eq_refl) as [[-> ->]|[Hu ->]]; [discriminate|apply (i_in _ I)].
  - intros u e. destruct (H1 u _ eq_refl) as [[-> ->]|[Hu ->]]; [intros [Q|Q]; [injection Q as <-; lia|discriminate]|apply (i_join _ I)].
  - apply (i_dead _ I).
  - intros u e x c. destruct (H1 u _ eq_refl) as [[-> ->]|[Hu ->]]; [discriminate|apply (i_dest _ I)].
  - intros x ops u k Hx Hk. pose proof (i_ops _ I _ _ _ _ Hx Hk). specialize (H2 u). lia.
  - intros x ops u k e Hx Hk. destruct (H1 u _ eq_refl) as [[-> ->]|[Hu Eu]]; [discriminate|]. rewrite Eu. rewrite upd_other by auto. intros Ho He. destruct (i_use _ I x ops u k e Hx Hk Ho He) as [A B]. split; auto.
    intros v c. destruct (H1 v _ eq_refl) as [[-> ->]|[Hv ->]]; [discriminate|apply B].
  - apply (i_walk _ I).
  - apply (i_uniq _ I).
  - intros u x. destruct (H1 u _ eq_refl) as [[-> ->]|[Hu ->]]; [discriminate|]. intros Hx. destruct (i_pend _ I u x Hx) as (A & B & C). split; auto. split; auto. intros v. destruct (H1 v _ eq_refl) as [[-> ->]|[Hv ->]]; [discriminate|apply C].
  - apply (i_gl _ I).
  - intros x ops u k. destruct (H1 u _ eq_refl) as [[-> ->]|[Hu ->]]; intros Hj Hx Hk.
    + rewrite upd_same. pose proof (i_ops _ I _ _ _ _ Hx Hk). lia.
    + rewrite upd_other by auto. eapply (i_fresh _ I); eauto.
  - intros x Hx. destruct (i_all _ I x Hx) as [[u Hu]|Hc]; [|auto]. left. exists u. destruct (Nat.eq_dec u t) as [->|Hn]; [rewrite E in Hu; discriminate|rewrite upd_other; auto].
  - apply (i_bad _ I).
Qed.
Lemma inside_ops_in s t k : In (t, k) (inside_ops N s) -> t < N /\ k = opno s t /\ exists e, inside (wp s t) = Some e.
Proof.
  unfold inside_ops. intros H. apply in_map_iff in H as (u & E & H). injection E as -> <-. apply filter_In in H as [H1 H2]. apply in_seq in H1. split; [lia|]. split; auto.
  unfold is_in in H2. destruct (inside (wp s t)) as [e|]; [eauto|discriminate].
Qed.
Lemma not_unl x l : existsb (fun y : nat * list (nat * nat) => x =? fst y) l = false -> ~ In x (map fst l).
Proof.
  intros E H. apply in_map_iff in H as ([y ops] & <- & H). assert (T : existsb (fun z : nat * list (nat * nat) => y =? fst z) l = true) by (apply existsb_exists; exists (y, ops); simpl; rewrite Nat.eqb_refl; auto). simpl in E. congruence.
Qed.
Lemma inv_unlink s t e x : inv s -> wp s t = Inside e -> ~ In x (map fst (unl s)) ->
  inv {| es := es s; cur := cur s; hd := hd s; wp := upd (wp s) t (Unlinked e x); gp := gp s; opno := opno s; unl := (x, inside_ops N s) :: unl s; freed := freed s; late := late s; bad := bad s |}.
Proof.
  intros I E Hx. assert (Ht : t < N) by (apply (wp_in s); auto; congruence).
  assert (H1 : forall u p, p = upd (wp s) t (Unlinked e x) u -> (u = t /\ p = Unlinked e x) \/ (u <> t /\ p = wp s u)) by (intros u p ->; destruct (Nat.eq_dec u t) as [->|Hu]; [left; rewrite upd_same; auto|right; rewrite upd_other; auto]).
  assert (Hin : forall u e', inside (upd (wp s) t (Unlinked e x) u) = Some e' -> inside (wp s u) = Some e').
  { intros u e'. destruct (H1 u _ eq_refl) as [[-> ->]|[Hu ->]]; auto. rewrite E. auto. }
  assert (Hde : forall u q, dest (upd (wp s) t (Unlinked e x) u) = Some q -> dest (wp s u) = Some q).
  { intros u e'. destruct (H1 u _ eq_refl) as [[-> ->]|[Hu ->]]; auto. discriminate. }
  constructor; cbn.
  - intros u Hu. rewrite upd_other by lia. apply (i_out _ I u Hu).
  - intros e' He. rewrite num_upd, (i_cnt _ I e' He), E by auto. unfold closed, b2z. simpl. lia.
  - apply (i_hd _ I).
  - apply (i_gp _ I).
  - apply (i_new _ I).
  - intros u e' He. apply (i_in _ I u). auto.
  - intros u e'. destruct (H1 u _ eq_refl) as [[-> ->]|[Hu ->]]; [intros [Q|Q]; discriminate|apply (i_join _ I)].
  - apply (i_dead _ I).
  - intros u e' y c He Hd. apply (i_dest _ I u e' y); auto.
  - intros y ops u k [Hy|Hy] Hk; [injection Hy as <- <-; apply inside_ops_in in Hk as (_ & -> & _); lia|eapply (i_ops _ I); eauto].
  - intros y ops u k e' [Hy|Hy] Hk Ho He.
    + injection Hy as <- <-. split; [intros c Hc; destruct Hx; eapply (i_gl _ I); eauto|]. intros v c Hv. apply Hde in Hv. destruct Hx. apply (i_pend _ I v). destruct (wp s v); try discriminate; injection Hv as <- <-; reflexivity.
    + destruct (i_use _ I y ops u k e' Hy Hk Ho (Hin _ _ He)) as [A B]. split; auto. intros v c Hv. apply (B v). auto.
  - apply (i_walk _ I).
  - apply (i_uniq _ I).
  - intros u y. destruct (H1 u _ eq_refl) as [[-> ->]|[Hu ->]]; intros Hy.
    + injection Hy as <-. split; auto. split; [intros c Hc; apply Hx; eapply (i_gl _ I); eauto|]. intros v. destruct (H1 v _ eq_refl) as [[-> ->]|[Hv ->]]; auto. intros Hp. destruct Hx. apply (i_pend _ I v x Hp).
    + destruct (i_pend _ I u y Hy) as (A & B & C). split; auto. split; auto. intros v. destruct (H1 v _ eq_refl) as [[-> ->]|[Hv ->]]; auto. intros Hp. injection Hp as <-. contradiction.
  - intros c y Hc. right. eapply (i_gl _ I); eauto.
  - intros y ops u k. destruct (H1 u _ eq_refl) as [[-> ->]|[Hu ->]]; [discriminate|]. intros Hj [Hy|Hy] Hk; [|eapply (i_fresh _ I); eauto].
    injection Hy as <- <-. apply inside_ops_in in Hk as (_ & _ & e' & He). destruct (wp s u); discriminate.
  - intros y [<-|Hy]; [left; exists t; rewrite upd_same; auto|]. destruct (i_all _ I y Hy) as [[u Hu]|Hc]; [|auto]. left. exists u. destruct (Nat.eq_dec u t) as [->|Hn]; [rewrite E in Hu; discriminate|rewrite upd_other; auto].
  - apply (i_bad _ I).
Qed.
Lemma nodup_cons_mid {A} (x : A) : forall a b, NoDup (a ++ b) -> ~ In x (a ++ b) -> NoDup (a ++ x :: b).
Proof. induction a as [|y a IH]; simpl; intros b Hn Hi; [constructor; auto|]. inversion Hn; subst. constructor; [|apply IH; auto]. rewrite in_app_iff in *. simpl. intros [H|[H|H]]; subst; auto. Qed.
Lemma flat_upd (es' es0 : nat -> enode) c x : (forall e, e <> c -> gl (es' e) = gl (es0 e)) -> gl (es' c) = x :: gl (es0 c) -> forall l, NoDup l -> In c l ->
  exists a b, flat_map (fun e => gl (es0 e)) l = a ++ b /\ flat_map (fun e => gl (es' e)) l = a ++ x :: b.
Proof.
  intros Ho Hc. induction l as [|e l IH]; intros Hn Hi; [destruct Hi|]. inversion Hn; subst. destruct Hi as [->|Hi].
  - exists [], (flat_map (fun e => gl (es0 e)) (c :: l)). split; auto. simpl. rewrite Hc. simpl. f_equal. f_equal. clear - Ho H1. induction l as [|e l IH]; simpl; auto. rewrite IH; [|intros H; apply H1; right; auto]. rewrite Ho; auto. intros ->. apply H1. left. auto.
  - destruct (IH H2 Hi) as (a & b & E1 & E2). exists (gl (es0 e) ++ a), b. simpl. rewrite E1, E2, <- !app_assoc. rewrite Ho; [auto|]. intros ->. contradiction.
Qed.
Lemma flat_other (es' es0 : nat -> enode) l : (forall e, In e l -> gl (es' e) = gl (es0 e)) -> flat_map (fun e => gl (es' e)) l = flat_map (fun e => gl (es0 e)) l.
Proof. induction l; simpl; auto. intros H. rewrite H, IHl; auto. Qed.
Lemma inv_push s t e x c n bd : inv s -> wp s t = Pushing e x c n -> bd = false ->
  inv {| es := upd (es s) c {| cnt := cnt (es s c); gl := x :: gl (es s c); dead := dead (es s c) |}; cur := cur s; hd := hd s; wp := upd (wp s) t (Inside e); gp := gp s; opno := opno s; unl := unl s; freed := freed s; late := late s; bad := bd |}.
Proof.
  intros I E Hbd. assert (Ht : t < N) by (apply (wp_in s); auto; congruence).
  assert (Ei : inside (wp s t) = Some e) by (rewrite E; auto). assert (Ed : dest (wp s t) = Some (x, c)) by (rewrite E; auto). assert (Ep : pend (wp s t) = Some x) by (rewrite E; auto).
  destruct (i_dest _ I t e x c Ei Ed) as [Hec Hcc]. destruct (i_in _ I t e Ei) as [[Hhe _] Hov]. destruct (i_pend _ I t x Ep) as (Px & Pn & Pu).
  set (es' := upd (es s) c {| cnt := cnt (es s c); gl := x :: gl (es s c); dead := dead (es s c) |}).
  assert (Ho : forall e', e' <> c -> es' e' = es s e') by (intros; unfold es'; rewrite upd_other; auto). assert (Hc : es' c = {| cnt := cnt (es s c); gl := x :: gl (es s c); dead := dead (es s c) |}) by (unfold es'; rewrite upd_same; auto).
  assert (Hsame : forall e', cnt (es' e') = cnt (es s e') /\ dead (es' e') = dead (es s e')) by (intros e'; destruct (Nat.eq_dec e' c) as [->|Hn]; [rewrite Hc; auto|rewrite Ho; auto]).
  assert (Hgl : forall e' y, In y (gl (es' e')) -> In y (gl (es s e')) \/ (y = x /\ e' = c)) by (intros e' y; destruct (Nat.eq_dec e' c) as [->|Hn]; [rewrite Hc; simpl; intros [<-|H]; auto|rewrite Ho; auto]).
  assert (Hgl' : forall e' y, In y (gl (es s e')) -> In y (gl (es' e'))) by (intros e' y; destruct (Nat.eq_dec e' c) as [->|Hn]; [rewrite Hc; simpl; auto|rewrite Ho; auto]).
  assert (H1 : forall u p, p = upd (wp s) t (Inside e) u -> (u = t /\ p = Inside e) \/ (u <> t /\ p = wp s u)) by (intros u p ->; destruct (Nat.eq_dec u t) as [->|Hu]; [left; rewrite upd_same; auto|right; rewrite upd_other; auto]).
  assert (Hin : forall u e', inside (upd (wp s) t (Inside e) u) = Some e' -> inside (wp s u) = Some e').
  { intros u e'. destruct (H1 u _ eq_refl) as [[-> ->]|[Hu ->]]; auto. rewrite E. auto. }
  assert (Hlow : forall l, (forall e', In e' l -> e' < c) -> flat_map (fun c => gl (es' c)) l = flat_map (fun c => gl (es s c)) l).
  { intros l Hl. apply flat_other. intros e' He'. apply Hl in He'. rewrite Ho by lia. auto. }
  assert (Hhl : forall e', In e' (seq 0 (hd s)) -> e' < c) by (intros e' He'; apply in_seq in He'; lia).
  constructor; cbn; fold es'.
  - intros u Hu. rewrite upd_other by lia. apply (i_out _ I u Hu).
  - intros e' He. rewrite (proj1 (Hsame e')), num_upd, (i_cnt _ I e' He), E by auto. unfold closed, b2z. simpl. lia.
  - apply (i_hd _ I).
  - apply (i_gp _ I).
  - intros e' He'. rewrite Ho by lia. apply (i_new _ I); auto.
  - intros u e' He. apply (i_in _ I u). auto.
  - intros u e'. destruct (H1 u _ eq_refl) as [[-> ->]|[Hu ->]]; [intros [Q|Q]; discriminate|apply (i_join _ I)].
  - intros e'. rewrite (proj2 (Hsame e')). apply (i_dead _ I).
  - intros u e' y c' He. destruct (H1 u _ eq_refl) as [[-> ->]|[Hu Eu]]; [discriminate|]. rewrite Eu in *. apply (i_dest _ I); auto.
  - apply (i_ops _ I).
  - intros y ops u k e' Hy Hk Hop He. destruct (i_use _ I y ops u k e' Hy Hk Hop (Hin _ _ He)) as [A B]. split.
    + intros c' Hc'. apply Hgl in Hc' as [Hc'|[-> ->]]; auto. apply (B t). auto.
    + intros v c'. destruct (H1 v _ eq_refl) as [[-> ->]|[Hv ->]]; [discriminate|apply B].
  - pose proof (i_walk _ I) as W. unfold gone in *. cbn. fold es'. rewrite Hlow by auto. destruct (gp s) eqn:Eg; auto. destruct W as (d & W1 & W2). exists d. split; auto. rewrite Ho; auto.
    specialize (Hov eq_refl). lia.
  - destruct (flat_upd es' (es s) c x (fun e' H => f_equal gl (Ho e' H)) ltac:(rewrite Hc; auto) (seq 0 (S (cur s))) (seq_NoDup _ _) ltac:(apply in_seq; lia)) as (a & b & E1 & E2).
    change (NoDup (flat_map (fun c => gl (es' c)) (seq 0 (S (cur s))))). rewrite E2. pose proof (i_uniq _ I) as U. rewrite E1 in U. apply nodup_cons_mid; auto. rewrite <- E1. intros Hi. apply in_flat_map in Hi as (c' & _ & Hi). apply (Pn c' Hi).
  - intros u y. destruct (H1 u _ eq_refl) as [[-> ->]|[Hu ->]]; [discriminate|]. intros Hy. destruct (i_pend _ I u y Hy) as (A & B & C). split; auto. split.
    + intros c' Hc'. apply Hgl in Hc' as [Hc'|[-> ->]]; [eapply B; eauto|]. apply Hu. apply Pu. auto.
    + intros v. destruct (H1 v _ eq_refl) as [[-> ->]|[Hv ->]]; [discriminate|apply C].
  - intros c' y Hy. apply Hgl in Hy as [Hy|[-> ->]]; auto. eapply (i_gl _ I); eauto.
  - intros y ops u k. destruct (H1 u _ eq_refl) as [[-> ->]|[Hu ->]]; [discriminate|]. apply (i_fresh _ I).
  - intros y Hy. destruct (i_all _ I y Hy) as [[u Hu]|[c' Hc']]; [|right; exists c'; auto]. destruct (Nat.eq_dec u t) as [->|Hn].
    + rewrite E in Hu. injection Hu as <-. right. exists c. rewrite Hc. left. auto.
    + left. exists u. rewrite upd_other; auto.
  - exact Hbd.
Qed.

(** A step of the cleaner that changes counts only. *)
Lemma inv_gc s g es' fr bd : inv s -> bd = false ->
  (forall e, gl (es' e) = gl (es s e) /\ dead (es' e) = dead (es s e)) ->
  (forall e, cur s < e -> es' e = enode0) ->
  (forall e, e <= cur s -> cnt (es' e) = (num (fun t => on e (wp s t)) N - (if ((e <? hd s)%nat || ((e =? hd s)%nat && shut g))%bool then M else 0))%Z) ->
  (match g with GOut | GTop | GNew => True | _ => hd s < cur s end) ->
  (over g = true -> forall t, inside (wp s t) <> Some (hd s)) ->
  (match g with GWalk l => exists d, gl (es s (hd s)) = d ++ l /\ fr = rev (flat_map (fun c => gl (es s c)) (seq 0 (hd s)) ++ d) | _ => fr = rev (flat_map (fun c => gl (es s c)) (seq 0 (hd s)) ++ []) end) ->
  inv {| es := es'; cur := cur s; hd := hd s; wp := wp s; gp := g; opno := opno s; unl := unl s; freed := fr; late := late s; bad := bd |}.
Proof.
  intros I Hbd Hgl Hnew Hcnt Hg Hov Hw.
  assert (Egl : forall l, flat_map (fun c => gl (es' c)) l = flat_map (fun c => gl (es s c)) l) by (induction l as [|c l IH]; simpl; auto; rewrite IH, (proj1 (Hgl c)); auto).
  constructor; cbn.
  - apply (i_out _ I).
  - intros e He. rewrite Hcnt by auto. unfold closed. simpl. lia.
  - apply (i_hd _ I).
  - exact Hg.
  - exact Hnew.
  - intros t e He. split; [apply (i_in _ I t e He)|]. intros Ho ->. apply (Hov Ho t He).
  - apply (i_join _ I).
  - intros e. rewrite (proj2 (Hgl e)). apply (i_dead _ I).
  - apply (i_dest _ I).
  - apply (i_ops _ I).
  - intros x ops t k e Hx Hk Ho He. destruct (i_use _ I x ops t k e Hx Hk Ho He) as [A B]. split; auto. intros c. rewrite (proj1 (Hgl c)). auto.
  - unfold gone. cbn. destruct g; rewrite ?Egl; auto. rewrite (proj1 (Hgl _)). destruct Hw as (d & W1 & W2). exists d. cbn. rewrite ?Egl. auto.
  - pose proof (i_uniq _ I) as U. rewrite <- Egl in U. exact U.
  - intros t x Hx. destruct (i_pend _ I t x Hx) as (A & B & C). split; auto. split; auto. intros c. rewrite (proj1 (Hgl c)). auto.
  - intros c x. rewrite (proj1 (Hgl c)). apply (i_gl _ I).
  - apply (i_fresh _ I).
  - intros x Hx. destruct (i_all _ I x Hx) as [H|[c Hc]]; auto. right. exists c. rewrite (proj1 (Hgl c)). auto.
  - exact Hbd.
Qed.
Lemma walk_nil s : inv s -> (forall l, gp s <> GWalk l) -> freed s = rev (flat_map (fun c => gl (es s c)) (seq 0 (hd s)) ++ []).
Proof. intros I H. pose proof (i_walk _ I) as W. destruct (gp s); auto. destruct (H l). auto. Qed.
Lemma inv_g s g : inv s -> (forall l, gp s <> GWalk l) -> shut g = shut (gp s) -> over g = over (gp s) -> (forall l, g <> GWalk l) -> (match g with GOut | GTop | GNew => True | _ => hd s < cur s end) -> inv (set_g s g).
Proof.
  intros I Hw Hs Ho Hg Hh. apply (inv_gc s g (es s) (freed s) (bad s)); auto.
  - apply (i_bad _ I).
  - apply (i_new _ I).
  - intros e He. rewrite (i_cnt _ I e He). unfold closed. rewrite Hs. auto.
  - rewrite Ho. intros E t Hi. destruct (i_in _ I t _ Hi) as [_ H]. apply (H E). auto.
  - pose proof (walk_nil s I Hw). destruct g; auto. destruct (Hg l). auto.
Qed.
Lemma seq_S a n : seq a (S n) = seq a n ++ [a + n].
Proof. revert a. induction n as [|n IH]; intros a; [simpl; rewrite Nat.add_0_r; auto|]. change (seq a (S (S n))) with (a :: seq (S a) (S n)). rewrite IH. simpl. rewrite Nat.add_succ_r. auto. Qed.
(** The cleaner deletes the head epoch. *)
Lemma inv_delete s : inv s -> gp s = GWalk [] ->
  inv {| es := upd (es s) (hd s) {| cnt := cnt (es s (hd s)); gl := gl (es s (hd s)); dead := true |}; cur := cur s; hd := S (hd s);
         wp := wp s; gp := GTop; opno := opno s; unl := unl s; freed := freed s; late := late s; bad := bad s |}.
Proof.
  intros I Eg. set (es' := upd (es s) (hd s) {| cnt := cnt (es s (hd s)); gl := gl (es s (hd s)); dead := true |}).
  pose proof (i_gp _ I) as Hlt. rewrite Eg in Hlt.
  assert (Hes : forall e, cnt (es' e) = cnt (es s e) /\ gl (es' e) = gl (es s e) /\ dead (es' e) = (dead (es s e) || (e =? hd s))).
  { intros e. unfold es', upd. destruct (e =? hd s) eqn:E; simpl; [apply Nat.eqb_eq in E; subst; rewrite orb_true_r; auto|rewrite orb_false_r; auto]. }
  assert (Egl : forall l, flat_map (fun c => gl (es' c)) l = flat_map (fun c => gl (es s c)) l) by (induction l as [|c l IH]; simpl; auto; rewrite IH, (proj1 (proj2 (Hes c))); auto).
  constructor; cbn [es cur hd wp gp opno unl freed late bad]; fold es'.
  - apply (i_out _ I).
  - intros e He. rewrite (proj1 (Hes e)), (i_cnt _ I e He). unfold closed. rewrite Eg. cbn [hd gp shut]. destruct (lt_eq_lt_dec e (hd s)) as [[H|H]|H].
    + rewrite (proj2 (Nat.ltb_lt _ _) H), (proj2 (Nat.ltb_lt e (S (hd s)))) by lia. auto.
    + subst e. rewrite Nat.ltb_irrefl, Nat.eqb_refl, (proj2 (Nat.ltb_lt (hd s) (S (hd s)))) by lia. auto.
    + rewrite (proj2 (Nat.ltb_ge e (hd s))), (proj2 (Nat.eqb_neq e (hd s))), (proj2 (Nat.ltb_ge e (S (hd s)))) by lia. rewrite andb_false_r. auto.
  - lia.
  - auto.
  - intros e He. unfold es'. rewrite upd_other by lia. apply (i_new _ I e He).
  - intros t e He. destruct (i_in _ I t e He) as [A B]. rewrite Eg in B. specialize (B eq_refl). split; [lia|]. discriminate.
  - apply (i_join _ I).
  - intros e. rewrite (proj2 (proj2 (Hes e))). intros H. apply orb_true_iff in H as [H|H]; [apply (i_dead _ I) in H; lia|apply Nat.eqb_eq in H; lia].
  - apply (i_dest _ I).
  - apply (i_ops _ I).
  - intros x ops t k e Hx Hk Ho He. destruct (i_use _ I x ops t k e Hx Hk Ho He) as [A B]. split; auto. intros c. rewrite (proj1 (proj2 (Hes c))). auto.
  - unfold gone. cbn [es hd freed]. fold es'. rewrite Egl, seq_S, flat_map_app. simpl. rewrite !app_nil_r. pose proof (i_walk _ I) as W. rewrite Eg in W. destruct W as (d & W1 & W2). unfold gone in W2. rewrite app_nil_r in W1. rewrite W1. auto.
  - pose proof (i_uniq _ I) as U. rewrite <- Egl in U. exact U.
  - intros t x Hx. destruct (i_pend _ I t x Hx) as (A & B & C). split; auto. split; auto. intros c. rewrite (proj1 (proj2 (Hes c))). auto.
  - intros c x. rewrite (proj1 (proj2 (Hes c))). apply (i_gl _ I).
  - apply (i_fresh _ I).
  - intros x Hx. destruct (i_all _ I x Hx) as [H|[c Hc]]; auto. right. exists c. rewrite (proj1 (proj2 (Hes c))). auto.
  - apply (i_bad _ I).
Qed.
(** The cleaner creates an epoch. *)
Lemma inv_create s : inv s -> gp s = GNew ->
  inv {| es := upd (es s) (S (cur s)) enode0; cur := S (cur s); hd := hd s; wp := wp s; gp := GOut; opno := opno s;
         unl := unl s; freed := freed s; late := late s; bad := bad s |}.
Proof.
  intros I Eg. set (es' := upd (es s) (S (cur s)) enode0).
  assert (Hes : forall e, es' e = es s e) by (intros e; unfold es', upd; destruct (e =? S (cur s)) eqn:E; auto; apply Nat.eqb_eq in E; subst; symmetry; apply (i_new _ I); lia).
  assert (Egl : forall l, flat_map (fun c => gl (es' c)) l = flat_map (fun c => gl (es s c)) l) by (induction l as [|c l IH]; simpl; auto; rewrite IH, Hes; auto).
  pose proof (i_hd _ I) as Hh.
  assert (Hno : num (fun t => on (S (cur s)) (wp s t)) N = 0%Z).
  { apply num_zero. intros t _. destruct (on (S (cur s)) (wp s t)) eqn:E; auto. exfalso. unfold on in E.
    assert (H : (exists e, inside (wp s t) = Some e /\ e = S (cur s)) \/ wp s t = Retreat (S (cur s))).
    { destruct (wp s t); simpl in E; try discriminate; apply Nat.eqb_eq in E; subst; [right; auto|left; eexists; simpl; eauto ..]. }
    destruct H as [(e & H & ->)|H]; [apply (i_in _ I) in H; lia|]. pose proof (i_join _ I t _ (or_intror H)). lia. }
  constructor; cbn [es cur hd wp gp opno unl freed late bad]; fold es'.
  - apply (i_out _ I).
  - intros e He. rewrite Hes. unfold closed. cbn [hd gp shut]. rewrite andb_false_r, orb_false_r. destruct (Nat.eq_dec e (S (cur s))) as [->|Hn].
    + rewrite Hno, (i_new _ I) by lia. rewrite (proj2 (Nat.ltb_ge (S (cur s)) (hd s))) by lia. auto.
    + rewrite (i_cnt _ I e) by lia. unfold closed. rewrite Eg. simpl. rewrite andb_false_r, orb_false_r. auto.
  - lia.
  - auto.
  - intros e He. rewrite Hes. apply (i_new _ I). lia.
  - intros t e He. destruct (i_in _ I t e He) as [A B]. split; [lia|]. discriminate.
  - intros t e He. pose proof (i_join _ I t e He). lia.
  - intros e. rewrite Hes. apply (i_dead _ I).
  - intros t e x c H1 H2. pose proof (i_dest _ I t e x c H1 H2). lia.
  - apply (i_ops _ I).
  - intros x ops t k e Hx Hk Ho He. destruct (i_use _ I x ops t k e Hx Hk Ho He) as [A B]. split; auto. intros c. rewrite Hes. auto.
  - pose proof (i_walk _ I) as W. rewrite Eg in W. unfold gone in *. cbn [es hd freed]. fold es'. rewrite Egl. auto.
  - rewrite Egl, seq_S, flat_map_app. simpl. rewrite (i_new _ I (S (cur s))) by lia. simpl. rewrite app_nil_r. apply (i_uniq _ I).
  - intros t x Hx. destruct (i_pend _ I t x Hx) as (A & B & C). split; auto. split; auto. intros c. rewrite Hes. auto.
  - intros c x. rewrite Hes. apply (i_gl _ I).
  - apply (i_fresh _ I).
  - intros x Hx. destruct (i_all _ I x Hx) as [H|[c Hc]]; auto. right. exists c. rewrite Hes. auto.
  - apply (i_bad _ I).
Qed.

Lemma open_head s t e : inv s -> inside (wp s t) = Some e -> dead (es s e) = false.
Proof. intros I H. destruct (dead (es s e)) eqn:E; auto. apply (i_dead _ I) in E. apply (i_in _ I) in H. lia. Qed.
Lemma on_self e : forall p, inside p = Some e -> on e p = true.
Proof. intros [] H; try discriminate; injection H as <-; unfold on; simpl; apply Nat.eqb_refl. Qed.
Lemma on_other e p : inside p = None -> (forall e', p <> Retreat e') -> on e p = false.
Proof. destruct p; simpl; auto; try discriminate. intros _ H. destruct (H e0). auto. Qed.
Lemma on_in e e' p : inside p = Some e -> on e' p = Nat.eqb e e'.
Proof. destruct p; try discriminate; intros H; injection H as <-; auto. Qed.

Lemma inv_step s a s' : inv s -> step N M a s = Some s' -> inv s'.
Proof.
  intros I H. destruct a as [t|t x|t|t| |]; simpl in H.
  - destruct (Nat.ltb t N) eqn:Et; [|discriminate]. apply Nat.ltb_lt in Et. destruct (wp s t) eqn:E; try discriminate. injection H as <-. apply inv_invoke; auto.
  - destruct (wp s t) eqn:E; try discriminate. destruct (existsb _ _) eqn:Ex; [discriminate|]. injection H as <-. apply inv_unlink; auto. apply not_unl. auto.
  - destruct (wp s t) eqn:E; try discriminate. injection H as <-.
    assert (Ht : t < N) by (apply (wp_in s); auto; congruence). assert (Ei : inside (wp s t) = Some e) by (rewrite E; auto). pose proof (i_in _ I t e Ei) as [A B].
    apply (inv_move s t Out (es (add s e (-1))) (late s) (bad s || dead (es s e))); auto.
    + rewrite (i_bad _ I), (open_head s t e); auto.
    + intros e'. destruct (add_es s e (-1) e') as (P & Q & _). auto.
    + apply add_new; auto. lia.
    + intros e' He. rewrite (proj2 (proj2 (add_es s e (-1) e'))), (on_in e e') by auto. rewrite (Nat.eqb_sym e e'). unfold b2z. simpl. destruct (e' =? e); lia.
    + discriminate.
    + intros e' [Q|Q]; discriminate.
    + discriminate.
    + discriminate.
    + rewrite E. auto.
    + discriminate.
  - destruct (wp s t) eqn:E; try discriminate; assert (Ht : t < N) by (apply (wp_in s); auto; congruence).
    + (* Join *) injection H as <-. pose proof (i_join _ I t e (or_introl E)) as Hj. pose proof (i_cnt _ I e Hj) as Hc.
      assert (Hon : on e (wp s t) = false) by (rewrite E; auto).
      pose proof (num_less (fun t => on e (wp s t)) N t Ht Hon) as Hless.
      destruct (cnt (es s e) <? 0)%Z eqn:Ec.
      * apply (inv_move s t (Retreat e) (es (add s e 1)) (late s || dead (es (add s e 1) e)) (bad s)); auto.
        -- apply (i_bad _ I).
        -- intros e'. destruct (add_es s e 1 e') as (P & Q & _). auto.
        -- apply add_new; auto.
        -- intros e' He. rewrite (proj2 (proj2 (add_es s e 1 e'))), E. unfold b2z. simpl. rewrite (Nat.eqb_sym e e'). destruct (e' =? e); lia.
        -- discriminate.
        -- intros e' [Q|Q]; [discriminate|injection Q as <-]. auto.
        -- discriminate.
        -- discriminate.
        -- rewrite E. auto.
        -- rewrite E. auto.
      * apply Z.ltb_ge in Ec. assert (Hcl : closed s e = false) by (destruct (closed s e); auto; lia).
        apply orb_false_iff in Hcl as [Hcl1 Hcl2]. apply Nat.ltb_ge in Hcl1.
        apply (inv_move s t (Inside e) (es (add s e 1)) (late s || dead (es (add s e 1) e)) (bad s)); auto.
        -- apply (i_bad _ I).
        -- intros e'. destruct (add_es s e 1 e') as (P & Q & _). auto.
        -- apply add_new; auto.
        -- intros e' He. rewrite (proj2 (proj2 (add_es s e 1 e'))), E. unfold b2z. simpl. rewrite (Nat.eqb_sym e e'). destruct (e' =? e); lia.
        -- intros e' Q. injection Q as <-. split; [lia|]. intros Ho ->. rewrite Nat.eqb_refl in Hcl2. destruct (gp s); discriminate.
        -- intros e' [Q|Q]; discriminate.
        -- discriminate.
        -- right. right. intros x ops k Hx Hk. eapply (i_fresh _ I); eauto. rewrite E. auto.
        -- discriminate.
        -- rewrite E. auto.
        -- discriminate.
    + (* Retreat *) injection H as <-. pose proof (i_join _ I t e (or_intror E)) as Hj.
      apply (inv_move s t Again (es (add s e (-1))) (late s || dead (es (add s e (-1)) e)) (bad s)); auto.
      * apply (i_bad _ I).
      * intros e'. destruct (add_es s e (-1) e') as (P & Q & _). auto.
      * apply add_new; auto.
      * intros e' He. rewrite (proj2 (proj2 (add_es s e (-1) e'))), E. unfold b2z. simpl. rewrite (Nat.eqb_sym e e'). destruct (e' =? e); lia.
      * discriminate.
      * intros e' [Q|Q]; discriminate.
      * discriminate.
      * discriminate.
      * rewrite E. auto.
      * rewrite E. auto.
    + (* Again *) injection H as <-.
      apply (inv_move s t (Join (cur s)) (es s) (late s) (bad s)); auto.
      * apply (i_bad _ I).
      * apply (i_new _ I).
      * intros e' He. rewrite E. simpl. lia.
      * discriminate.
      * intros e' [Q|Q]; [injection Q as <-; auto|discriminate].
      * discriminate.
      * discriminate.
      * rewrite E. auto.
      * rewrite E. auto.
    + (* Unlinked *) injection H as <-. assert (Ei : inside (wp s t) = Some e) by (rewrite E; auto). pose proof (i_in _ I t e Ei) as [A B].
      apply (inv_move s t (Adding e x (cur s)) (es s) (late s) (bad s)); auto.
      * apply (i_bad _ I).
      * apply (i_new _ I).
      * intros e' He. rewrite E. simpl. lia.
      * intros e' Q. injection Q as <-. auto.
      * intros e' [Q|Q]; discriminate.
      * intros e' x' c Q R. injection Q as <-. injection R as <- <-. lia.
      * intros x' c R. injection R as <- <-. auto.
      * rewrite E. auto.
      * discriminate.
    + (* Adding *) injection H as <-. assert (Ei : inside (wp s t) = Some e) by (rewrite E; auto). pose proof (i_in _ I t e Ei) as [A B].
      assert (Ed : dest (wp s t) = Some (x, c)) by (rewrite E; auto). pose proof (i_dest _ I t e x c Ei Ed) as D.
      apply (inv_move s t (Pushing e x c (length (gl (es s c)))) (es s) (late s) (bad s || dead (es s c))); auto.
      * rewrite (i_bad _ I). simpl. destruct (dead (es s c)) eqn:Q; auto. apply (i_dead _ I) in Q. lia.
      * apply (i_new _ I).
      * intros e' He. rewrite E. unfold on. simpl. lia.
      * intros e' Q. injection Q as <-. auto.
      * intros e' [Q|Q]; discriminate.
      * intros e' x' c' Q R. injection Q as <-. injection R as <- <-. auto.
      * intros x' c' R. injection R as <- <-. left. rewrite E. auto.
      * rewrite E. auto.
      * discriminate.
    + (* Pushing *) assert (Ei : inside (wp s t) = Some e) by (rewrite E; auto). pose proof (i_in _ I t e Ei) as [A B].
      assert (Ed : dest (wp s t) = Some (x, c)) by (rewrite E; auto). pose proof (i_dest _ I t e x c Ei Ed) as D.
      assert (Hb : (bad s || dead (es s c)) = false) by (rewrite (i_bad _ I); simpl; destruct (dead (es s c)) eqn:Q; auto; apply (i_dead _ I) in Q; lia).
      destruct (Nat.eqb n (length (gl (es s c)))).
      * injection H as <-. apply (inv_push s t e x c n); auto.
      * injection H as <-. apply (inv_move s t (Pushing e x c (length (gl (es s c)))) (es s) (late s) (bad s || dead (es s c))); auto.
        -- apply (i_new _ I).
        -- intros e' He. rewrite E. unfold on. simpl. lia.
        -- intros e' Q. injection Q as <-. auto.
        -- intros e' [Q|Q]; discriminate.
        -- intros e' x' c' Q R. injection Q as <-. injection R as <- <-. auto.
        -- intros x' c' R. injection R as <- <-. left. rewrite E. auto.
        -- rewrite E. auto.
        -- discriminate.
  - destruct (gp s) eqn:E; try discriminate. injection H as <-. apply inv_g; rewrite ?E; auto; discriminate.
  - pose proof (i_hd _ I) as Hh. destruct (gp s) eqn:E; try discriminate.
    + (* GTop *) destruct (Nat.eqb (hd s) (cur s)) eqn:Eh; [injection H as <-; apply inv_g; rewrite ?E; auto; discriminate|]. apply Nat.eqb_neq in Eh.
      pose proof (i_cnt _ I (hd s) Hh) as Hc. unfold closed in Hc. rewrite E, Nat.ltb_irrefl in Hc. simpl in Hc. rewrite andb_false_r in Hc. pose proof (num_bound (fun t => on (hd s) (wp s t)) N) as Hn.
      destruct (cnt (es s (hd s)) <? 0)%Z eqn:E1; [apply Z.ltb_lt in E1; lia|].
      destruct (cnt (es s (hd s)) =? 0)%Z; injection H as <-; apply inv_g; rewrite ?E; auto; try discriminate. lia.
    + (* GSub *) injection H as <-. pose proof (i_gp _ I) as Hg. rewrite E in Hg.
      pose proof (i_cnt _ I (hd s) Hh) as Hc. unfold closed in Hc. rewrite E, Nat.ltb_irrefl in Hc. simpl in Hc. rewrite andb_false_r in Hc.
      set (g := if (0 <? cnt (es s (hd s)))%Z then GBack else GLoad).
      assert (Hgs : shut g = true) by (unfold g; destruct (0 <? _)%Z; auto).
      apply (inv_gc s g (es (add s (hd s) (- M))) (freed s) (bad s)); auto.
      * apply (i_bad _ I).
      * intros e. destruct (add_es s (hd s) (- M) e) as (P & Q & _). auto.
      * apply add_new; auto.
      * intros e He. rewrite (proj2 (proj2 (add_es _ _ _ e))), (i_cnt _ I e He), Hgs. unfold closed. rewrite E. simpl. rewrite andb_false_r, orb_false_r, andb_true_r.
        destruct (e =? hd s) eqn:Q; [|rewrite orb_false_r; destruct (e <? hd s); lia]. apply Nat.eqb_eq in Q. subst e. rewrite Nat.ltb_irrefl. simpl. lia.
      * unfold g. destruct (0 <? _)%Z; auto.
      * intros Ho t Hi. unfold g in Ho. destruct (0 <? cnt (es s (hd s)))%Z eqn:Q; [discriminate|]. apply Z.ltb_ge in Q.
        assert (Ht : t < N) by (apply (on_open s (hd s)); auto; apply on_self; auto).
        pose proof (num_one (fun t => on (hd s) (wp s t)) N t Ht (on_self _ _ Hi)). lia.
      * pose proof (walk_nil s I ltac:(rewrite E; discriminate)). unfold g. destruct (0 <? _)%Z; auto.
    + (* GBack *) injection H as <-. pose proof (i_gp _ I) as Hg. rewrite E in Hg.
      apply (inv_gc s GNew (es (add s (hd s) M)) (freed s) (bad s)); auto.
      * apply (i_bad _ I).
      * intros e. destruct (add_es s (hd s) M e) as (P & Q & _). auto.
      * apply add_new; auto.
      * intros e He. rewrite (proj2 (proj2 (add_es _ _ _ e))), (i_cnt _ I e He). unfold closed. rewrite E. simpl. rewrite andb_false_r, orb_false_r, andb_true_r.
        destruct (e =? hd s) eqn:Q; [|rewrite orb_false_r; destruct (e <? hd s); lia]. apply Nat.eqb_eq in Q. subst e. rewrite Nat.ltb_irrefl. simpl. lia.
      * discriminate.
      * apply (walk_nil s I ltac:(rewrite E; discriminate)).
    + (* GLoad *) injection H as <-. pose proof (i_gp _ I) as Hg. rewrite E in Hg.
      apply (inv_gc s (GWalk (gl (es s (hd s)))) (es s) (freed s) (bad s)); auto.
      * apply (i_bad _ I).
      * apply (i_new _ I).
      * intros e He. rewrite (i_cnt _ I e He). unfold closed. rewrite E. auto.
      * intros _ t Hi. destruct (i_in _ I t _ Hi) as [_ B]. rewrite E in B. apply B; auto.
      * exists []. split; auto. apply (walk_nil s I ltac:(rewrite E; discriminate)).
    + (* GWalk *) pose proof (i_gp _ I) as Hg. rewrite E in Hg. destruct l as [|x l]; injection H as <-.
      * apply inv_delete; auto.
      * pose proof (i_walk _ I) as W. rewrite E in W. destruct W as (d & W1 & W2).
        apply (inv_gc s (GWalk l) (es s) (x :: freed s) (bad s)); auto.
        -- apply (i_bad _ I).
        -- apply (i_new _ I).
        -- intros e He. rewrite (i_cnt _ I e He). unfold closed. rewrite E. auto.
        -- intros _ t Hi. destruct (i_in _ I t _ Hi) as [_ B]. rewrite E in B. apply B; auto.
        -- exists (d ++ [x]). rewrite <- app_assoc. split; auto. unfold gone in W2. rewrite W2. rewrite app_assoc, (rev_app_distr _ [x]). auto.
    + (* GNew *) injection H as <-. apply inv_create; auto.
Qed.
Lemma inv_run acts : forall s, inv s -> inv (run N M s acts).
Proof. induction acts as [|a r IH]; simpl; auto. intros s I. apply IH. destruct (step N M a s) eqn:E; auto. eapply inv_step; eauto. Qed.

(** * Released pages *)
Lemma freed_gl s x : inv s -> In x (freed s) <-> exists c, In x (gl (es s c)) /\ (c < hd s \/ (c = hd s /\ exists l d, gp s = GWalk l /\ gl (es s c) = d ++ l /\ In x d)).
Proof.
  intros I. assert (W : exists d, gone s d /\ (d = [] \/ exists l, gp s = GWalk l /\ gl (es s (hd s)) = d ++ l) /\ forall l, gp s = GWalk l -> gl (es s (hd s)) = d ++ l).
  { pose proof (i_walk _ I) as W. destruct (gp s) eqn:E; try (exists []; repeat split; auto; discriminate). destruct W as (d & W1 & W2). exists d. split; auto. split; eauto. intros l' Q. injection Q as <-. auto. }
  destruct W as (d & W1 & W2 & W3). unfold gone in W1. rewrite W1, <- in_rev, in_app_iff, in_flat_map. split.
  - intros [(c & Hc & Hx)|Hx].
    + exists c. split; auto. apply in_seq in Hc. lia.
    + destruct W2 as [->|(l & W2 & W4)]; [destruct Hx|]. exists (hd s). split; [rewrite W4; apply in_or_app; auto|]. right. split; auto. exists l, d. auto.
  - intros (c & Hc & [H|(-> & l & d' & H1 & H2 & H3)]); [left; exists c; rewrite in_seq; split; [lia|auto]|]. right. rewrite (W3 _ H1) in H2. apply app_inv_tail in H2. subst. auto.
Qed.
Lemma nodup_left {A} : forall a b : list A, NoDup (a ++ b) -> NoDup a.
Proof. induction a as [|x a IH]; intros b H; [constructor|]. inversion H; subst. constructor; [rewrite in_app_iff in H2; auto|eauto]. Qed.
Lemma freed_nodup s : inv s -> NoDup (freed s).
Proof.
  intros I. pose proof (i_uniq _ I) as U. pose proof (i_walk _ I) as W. pose proof (i_hd _ I) as Hh.
  assert (P : exists d l, gone s d /\ (d = [] \/ gl (es s (hd s)) = d ++ l)) by (destruct (gp s); try (exists [], []; auto; fail); destruct W as (d & W1 & W2); eauto).
  destruct P as (d & l & P1 & P2). rewrite P1. apply NoDup_rev.
  replace (S (cur s)) with (hd s + S (cur s - hd s)) in U by lia. rewrite seq_app, flat_map_app in U. simpl in U.
  destruct P2 as [->|P2]; [rewrite app_nil_r; eapply nodup_left; eauto|]. rewrite P2 in U. rewrite <- !app_assoc, app_assoc in U. eapply nodup_left; eauto.
Qed.
Lemma safe s x ops t k : inv s -> In (x, ops) (unl s) -> In (t, k) ops -> opno s t = k -> is_in (wp s t) = true -> ~ In x (freed s).
Proof.
  intros I Hx Hk Ho Hi Hf. unfold is_in in Hi. destruct (inside (wp s t)) as [e|] eqn:Ei; [|discriminate].
  destruct (i_use _ I x ops t k e Hx Hk Ho Ei) as [A _]. destruct (i_in _ I t e Ei) as [B C].
  apply (freed_gl s x I) in Hf as (c & Hc & [H|(-> & l & d & H & _)]); specialize (A _ Hc); [lia|]. rewrite H in C. specialize (C eq_refl). lia.
Qed.
Lemma unl_nodup acts : forall s, NoDup (map fst (unl s)) -> NoDup (map fst (unl (run N M s acts))).
Proof.
  induction acts as [|a r IH]; simpl; auto. intros s H. apply IH. destruct (step N M a s) as [s'|] eqn:E; auto.
  destruct a; simpl in E.
  - destruct (Nat.ltb t N); [|discriminate]. destruct (wp s t); try discriminate; injection E as <-; auto.
  - destruct (wp s t); try discriminate. destruct (existsb _ _) eqn:Ex; [discriminate|]. injection E as <-. simpl. constructor; auto. apply not_unl. auto.
  - destruct (wp s t); try discriminate; injection E as <-; auto.
  - destruct (wp s t); try discriminate; try (injection E as <-; auto; fail). destruct (Nat.eqb _ _); injection E as <-; auto.
  - destruct (gp s); try discriminate; injection E as <-; auto.
  - destruct (gp s); try discriminate; try (injection E as <-; auto; fail).
    + destruct (Nat.eqb _ _); [injection E as <-; auto|]. destruct (_ <? _)%Z; [injection E as <-; auto|]. destruct (_ =? _)%Z; injection E as <-; auto.
    + destruct l; injection E as <-; auto.
Qed.

(** * The cleaner alone *)
Lemma run_app a : forall s b, run N M s (a ++ b) = run N M (run N M s a) b.
Proof. induction a; simpl; auto. Qed.
Definition quiet (s : st) : Prop := forall t e, e < cur s -> on e (wp s t) = false.
Lemma cnt_quiet s e : inv s -> quiet s -> hd s <= e < cur s -> shut (gp s) = false -> cnt (es s e) = 0%Z.
Proof.
  intros I Q H Hs. rewrite (i_cnt _ I e) by lia. rewrite num_zero by (intros; apply Q; lia). unfold closed. rewrite (proj2 (Nat.ltb_ge e (hd s))), Hs, andb_false_r by lia. auto.
Qed.
Definition same (s s' : st) : Prop := wp s' = wp s /\ unl s' = unl s /\ forall e, gl (es s' e) = gl (es s e).
Lemma same_trans a b c : same a b -> same b c -> same a c.
Proof. intros (A1 & A2 & A3) (B1 & B2 & B3). split; [congruence|]. split; [congruence|]. intros e. rewrite B3. auto. Qed.
Lemma walk_run : forall l s, gp s = GWalk l -> exists s', run N M s (repeat AGStep (S (length l))) = s' /\ gp s' = GTop /\ hd s' = S (hd s) /\ cur s' = cur s /\ same s s'.
Proof.
  induction l as [|x l IH]; intros s E; cbn [length repeat run step]; rewrite E.
  - eexists. split; [reflexivity|]. cbn. repeat split; auto. intros e. cbn. unfold upd. destruct (e =? hd s) eqn:Q; [apply Nat.eqb_eq in Q; subst|]; reflexivity.
  - apply (IH (set_g (free_page s x) (GWalk l))). auto.
Qed.
Lemma clear_run : forall d s, inv s -> quiet s -> gp s = GTop -> cur s - hd s = d -> exists n s', run N M s (repeat AGStep n) = s' /\ gp s' = GNew /\ hd s' = cur s /\ cur s' = cur s /\ same s s'.
Proof.
  induction d as [|d IH]; intros s I Q E Hd; pose proof (i_hd _ I) as Hh.
  - exists 1, (set_g s GNew). split; [cbn [repeat run step]; rewrite E, (proj2 (Nat.eqb_eq (hd s) (cur s))) by lia; auto|]. cbn. split; auto. split; [lia|]. split; auto. repeat split.
  - assert (E1 : step N M AGStep s = Some (set_g s GSub)).
    { cbn [step]. rewrite E, (proj2 (Nat.eqb_neq (hd s) (cur s))) by lia. rewrite (cnt_quiet s (hd s)); auto; [lia|rewrite E; auto]. }
    set (s1 := set_g s GSub) in *. assert (I1 : inv s1) by (eapply inv_step; eauto).
    assert (E2 : step N M AGStep s1 = Some (set_g (add s1 (hd s) (- M)) GLoad)).
    { cbn [step]. change (gp s1) with GSub. change (hd s1) with (hd s). rewrite (cnt_quiet s1 (hd s)); auto. cbn. lia. }
    set (s2 := set_g (add s1 (hd s) (- M)) GLoad) in *. assert (I2 : inv s2) by (eapply inv_step; [exact I1|exact E2]).
    assert (E3 : step N M AGStep s2 = Some (set_g s2 (GWalk (gl (es s2 (hd s)))))) by auto.
    set (s3 := set_g s2 (GWalk (gl (es s2 (hd s))))) in *. assert (I3 : inv s3) by (eapply inv_step; [exact I2|exact E3]).
    destruct (walk_run _ s3 eq_refl) as (s4 & R4 & G4 & H4 & C4 & S4).
    assert (I4 : inv s4) by (rewrite <- R4; apply inv_run; auto).
    assert (S3 : same s s3) by (repeat split; intros e; cbn; unfold upd; destruct (e =? hd s) eqn:Ee; auto; apply Nat.eqb_eq in Ee; subst; auto).
    pose proof (same_trans _ _ _ S3 S4) as S04.
    assert (Q4 : quiet s4) by (intros t e He; rewrite (proj1 S04); apply Q; rewrite C4 in He; exact He).
    change (hd s3) with (hd s) in H4. change (cur s3) with (cur s) in C4.
    destruct (IH s4 I4 Q4 G4) as (n & s5 & R5 & G5 & H5 & C5 & S5); [lia|].
    exists (3 + (S (length (gl (es s2 (hd s)))) + n)), s5. split; [|split; auto; split; [congruence|split; [congruence|]]; eapply same_trans; eauto].
    rewrite repeat_app, run_app. cbn [repeat run]. rewrite E1, E2, E3. rewrite repeat_app, run_app, R4. exact R5.
Qed.
(** One call of PerformGarbageCollection by the cleaner. *)
Lemma round s : inv s -> quiet s -> gp s = GOut -> exists n s', run N M s (AClean :: repeat AGStep n) = s' /\ gp s' = GOut /\ hd s' = cur s /\ cur s' = S (cur s) /\ same s s'.
Proof.
  intros I Q E. assert (E1 : step N M AClean s = Some (set_g s GTop)) by (simpl; rewrite E; auto). set (s1 := set_g s GTop) in *. assert (I1 : inv s1) by (eapply inv_step; eauto).
  destruct (clear_run _ s1 I1 Q eq_refl eq_refl) as (n & s2 & R & G & H & C & S). assert (I2 : inv s2) by (rewrite <- R; apply inv_run; auto).
  exists (n + 1). eexists. split; [reflexivity|]. cbn [run]. rewrite E1, repeat_app, run_app, R. cbn [repeat run step]. rewrite G. cbn. split; auto. split; auto. split; [rewrite C; auto|].
  eapply same_trans; [exact S|]. repeat split. intros e. cbn. unfold upd. destruct (e =? _) eqn:Ee; auto. apply Nat.eqb_eq in Ee. subst. rewrite (i_new _ I2) by lia. auto.
Qed.
Lemma all_gl s x : inv s -> (forall t, wp s t = Out) -> In x (map fst (unl s)) -> exists c, c <= cur s /\ In x (gl (es s c)).
Proof.
  intros I Hout Hx. destruct (i_all _ I x Hx) as [[t Ht]|[c Hc]]; [rewrite Hout in Ht; discriminate|]. exists c. split; auto.
  destruct (le_lt_dec c (cur s)) as [H|H]; auto. rewrite (i_new _ I c H) in Hc. destruct Hc.
Qed.
Lemma two_rounds s : inv s -> (forall t, wp s t = Out) -> gp s = GOut ->
  exists n m, let s' := run N M s (AClean :: repeat AGStep n ++ AClean :: repeat AGStep m) in gp s' = GOut /\ (forall x, In x (freed s') <-> In x (map fst (unl s))) /\ wp s' = wp s.
Proof.
  intros I Hout E. assert (Q : quiet s) by (intros t e _; rewrite Hout; auto).
  destruct (round s I Q E) as (n & s1 & R1 & G1 & H1 & C1 & S1). assert (I1 : inv s1) by (rewrite <- R1; apply inv_run; auto).
  assert (Q1 : quiet s1) by (intros t e _; rewrite (proj1 S1), Hout; auto).
  destruct (round s1 I1 Q1 G1) as (m & s2 & R2 & G2 & H2 & C2 & S2). assert (I2 : inv s2) by (rewrite <- R2; apply inv_run; auto).
  pose proof (same_trans _ _ _ S1 S2) as (W & U & G). exists n, m. cbn zeta.
  rewrite (app_comm_cons _ _ AClean), run_app, R1, R2. split; auto. split; [|exact W]. intros x. rewrite (freed_gl s2 x I2). split.
  - intros (c & Hc & _). rewrite <- U. eapply (i_gl _ I2); eauto.
  - intros Hx. destruct (all_gl s x I Hout Hx) as (c & Hc & Hi). exists c. rewrite G. split; auto. left. lia.
Qed.
(** The destructor. *)
Lemma clear_all_ok : forall f s, (forall e, hd s <= e -> cnt (es s e) = 0%Z) ->
  let s' := clear_all M f s in hd s' = hd s + f /\ freed s' = rev (flat_map (fun c => gl (es s c)) (seq (hd s) f)) ++ freed s.
Proof.
  induction f as [|f IH]; intros s H; simpl; [split; auto; lia|]. rewrite H by auto. simpl.
  set (s1 := {| es := _ |}). destruct (IH s1) as [A B].
  - intros e He. cbn in He |- *. rewrite upd_other by lia. apply H. lia.
  - rewrite A, B. cbn. split; [lia|]. rewrite rev_app_distr, <- app_assoc. f_equal. f_equal. apply flat_other. intros e He. apply in_seq in He. rewrite upd_other by lia. auto.
Qed.
Lemma destroy_ok s : inv s -> (forall t, wp s t = Out) -> gp s = GOut -> hd (destroy M s) = S (cur s) /\ NoDup (freed (destroy M s)) /\ forall x, In x (freed (destroy M s)) <-> In x (map fst (unl s)).
Proof.
  intros I Hout E. pose proof (i_hd _ I) as Hh.
  destruct (clear_all_ok (S (cur s) - hd s) s) as [A B].
  - intros e He. destruct (le_lt_dec e (cur s)) as [H|H]; [|rewrite (i_new _ I e H); auto]. rewrite (i_cnt _ I e H), num_zero by (intros; rewrite Hout; auto). unfold closed. rewrite E, (proj2 (Nat.ltb_ge e (hd s)) He), andb_false_r. auto.
  - fold (destroy M s) in A, B. split; [lia|]. pose proof (i_walk _ I) as W. rewrite E in W. unfold gone in W. rewrite app_nil_r in W. rewrite W in B. rewrite <- rev_app_distr, <- flat_map_app in B. change (hd s) with (0 + hd s) in B at 2. rewrite <- seq_app in B.
    replace (hd s + (S (cur s) - hd s)) with (S (cur s)) in B by lia. rewrite B. split; [apply NoDup_rev, (i_uniq _ I)|]. intros x. rewrite <- in_rev, in_flat_map. split.
    + intros (c & _ & Hc). eapply (i_gl _ I); eauto.
    + intros Hx. destruct (all_gl s x I Hout Hx) as (c & Hc & Hi). exists c. rewrite in_seq. split; auto. lia.
Qed.
End OldEpochProofs.
