(** Proofs for [BalanceSpec]: the counters follow from linearizability. *)
From Coq Require Import List Arith Bool Lia.
From Verif Require Import Base Tree TreeSpec BalanceSpec.
Import ListNotations.

Section Balance.
Context {P : Params}.

(** The call a thread is in, from what callers see (latest event first). *)
Fixpoint now (l : list vis) (t : nat) : option op :=
  match l with
  | [] => None
  | VCall u o :: l => if t =? u then Some o else now l t
  | VRet u _ _ :: l => if t =? u then None else now l t
  end.
Lemma exec_now tr ss s : exec tr ss s -> forall t, option_map fst (running s t) = now (visible tr) t.
Proof.
  induction 1 as [|tr ss s e s' H IH Hs]; intros t; [reflexivity|].
  inversion Hs as [s0 u o fuel E|s0 u o p E E1 E2|s0 u o r E]; subst s0 e s'; simpl; unfold tset; simpl.
  - destruct (t =? u); [reflexivity|apply IH].
  - destruct (t =? u) eqn:Et; [|apply IH]. apply Nat.eqb_eq in Et. subst u.
    rewrite <- IH, E. reflexivity.
  - destruct (t =? u); [reflexivity|apply IH].
Qed.
Definition op_of (x : status) : option op := match x with Idle => None | Called o | Done o _ => Some o end.
Lemma aexec_now full atr a : aexec full atr a -> forall t, op_of (snd a t) = now (avisible atr) t.
Proof.
  induction 1 as [|tr a e a' H IH Hs]; intros t; [reflexivity|].
  inversion Hs as [A st u o E|A A' st u o r E E1|A st u o r E]; subst a e a'; simpl; unfold tset; simpl in *.
  - destruct (t =? u); [reflexivity|apply IH].
  - destruct (t =? u) eqn:Et; [|apply IH]. apply Nat.eqb_eq in Et. subst u.
    rewrite <- IH, E. reflexivity.
  - destruct (t =? u); [reflexivity|apply IH].
Qed.

Lemma count_app f a b : count f (a ++ b) = count f a + count f b.
Proof. unfold count. rewrite filter_app, app_length. reflexivity. Qed.
Lemma count_cons f x l : count f (x :: l) = (if f (fst x) (snd x) then 1 else 0) + count f l.
Proof. unfold count. simpl. destruct (f (fst x) (snd x)); reflexivity. Qed.
Lemma count_all l : count all l = length l.
Proof. induction l as [|x l IH]; auto. rewrite count_cons, IH. reflexivity. Qed.

(** Calls with the response that is determined but not yet returned. *)
Definition gains (D : list (nat * (op * resp))) := flat_map (fun x => added (fst (snd x)) (snd (snd x))) D.
Definition losses (D : list (nat * (op * resp))) := flat_map (fun x => removed (fst (snd x)) (snd (snd x))) D.

Definition balanced (l : list vis) (A : pairs) (st : nat -> status) : Prop :=
  exists D S, NoDup (map fst D) /\ (forall t o r, In (t, (o, r)) D <-> st t = Done o r) /\
    NoDup S /\ (forall k v, In (k, v) S <-> A k v) /\
    forall f, count f S + (count f (dels l) + count f (losses D)) = count f (adds l) + count f (gains D).

Lemma effect_lists full o A A' r S : effect full o A A' r -> NoDup S -> (forall k v, In (k, v) S <-> A k v) ->
  exists S', NoDup S' /\ (forall k v, In (k, v) S' <-> A' k v) /\
    forall f, count f S' + count f (removed o r) = count f S + count f (added o r).
Proof.
  intros He Hn HS.
  assert (Hsame : same A A' -> added o r = [] -> removed o r = [] ->
    exists S', NoDup S' /\ (forall k v, In (k, v) S' <-> A' k v) /\
      forall f, count f S' + count f (removed o r) = count f S + count f (added o r)).
  { intros E -> ->. exists S. split; [exact Hn|]. split; [|intros f; lia].
    intros k v. rewrite HS. apply E. }
  assert (Hadd : forall k v, ~ A k v -> (forall k' v', A' k' v' <-> A k' v' \/ (k' = k /\ v' = v)) ->
    added o r = [(k, v)] -> removed o r = [] ->
    exists S', NoDup S' /\ (forall k v, In (k, v) S' <-> A' k v) /\
      forall f, count f S' + count f (removed o r) = count f S + count f (added o r)).
  { intros k v Hk E -> ->. exists ((k, v) :: S). split; [constructor; [rewrite HS; exact Hk|exact Hn]|]. split.
    - intros k' v'. rewrite E, <- HS. simpl. split.
      + intros [X|X]; [injection X as <- <-|]; auto.
      + intros [X|(-> & ->)]; auto.
    - intros f. rewrite !count_cons. change (count f []) with 0. lia. }
  destruct o as [k v|k v|k v pred|k|k|k|], r as [[|]|[|] [|]|lv|low items high]; simpl in He; try contradiction.
  - destruct He as (Hk & E). apply (Hadd k v Hk E); reflexivity.
  - apply Hsame; [apply He| |]; reflexivity.
  - destruct He as (Hk & E). apply HS in Hk. apply in_split in Hk. destruct Hk as (S1 & S2 & ->).
    exists (S1 ++ S2). pose proof (NoDup_remove_1 _ _ _ Hn) as H1. pose proof (NoDup_remove_2 _ _ _ Hn) as H2.
    split; [exact H1|]. split.
    + intros k' v'. rewrite E, <- HS, !in_app_iff. simpl. split.
      * intros X. split; [tauto|]. intros (-> & ->). apply H2, in_app_iff, X.
      * intros ([X|[X|X]] & Y); auto. injection X as -> ->. exfalso. apply Y. auto.
    + intros f. unfold added, removed. rewrite !count_app, !count_cons. change (count f []) with 0. lia.
  - apply Hsame; [apply He| |]; reflexivity.
  - destruct He as (Hk & _ & E). apply (Hadd k v Hk E); reflexivity.
  - apply Hsame; [apply He| |]; reflexivity.
  - apply Hsame; [apply He| |]; reflexivity.
  - apply Hsame; [apply He| |]; reflexivity.
  - apply Hsame; [apply He| |]; reflexivity.
  - apply Hsame; [apply He| |]; reflexivity.
  - apply Hsame; [apply He| |]; reflexivity.
Qed.

Lemma aexec_balanced full atr a : aexec full atr a -> balanced (avisible atr) (fst a) (snd a).
Proof.
  induction 1 as [|tr a e a' H IH Hs].
  - exists [], []. split; [constructor|]. split; [intros t o r; simpl; split; [tauto|discriminate]|].
    split; [constructor|]. split; [intros k v; simpl; tauto|]. reflexivity.
  - destruct IH as (D & S & ND & HD & NS & HS & Hc).
    inversion Hs as [A st u o E|A A' st u o r E E1|A st u o r E]; subst a e a'; simpl in *.
    + exists D, S. split; [exact ND|]. split; [|split; [exact NS|split; [exact HS|exact Hc]]].
      intros t o' r'. rewrite HD. unfold tset. destruct (t =? u) eqn:Et; [|tauto].
      apply Nat.eqb_eq in Et. subst u. rewrite E. split; discriminate.
    + destruct (effect_lists _ _ _ _ _ _ E1 NS HS) as (S' & NS' & HS' & Hc').
      exists ((u, (o, r)) :: D), S'. split.
      { simpl. constructor; [|exact ND]. intros X. apply in_map_iff in X. destruct X as ((u' & o' & r') & X & Y).
        simpl in X. subst u'. apply HD in Y. rewrite E in Y. discriminate. }
      split.
      { intros t o' r'. simpl. unfold tset. destruct (t =? u) eqn:Et.
        - apply Nat.eqb_eq in Et. subst u. split.
          + intros [X|X]; [injection X as -> ->; reflexivity|]. apply HD in X. rewrite E in X. discriminate.
          + intros X. injection X as -> ->. auto.
        - apply Nat.eqb_neq in Et. rewrite <- HD. split; [intros [X|X]; [congruence|exact X]|auto]. }
      split; [exact NS'|]. split; [exact HS'|]. intros f. specialize (Hc f). specialize (Hc' f).
      simpl. rewrite !count_app. lia.
    + assert (X : In (u, (o, r)) D) by (apply HD; exact E). apply in_split in X. destruct X as (D1 & D2 & ->).
      rewrite map_app in ND. simpl in ND.
      pose proof (NoDup_remove_1 _ _ _ ND) as H1. pose proof (NoDup_remove_2 _ _ _ ND) as H2.
      rewrite <- map_app in H1, H2.
      exists (D1 ++ D2), S. split; [exact H1|]. split.
      { intros t o' r'. unfold tset. destruct (t =? u) eqn:Et.
        - apply Nat.eqb_eq in Et. subst u. split; [|discriminate]. intros X. exfalso. apply H2.
          apply (in_map fst) in X. exact X.
        - apply Nat.eqb_neq in Et. rewrite <- HD, !in_app_iff. simpl. split; [tauto|].
          intros [X|[X|X]]; auto. congruence. }
      split; [exact NS|]. split; [exact HS|]. intros f. specialize (Hc f).
      unfold gains, losses in *. rewrite !flat_map_app in *. simpl in *. rewrite !count_app in *. lia.
Qed.

(** Every execution that is linearizable, whatever is still running. *)
Lemma exec_balanced full tr ss s : exec tr ss s -> linearizable full tr (sm s) ->
  exists D S, NoDup (map fst D) /\ (forall t o r, In (t, (o, r)) D -> exists p, running s t = Some (o, p)) /\
    NoDup S /\ (forall k v, In (k, v) S <-> contents (sm s) k v) /\
    forall f, count f S + (count f (dels (visible tr)) + count f (losses D)) =
              count f (adds (visible tr)) + count f (gains D).
Proof.
  intros Hx (atr & A & st & Ha & Ev & Es).
  destruct (aexec_balanced _ _ _ Ha) as (D & S & ND & HD & NS & HS & Hc). simpl in *. rewrite Ev in Hc.
  exists D, S. split; [exact ND|]. split.
  { intros t o r X. apply HD in X. pose proof (aexec_now _ _ _ Ha t) as Y. simpl in Y. rewrite X in Y. simpl in Y.
    rewrite Ev, <- (exec_now _ _ _ Hx t) in Y. destruct (running s t) as [[o' p]|]; [|discriminate].
    injection Y as <-. exists p. reflexivity. }
  split; [exact NS|]. split; [|exact Hc]. intros k v. rewrite HS. apply Es.
Qed.

Lemma quiet_balanced full tr ss s : exec tr ss s -> linearizable full tr (sm s) -> quiet s ->
  exists S, NoDup S /\ (forall k v, In (k, v) S <-> contents (sm s) k v) /\
    forall f, count f S + count f (dels (visible tr)) = count f (adds (visible tr)).
Proof.
  intros Hx Hl Hq. destruct (exec_balanced _ _ _ _ Hx Hl) as (D & S & ND & HD & NS & HS & Hc).
  destruct D as [|(t & o & r) D].
  - exists S. split; [exact NS|]. split; [exact HS|]. intros f. specialize (Hc f). simpl in Hc.
    change (count f []) with 0 in Hc. lia.
  - destruct (HD t o r (or_introl eq_refl)) as (p & E). rewrite Hq in E. discriminate.
Qed.

Lemma only_true k v k' v' : only k v k' v' = true <-> k' = k /\ v' = v.
Proof.
  unfold only. rewrite andb_true_iff, keq_spec, veq_spec. split; intros (-> & ->); auto.
Qed.
Lemma count_only_in k v S : In (k, v) S -> 1 <= count (only k v) S.
Proof.
  induction S as [|(k', v') S IH]; intros H; [destruct H|]. rewrite count_cons. simpl. destruct H as [H|H].
  - injection H as -> ->. rewrite (proj2 (only_true k v k v)) by auto. lia.
  - apply IH in H. lia.
Qed.
Lemma count_only_out k v S : ~ In (k, v) S -> count (only k v) S = 0.
Proof.
  induction S as [|(k', v') S IH]; intros H; [reflexivity|]. rewrite count_cons. simpl in *.
  destruct (only k v k' v') eqn:E.
  - apply only_true in E. destruct E as (-> & ->). exfalso. auto.
  - rewrite IH; auto.
Qed.
Lemma count_only_nodup k v S : NoDup S -> count (only k v) S <= 1.
Proof.
  induction 1 as [|(k', v') S H1 H2 IH]; [auto|]. rewrite count_cons. simpl.
  destruct (only k v k' v') eqn:E; [|lia].
  apply only_true in E. destruct E as (-> & ->). rewrite (count_only_out _ _ _ H1). lia.
Qed.

(** Calls whose response adds the pair are among the calls of the pair. *)
Lemma exec_tries tr ss s k v : exec tr ss s ->
  count (only k v) (adds (visible tr)) <= tries k v (visible tr).
Proof.
  intros H.
  (* number of calls returned with success, plus running calls of the pair *)
  assert (G : forall tr ss s, exec tr ss s -> exists L, NoDup L /\
     (forall t, In t L <-> match running s t with
        | Some (OpIns k' v', _) | Some (OpCond k' v' _, _) => only k v k' v' = true | _ => False end) /\
     count (only k v) (adds (visible tr)) + length L <= tries k v (visible tr)).
  { clear. induction 1 as [|tr ss s e s' H IH Hs].
    - exists []. split; [constructor|]. split; [intros t; simpl; tauto|reflexivity].
    - destruct IH as (L & NL & HL & Hc).
      inversion Hs as [s0 u o fuel E|s0 u o p E E1 E2|s0 u o r E]; subst s0 e s'; simpl.
      + set (b := match o with OpIns k' v' | OpCond k' v' _ => only k v k' v' | _ => false end).
        assert (Hu : ~ In u L) by (intros X; apply HL in X; rewrite E in X; exact X).
        exists (if b then u :: L else L). split; [destruct b; [constructor; auto|exact NL]|]. split.
        * intros t. unfold tset. destruct (t =? u) eqn:Et.
          -- apply Nat.eqb_eq in Et. subst u. subst b.
             destruct o as [k' v'|k' v'|k' v' pred|k'|k'|k'|]; simpl; try (split; [exact Hu|tauto]);
               destruct (only k v k' v'); simpl; split; auto; try tauto; discriminate.
          -- apply Nat.eqb_neq in Et. rewrite <- HL. destruct b; simpl; [|tauto]. split; [intros [X|X]; [congruence|exact X]|auto].
        * unfold tries in *. simpl.
          replace (match o with OpIns k' v' | OpCond k' v' _ => only k v k' v' | _ => false end) with b by reflexivity.
          destruct b; simpl; lia.
      + exists L. split; [exact NL|]. split; [|exact Hc]. intros t. rewrite HL. unfold tset.
        destruct (t =? u) eqn:Et; [|tauto]. apply Nat.eqb_eq in Et. subst u. rewrite E. tauto.
      + rewrite count_app. unfold tries in *. simpl.
        assert (In u L \/ ~ In u L) as [Hu|Hu] by (destruct (in_dec Nat.eq_dec u L); auto).
        * apply in_split in Hu. destruct Hu as (L1 & L2 & ->).
          pose proof (NoDup_remove_1 _ _ _ NL) as H1. pose proof (NoDup_remove_2 _ _ _ NL) as H2.
          exists (L1 ++ L2). split; [exact H1|]. split.
          -- intros t. unfold tset. destruct (t =? u) eqn:Et.
             ++ apply Nat.eqb_eq in Et. subst u. split; tauto.
             ++ apply Nat.eqb_neq in Et. rewrite <- HL, !in_app_iff. simpl. split; [tauto|].
                intros [X|[X|X]]; auto. congruence.
          -- assert (count (only k v) (added o r) <= 1).
             { assert (length (added o r) <= 1) by (destruct o, r as [[|]|[|] ?|?|? ? ?]; simpl; lia).
               unfold count. eapply Nat.le_trans; [|eassumption].
               clear. induction (added o r) as [|x l IH]; simpl; [lia|]. destruct (only k v (fst x) (snd x)); simpl; lia. }
             rewrite app_length in *. simpl in *. lia.
        * exists L. split; [exact NL|]. split.
          -- intros t. unfold tset. destruct (t =? u) eqn:Et; [|apply HL].
             apply Nat.eqb_eq in Et. subst u. split; tauto.
          -- assert (count (only k v) (added o r) = 0).
             { apply count_only_out. intros X. apply Hu, HL. rewrite E.
               destruct o as [k' v'|k' v'|k' v' pred|k'|k'|k'|], r as [[|]|[|] ?|?|? ? ?]; simpl in X; try tauto;
                 destruct X as [X|[]]; injection X as -> ->; apply only_true; auto. }
             lia. }
  destruct (G _ _ _ H) as (L & _ & _ & Hc). lia.
Qed.

(** Deciding [quiet] for a given run. *)
Definition who (e : vis) : nat := match e with VCall t _ | VRet t _ _ => t end.
Definition quietb (l : list vis) : bool :=
  forallb (fun e => match now l (who e) with None => true | Some _ => false end) l.
Lemma now_absent l t : (forall e, In e l -> who e <> t) -> now l t = None.
Proof.
  induction l as [|e l IH]; intros H; [reflexivity|].
  assert (IH' : now l t = None) by (apply IH; intros e' He; apply H; right; exact He).
  assert (He : who e <> t) by (apply H; left; reflexivity).
  destruct e as [u o|u o r]; simpl in *; destruct (t =? u) eqn:Et; auto; apply Nat.eqb_eq in Et; congruence.
Qed.
Lemma quietb_ok tr ss s : exec tr ss s -> quietb (visible tr) = true -> quiet s.
Proof.
  intros Hx H t. pose proof (exec_now _ _ _ Hx t) as E.
  assert (now (visible tr) t = None) as N.
  { destruct (in_dec Nat.eq_dec t (map who (visible tr))) as [X|X].
    - apply in_map_iff in X. destruct X as (e & <- & X). unfold quietb in H. rewrite forallb_forall in H.
      specialize (H _ X). destruct (now (visible tr) (who e)); [discriminate|reflexivity].
    - apply now_absent. intros e He <-. apply X, in_map, He. }
  rewrite N in E. destruct (running s t); [discriminate|reflexivity].
Qed.
End Balance.
