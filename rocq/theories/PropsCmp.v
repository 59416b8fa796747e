(** Comparing iterators (C43). *)
From Coq Require Import List Arith Lia Bool.
From Verif Require Import Base Leaf LeafSpec Inner Tree TreeSpec TreeRun Inst Iter IterSpec IterPlay IterCmp PropsScan.
Import ListNotations.

(** C43 for two iterators obtained in any execution, neither of which is the
    reverse end or stands on a page without items (unless it is the end
    iterator): [<] and [==] return, and compare the keys the iterators stand
    on, the end being greater than all keys.  Missing: the other iterators, for
    which the claim is false, see below. *)
Theorem C43_compare_partial : forall {P : Params} tr ss s a b,
  exec tr ss s -> obtained tr a -> obtained tr b -> readable a -> readable b ->
  exists p q x y, stands a p /\ stands b q /\
    iter_lt a b = Ok x /\ (x = true <-> before p q) /\ iter_eq a b = Ok y /\ (y = true <-> p = q).
Proof. intros P. exact compare_ok. Qed.
Print Assumptions C43_compare_partial.
(** An iterator that is advanced does not become smaller, one that is moved
    back does not become greater, whatever other threads do. *)
Theorem C43_moves_partial : forall {P : Params} tr ss s f it log it' p q,
  exec tr ss s -> obtained tr it -> answered tr log -> stands it p -> stands it' q ->
  (follows (next f it) log it' -> ~ before q p) /\ (follows (prev f it) log it' -> ~ before p q).
Proof. intros P tr ss s f it log it' p q Hx Ho Ha Hp Hq. split; intros Hf; [eapply next_order|eapply prev_order]; eauto. Qed.
Print Assumptions C43_moves_partial.

#[local] Existing Instance natP.
Definition one_pair : conf := play (whole 0 (@OpIns natP 5 1) ++ whole 1 OpFirst).
Definition one_begin : iter := @Build_iter natP None [(5, 1)] None 1.
Definition empty_first : conf := play (flat_map (whole 0) (ins 1 200 ++ del 1 64) ++ whole 1 OpFirst ++ whole 2 (OpPage 150)).
(** C43 is false of the reverse end, which is reached by moving back from
    Begin(): [==] and [<] read the item before the first one of the page; and
    of Begin() if the first page is empty and others are not: they read the
    item behind the last one. *)
Theorem C43_refuted :
  (exists tr ss s a b, exec tr ss s /\ obtained tr a /\ obtained tr b /\ is_rend a = true /\ (exists x, deref b = Ok x) /\
     iter_eq a b = Er ERange /\ iter_lt a b = Er ERange) /\
  (exists tr ss s a b, exec tr ss s /\ obtained tr a /\ obtained tr b /\ is_end a = false /\ is_rend a = false /\ (exists x, deref b = Ok x) /\
     iter_eq a b = Er ERange /\ iter_lt a b = Er ERange).
Proof.
  split.
  - set (c := one_pair). set (b := one_begin).
    assert (Ha : answered (c_tr c) [(OpFirst, @RPage natP None [(5, 1)] None)]).
    { intros o r [E|[]]. injection E as <- <-. exists 1. vm_compute. auto. }
    assert (Hb : obtained (c_tr c) b) by (eapply O_begin; [exact Ha|repeat constructor]).
    exists (c_tr c), (c_ss c), (c_s c), (move b 0), b. split; [apply play_exec|]. split.
    { eapply (O_prev _ 1 b []); [exact Hb|intros o r []|]. unfold b. vm_compute. constructor. }
    split; [exact Hb|]. split; [reflexivity|]. split; [eexists; reflexivity|]. split; reflexivity.
  - assert (E : match feed begin_first (map snd (returns 1 (c_tr empty_first))), feed (lower 1 150) (map snd (returns 2 (c_tr empty_first))) with
                | Some (l1, a), Some (l2, b) => l1 = returns 1 (c_tr empty_first) /\ l2 = returns 2 (c_tr empty_first) /\
                    is_end a = false /\ is_rend a = false /\ deref b = Ok (150, 1) /\ iter_eq a b = Er ERange /\ iter_lt a b = Er ERange
                | _, _ => False end) by (vm_compute; auto 10).
    destruct (feed begin_first _) as [[l1 a]|] eqn:E1; [|destruct E]. destruct (feed (@lower natP 1 150) _) as [[l2 b]|] eqn:E2; [|destruct E].
    destruct E as (-> & -> & H1 & H2 & H3 & H4 & H5).
    exists (c_tr empty_first), (c_ss empty_first), (c_s empty_first), a, b. split; [apply play_exec|].
    split; [eapply O_begin; [apply returns_answered|eapply feed_ok; exact E1]|]. split; [eapply O_key; [apply returns_answered|eapply feed_ok; exact E2]|]. eauto 10.
Qed.
Print Assumptions C43_refuted.

(** Thread 1 holds an iterator on 30 and advances it into the next page, to 65,
    while thread 0 deletes pairs; thread 2 holds the end iterator. *)
Definition compared : conf :=
  play (flat_map (whole 0) (ins 1 200) ++ whole 1 (OpPage 64) ++ flat_map (whole 0) (del 40 20 ++ del 65 20) ++ whole 3 (OpPage 65) ++ whole 2 (OpPage 300)).
Example C43_example : exists ss s a a' e, let tr := c_tr compared in
  exec tr ss s /\ obtained tr a /\ obtained tr a' /\ obtained tr e /\ readable a /\ readable a' /\ readable e /\
  stands a (At 64) /\ stands a' (At 85) /\ stands e Last /\ iter_lt a a' = Ok true /\ iter_lt a' e = Ok true /\ iter_eq a' a = Ok false /\ iter_lt e e = Ok false /\
  exists log, answered tr log /\ follows (next 1 a) log a'.
Proof.
  assert (E : match feed (lower 1 64) (map snd (returns 1 (c_tr compared))), feed (lower 1 300) (map snd (returns 2 (c_tr compared))) with
              | Some (l1, a), Some (l2, e) => l1 = returns 1 (c_tr compared) /\ l2 = returns 2 (c_tr compared) /\
                  match feed (next 1 a) (map snd (returns 3 (c_tr compared))) with
                  | Some (l3, a') => l3 = returns 3 (c_tr compared) /\ (is_rend a = false /\ i_items a <> []) /\ (is_rend a' = false /\ i_items a' <> []) /\ (is_rend e = false /\ is_end e = true) /\
                      (is_end a = false /\ deref a = Ok (64, 1)) /\ (is_end a' = false /\ deref a' = Ok (85, 1)) /\
                      iter_lt a a' = Ok true /\ iter_lt a' e = Ok true /\ iter_eq a' a = Ok false /\ iter_lt e e = Ok false
                  | _ => False end
              | _, _ => False end) by (vm_compute; repeat split; auto; discriminate).
  destruct (feed (@lower natP 1 64) _) as [[l1 a]|] eqn:E1; [|destruct E]. destruct (feed (@lower natP 1 300) _) as [[l2 e]|] eqn:E2; [|destruct E].
  destruct E as (-> & -> & E). destruct (feed (next 1 a) _) as [[l3 a']|] eqn:E3; [|destruct E]. destruct E as (-> & [R1 R2] & [R3 R4] & [R5 R6] & [S1 S2] & [S3 S4] & E).
  exists (c_ss compared), (c_s compared), a, a', e. cbv zeta. apply feed_ok in E1, E2, E3.
  assert (Oa : obtained (c_tr compared) a) by (eapply O_key; [apply returns_answered|exact E1]).
  split; [apply play_exec|]. split; [exact Oa|]. split; [eapply O_next; [exact Oa|apply returns_answered|exact E3]|]. split; [eapply O_key; [apply returns_answered|exact E2]|].
  split; [split; auto|]. split; [split; auto|]. split; [split; auto|]. split; [split; [exact S1|exists 1; exact S2]|]. split; [split; [exact S3|exists 1; exact S4]|].
  split; [exact R6|]. destruct E as (T1 & T2 & T3 & T4). split; [exact T1|]. split; [exact T2|]. split; [exact T3|]. split; [exact T4|].
  exists (returns 3 (c_tr compared)). split; [apply returns_answered|exact E3].
Qed.
