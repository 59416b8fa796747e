(** Iterators (C15, C16, C17, C18, C37). *)
From Coq Require Import List Arith Bool Lia Sorted.
From Verif Require Import Base Inst Leaf LeafSpec Inner Tree TreeSpec TreeRun SeqOps SeqRun SeqPlay Iter IterSpec IterProofs IterBack IterPlay.
Import ListNotations.

(** C16.  After any calls of Insert, Delete (and GetValue and
    ConditionalInsert as in C02) by one thread, Begin(k) returns and stands on the first stored pair
    with key not smaller than [k]; the stored set is unchanged. *)
Theorem C16_begin_key_partial : forall {P : Params} l m k, calmrun l m ->
  exists fuel0 m' it,
    (forall f f2, fuel0 <= f -> fuel0 <= f2 -> irun m f2 (lower f k) = (m', Ok it)) /\
    same (contents m) (contents m') /\ first_from (contents m) (Some k) it.
Proof. intros P. exact begin_key. Qed.
Print Assumptions C16_begin_key_partial.

(** C16, advancing: reading and advancing until IsEnd() returns exactly the
    pairs with keys not smaller than [k], each once, ascending. *)
Theorem C16_scan_partial : forall {P : Params} l m k, calmrun l m ->
  exists n0 fuel0 m' outs it,
    (forall n f f2, n0 <= n -> fuel0 <= f -> fuel0 <= f2 -> irun m f2 (ibind (lower f k) (walk n f)) = (m', Ok (outs, it))) /\
    is_end it = true /\ same (contents m) (contents m') /\ listing (contents m) (Some k) outs.
Proof. intros P. exact scan_exact_key. Qed.
Print Assumptions C16_scan_partial.

(** C15, when the first page is not empty (or is the only page): Begin() and
    advancing until IsEnd() returns every stored pair once, ascending. *)
Theorem C15_scan_partial : forall {P : Params} l m, calmrun l m ->
  exists it, (forall f, irun m f begin_first = (m, Ok it)) /\
    (is_end it = true \/ (exists x, deref it = Ok x) ->
     first_from (contents m) None it /\
     exists n0 fuel0 m' outs it',
       (forall n f f2, n0 <= n -> fuel0 <= f -> fuel0 <= f2 -> irun m f2 (ibind begin_first (walk n f)) = (m', Ok (outs, it'))) /\
       is_end it' = true /\ same (contents m) (contents m') /\ listing (contents m) None outs).
Proof. intros P. exact begin_scan. Qed.
Print Assumptions C15_scan_partial.

(** C17.  With any other threads: an iterator started by Begin(k), read and
    advanced any number of times, returns ascending keys not smaller than [k]
    and no pair twice. *)
Theorem C17_no_step_back : forall {P : Params} tr ss s f n k log outs it,
  exec tr ss s -> answered tr log -> follows (ibind (lower f k) (walk n f)) log (outs, it) ->
  ascending outs /\ NoDup outs /\ forall x v, In (x, v) outs -> klt x k = false.
Proof. intros P. exact scan_key. Qed.
Print Assumptions C17_no_step_back.
(** The same for Begin(). *)
Theorem C17_no_step_back_begin : forall {P : Params} tr ss s f n log outs it,
  exec tr ss s -> answered tr log -> follows (ibind begin_first (walk n f)) log (outs, it) ->
  ascending outs /\ NoDup outs.
Proof. intros P. exact scan_first. Qed.
Print Assumptions C17_no_step_back_begin.

(** C18, if it returns: after any calls by one thread, an iterator whose page
    is up to date and that is moved back stands on the last pair before its
    old position, or is the reverse end if there is none. *)
Theorem C18_step_back_partial : forall {P : Params} f f2 l m it m' it',
  seqrun l m -> fresh (contents m) it -> in_page it -> irun m f2 (prev f it) = (m', Ok it') ->
  same (contents m) (contents m') /\ fresh (contents m) it' /\ step_back (contents m) it it' /\
  (is_rend it' = false -> in_page it').
Proof. intros P. exact prev_run. Qed.
Print Assumptions C18_step_back_partial.

(** C37.  With any other threads: an iterator started by Begin(k), read and
    moved back any number of times, returns descending keys and no pair
    twice. *)
Theorem C37_no_step_ahead : forall {P : Params} tr ss s f n k log outs it,
  exec tr ss s -> answered tr log -> follows (ibind (lower f k) (walk_back n f)) log (outs, it) ->
  descending outs /\ NoDup outs.
Proof. intros P. exact scan_back. Qed.
Print Assumptions C37_no_step_ahead.

(** * Counterexamples *)
#[local] Existing Instance natP.
Definition ins (a n : nat) : list op := map (fun i => OpIns i 1) (seq a n).
Definition del (a n : nat) : list op := map (fun i => OpDel i 1) (seq a n).
Definition is_page (r : option (res resp)) (x : nat * nat) : bool :=
  match r with Some (Ok (RPage _ items _)) => existsb (fun y => (fst y =? fst x) && (snd y =? snd x)) items | _ => false end.
Lemma page_contents l m k x v : seqrun l m -> is_page (ro m (code 60 (OpPage k))) (x, v) = true -> contents m x v.
Proof.
  intros Hq E. destruct (ro m (code 60 (OpPage k))) as [[r|]|] eqn:Er; try discriminate. apply ro_ok in Er.
  pose proof (call_effect _ _ _ _ _ _ Hq Er) as He. destruct r as [| | |low items high]; try discriminate.
  simpl in E. apply existsb_exists in E as ([x' v'] & Hi & He'). apply andb_true_iff in He' as [E1 E2]. apply Nat.eqb_eq in E1, E2. simpl in E1, E2. subst x' v'.
  destruct He as (_ & _ & Hp & _). apply Hp in Hi. apply Hi.
Qed.

(** C15 is false: after the first page was emptied by deletes, Begin() stands
    outside its page although pairs are stored: reading and advancing both
    leave the page buffer. *)
Definition emptied : list op := ins 1 140 ++ del 1 64 ++ [OpPage 100].
Theorem C15_refuted : exists l m it, calmrun l m /\ (exists x v, contents m x v) /\
  (forall f, irun m f begin_first = (m, Ok it)) /\ is_end it = false /\
  deref it = Er ERange /\ forall f f2, irun m f2 (next f it) = (m, Er ERange).
Proof.
  assert (E : match run_calm 60 emptied [] minit with
              | Some (l, m) => is_page (ro m (code 60 (OpPage 100))) (100, 1) = true /\ ro m first_page = Some (Ok (RPage None [] (Some (65, 3))))
              | None => False end) by (vm_compute; auto).
  destruct (run_calm 60 emptied [] minit) as [[l m]|] eqn:Er; [|destruct E]. destruct E as [E1 E2].
  assert (Hq : calmrun l m) by (apply (run_calm_ok 60 emptied [] minit); [constructor|exact Er]).
  exists l, m, (@Build_iter natP None [] (Some (65, 3)) 1). split; [exact Hq|].
  split; [exists 100, 1; eapply page_contents; [apply calmrun_seqrun; exact Hq|exact E1]|].
  apply ro_ok in E2. split; [intros f; unfold begin_first; cbn [irun code]; rewrite E2; reflexivity|]. split; [reflexivity|]. split; [reflexivity|]. reflexivity.
Qed.
Print Assumptions C15_refuted.

(** C18 is false: after a page merge whose parent is not yet reorganised,
    moving back from the first pair of the page behind the merged ones
    restarts for ever, although there are pairs before it. *)
Definition merged : list op := ins 1 280 ++ del 129 33 ++ [OpPage 193; OpPage 1].
Theorem C18_refuted : exists l m k it, calmrun l m /\ irun m 60 (lower 60 k) = (m, Ok it) /\
  (exists x v, behind (contents m) it x v) /\
  forall f f2, snd (irun m f2 (prev f it)) = Er EFuel.
Proof.
  assert (E : match run_calm 60 merged [] minit with
              | Some (l, m) => is_page (ro m (code 60 (OpPage 1))) (1, 1) = true /\
                  match iro m 60 (lower 60 193) with Some (Ok it) => i_pos it = 1 /\ i_low it = Some 193 | _ => False end /\
                  ro m (attempt kgt inavBI 10 193) = Some (Ok None) /\ forallb (again m kgt inavBI 193) (seq 0 10) = true
              | None => False end) by (vm_compute; auto).
  destruct (run_calm 60 merged [] minit) as [[l m]|] eqn:Er; [|destruct E]. destruct E as (E1 & E2 & E3 & E4).
  assert (Hq : calmrun l m) by (apply (run_calm_ok 60 merged [] minit); [constructor|exact Er]).
  destruct (iro m 60 (@lower natP 60 193)) as [[it|]|] eqn:Ei; try (exfalso; exact E2). destruct E2 as [Hp Hl]. apply iro_ok in Ei.
  exists l, m, 193, it. split; [exact Hq|]. split; [exact Ei|]. split.
  - exists 1, 1. right. split; [eapply page_contents; [apply calmrun_seqrun; exact Hq|exact E1]|]. rewrite Hl. simpl. discriminate.
  - eapply stuck_prev; eauto.
Qed.
Print Assumptions C18_refuted.

(** In the same situation right behind the first two pages, the search for the
    left neighbour reads before the first element of the parent page. *)
Definition merged2 : list op := ins 1 240 ++ del 65 33 ++ [OpPage 129; OpPage 1].
Theorem C18_out_of_bounds_refuted : exists l m k it, calmrun l m /\ irun m 60 (lower 60 k) = (m, Ok it) /\
  (exists x v, behind (contents m) it x v) /\
  irun m 60 (prev 60 it) = (m, Er ERange).
Proof.
  assert (E : match run_calm 60 merged2 [] minit with
              | Some (l, m) => is_page (ro m (code 60 (OpPage 1))) (1, 1) = true /\
                  match iro m 60 (lower 60 129) with Some (Ok it) => i_low it = Some 129 /\ iro m 60 (prev 60 it) = Some (Er ERange) | _ => False end
              | None => False end) by (vm_compute; auto).
  destruct (run_calm 60 merged2 [] minit) as [[l m]|] eqn:Er; [|destruct E]. destruct E as (E1 & E2).
  assert (Hq : calmrun l m) by (apply (run_calm_ok 60 merged2 [] minit); [constructor|exact Er]).
  destruct (iro m 60 (@lower natP 60 129)) as [[it|]|] eqn:Ei; try (exfalso; exact E2). destruct E2 as [Hl Hv]. apply iro_ok in Ei. apply iro_ok in Hv.
  exists l, m, 129, it. split; [exact Hq|]. split; [exact Ei|]. split; [|exact Hv].
  exists 1, 1. right. split; [eapply page_contents; [apply calmrun_seqrun; exact Hq|exact E1]|]. rewrite Hl. simpl. discriminate.
Qed.
Print Assumptions C18_out_of_bounds_refuted.

(** * Examples *)
(** A history with splits, an emptied middle page, duplicate keys, and a scan
    of it from key 50. *)
Definition used : list op := ins 1 200 ++ [OpIns 77 2; OpGet 77] ++ del 100 40.
Definition keys (x : option (list (op * resp) * (list (nat * nat) * iter))) : list nat :=
  match x with Some (_, (outs, _)) => map fst outs | None => [] end.
Example scan_used : exists l m, calmrun l m /\
  match irun m 60 (ibind (lower 60 50) (walk 300 60)) with
  | (_, Ok (outs, it)) => map fst outs = seq 50 28 ++ seq 77 23 ++ seq 140 61 /\ is_end it = true
  | _ => False
  end.
Proof.
  assert (E : match run_calm 60 used [] minit with
              | Some (l, m) => match irun m 60 (ibind (lower 60 50) (walk 300 60)) with
                  | (_, Ok (outs, it)) => map fst outs = seq 50 28 ++ seq 77 23 ++ seq 140 61 /\ is_end it = true | _ => False end
              | None => False end) by (vm_compute; auto).
  destruct (run_calm 60 used [] minit) as [[l m]|] eqn:Er; [|destruct E]. exists l, m. split; [|exact E].
  apply (run_calm_ok 60 used [] minit); [constructor|exact Er].
Qed.
(** The same from Begin(), whose page is not empty. *)
Example scan_used_begin : exists l m it, calmrun l m /\ irun m 60 begin_first = (m, Ok it) /\ deref it = Ok (1, 1).
Proof.
  assert (E : match run_calm 60 used [] minit with
              | Some (l, m) => match iro m 60 begin_first with Some (Ok it) => deref it = Ok (1, 1) | _ => False end
              | None => False end) by (vm_compute; auto).
  destruct (run_calm 60 used [] minit) as [[l m]|] eqn:Er; [|destruct E].
  destruct (iro m 60 (@begin_first natP)) as [[it|]|] eqn:Ei; try (exfalso; exact E). exists l, m, it.
  split; [apply (run_calm_ok 60 used [] minit); [constructor|exact Er]|]. split; [apply iro_ok; exact Ei|exact E].
Qed.
(** Thread 1 scans from 30 to 73 while thread 0 deletes pairs before and
    behind the iterator, merging pages between two of its steps. *)
Definition scanned : list cmd :=
  flat_map (whole 0) (ins 1 200) ++ whole 1 (OpPage 30) ++ flat_map (whole 0) (del 40 20 ++ del 80 40) ++ whole 1 (OpPage 65).
Example scan_race : exists tr ss s log outs it, exec tr ss s /\ answered tr log /\
  follows (ibind (lower 5 30) (walk 44 5)) log (outs, it) /\ map fst outs = seq 30 44 /\ map fst log = [OpPage 30; OpPage 65].
Proof.
  assert (E : match feed (ibind (lower 5 30) (walk 44 5)) (map snd (returns 1 (c_tr (play scanned)))) with
              | Some (log, (outs, it)) => log = returns 1 (c_tr (play scanned)) /\ map fst outs = seq 30 44 /\ map fst log = [OpPage 30; OpPage 65]
              | None => False end) by (vm_compute; auto).
  destruct (feed _ _) as [[log [outs it]]|] eqn:Ef; [|destruct E]. destruct E as (E1 & E2 & E3).
  exists (c_tr (play scanned)), (c_ss (play scanned)), (c_s (play scanned)), log, outs, it. split; [apply play_exec|].
  split; [rewrite E1; apply returns_answered|]. split; [eapply feed_ok; exact Ef|]. auto.
Qed.
(** Thread 1 scans backwards from 70 to 40 while thread 0 modifies. *)
Definition scanned_back : list cmd :=
  flat_map (whole 0) (ins 1 200) ++ whole 1 (OpPage 70) ++ flat_map (whole 0) (del 60 3 ++ del 80 40) ++ whole 1 (OpPageBI 65).
Example scan_back_race : exists tr ss s log outs it, exec tr ss s /\ answered tr log /\
  follows (ibind (lower 5 70) (walk_back 20 5)) log (outs, it) /\ map fst outs = rev (seq 48 12 ++ seq 63 8).
Proof.
  assert (E : match feed (ibind (lower 5 70) (walk_back 20 5)) (map snd (returns 1 (c_tr (play scanned_back)))) with
              | Some (log, (outs, it)) => log = returns 1 (c_tr (play scanned_back)) /\ map fst outs = rev (seq 48 12 ++ seq 63 8)
              | None => False end) by (vm_compute; auto).
  destruct (feed _ _) as [[log [outs it]]|] eqn:Ef; [|destruct E]. destruct E as (E1 & E2).
  exists (c_tr (play scanned_back)), (c_ss (play scanned_back)), (c_s (play scanned_back)), log, outs, it. split; [apply play_exec|].
  split; [rewrite E1; apply returns_answered|]. split; [eapply feed_ok; exact Ef|]. auto.
Qed.
(** A step back into the previous page that returns. *)
Definition before65 : list op := ins 1 200 ++ [OpPage 65].
Example back_used : exists l m it it', seqrun l m /\ fresh (contents m) it /\ in_page it /\ deref it = Ok (65, 1) /\
  irun m 60 (prev 60 it) = (m, Ok it') /\ deref it' = Ok (64, 1).
Proof.
  assert (E : match run_calls 60 before65 [] minit with
              | Some (l, m) =>
                  match ro m (code 60 (OpPage 65)) with
                  | Some (Ok (RPage low items high)) =>
                      let it := {| i_low := low; i_items := items; i_high := high; i_pos := 1 |} in
                      deref it = Ok (65, 1) /\ match iro m 60 (prev 60 it) with Some (Ok it') => deref it' = Ok (64, 1) | _ => False end
                  | _ => False end
              | None => False end).
  { vm_compute. auto. }
  destruct (run_calls 60 before65 [] minit) as [[l m]|] eqn:Er; [|destruct E].
  assert (Hq : seqrun l m) by (apply (run_calls_ok 60 before65 [] minit); [constructor|exact Er]).
  destruct (ro m (code 60 (@OpPage natP 65))) as [[[| | |low items high]|]|] eqn:Ep; try (exfalso; exact E). cbv zeta in E.
  set (it := {| i_low := low; i_items := items; i_high := high; i_pos := 1 |}) in *. destruct E as (E1 & E2).
  destruct (iro m 60 (prev 60 it)) as [[it'|]|] eqn:Ei; try (exfalso; exact E2). apply ro_ok in Ep. apply iro_ok in Ei.
  exists l, m, it, it'. split; [exact Hq|]. split; [apply (call_effect _ _ _ _ _ _ Hq Ep)|]. split; [split; cbn; lia|]. split; [exact E1|]. split; [exact Ei|exact E2].
Qed.
