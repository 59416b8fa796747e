(** Calls take effect at one moment; scans while other threads change the
    index (C53, and C03, C15, C16, C18 after calls by any threads). *)
From Coq Require Import List Arith Bool Lia.
From Verif Require Import Base Inst Leaf LeafSpec Inner Tree TreeSpec TreeRun Iter IterSpec IterPlay PropsScan MomentSpec Moment IterMoment MomentPlay.
Import ListNotations.

(** C53.  Every call that returns takes effect at one moment between its
    beginning and its end: a state passed, or one step between two states, on
    the pairs stored at that very moment.  For GetValue the values are exact if
    the page of the key has, at that moment, no update above a pending merge (as
    in C03). *)
Theorem C53_moment : forall {P : Params} tr ss s0 tr' ss' s t o r,
  exec tr ss s0 -> later s0 tr' ss' s -> call_in tr' t o r ->
  exists s1 s2, moment ss' s1 s2 /\
    forall full, (full = true -> exact_at o (sm s1)) -> effect full o (contents (sm s1)) (contents (sm s2)) r.
Proof. intros P. exact moment_at. Qed.
Print Assumptions C53_moment.

(** C03, strengthened: only the moment of the call and the page of the key
    matter. *)
Theorem C03_get_moment_partial : forall {P : Params} tr ss s0 tr' ss' s t k l,
  exec tr ss s0 -> later s0 tr' ss' s -> call_in tr' t (OpGet k) (RVals l) ->
  exists s1, In s1 ss' /\ (page_clean (sm s1) k -> NoDup l /\ forall v, In v l <-> contents (sm s1) k v).
Proof.
  intros P tr ss s0 tr' ss' s t k l Hx Hl Hc. destruct (moment_at _ _ _ _ _ _ _ _ _ Hx Hl Hc) as (s1 & s2 & M & He).
  exists s1. split; [destruct M as [[_ M]|(a & b & ->)]; [exact M|apply in_or_app; right; right; left; auto]|].
  intros Hcl. destruct (He true (fun _ => Hcl)) as [[He' _] _]. apply He'. reflexivity.
Qed.
Print Assumptions C03_get_moment_partial.

(** C53, scans.  Whatever other threads do, a scan from Begin(k) returns only
    pairs that were stored at some time during the scan, and does not skip a
    pair that was stored all the time. *)
Theorem C53_scan : forall {P : Params} tr ss s0 tr' ss' s f n k log outs it,
  exec tr ss s0 -> later s0 tr' ss' s -> calls_in tr' log -> follows (ibind (lower f k) (walk n f)) log (outs, it) ->
  (forall x v, In (x, v) outs -> sometime ss' x v) /\ (forall x v, deref it = Ok (x, v) -> sometime ss' x v) /\
  forall x v, always ss' x v -> from (Some k) x -> passed it x -> In (x, v) outs.
Proof. intros P tr ss s0 tr' ss' s f n k log outs it Hx Hl Hc. apply scan_key_b. eapply calls_okb; eauto. Qed.
Print Assumptions C53_scan.
(** The same from Begin(). *)
Theorem C53_scan_begin : forall {P : Params} tr ss s0 tr' ss' s f n log outs it,
  exec tr ss s0 -> later s0 tr' ss' s -> calls_in tr' log -> follows (ibind begin_first (walk n f)) log (outs, it) ->
  (forall x v, In (x, v) outs -> sometime ss' x v) /\ (forall x v, deref it = Ok (x, v) -> sometime ss' x v) /\
  forall x v, always ss' x v -> passed it x -> In (x, v) outs.
Proof. intros P tr ss s0 tr' ss' s f n log outs it Hx Hl Hc. apply scan_first_b. eapply calls_okb; eauto. Qed.
Print Assumptions C53_scan_begin.
(** The same backwards from Begin(k). *)
Theorem C53_scan_back : forall {P : Params} tr ss s0 tr' ss' s f n k log outs it,
  exec tr ss s0 -> later s0 tr' ss' s -> calls_in tr' log -> follows (ibind (lower f k) (walk_back n f)) log (outs, it) ->
  (forall x v, In (x, v) outs -> sometime ss' x v) /\ (forall x v, deref it = Ok (x, v) -> sometime ss' x v) /\
  forall x v, always ss' x v -> ~ from (Some k) x -> passed_back it x -> In (x, v) outs.
Proof. intros P tr ss s0 tr' ss' s f n k log outs it Hx Hl Hc. apply scan_back_b. eapply calls_okb; eauto. Qed.
Print Assumptions C53_scan_back.

(** In terms of calls only: a pair stored when the scan begins and not deleted
    by anybody is stored all the time; a pair not stored then and not inserted
    by anybody is stored at no time. *)
Theorem C53_stays : forall {P : Params} tr ss s0 tr' ss' s k v,
  exec tr ss s0 -> later s0 tr' ss' s -> contents (sm s0) k v -> ~ called s0 tr' (OpDel k v) -> always ss' k v.
Proof. intros P. exact kept. Qed.
Print Assumptions C53_stays.
Theorem C53_stays_out : forall {P : Params} tr ss s0 tr' ss' s k v,
  exec tr ss s0 -> later s0 tr' ss' s -> ~ contents (sm s0) k v ->
  ~ called s0 tr' (OpIns k v) -> (forall pr, ~ called s0 tr' (OpCond k v pr)) -> ~ sometime ss' k v.
Proof. intros P. exact kept_out. Qed.
Print Assumptions C53_stays_out.

(** C16.  After any calls by any threads, finished or not, as long as only
    readers go on: Begin(k) stands on the first stored pair with key not
    smaller than [k], and advancing to IsEnd() returns exactly the pairs with
    keys not smaller than [k], each once, ascending. *)
Theorem C16_begin_key : forall {P : Params} tr ss s0 tr' ss' s f k log it,
  exec tr ss s0 -> later s0 tr' ss' s -> readers_only s0 tr' -> calls_in tr' log -> follows (lower f k) log it ->
  first_from (contents (sm s0)) (Some k) it.
Proof. intros P tr ss s0 tr' ss' s f k log it Hx Hl Hr Hc H.
  apply (begin_key_A (contents (sm s0)) f k log it); [eapply still_okA; eauto|exact H].
Qed.
Print Assumptions C16_begin_key.
Theorem C16_scan : forall {P : Params} tr ss s0 tr' ss' s f n k log outs it,
  exec tr ss s0 -> later s0 tr' ss' s -> readers_only s0 tr' -> calls_in tr' log ->
  follows (ibind (lower f k) (walk n f)) log (outs, it) -> is_end it = true -> listing (contents (sm s0)) (Some k) outs.
Proof. intros P. exact scan_still. Qed.
Print Assumptions C16_scan.

(** C15, when the first page can be read: the same from Begin(). *)
Theorem C15_scan_threads_partial : forall {P : Params} tr ss s0 tr' ss' s,
  exec tr ss s0 -> later s0 tr' ss' s -> readers_only s0 tr' ->
  (forall log it, calls_in tr' log -> follows begin_first log it ->
     is_end it = true \/ (exists x, deref it = Ok x) -> first_from (contents (sm s0)) None it) /\
  (forall f n log outs it, calls_in tr' log -> follows (ibind begin_first (walk n f)) log (outs, it) ->
     is_end it = true -> listing (contents (sm s0)) None outs).
Proof.
  intros P tr ss s0 tr' ss' s Hx Hl Hr. split.
  - intros log it Hc H. apply (begin_first_A (contents (sm s0)) log it); [eapply still_okA; eauto|exact H].
  - intros f n log outs it Hc. eapply scan_first_still; eauto.
Qed.
Print Assumptions C15_scan_threads_partial.

(** C18, if it returns: moving back reaches the last pair before, after any
    calls by any threads. *)
Theorem C18_step_back_threads_partial : forall {P : Params} tr ss s0 tr' ss' s f it log it',
  exec tr ss s0 -> later s0 tr' ss' s -> readers_only s0 tr' -> calls_in tr' log ->
  fresh (contents (sm s0)) it -> in_page it -> follows (prev f it) log it' ->
  fresh (contents (sm s0)) it' /\ step_back (contents (sm s0)) it it' /\ (is_rend it' = false -> in_page it').
Proof. intros P tr ss s0 tr' ss' s f it log it' Hx Hl Hr Hc. apply prev_A. eapply still_okA; eauto. Qed.
Print Assumptions C18_step_back_threads_partial.
(** Begin() and Begin(k) give such iterators. *)
Theorem C18_fresh_iterators : forall {P : Params} tr ss s0 tr' ss' s log it,
  exec tr ss s0 -> later s0 tr' ss' s -> readers_only s0 tr' -> calls_in tr' log ->
  follows begin_first log it \/ (exists f k, follows (lower f k) log it) -> fresh (contents (sm s0)) it /\ in_page it.
Proof.
  intros P tr ss s0 tr' ss' s log it Hx Hl Hr Hc [H|(f & k & H)]; pose proof (still_okA _ _ _ _ _ _ _ Hx Hl Hr Hc) as Hk.
  - destruct (begin_first_A _ _ _ Hk H) as (A & B & _). auto.
  - apply (begin_key_A _ _ _ _ _ Hk H).
Qed.
Print Assumptions C18_fresh_iterators.

(** * Examples *)
#[local] Existing Instance natP.
(** Thread 1 scans from 30 while thread 0 deletes and inserts pairs, also in
    the middle of thread 1's page fetches. *)
Definition filled : list cmd := flat_map (whole 0) (ins 1 200).
Definition s_filled : sys := c_s (play filled).
Definition scan_on : list cmd :=
  [CCall 1 (OpPage 30) 40; CStep 1 2] ++ flat_map (whole 0) (del 40 10 ++ [OpIns 33 7]) ++ [CStep 1 400; CRet 1] ++
  flat_map (whole 0) (del 31 3 ++ del 80 40) ++ [CCall 1 (OpPage 65) 40; CStep 1 1] ++ flat_map (whole 0) (del 60 6) ++ [CStep 1 400; CRet 1].
Definition not_del (k v : nat) (o : op) : bool := match o with OpDel k' v' => negb ((k' =? k) && (v' =? v)) | _ => true end.
Lemma not_del_ok s0 tr k v : (forall t, running s0 t = None) -> forallb (not_del k v) (ops_of tr) = true -> ~ called s0 tr (OpDel k v).
Proof.
  intros Hi H C. apply called_ops in C; [|exact Hi]. rewrite forallb_forall in H. apply H in C. cbn [not_del] in C. rewrite !Nat.eqb_refl in C. discriminate.
Qed.
Lemma filled_idle : forall t, running s_filled t = None.
Proof. intros [|[|t]]; vm_compute; reflexivity. Qed.
Definition scan30 : icode (list (nat * nat) * iter) := ibind (lower 5 30) (walk 36 5).
Definition keys30 : list nat := seq 30 4 ++ [33] ++ seq 34 6 ++ seq 50 15 ++ seq 66 10.
Lemma example_from (c0 : conf) (s0 : sys) (c : conf) : exec (c_tr c0) (c_ss c0) s0 -> later s0 (c_tr c) (c_ss c) (c_s c) -> (forall t, running s0 t = None) ->
  match feed scan30 (map snd (returns 1 (c_tr c))) with
  | Some (log, (outs, it)) => log = returns 1 (c_tr c) /\ map fst outs = keys30 /\ deref it = Ok (76, 1)
  | None => False end ->
  stored 20 (sm s0) FIRST_LEAF 55 1 = true -> forallb (not_del 55 1) (ops_of (c_tr c)) = true -> existsb (fun o => negb (not_del 62 1 o)) (ops_of (c_tr c)) = true ->
  exists tr ss s0 tr' ss' s log outs it, exec tr ss s0 /\ later s0 tr' ss' s /\ calls_in tr' log /\
    follows scan30 log (outs, it) /\ map fst outs = keys30 /\
    always ss' 55 1 /\ passed it 55 /\ called s0 tr' (OpDel 62 1).
Proof.
  intros Hx Hl Hi E E4 E5 E6. destruct (feed _ _) as [[log [outs it]]|] eqn:Ef; [|destruct E]. destruct E as (E1 & E2 & E3).
  exists (c_tr c0), (c_ss c0), s0, (c_tr c), (c_ss c), (c_s c), log, outs, it.
  split; [exact Hx|]. split; [exact Hl|]. split; [rewrite E1; eapply returns_calls; [exact Hl|apply Hi]|].
  split; [eapply feed_ok; exact Ef|]. split; [exact E2|]. split; [|split].
  - eapply kept; [exact Hx|exact Hl| |].
    + apply (stored_ok 20 _ _ _ FIRST_LEAF); [apply R_first|exact E4].
    + apply not_del_ok; [exact Hi|exact E5].
  - right. exists 76, 1. split; [exact E3|reflexivity].
  - apply existsb_exists in E6 as (o & H1 & H2). apply ops_called. replace (@OpDel natP 62 1) with o; [exact H1|].
    destruct o as [|k v| | | | |]; try discriminate. unfold not_del in H2. rewrite negb_involutive in H2. apply andb_true_iff in H2 as [H2 H3].
    apply Nat.eqb_eq in H2, H3. subst. reflexivity.
Qed.
Example C53_example : exists tr ss s0 tr' ss' s log outs it, exec tr ss s0 /\ later s0 tr' ss' s /\ calls_in tr' log /\
  follows (ibind (lower 5 30) (walk 36 5)) log (outs, it) /\ map fst outs = seq 30 4 ++ [33] ++ seq 34 6 ++ seq 50 15 ++ seq 66 10 /\
  always ss' 55 1 /\ passed it 55 /\ called s0 tr' (OpDel 62 1).
Proof.
  apply (example_from (play filled) s_filled (play_on s_filled scan_on)).
  - exact (play_exec filled).
  - exact (play_later s_filled scan_on).
  - exact filled_idle.
  - vm_compute. auto.
  - vm_compute. reflexivity.
  - vm_compute. reflexivity.
  - vm_compute. reflexivity.
Qed.

(** Thread 2 was stopped in the middle of a page split; thread 1 scans from 50,
    thread 0 from Begin(), and thread 3 steps back from 65, interleaved. *)
Definition left_over : list cmd := flat_map (whole 0) (ins 1 128) ++ [CCall 2 (OpPage 100) 40; CStep 2 9].
Definition s_left : sys := c_s (play left_over).
Definition scan_left : list cmd :=
  [CCall 1 (OpPage 50) 40; CStep 1 2; CCall 0 OpFirst 40; CStep 2 1; CStep 1 400; CRet 1; CStep 0 20; CRet 0] ++
  whole 1 (OpPage 65) ++ whole 0 (OpPage 65) ++ whole 3 (OpPage 65) ++ whole 3 (OpPageBI 65).
Definition reader (o : op) : bool := match o with OpIns _ _ | OpDel _ _ | OpCond _ _ _ => false | _ => true end.
Definition run_reader (s : sys) (t : nat) : bool := match running s t with Some (o, _) => reader o | None => true end.
Lemma readers_ok s tr : (forall t, run_reader s t = true) -> forallb reader (ops_of tr) = true -> readers_only s tr.
Proof.
  assert (R : forall o, reader o = true -> reads o) by (intros o; destruct o; simpl; auto; discriminate).
  intros H1 H2 o [(t & p & E)|[t E]]; apply R.
  - specialize (H1 t). unfold run_reader in H1. rewrite E in H1. exact H1.
  - rewrite forallb_forall in H2. apply H2, in_flat_map. exists (ECall t o). split; [exact E|left; auto].
Qed.
Lemma left_readers : forall t, run_reader s_left t = true.
Proof. intros [|[|[|t]]]; vm_compute; reflexivity. Qed.
Definition fed {A} (x : icode A) (t : nat) (tr : list event) (Q : A -> Prop) : Prop :=
  match feed x (map snd (returns t tr)) with Some (log, a) => log = returns t tr /\ Q a | None => False end.
Lemma fed_ok {A} (x : icode A) t s0 tr ss s Q : later s0 tr ss s -> running s0 t = None -> fed x t tr Q ->
  exists log a, calls_in tr log /\ follows x log a /\ Q a.
Proof.
  intros Hl H0 H. unfold fed in H. destruct (feed x _) as [[log a]|] eqn:Ef; [|destruct H]. destruct H as [E H].
  exists log, a. split; [rewrite E; eapply returns_calls; eauto|]. split; [eapply feed_ok; exact Ef|exact H].
Qed.
Lemma left_from (c0 : conf) (s0 : sys) (c : conf) : exec (c_tr c0) (c_ss c0) s0 -> later s0 (c_tr c) (c_ss c) (c_s c) ->
  (forall t, run_reader s0 t = true) -> forallb reader (ops_of (c_tr c)) = true -> running s0 0 = None -> running s0 1 = None -> running s0 3 = None -> can_step {| c_tr := []; c_ss := []; c_s := s0 |} 2 = true ->
  fed (ibind (lower 5 50) (walk 200 5)) 1 (c_tr c) (fun a => map fst (fst a) = seq 50 79 /\ is_end (snd a) = true) ->
  fed (ibind begin_first (walk 200 5)) 0 (c_tr c) (fun a => map fst (fst a) = seq 1 128 /\ is_end (snd a) = true) ->
  fed (ibind (lower 5 65) (fun it => ibind (prev 5 it) (fun it' => IRet (it, it')))) 3 (c_tr c) (fun a => deref (fst a) = Ok (65, 1) /\ deref (snd a) = Ok (64, 1)) ->
  exists tr ss s0 tr' ss' s, exec tr ss s0 /\ later s0 tr' ss' s /\ readers_only s0 tr' /\ (exists o p, running s0 2 = Some (o, p)) /\
    (exists log outs it, calls_in tr' log /\ follows (ibind (lower 5 50) (walk 200 5)) log (outs, it) /\ map fst outs = seq 50 79 /\ is_end it = true) /\
    (exists log outs it, calls_in tr' log /\ follows (ibind begin_first (walk 200 5)) log (outs, it) /\ map fst outs = seq 1 128 /\ is_end it = true) /\
    (exists log1 log2 it it', calls_in tr' (log1 ++ log2) /\ follows (lower 5 65) log1 it /\ follows (prev 5 it) log2 it' /\ deref it = Ok (65, 1) /\ deref it' = Ok (64, 1)).
Proof.
  intros Hx Hl Hr1 Hr2 H0 H1 H3 H2 F1 F0 F3. exists (c_tr c0), (c_ss c0), s0, (c_tr c), (c_ss c), (c_s c).
  split; [exact Hx|]. split; [exact Hl|]. split; [apply readers_ok; auto|]. split.
  { unfold can_step in H2. simpl in H2. destruct (running s0 2) as [[o p]|]; [eauto|discriminate]. }
  split; [|split].
  - destruct (fed_ok _ _ _ _ _ _ _ Hl H1 F1) as (log & [outs it] & A & B & C). exists log, outs, it. auto.
  - destruct (fed_ok _ _ _ _ _ _ _ Hl H0 F0) as (log & [outs it] & A & B & C). exists log, outs, it. auto.
  - destruct (fed_ok _ _ _ _ _ _ _ Hl H3 F3) as (log & [it it'] & A & B & C).
    apply IterProofs.follows_bind in B as (l1 & l2 & i1 & -> & B1 & B). apply IterProofs.follows_bind in B as (l3 & l4 & i2 & -> & B2 & B).
    inversion B; subst. exists l1, l3, it, it'. rewrite app_nil_r in A. auto.
Qed.
Example C16_example : exists tr ss s0 tr' ss' s, exec tr ss s0 /\ later s0 tr' ss' s /\ readers_only s0 tr' /\ (exists o p, running s0 2 = Some (o, p)) /\
    (exists log outs it, calls_in tr' log /\ follows (ibind (lower 5 50) (walk 200 5)) log (outs, it) /\ map fst outs = seq 50 79 /\ is_end it = true) /\
    (exists log outs it, calls_in tr' log /\ follows (ibind begin_first (walk 200 5)) log (outs, it) /\ map fst outs = seq 1 128 /\ is_end it = true) /\
    (exists log1 log2 it it', calls_in tr' (log1 ++ log2) /\ follows (lower 5 65) log1 it /\ follows (prev 5 it) log2 it' /\ deref it = Ok (65, 1) /\ deref it' = Ok (64, 1)).
Proof.
  apply (left_from (play left_over) s_left (play_on s_left scan_left)).
  - exact (play_exec left_over).
  - exact (play_later s_left scan_left).
  - exact left_readers.
  - vm_compute. reflexivity.
  - vm_compute. reflexivity.
  - vm_compute. reflexivity.
  - vm_compute. reflexivity.
  - vm_compute. reflexivity.
  - vm_compute. auto.
  - vm_compute. auto.
  - vm_compute. auto.
Qed.
(** A GetValue that overlaps a deletion of the same pair. *)
Definition get_on : list cmd := [CCall 1 (OpGet 55) 40; CStep 1 1] ++ whole 0 (OpDel 55 1) ++ [CStep 1 400; CRet 1].
Lemma get_from (c0 : conf) (s0 : sys) (c : conf) : exec (c_tr c0) (c_ss c0) s0 -> later s0 (c_tr c) (c_ss c) (c_s c) -> running s0 1 = None ->
  match returns 1 (c_tr c) with [(OpGet k, RVals l)] => k = 55 /\ l = [] | _ => False end -> stored 20 (sm s0) FIRST_LEAF 55 1 = true ->
  exists tr ss s0 tr' ss' s t, exec tr ss s0 /\ later s0 tr' ss' s /\ call_in tr' t (OpGet 55) (RVals []) /\ contents (sm s0) 55 1.
Proof.
  intros Hx Hl H1 E E4. exists (c_tr c0), (c_ss c0), s0, (c_tr c), (c_ss c), (c_s c). pose proof (returns_calls _ _ _ _ _ Hl H1) as Hc.
  destruct (returns 1 (c_tr c)) as [|[[| | |k| | |] [| |l|]] [|]]; try (exfalso; exact E). destruct E as [-> ->].
  destruct (Hc _ _ (or_introl eq_refl)) as [t Ht]. exists t. split; [exact Hx|]. split; [exact Hl|]. split; [exact Ht|].
  apply (stored_ok 20 _ _ _ FIRST_LEAF); [apply R_first|exact E4].
Qed.
Example C53_get_example : exists tr ss s0 tr' ss' s t, exec tr ss s0 /\ later s0 tr' ss' s /\ call_in tr' t (OpGet 55) (RVals []) /\ contents (sm s0) 55 1.
Proof.
  apply (get_from (play filled) s_filled (play_on s_filled get_on)).
  - exact (play_exec filled).
  - exact (play_later s_filled get_on).
  - vm_compute. reflexivity.
  - vm_compute. auto.
  - vm_compute. reflexivity.
Qed.
