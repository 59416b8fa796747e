(** Calls in progress that return or do not return: lemmas for C42. *)
From Coq Require Import List Arith Lia Bool NArith.
From Verif Require Import Base Leaf LeafSpec Inner Tree TreeSpec TreeFast SeqFuel SeqProg SeqRun ProgressSpec Progress.
Import ListNotations.

Section Stuck.
Context {P : Params}.

(** A call that returns when run alone still returns from any point of its run. *)
Lemma midway s t o fuel m' r s' : prun (sm s) (code fuel o) = (m', Ok r) -> alone t (called s t o fuel) s' -> finishes s' t.
Proof.
  intros E Ha. apply alone_run in Ha as (p & Hp & E'). rewrite E in E'.
  destruct (run_alone t s' o p s' m' r) as (s2 & Ha2 & Hr2); [constructor|exact Hp|auto|]. exists s2, o, r. auto.
Qed.

(** [quiet] and [vain] on the memory of TreeFast.v. *)
Definition fget (f : fmem) (i : nat) : option (N * node) :=
  match pget (f_tab f) i with None => None | Some q => match hget (f_heap f) q with None => None | Some n => Some (q, n) end end.
Lemma fget_ok f m i : rep f m -> fget f i = get m i.
Proof. intros [H1 _ H2 _ _]. unfold fget, get. rewrite H2. destruct (tab m i); auto. rewrite H1. destruct (heap m n); auto. Qed.
Fixpoint fquiet {A} (f : fmem) (p : prog A) : option (res A) :=
  match p with
  | Ret a => Some (Ok a)
  | Err e => Some (Er e)
  | PLoad i k => match fget f i with Some x => fquiet f (k x) | None => Some (Er ENull) end
  | Cas i o n k => match pget (f_tab f) i with Some p' => if N.eqb p' o then None else fquiet f (k None) | None => fquiet f (k None) end
  | CasPtr i o n k => match pget (f_tab f) i with Some p' => if N.eqb p' o then None else fquiet f (k false) | None => fquiet f (k false) end
  | LoadRoot k => fquiet f (k (f_root f))
  | CasRoot o n k => if f_root f =? o then None else fquiet f (k false)
  | NewNode n k => None
  end.
Lemma fquiet_ok {A} f m (p : prog A) : rep f m -> fquiet f p = quiet m p.
Proof.
  intros H. pose proof H as [_ _ H2 _ H3].
  induction p as [a|e|i k IH|i old n k IH|i old n k IH|k IH|old n k IH|n k IH]; simpl; auto.
  - rewrite (fget_ok f m i H). destruct (get m i); auto.
  - rewrite H2. destruct (tab m i) as [p'|]; auto. destruct (N.eqb p' old); auto.
  - rewrite H2. destruct (tab m i) as [p'|]; auto. destruct (N.eqb p' old); auto.
  - rewrite H3. auto.
  - rewrite H3. destruct (root m =? old); auto.
Qed.
Definition fvain {A} (f : fmem) (p : nat -> prog (option A)) (f0 : nat) : bool :=
  forallb (fun n => match fquiet f (p n) with Some (Er EFuel) => true | _ => false end) (seq 0 f0) &&
  match fquiet f (p f0) with Some (Ok None) => true | _ => false end.
Lemma fvain_ok {A} f m (p : nat -> prog (option A)) f0 : rep f m -> fvain f p f0 = vain m p f0.
Proof.
  intros H. unfold fvain, vain. rewrite (fquiet_ok f m _ H). f_equal. induction (seq 0 f0) as [|n l IH]; simpl; auto. rewrite (fquiet_ok f m _ H), IH. auto.
Qed.

(** A call in progress that writes nothing and does not return. *)
Lemma quiet_alone t s : forall s' o p e, running s t = Some (o, p) -> quiet (sm s) p = Some (Er e) -> alone t s s' ->
  sm s' = sm s /\ exists p', running s' t = Some (o, p') /\ quiet (sm s) p' = Some (Er e).
Proof.
  intros s' o p e Hp Hq Ha. induction Ha as [|s1 s2 Ha (Em & p1 & Hp1 & Hq1) Hs]; [eauto|].
  inversion Hs as [| ? ? o' p' Hr Hn1 Hn2 |]; subst. rewrite Hp1 in Hr. injection Hr as <- <-. simpl. rewrite tset_eq, Em.
  destruct p1; simpl in *; try (exfalso; first [eapply Hn1; reflexivity|eapply Hn2; reflexivity]).
  - destruct (get (sm s) i); simpl; eauto.
  - destruct (tab (sm s) i) as [q|]; [destruct (N.eqb q old); [discriminate|]|]; simpl; eauto.
  - destruct (tab (sm s) i) as [q|]; [destruct (N.eqb q old); [discriminate|]|]; simpl; eauto.
  - eauto.
  - destruct (root (sm s) =? old); [discriminate|]. simpl. eauto.
  - discriminate.
Qed.
Lemma quiet_stuck t s o p e : running s t = Some (o, p) -> quiet (sm s) p = Some (Er e) ->
  (forall s', alone t s s' -> sm s' = sm s) /\ ~ finishes s t.
Proof.
  intros Hp Hq. split.
  - intros s' Ha. eapply quiet_alone in Ha as [H _]; eauto.
  - intros (s' & o' & r & Ha & Hr). eapply quiet_alone in Ha as (_ & p' & Hp' & Hq'); eauto. rewrite Hr in Hp'. injection Hp' as _ <-. discriminate.
Qed.

(** Looking for a stored pair along the leaf pages. *)
Fixpoint lmemb (c : lchain) (k : K) (v : V) : bool :=
  match c with
  | LBase _ items _ => existsb (fun x => keq (fst x) k && veq (snd x) v) items
  | LIns k' v' _ c => keq k k' && veq v v' || lmemb c k v
  | LDel k' v' _ c => negb (keq k k' && veq v v') && lmemb c k v
  | LSplit sk _ _ c => klt k sk && lmemb c k v
  | LRemove _ c => lmemb c k v
  | LMerge mk _ r c => if klt k mk then lmemb c k v else lmemb r k v
  end.
Lemma lmemb_ok c k v : lmemb c k v = true -> lmem c k v.
Proof.
  assert (Hkv : forall (k k' : K) (v v' : V), keq k k' && veq v v' = true <-> k = k' /\ v = v') by (intros; rewrite andb_true_iff, keq_spec, veq_spec; tauto).
  induction c; simpl; intros H.
  - apply existsb_exists in H as ([k' v'] & Hi & H). apply Hkv in H as [E1 E2]. simpl in *. subst. auto.
  - apply orb_true_iff in H as [H|H]; [left; apply Hkv, H|right; auto].
  - apply andb_true_iff in H as [H1 H2]. split; auto. rewrite <- Hkv. destruct (keq k k0 && veq v v0); [discriminate|auto].
  - apply andb_true_iff in H as [H1 H2]. auto.
  - auto.
  - destruct (klt k k0); auto.
Qed.
Definition inb (c : lchain) (k : K) : bool :=
  match llow c with None => true | Some x => negb (klt k x) end && match lhigh c with None => true | Some (x, _) => klt k x end.
Lemma inb_ok c k : inb c k = true -> in_range c k.
Proof.
  unfold inb, in_range, above, below. intros H. apply andb_true_iff in H as [H1 H2]. split.
  - destruct (llow c); auto. apply negb_true_iff, H1.
  - destruct (lhigh c) as [[x n]|]; auto.
Qed.
Fixpoint fstored (n : nat) (f : fmem) (i : nat) (k : K) (v : V) : bool :=
  match n with
  | O => false
  | S n' => match fget f i with
            | Some (_, NLeaf c) => if inb c k then lmemb c k v else match lhigh c with Some (_, j) => fstored n' f j k v | None => false end
            | _ => false
            end
  end.
Lemma fstored_ok n f m k v : rep f m -> forall i, reach m i -> fstored n f i k v = true -> contents m k v.
Proof.
  intros Hr. induction n as [|n IH]; intros i Hi H; [discriminate|]. cbn [fstored] in H. rewrite (fget_ok f m i Hr) in H.
  destruct (get m i) as [[q [c|c]]|] eqn:E; try discriminate. assert (En : node_of m i = Some (NLeaf c)) by (unfold node_of; rewrite E; auto).
  destruct (inb c k) eqn:Ei.
  - exists i, c. split; [exact Hi|]. split; [exact En|]. split; [apply inb_ok, Ei|apply lmemb_ok, H].
  - destruct (lhigh c) as [[h j]|] eqn:Eh; [|discriminate]. eapply IH; [|exact H]. eapply R_next; eauto.
Qed.

(** The state in which thread 0 is stuck. *)
Definition is_stuck (s : fsys) (k : K) (v : V) (f0 f1 n : nat) : bool :=
  match g_run s true with None => true | Some _ => false end &&
  match g_run s false with
  | Some (OpDel k' v', p) => keq k' k && veq v' v && match fquiet (g_mem s) p with Some (Er _) => true | _ => false end
  | _ => false
  end &&
  fstored n (g_mem s) FIRST_LEAF k v &&
  fvain (g_mem s) (fun f => attempt kge inavigate f k) f0 && fvain (g_mem s) (attempt_ro k) f1.
Lemma stuck_ok s k v f0 f1 n : freaches s -> is_stuck s k v f0 f1 n = true ->
  exists tr ss (s : sys) k v p,
    exec tr ss s /\ (forall u, u <> 0 -> running s u = None) /\ running s 0 = Some (OpDel k v, p) /\
    (forall s', alone 0 s s' -> sm s' = sm s) /\ ~ finishes s 0 /\ contents (sm s) k v /\
    forall t, t <> 0 -> ~ returns_alone s t (OpGet k) /\ forall w, ~ returns_alone s t (OpIns k w) /\ ~ returns_alone s t (OpDel k w).
Proof.
  intros (tr & ss & s' & Hx & Hr & Hg & Hz) H. unfold is_stuck in H.
  apply andb_true_iff in H as [H H5]. apply andb_true_iff in H as [H H4]. apply andb_true_iff in H as [H H3]. apply andb_true_iff in H as [H1 H2].
  rewrite Hg in H1, H2. cbn [tid] in H1, H2. destruct (running s' 0) as [[[| k' v' | | | | |] p]|] eqn:E0; try discriminate.
  apply andb_true_iff in H2 as [H2 Hq]. apply andb_true_iff in H2 as [Hk Hv]. apply keq_spec in Hk. apply veq_spec in Hv. subst k' v'.
  rewrite (fquiet_ok _ _ p Hr) in Hq. destruct (quiet (sm s') p) as [[|e]|] eqn:Eq; try discriminate.
  rewrite (fvain_ok _ _ _ _ Hr) in H4. rewrite (fvain_ok _ _ _ _ Hr) in H5. destruct (quiet_stuck 0 s' _ p e E0 Eq) as [S1 S2].
  exists tr, ss, s', k, v, p. split; [exact Hx|]. split.
  { intros [|[|u]] Hu; [congruence| |apply Hz; lia]. destruct (running s' 1); [discriminate|reflexivity]. }
  split; [exact E0|]. split; [exact S1|]. split; [exact S2|]. split; [eapply fstored_ok; [exact Hr|apply R_first|exact H3]|].
  intros t _. split; [apply never_returns, (get_vain _ _ _ H5)|]. intros w. split; apply never_returns; [apply (insert_vain _ _ _ _ H4)|apply (delete_vain _ _ _ _ H4)].
Qed.
End Stuck.
