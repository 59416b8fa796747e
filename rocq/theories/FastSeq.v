(** Single-threaded histories of the index model on a memory kept in search
    trees (TreeFast.v). *)
From Coq Require Import List Arith Lia Bool NArith.
From Verif Require Import Base Leaf Inner InnerSpec Tree TreeSpec TreeRun TreeFast SeqFuel SeqRun.
Import ListNotations.

Section FastSeq.
Context {P : Params}.
(** [prun] (Tree.v) on the other memory. *)
Fixpoint fprun {A} (f : fmem) (p : prog A) : fmem * res A :=
  match p with
  | Ret a => (f, Ok a)
  | Err e => (f, Er e)
  | PLoad i k => match pget (f_tab f) i with
                 | None => (f, Er ENull)
                 | Some q => match hget (f_heap f) q with None => (f, Er ENull) | Some n => fprun f (k (q, n)) end
                 end
  | Cas i o n k =>
      match pget (f_tab f) i with
      | Some p' =>
          if N.eqb p' o then
            fprun {| f_heap := hset (f_heap f) (f_nptr f) n; f_nptr := N.succ (f_nptr f);
                     f_tab := pset (f_tab f) i (f_nptr f); f_nid := f_nid f; f_root := f_root f |} (k (Some (f_nptr f)))
          else fprun f (k None)
      | None => fprun f (k None)
      end
  | CasPtr i o n k =>
      match pget (f_tab f) i with
      | Some p' =>
          if N.eqb p' o then
            fprun {| f_heap := f_heap f; f_nptr := f_nptr f; f_tab := pset (f_tab f) i n; f_nid := f_nid f; f_root := f_root f |} (k true)
          else fprun f (k false)
      | None => fprun f (k false)
      end
  | LoadRoot k => fprun f (k (f_root f))
  | CasRoot o n k =>
      if f_root f =? o
      then fprun {| f_heap := f_heap f; f_nptr := f_nptr f; f_tab := f_tab f; f_nid := f_nid f; f_root := n |} (k true)
      else fprun f (k false)
  | NewNode n k =>
      fprun {| f_heap := hset (f_heap f) (f_nptr f) n; f_nptr := N.succ (f_nptr f);
               f_tab := pset (f_tab f) (f_nid f) (f_nptr f); f_nid := S (f_nid f); f_root := f_root f |} (k (f_nid f))
  end.
Lemma fprun_ok {A} (p : prog A) : forall f m, rep f m -> rep (fst (fprun f p)) (fst (prun m p)) /\ snd (fprun f p) = snd (prun m p).
Proof.
  induction p as [a|e|i k IH|i o n k IH|i o n k IH|k IH|o n k IH|n k IH]; intros f m H; pose proof H as [H1 H2 H3 H4 H5]; simpl; auto.
  - unfold get. rewrite H3. destruct (tab m i) as [q|]; simpl; auto. rewrite H1. destruct (heap m q); simpl; auto.
  - rewrite H3, H2. destruct (tab m i) as [q|]; simpl; auto. destruct (N.eqb q o); simpl; auto. apply IH.
    constructor; simpl; auto; intros j; rewrite ?pset_get, ?hset_get; unfold fset, pfset; rewrite ?H1, ?H3; reflexivity.
  - rewrite H3. destruct (tab m i) as [q|]; simpl; auto. destruct (N.eqb q o); simpl; auto. apply IH.
    constructor; simpl; auto; intros j; rewrite ?pset_get, ?hset_get; unfold fset, pfset; rewrite ?H1, ?H3; reflexivity.
  - rewrite H5. auto.
  - rewrite H5. destruct (root m =? o); auto. apply IH. constructor; auto.
  - rewrite H2, H4. apply IH.
    constructor; simpl; auto; intros j; rewrite ?pset_get, ?hset_get; unfold fset, pfset; rewrite ?H1, ?H3; reflexivity.
Qed.
(** The calls [l] one after the other; [None] if one of them does not return. *)
Fixpoint frun (fuel : nat) (l : list op) (f : fmem) : option fmem :=
  match l with
  | [] => Some f
  | o :: t => match fprun f (code fuel o) with (f', Ok _) => frun fuel t f' | _ => None end
  end.
Lemma frun_app fuel a : forall b f, frun fuel (a ++ b) f = match frun fuel a f with Some f' => frun fuel b f' | None => None end.
Proof. induction a as [|o a IH]; intros b f; simpl; auto. destruct (fprun f (code fuel o)) as [f' [r|e]]; auto. Qed.
Lemma frun_ok fuel l : forall h f m f', seqrun h m -> rep f m -> frun fuel l f = Some f' ->
  exists h' m', seqrun h' m' /\ rep f' m' /\ map fst h' = rev l ++ map fst h.
Proof.
  induction l as [|o l IH]; intros h f m f' Hq Hr E; simpl in E.
  - injection E as <-. exists h, m. auto.
  - destruct (fprun_ok (code fuel o) f m Hr) as [Hr' Hv].
    destruct (fprun f (code fuel o)) as [f1 [r|e]]; [|discriminate].
    destruct (prun m (code fuel o)) as [m1 x] eqn:Em. simpl in *. subst x.
    destruct (IH ((o, r) :: h) f1 m1 f' (Q_call _ _ _ _ _ _ Hq Em) Hr' E) as (h' & m' & A & B & C).
    exists h', m'. split; [exact A|split; [exact B|]]. rewrite C. simpl. rewrite <- app_assoc. reflexivity.
Qed.

(** * Failures *)
Lemma ple_er {A} (p q : prog A) : ple p q -> forall m m' e, e <> EFuel -> prun m p = (m', Er e) -> prun m q = (m', Er e).
Proof.
  induction 1; simpl; intros m m' e' He; auto; try discriminate.
  - intros E. injection E as _ <-. destruct (He eq_refl).
  - destruct (get m i); auto.
  - destruct (tab m i) as [p'|]; auto. destruct (N.eqb p' o); auto.
  - destruct (tab m i) as [p'|]; auto. destruct (N.eqb p' o); auto.
  - destruct (root m =? o); auto.
Qed.
Definition failsb (f : fmem) (fuel : nat) (o : op) : bool :=
  match snd (fprun f (code fuel o)) with Er EUninit => true | _ => false end.
Lemma failsb_ok f m fuel o : rep f m -> failsb f fuel o = true -> exists m', forall fuel', fuel <= fuel' -> prun m (code fuel' o) = (m', Er EUninit).
Proof.
  intros Hr H. unfold failsb in H. destruct (fprun_ok (code fuel o) f m Hr) as [_ E]. rewrite E in H.
  destruct (prun m (code fuel o)) as [m' [r|e]] eqn:Em; [discriminate|]. simpl in H. destruct e; try discriminate.
  exists m'. intros fuel' Hf. apply (ple_er (code fuel o)); [apply code_mono, Hf|discriminate|exact Em].
Qed.

(** * Separators of a page, decided *)
Fixpoint sepsb (c : ichain) (s : K) (i : nat) : bool :=
  match c with
  | IBase _ _ _ items _ => existsb (fun x => keq (fst x) s && (snd x =? i)) (tl items)
  | IIns (s', i') _ _ c => if keq s s' then i =? i' else sepsb c s i
  | IDel (s', _) _ _ _ c => negb (keq s s') && sepsb c s i
  | ISplit sk _ _ c => klt s sk && sepsb c s i
  | IRemove _ c | IAbort _ c => sepsb c s i
  | IMerge mk _ r c => if klt s mk then sepsb c s i else keq s mk && (i =? ilid r) || sepsb r s i
  end.
Lemma sepsb_ok c s i : sepsb c s i = true -> seps c s i.
Proof.
  induction c as [d lo lid it hi|[s' i'] nx loc c IH|[s' i'] pv nx loc c IH|k j n c IH|sid c IH|mk j r IHr c IHc|p c IH]; simpl; intros H; auto.
  - apply existsb_exists in H as ([s1 i1] & A & B). apply andb_true_iff in B as [B C]. simpl in *. apply keq_spec in B. apply Nat.eqb_eq in C. subst. exact A.
  - destruct (keq s s') eqn:E; [left; apply keq_spec in E; apply Nat.eqb_eq in H; auto|right]. split; auto. intros X. apply keq_spec in X. congruence.
  - apply andb_true_iff in H as [A B]. split; auto. intros X. apply keq_spec in X. rewrite X in A. discriminate.
  - apply andb_true_iff in H as [A B]. auto.
  - destruct (klt s mk); auto. apply orb_true_iff in H as [H|H]; auto. left. apply andb_true_iff in H as [A B]. apply keq_spec in A. apply Nat.eqb_eq in B. auto.
Qed.
Fixpoint ascb (l : list (K * nat)) : bool :=
  match l with
  | x :: (y :: _) as t => klt (fst x) (fst y) && ascb t
  | _ => true
  end.
Lemma ascb_all l : ascb l = true -> match l with [] => True | x :: t => forall y, In y t -> klt (fst x) (fst y) = true end.
Proof.
  induction l as [|x l IH]; [auto|]. intros H. destruct l as [|y l]; [intros z []|]. change (klt (fst x) (fst y) && ascb (y :: l) = true) in H. apply andb_true_iff in H as [H1 H2].
  intros z [<-|Hz]; [exact H1|]. eapply klt_trans; [exact H1|]. exact (IH H2 z Hz).
Qed.
Lemma ascb_nodup l : ascb l = true -> NoDup (map fst l).
Proof.
  induction l as [|x l IH]; simpl map; [constructor|]. intros H. constructor.
  - intros Hi. apply in_map_iff in Hi as (y & E & Hy). pose proof (ascb_all _ H y Hy) as Hl. rewrite E, klt_irrefl in Hl. discriminate.
  - apply IH. destruct l as [|y l]; [reflexivity|]. change (klt (fst x) (fst y) && ascb (y :: l) = true) in H. apply andb_true_iff in H as [_ H]. exact H.
Qed.
(** A child of the root's page with more than [n] separators. *)
Definition wideb (f : fmem) (n k i : nat) (key : K) : bool :=
  match pget (f_tab f) (f_root f), pget (f_tab f) i with
  | Some p, Some q => match hget (f_heap f) p, hget (f_heap f) q with
      | Some (NInner c0), Some (NInner c) => sepsb c0 key i && match iconsolidate k c with
          | Ok (IBase _ _ _ items _) => let ss := tl items in ascb ss && (n <=? length ss) && forallb (fun x => sepsb c (fst x) (snd x)) ss
          | _ => false end
      | _, _ => false end
  | _, _ => false
  end.
Lemma wideb_ok f m n k i key : rep f m -> wideb f n k i key = true ->
  exists c0 c ss, node_of m (root m) = Some (NInner c0) /\ seps c0 key i /\ node_of m i = Some (NInner c) /\
    NoDup (map fst ss) /\ n <= length ss /\ forall s j, In (s, j) ss -> seps c s j.
Proof.
  intros [H1 H2 H3 H4 H5] H. unfold wideb in H. rewrite !H3, H5 in H. unfold node_of, get.
  destruct (tab m (root m)) as [p|]; [|discriminate]. destruct (tab m i) as [q|]; [|discriminate]. rewrite !H1 in H.
  destruct (heap m p) as [[c|c0]|]; try discriminate. destruct (heap m q) as [[c|c]|]; try discriminate.
  apply andb_true_iff in H as [A B]. destruct (iconsolidate k c) as [[d lo lid items hi| | | | | |]|]; try discriminate.
  cbv zeta in B. apply andb_true_iff in B as [B C]. apply andb_true_iff in B as [B D].
  exists c0, c, (tl items). split; [reflexivity|]. split; [apply sepsb_ok, A|]. split; [reflexivity|]. split; [apply ascb_nodup, B|]. split; [apply Nat.leb_le, D|].
  intros s j Hi. apply sepsb_ok. rewrite forallb_forall in C. exact (C (s, j) Hi).
Qed.
End FastSeq.
