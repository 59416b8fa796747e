(** Proofs about epoch-based reclamation (Epoch.v). *)
From Coq Require Import List Arith Lia Bool Permutation Sorted.
From Verif Require Import Epoch.
Import ListNotations.

Lemma upd_same {A} (f : nat -> A) t p : upd f t p t = p.
Proof. unfold upd; rewrite Nat.eqb_refl; auto. Qed.
Lemma upd_other {A} (f : nat -> A) t u p : u <> t -> upd f t p u = f u.
Proof. intros; unfold upd; destruct (Nat.eqb_spec u t); congruence. Qed.
Lemma set_nth_length {A} (l : list A) i x : length (set_nth l i x) = length l.
Proof. revert i; induction l; destruct i; simpl; auto. Qed.
Lemma nth_set_same {A} (l : list A) i x : i < length l -> nth_error (set_nth l i x) i = Some x.
Proof. revert i; induction l; destruct i; simpl; intros; try lia; auto. apply IHl; lia. Qed.
Lemma nth_set_other {A} (l : list A) i j x : i <> j -> nth_error (set_nth l i x) j = nth_error l j.
Proof. revert i j; induction l; destruct i, j; simpl; intros; auto; lia. Qed.
Lemma nth_error_lt {A} (l : list A) i x : nth_error l i = Some x -> i < length l.
Proof. intros H. apply nth_error_Some. congruence. Qed.
Lemma map_set_nth {A B} (f : A -> B) l i x y :
  nth_error l i = Some y -> f x = f y -> map f (set_nth l i x) = map f l.
Proof.
  revert i; induction l; destruct i; simpl; intros H E; try discriminate.
  - inversion H; subst. congruence.
  - f_equal; eauto.
Qed.

(** Garbage list of a slot. *)
Fixpoint linked (cs : list cell) (h : option nat) (l : list nat) : Prop :=
  match l with
  | [] => h = None
  | a :: r => h = Some a /\ exists c, nth_error cs a = Some c /\ alive c = true /\ linked cs (nx c) r
  end.

Definition pend (p : tpc) : option nat := match p with Unlinking x => Some x | _ => None end.
Definition isfree (p : tpc) : bool := match p with GCFree _ => true | _ => false end.
Definition de_of (cs : list cell) (a : nat) : nat :=
  match nth_error cs a with Some c => de c | None => 0 end.
Definition lastof (l : list nat) : option nat := hd_error (rev l).

Lemma lastof_snoc l a : lastof (l ++ [a]) = Some a.
Proof. unfold lastof. rewrite rev_app_distr. auto. Qed.
Lemma lastof_In l p : lastof l = Some p -> In p l.
Proof.
  unfold lastof. intros H. apply in_rev. destruct (rev l); simpl in *; [discriminate|].
  inversion H; auto.
Qed.
Lemma lastof_cons b l : l <> [] -> lastof (b :: l) = lastof l.
Proof.
  unfold lastof. simpl. intros H. destruct (rev l) eqn:E; auto.
  exfalso. apply H. rewrite <- (rev_involutive l), E. auto.
Qed.

Record LI (F : nat -> bool) (s : st) (L : nat -> list nat) : Prop := {
  li_link : forall t, linked (cells s) (hdr (slots s t)) (L t);
  li_last : forall t, L t <> [] -> last (slots s t) = lastof (L t);
  li_last0 : forall t, L t = [] -> F t = false -> last (slots s t) = None;
  li_cnt : forall t, cnt (slots s t) = length (L t);
  li_nd : forall t, NoDup (L t);
  li_disj : forall t u a, In a (L t) -> In a (L u) -> t = u;
  li_alive : forall a c, nth_error (cells s) a = Some c -> alive c = true -> exists t, In a (L t);
  li_de : forall a c, nth_error (cells s) a = Some c -> de c <= ep s;
  li_sorted : forall t, StronglySorted (fun a b => de_of (cells s) a <= de_of (cells s) b) (L t);
  li_nodes : NoDup (map gnode (cells s));
  li_pend : forall t x, pend (pcs s t) = Some x -> ~ In x (map gnode (cells s)) /\ In x (map fst (unl s));
  li_pend1 : forall t u x, pend (pcs s t) = Some x -> pend (pcs s u) = Some x -> t = u;
  li_unl : forall x, In x (map fst (unl s)) ->
             In x (map gnode (cells s)) \/ exists t, pend (pcs s t) = Some x;
  li_unl2 : forall x, In x (map gnode (cells s)) -> In x (map fst (unl s));
  li_freed : forall x, In x (freed s) <->
             exists a c, nth_error (cells s) a = Some c /\ alive c = false /\ gnode c = x;
  li_fnd : NoDup (freed s)
}.

Lemma LI_frame F F' s s' L :
  LI F s L -> cells s' = cells s -> unl s' = unl s -> freed s' = freed s -> ep s <= ep s' ->
  (forall u, hdr (slots s' u) = hdr (slots s u) /\ last (slots s' u) = last (slots s u) /\
             cnt (slots s' u) = cnt (slots s u)) ->
  (forall u, pend (pcs s' u) = pend (pcs s u)) ->
  (forall u, F u = true -> F' u = true) ->
  LI F' s' L.
Proof.
  intros HL E1 E2 E3 E4 E5 E6 E7. constructor; rewrite ?E1, ?E2, ?E3.
  - intros t. destruct (E5 t) as (-> & _ & _). apply HL.
  - intros t. destruct (E5 t) as (_ & -> & _). apply HL.
  - intros t H1 H2. destruct (E5 t) as (_ & -> & _). apply (li_last0 _ _ _ HL); auto.
    destruct (F t) eqn:E; auto. rewrite E7 in H2; auto.
  - intros t. destruct (E5 t) as (_ & _ & ->). apply HL.
  - apply HL.
  - apply HL.
  - apply HL.
  - intros a c H. pose proof (li_de _ _ _ HL _ _ H). lia.
  - apply HL.
  - apply HL.
  - intros t x H. rewrite E6 in H. apply (li_pend _ _ _ HL _ _ H).
  - intros t u x H1 H2. rewrite E6 in H1, H2. apply (li_pend1 _ _ _ HL _ _ _ H1 H2).
  - intros x H. destruct (li_unl _ _ _ HL x H) as [|[t Ht]]; auto. right; exists t. rewrite E6; auto.
  - apply HL.
  - apply HL.
  - apply HL.
Qed.

Lemma linked_in cs h l a : linked cs h l -> In a l -> exists c, nth_error cs a = Some c /\ alive c = true.
Proof.
  revert h; induction l as [|b l IH]; intros h H Hin; [contradiction|].
  destruct H as (_ & c & E & Ea & H). destruct Hin as [<-|Hin]; eauto.
Qed.

Lemma linked_ext cs cs' h l :
  linked cs h l ->
  (forall a c, In a l -> nth_error cs a = Some c -> nth_error cs' a = Some c) ->
  linked cs' h l.
Proof.
  revert h; induction l as [|b l IH]; intros h H Hx; auto.
  destruct H as (-> & c & E & Ea & H). split; auto. exists c. split; [apply Hx; simpl; auto|].
  split; auto. apply IH; auto. intros; apply Hx; simpl; auto.
Qed.

Lemma linked_snoc cs h l p c new a : linked cs h l -> lastof l = Some p -> NoDup l ->
  nth_error cs p = Some c -> a = length cs -> alive new = true -> nx new = None ->
  linked (set_nth cs p {| de := de c; gnode := gnode c; nx := Some a; alive := true |} ++ [new]) h (l ++ [a]).
Proof.
  revert h; induction l as [|b l IH]; intros h H Hl Hnd Ep -> Hna Hnx; [discriminate|].
  destruct H as (-> & cb & Eb & Eba & H). simpl. split; auto.
  assert (Hp : p < length cs) by (eapply nth_error_lt; eauto).
  inversion Hnd; subst. destruct l as [|b2 l].
  - unfold lastof in Hl; simpl in Hl; inversion Hl; subst p. eexists.
    rewrite nth_error_app1 by (rewrite set_nth_length; auto).
    rewrite nth_set_same by auto. split; [reflexivity|]. simpl. split; auto. split; auto.
    exists new. rewrite nth_error_app2 by (rewrite set_nth_length; auto).
    rewrite set_nth_length, Nat.sub_diag. simpl. auto.
  - rewrite lastof_cons in Hl by discriminate.
    exists cb. rewrite nth_error_app1 by (rewrite set_nth_length; eapply nth_error_lt; eauto).
    rewrite nth_set_other.
    + split; auto.
    + intros ->. apply H2. apply lastof_In; auto.
Qed.

Lemma linked_app_new cs h l new :
  linked cs h l -> linked (cs ++ [new]) h l.
Proof.
  intros H. eapply linked_ext; eauto. intros. rewrite nth_error_app1; auto.
  eapply nth_error_lt; eauto.
Qed.

Lemma de_of_app cs cs' a : a < length cs ->
  (forall c, nth_error cs a = Some c -> exists c', nth_error cs' a = Some c' /\ de c' = de c) ->
  de_of cs' a = de_of cs a.
Proof.
  intros H Hx. unfold de_of. destruct (nth_error cs a) eqn:E.
  - destruct (Hx _ eq_refl) as (c' & -> & ->). auto.
  - apply nth_error_None in E. lia.
Qed.

Lemma SSorted_ext {A} (R R' : A -> A -> Prop) l :
  (forall a b, In a l -> In b l -> R a b -> R' a b) ->
  StronglySorted R l -> StronglySorted R' l.
Proof.
  intros H HS; induction HS as [|a l HS IH HF]; constructor.
  - apply IH. intros; apply H; simpl; auto.
  - rewrite Forall_forall in *. intros x Hx. apply H; simpl; auto.
Qed.

Lemma SSorted_snoc {A} (R : A -> A -> Prop) l x :
  StronglySorted R l -> (forall a, In a l -> R a x) -> StronglySorted R (l ++ [x]).
Proof.
  induction 1 as [|a l HS IH HF]; simpl; intros H.
  - constructor; constructor.
  - constructor; auto. apply Forall_app; split; auto.
Qed.

Lemma NoDup_snoc {A} (l : list A) x : NoDup l -> ~ In x l -> NoDup (l ++ [x]).
Proof.
  induction 1; simpl; intros Hn.
  - constructor; auto. constructor.
  - constructor; [|apply IHNoDup; tauto].
    rewrite in_app_iff; simpl. intros [X|[X|[]]]; auto.
Qed.

(** AddGarbageNode keeps the list structure and makes no bad access. *)
Lemma LI_add F th s L t x :
  LI F s L -> pcs s t = Unlinking x -> F t = false ->
  let s' := add_garbage th s t x in
  bad s' = bad s /\ LI F s' (upd L t (L t ++ [length (cells s)])) /\
  (exists c, nth_error (cells s') (length (cells s)) = Some c /\ de c = ep s /\ gnode c = x) /\
  (forall a c', a < length (cells s) -> nth_error (cells s') a = Some c' ->
     exists c, nth_error (cells s) a = Some c /\ de c' = de c /\ gnode c' = gnode c /\ alive c' = alive c) /\
  length (cells s') = S (length (cells s)).
Proof.
  intros HL Hp Hnf s'.
  assert (Hpend : pend (pcs s t) = Some x) by (rewrite Hp; auto).
  destruct (li_pend _ _ _ HL _ _ Hpend) as [Hxn Hxu].
  set (new := {| de := ep s; gnode := x; nx := None; alive := true |}).
  set (a := length (cells s)).
  assert (HaL : forall u, ~ In a (L u)).
  { intros u Hin. destruct (linked_in _ _ _ _ (li_link _ _ _ HL u) Hin) as (c & E & _).
    apply nth_error_lt in E. unfold a in E; lia. }
  assert (Hs' : exists cs h, cells s' = cs ++ [new] /\ length cs = a /\
     slots s' = upd (slots s) t {| lae := lae (slots s t); hdr := h; last := Some a; cnt := S (cnt (slots s t)) |} /\
     bad s' = bad s /\ ep s' = ep s /\ unl s' = unl s /\ freed s' = freed s /\
     pcs s' = upd (pcs s) t (if Nat.ltb th (S (cnt (slots s t))) then GCSum 0 None else Running) /\
     linked (cs ++ [new]) h (L t ++ [a]) /\
     (forall b c, nth_error (cells s) b = Some c -> exists c', nth_error cs b = Some c' /\
         de c' = de c /\ gnode c' = gnode c /\ alive c' = alive c) /\
     (forall u, u <> t -> forall b c, In b (L u) -> nth_error (cells s) b = Some c -> nth_error cs b = Some c) /\
     map gnode cs = map gnode (cells s)).
  { unfold s', add_garbage. fold a. fold new.
    destruct (L t) as [|b r] eqn:EL.
    - rewrite (li_last0 _ _ _ HL t EL Hnf).
      exists (cells s), (Some a). simpl. repeat split; auto.
      + exists new. rewrite nth_error_app2 by auto. rewrite Nat.sub_diag; simpl; auto.
      + eauto.
    - assert (Hne : L t <> []) by congruence.
      pose proof (li_last _ _ _ HL t Hne) as Hl. rewrite Hl.
      destruct (lastof (L t)) as [p|] eqn:Elp.
      2:{ unfold lastof in Elp. exfalso. apply Hne. destruct (rev (L t)) eqn:Er; [|discriminate].
          rewrite <- (rev_involutive (L t)), Er. auto. }
      destruct (linked_in _ _ _ _ (li_link _ _ _ HL t) (lastof_In _ _ Elp)) as (c & E & Ea).
      rewrite E, Ea.
      exists (set_nth (cells s) p {| de := de c; gnode := gnode c; nx := Some a; alive := true |}),
        (hdr (slots s t)).
      do 8 (split; [first [reflexivity | apply set_nth_length]|]).
      split; [|split; [|split]].
      + change (b :: r ++ [a]) with ((b :: r) ++ [a]). rewrite <- EL.
        eapply linked_snoc; eauto; apply HL.
      + intros b0 c0 E0. destruct (Nat.eq_dec p b0) as [<-|Hn].
        * rewrite nth_set_same by (eapply nth_error_lt; eauto). eexists; split; eauto. simpl.
          rewrite E in E0; inversion E0; subst. auto.
        * rewrite nth_set_other by auto. eauto.
      + intros u Hu b0 c0 Hin E0. rewrite nth_set_other; auto.
        intros ->. apply Hu. eapply (li_disj _ _ _ HL); eauto. apply lastof_In in Elp; auto.
      + eapply map_set_nth; eauto. }
  destruct Hs' as (cs & h & Ec & Hlen & Esl & Eb & Ee & Eu & Ef & Epc & Hlink & Hold & Hoth & Hmap).
  clearbody s'.
  assert (Hget : forall b c', b < a -> nth_error (cells s') b = Some c' -> exists c,
     nth_error (cells s) b = Some c /\ de c' = de c /\ gnode c' = gnode c /\ alive c' = alive c).
  { intros b c' Hb E. rewrite Ec, nth_error_app1 in E by lia.
    destruct (nth_error (cells s) b) as [c|] eqn:E0.
    - destruct (Hold _ _ E0) as (c'' & E'' & H). rewrite E in E''; inversion E''; subst. eauto.
    - apply nth_error_None in E0. unfold a in Hb; lia. }
  assert (Hgeta : nth_error (cells s') a = Some new).
  { rewrite Ec, nth_error_app2 by lia. rewrite Hlen, Nat.sub_diag. auto. }
  assert (Hlen' : length (cells s') = S a) by (rewrite Ec, app_length; simpl; lia).
  assert (Hde : forall b, b < a -> de_of (cells s') b = de_of (cells s) b).
  { intros b Hb. apply de_of_app; auto. intros c E. destruct (Hold _ _ E) as (c' & E' & H & _).
    exists c'; split; auto. rewrite Ec, nth_error_app1; auto. lia. }
  assert (HinL : forall u b, In b (L u) -> b < a).
  { intros u b Hin. destruct (linked_in _ _ _ _ (li_link _ _ _ HL u) Hin) as (c & E & _).
    eapply nth_error_lt; eauto. }
  assert (Hpe : forall u, pend (pcs s' u) = if Nat.eqb u t then None else pend (pcs s u)).
  { intros u. rewrite Epc. unfold upd. destruct (Nat.eqb u t); auto.
    destruct (Nat.ltb th (S (cnt (slots s t)))); auto. }
  split; auto. split; [|split; [|split; [|exact Hlen']]].
  2:{ exists new; auto. }
  2:{ intros b c' Hb E. apply Hget; auto. }
  constructor.
  - intros u. rewrite Esl, Ec. destruct (Nat.eq_dec u t) as [->|Hu].
    + rewrite !upd_same. simpl. auto.
    + rewrite !upd_other by auto. apply linked_app_new.
      eapply linked_ext; [apply (li_link _ _ _ HL)|]. eauto.
  - intros u. rewrite Esl. destruct (Nat.eq_dec u t) as [->|Hu].
    + rewrite !upd_same. simpl. rewrite lastof_snoc. auto.
    + rewrite !upd_other by auto. apply (li_last _ _ _ HL).
  - intros u. rewrite Esl. destruct (Nat.eq_dec u t) as [->|Hu].
    + rewrite !upd_same. intros X. destruct (L t); discriminate X.
    + rewrite !upd_other by auto. apply (li_last0 _ _ _ HL).
  - intros u. rewrite Esl. destruct (Nat.eq_dec u t) as [->|Hu].
    + rewrite !upd_same. simpl. rewrite app_length; simpl. rewrite (li_cnt _ _ _ HL). lia.
    + rewrite !upd_other by auto. apply (li_cnt _ _ _ HL).
  - intros u. destruct (Nat.eq_dec u t) as [->|Hu].
    + rewrite !upd_same. apply NoDup_snoc; [apply HL|apply HaL].
    + rewrite !upd_other by auto. apply HL.
  - intros u v b. unfold upd. destruct (Nat.eqb_spec u t), (Nat.eqb_spec v t); subst; auto.
    + intros H1 H2. apply in_app_iff in H1 as [H1|[<-|[]]].
      * eapply (li_disj _ _ _ HL); eauto.
      * exfalso; eapply HaL; eauto.
    + intros H1 H2. apply in_app_iff in H2 as [H2|[<-|[]]].
      * eapply (li_disj _ _ _ HL); eauto.
      * exfalso; eapply HaL; eauto.
    + apply (li_disj _ _ _ HL).
  - intros b c' E Ea. destruct (Nat.eq_dec b a) as [->|Hb].
    + exists t. rewrite upd_same. apply in_app_iff; simpl; auto.
    + assert (b < a) by (apply nth_error_lt in E; lia).
      destruct (Hget _ _ H E) as (c & E0 & _ & _ & Hal).
      destruct (li_alive _ _ _ HL _ _ E0) as [u Hu]; [congruence|].
      exists u. unfold upd. destruct (Nat.eqb_spec u t); subst; auto. apply in_app_iff; auto.
  - intros b c' E. rewrite Ee. destruct (Nat.eq_dec b a) as [->|Hb].
    + rewrite Hgeta in E; inversion E; subst; auto.
    + assert (b < a) by (apply nth_error_lt in E; lia).
      destruct (Hget _ _ H E) as (c & E0 & -> & _). apply (li_de _ _ _ HL _ _ E0).
  - intros u.
    assert (HSS : forall v, StronglySorted (fun a b => de_of (cells s') a <= de_of (cells s') b) (L v)).
    { intros v. eapply SSorted_ext; [|apply (li_sorted _ _ _ HL v)].
      intros b d Hb Hd. simpl. rewrite !Hde by eauto. auto. }
    destruct (Nat.eq_dec u t) as [->|Hu].
    + rewrite upd_same. apply SSorted_snoc; auto.
      intros b Hb. rewrite (Hde b) by eauto. unfold de_of at 2. rewrite Hgeta; simpl.
      unfold de_of. destruct (nth_error (cells s) b) as [cb|] eqn:Ebb; [|lia].
      apply (li_de _ _ _ HL _ _ Ebb).
    + rewrite upd_other; auto.
  - rewrite Ec, map_app, Hmap. simpl. apply NoDup_snoc; auto. apply HL.
  - intros u y Hy. rewrite Hpe in Hy. destruct (Nat.eqb_spec u t); [discriminate|].
    destruct (li_pend _ _ _ HL _ _ Hy) as [Hy1 Hy2]. rewrite Eu. split; auto.
    rewrite Ec, map_app, Hmap, in_app_iff; simpl. intros [X|[<-|[]]]; auto.
    apply n. eapply (li_pend1 _ _ _ HL); eauto.
  - intros u v y Hu Hv. rewrite Hpe in Hu, Hv.
    destruct (Nat.eqb u t), (Nat.eqb v t); try discriminate. eapply (li_pend1 _ _ _ HL); eauto.
  - intros y Hy. rewrite Eu in Hy. rewrite Ec, map_app, Hmap, in_app_iff; simpl.
    destruct (li_unl _ _ _ HL y Hy) as [|[u Hu]]; auto.
    destruct (Nat.eq_dec u t) as [->|Hut].
    + rewrite Hpend in Hu; inversion Hu; subst; auto.
    + right; exists u. rewrite Hpe. destruct (Nat.eqb_spec u t); congruence.
  - intros y. rewrite Eu, Ec, map_app, Hmap, in_app_iff; simpl. intros [X|[<-|[]]]; auto.
    apply (li_unl2 _ _ _ HL); auto.
  - intros y. rewrite Ef, (li_freed _ _ _ HL y). split; intros (b & c & E & Hal & Hg).
    + destruct (Hold _ _ E) as (c' & E' & H1 & H2 & H3). exists b, c'.
      rewrite Ec, nth_error_app1 by (eapply nth_error_lt; eauto). repeat split; congruence.
    + destruct (Nat.eq_dec b a) as [->|Hb].
      * rewrite Hgeta in E; inversion E; subst; discriminate.
      * assert (b < a) by (apply nth_error_lt in E; lia).
        destruct (Hget _ _ H E) as (c0 & E0 & H1 & H2 & H3). exists b, c0. repeat split; congruence.
  - rewrite Ef. apply HL.
Qed.

Lemma still_used_spec s x :
  still_used s x = true <-> exists ops t k, In (x, ops) (unl s) /\ In (t, k) ops /\
    running (pcs s t) = true /\ opno s t = k.
Proof.
  unfold still_used. rewrite existsb_exists. split.
  - intros ((y & ops) & Hin & H). apply andb_true_iff in H as [H1 H2].
    apply Nat.eqb_eq in H1; subst y. apply existsb_exists in H2 as ((t & k) & Hk & H2).
    apply andb_true_iff in H2 as [H2 H3]. apply Nat.eqb_eq in H3. eauto 10.
  - intros (ops & t & k & H1 & H2 & H3 & H4). exists (x, ops). split; auto.
    rewrite Nat.eqb_refl; simpl. apply existsb_exists. exists (t, k). split; auto.
    rewrite H3, H4, Nat.eqb_refl. auto.
Qed.

Lemma LI_setF F F' s L : LI F s L ->
  (forall t, L t = [] -> F' t = false -> F t = false) -> LI F' s L.
Proof.
  intros HL H. constructor; try apply HL. intros t H1 H2. apply (li_last0 _ _ _ HL); auto.
Qed.

Lemma nodes_inj cs a b ca cb : NoDup (map gnode cs) ->
  nth_error cs a = Some ca -> nth_error cs b = Some cb -> gnode cb = gnode ca -> a = b.
Proof.
  intros Hnd Ha Hb E. rewrite NoDup_nth_error in Hnd. apply Hnd.
  - rewrite map_length. eapply nth_error_lt; eauto.
  - rewrite !nth_error_map, Ha, Hb. simpl. congruence.
Qed.

(** One iteration of PerformGC. *)
Lemma LI_gc F s L o m : LI F s L -> F o = true ->
  match L o with
  | [] => snd (gc_iter s o m) = false /\ bad (fst (gc_iter s o m)) = bad s /\
          LI (upd F o false) (fst (gc_iter s o m)) L /\
          cells (fst (gc_iter s o m)) = cells s /\ freed (fst (gc_iter s o m)) = freed s
  | a :: r => exists c, nth_error (cells s) a = Some c /\ alive c = true /\
      if elt (de c) m
      then snd (gc_iter s o m) = true /\
           bad (fst (gc_iter s o m)) = bad s || still_used s (gnode c) /\
           LI F (fst (gc_iter s o m)) (upd L o r) /\
           freed (fst (gc_iter s o m)) = gnode c :: freed s /\
           cells (fst (gc_iter s o m)) =
             set_nth (cells s) a {| de := de c; gnode := gnode c; nx := nx c; alive := false |}
      else gc_iter s o m = (s, false) /\ LI (upd F o false) s L
  end /\
  (let s' := fst (gc_iter s o m) in
   ep s' = ep s /\ pcs s' = pcs s /\ opno s' = opno s /\ unl s' = unl s /\
   forall u, lae (slots s' u) = lae (slots s u)).
Proof.
  intros HL HF.
  split.
  2:{ simpl. unfold gc_iter.
      destruct (hdr (slots s o)); [destruct (nth_error (cells s) n); [destruct (alive c); simpl;
       [destruct (elt (de c) m); [destruct (Nat.eqb (cnt (slots s o)) 0)|]|]|]|]; simpl;
      repeat split; auto; intros u; unfold upd; destruct (Nat.eqb_spec u o); subst; auto. }
  pose proof (li_link _ _ _ HL o) as Hlk. pose proof (li_nd _ _ _ HL o) as Hnd.
  destruct (L o) as [|a r] eqn:EL.
  - simpl in Hlk. unfold gc_iter. rewrite Hlk. simpl. do 2 (split; auto). split; [|auto].
    constructor; simpl; try apply HL.
    + intros t. unfold upd. destruct (Nat.eqb_spec t o); subst; simpl; [rewrite EL; simpl; auto|apply HL].
    + intros t Ht. unfold upd. destruct (Nat.eqb_spec t o); subst; simpl; [congruence|apply HL; auto].
    + intros t Ht. unfold upd. destruct (Nat.eqb_spec t o); subst; simpl; [auto|intros; apply HL; auto].
    + intros t. unfold upd. destruct (Nat.eqb_spec t o); subst; simpl; apply HL.
  - destruct Hlk as (Hh & c & Ec & Hal & Hlk). exists c. split; auto. split; auto.
    unfold gc_iter. rewrite Hh, Ec, Hal. simpl.
    destruct (elt (de c) m) eqn:Em.
    2:{ split; auto. eapply LI_setF; eauto. intros u Hu. unfold upd.
        destruct (Nat.eqb_spec u o); auto. subst. congruence. }
    assert (Hx : existsb (Nat.eqb (gnode c)) (freed s) = false).
    { apply not_true_iff_false. intros X. apply existsb_exists in X as (y & Hy & Ey).
      apply Nat.eqb_eq in Ey; subst y. apply (li_freed _ _ _ HL) in Hy as (b & cb & Eb & Hd & Hg).
      assert (a = b) by (eapply nodes_inj; eauto using li_nodes). subst b.
      rewrite Ec in Eb; inversion Eb; subst. congruence. }
    assert (Hcnt : Nat.eqb (cnt (slots s o)) 0 = false).
    { rewrite (li_cnt _ _ _ HL), EL. auto. }
    rewrite Hcnt. simpl. rewrite Hx, orb_false_r. split; auto. split; auto. split; auto.
    apply NoDup_cons_iff in Hnd as [Hna Hnd].
    assert (Hget : forall b cb, b <> a -> nth_error (cells s) b = Some cb ->
              nth_error (set_nth (cells s) a {| de := de c; gnode := gnode c; nx := nx c; alive := false |}) b = Some cb).
    { intros. rewrite nth_set_other; auto. }
    assert (Hga : nth_error (set_nth (cells s) a {| de := de c; gnode := gnode c; nx := nx c; alive := false |}) a =
        Some {| de := de c; gnode := gnode c; nx := nx c; alive := false |}).
    { apply nth_set_same. eapply nth_error_lt; eauto. }
    assert (HLo : forall t b, In b (upd L o r t) -> In b (L t) /\ b <> a).
    { intros t b. unfold upd. destruct (Nat.eqb_spec t o) as [->|Hto].
      - rewrite EL. simpl. intros Hb. split; auto. congruence.
      - intros Hb. split; auto. intros ->. apply Hto. eapply (li_disj _ _ _ HL); eauto.
        rewrite EL; simpl; auto. }
    assert (Hde : forall b, de_of (set_nth (cells s) a {| de := de c; gnode := gnode c; nx := nx c; alive := false |}) b = de_of (cells s) b).
    { intros b. unfold de_of. destruct (Nat.eq_dec b a) as [->|Hb].
      - rewrite Hga, Ec. auto.
      - rewrite nth_set_other; auto. }
    assert (Hmap : map gnode (set_nth (cells s) a {| de := de c; gnode := gnode c; nx := nx c; alive := false |}) = map gnode (cells s)).
    { eapply map_set_nth; eauto. }
    constructor; simpl.
    + intros t. unfold upd at 1. destruct (Nat.eqb_spec t o) as [->|Hto]; simpl.
      * rewrite upd_same. eapply linked_ext; eauto. intros b cb Hb. apply Hget. congruence.
      * rewrite upd_other by auto. eapply linked_ext; [apply (li_link _ _ _ HL)|].
        intros b cb Hb. apply Hget. apply (HLo t). rewrite upd_other; auto.
    + intros t. unfold upd. destruct (Nat.eqb_spec t o) as [->|Hto]; simpl.
      * intros Hr. rewrite (li_last _ _ _ HL) by congruence. rewrite EL. apply lastof_cons; auto.
      * apply (li_last _ _ _ HL).
    + intros t. unfold upd. destruct (Nat.eqb_spec t o) as [->|Hto]; simpl.
      * congruence.
      * apply (li_last0 _ _ _ HL).
    + intros t. unfold upd. destruct (Nat.eqb_spec t o) as [->|Hto]; simpl.
      * rewrite (li_cnt _ _ _ HL), EL. simpl. lia.
      * apply (li_cnt _ _ _ HL).
    + intros t. unfold upd. destruct (Nat.eqb_spec t o); auto. apply HL.
    + intros t u b H1 H2. apply HLo in H1 as [H1 _]. apply HLo in H2 as [H2 _].
      eapply (li_disj _ _ _ HL); eauto.
    + intros b cb E Ha. destruct (Nat.eq_dec b a) as [->|Hb].
      * rewrite Hga in E; inversion E; subst; discriminate.
      * rewrite nth_set_other in E by auto.
        destruct (li_alive _ _ _ HL _ _ E Ha) as [u Hu]. exists u.
        unfold upd. destruct (Nat.eqb_spec u o) as [->|]; auto.
        rewrite EL in Hu. destruct Hu; congruence.
    + intros b cb E. destruct (Nat.eq_dec b a) as [->|Hb].
      * rewrite Hga in E; inversion E; subst; simpl. apply (li_de _ _ _ HL _ _ Ec).
      * rewrite nth_set_other in E by auto. apply (li_de _ _ _ HL _ _ E).
    + intros t. eapply SSorted_ext with (R := fun a b => de_of (cells s) a <= de_of (cells s) b).
      { intros b d _ _. rewrite !Hde. auto. }
      unfold upd. destruct (Nat.eqb_spec t o) as [->|]; [|apply HL].
      pose proof (li_sorted _ _ _ HL o) as X. rewrite EL in X. inversion X; auto.
    + rewrite Hmap. apply HL.
    + rewrite Hmap. apply HL.
    + apply HL.
    + rewrite Hmap. apply HL.
    + rewrite Hmap. apply HL.
    + intros x. split.
      * intros [<-|Hin].
        -- exists a. eexists. split; [exact Hga|]. auto.
        -- apply (li_freed _ _ _ HL) in Hin as (b & cb & E & Hd & Hg). exists b, cb.
           split; auto. apply Hget; auto. intros ->. congruence.
      * intros (b & cb & E & Hd & Hg). destruct (Nat.eq_dec b a) as [->|Hb].
        -- rewrite Hga in E; inversion E; subst; simpl. auto.
        -- right. rewrite nth_set_other in E by auto. apply (li_freed _ _ _ HL). eauto.
    + constructor; [|apply HL]. intros Hin. apply not_true_iff_false in Hx. apply Hx.
      apply existsb_exists. exists (gnode c). split; auto. apply Nat.eqb_refl.
Qed.

(** Safety: [J t] is the epoch read by thread [t] when its operation started. *)
Definition ele (m : eval) (l : eval) : Prop := exists x e, m = Some x /\ l = Some e /\ x <= e.
(** The bound [m] of thread [t] accounts for slot [j]: it is not above the slot,
    or [t] has no garbage that the operation of [j] may use. *)
Definition cov (s : st) (L : nat -> list nat) (t : nat) (m : eval) (j : nat) : Prop :=
  ele m (lae (slots s j)) \/
  forall x ops a c, In (x, ops) (unl s) -> In (j, opno s j) ops -> running (pcs s j) = true ->
    In a (L t) -> nth_error (cells s) a = Some c -> gnode c = x -> False.

Record SI (N : nat) (s : st) (L : nat -> list nat) (J : nat -> nat) : Prop := {
  si_out : forall t, N <= t -> pcs s t = Idle;
  si_lae : forall t e, lae (slots s t) = Some e -> e <= ep s /\
             (running (pcs s t) = true -> e <= J t) /\ (forall e', pcs s t = LeaveRead e' -> e <= e');
  si_none : forall t, lae (slots s t) = None -> pcs s t = Idle \/ exists e, pcs s t = JoinRead e;
  si_J : forall t, (running (pcs s t) = true -> J t <= ep s) /\
             (forall e', pcs s t = JoinRead e' -> e' = J t) /\ (forall e', pcs s t = LeaveRead e' -> e' <= ep s);
  si_ops : forall x ops t k, In (x, ops) (unl s) -> In (t, k) ops -> t < N /\ k <= opno s t;
  si_new : forall x ops t k e, In (x, ops) (unl s) -> In (t, k) ops -> pcs s t = JoinRead e -> lae (slots s t) = None -> k < opno s t;
  si_de : forall x ops t k a c, In (x, ops) (unl s) -> In (t, k) ops ->
             running (pcs s t) = true -> opno s t = k ->
             nth_error (cells s) a = Some c -> gnode c = x -> alive c = true -> J t <= de c;
  si_fr : forall x ops t k, In x (freed s) -> In (x, ops) (unl s) -> In (t, k) ops ->
             running (pcs s t) = true -> opno s t = k -> False;
  si_sum : forall t i m j, pcs s t = GCSum i m -> j < i -> j < N -> cov s L t m j;
  si_free : forall t m j, pcs s t = GCFree m -> j < N -> cov s L t m j
}.

Definition Inv N s := exists L J, LI (fun t => isfree (pcs s t)) s L /\ SI N s L J /\ bad s = false.

Lemma init_inv N : Inv N init.
Proof.
  exists (fun _ => []), (fun _ => 0). split; [|split; auto].
  - assert (Hn : forall a (c : cell), nth_error [] a = Some c -> False) by (intros [|a] c; discriminate).
    constructor; cbn [init slots cells pcs unl freed hdr last cnt slot0 pend map length linked].
    1-4: auto.
    + constructor.
    + intros t u a [].
    + intros a c E; destruct (Hn _ _ E).
    + intros a c E; destruct (Hn _ _ E).
    + constructor.
    + constructor.
    + discriminate.
    + discriminate.
    + intros x [].
    + intros x [].
    + intros x. split; [intros []|]. intros (a & c & E & _). destruct (Hn _ _ E).
    + constructor.
  - constructor; simpl; intros; try discriminate; try contradiction; auto.
    + inversion H; subst. repeat split; auto; intros; discriminate.
    + repeat split; auto; intros; discriminate.
Qed.

Lemma running_ops_In N s t k : In (t, k) (running_ops N s) ->
  t < N /\ known s t = true /\ k = opno s t.
Proof.
  unfold running_ops. intros H. apply in_map_iff in H as (u & E & H). inversion E; subst.
  apply filter_In in H as [H1 H2]. apply in_seq in H1. split; [lia|auto].
Qed.
Lemma known_running s t : known s t = true -> running (pcs s t) = true.
Proof. unfold known. destruct (pcs s t); auto. Qed.

Ltac updc := unfold upd in *; repeat match goal with
  | H : context [Nat.eqb ?a ?b] |- _ => destruct (Nat.eqb_spec a b); subst
  | |- context [Nat.eqb ?a ?b] => destruct (Nat.eqb_spec a b); subst
  end.

(** [cov] is kept. *)
Lemma cov_frame s s' L L' t m j : cov s L t m j ->
  (forall e, lae (slots s j) = Some e -> (exists e', lae (slots s' j) = Some e' /\ e <= e') \/ running (pcs s' j) = false) ->
  (forall x ops a c', In (x, ops) (unl s') -> In (j, opno s' j) ops -> running (pcs s' j) = true ->
     In a (L' t) -> nth_error (cells s') a = Some c' -> gnode c' = x ->
     In (x, ops) (unl s) /\ opno s' j = opno s j /\ running (pcs s j) = true /\ In a (L t) /\
     exists c, nth_error (cells s) a = Some c /\ gnode c = x) ->
  cov s' L' t m j.
Proof.
  intros [(x & e & -> & El & Hle)|H] H1 H2.
  - destruct (H1 _ El) as [(e' & E' & H')|Hn].
    + left. exists x, e'. repeat split; auto. lia.
    + right. intros y ops a c _ _ Hr. congruence.
  - right. intros x ops a c' X1 X2 X3 X4 X5 X6.
    destruct (H2 _ _ _ _ X1 X2 X3 X4 X5 X6) as (Y1 & Y2 & Y3 & Y4 & c & Y5 & Y6). rewrite Y2 in X2. eapply H; eauto.
Qed.

(** A change of program counters that starts no operation. *)
Lemma SI_frame N s s' L L' J : SI N s L J ->
  ep s' = ep s -> unl s' = unl s -> freed s' = freed s -> opno s' = opno s ->
  (forall a c', nth_error (cells s') a = Some c' -> alive c' = true ->
     (exists c, nth_error (cells s) a = Some c /\ de c' = de c /\ gnode c' = gnode c /\ alive c = true)
     \/ de c' = ep s) ->
  (forall u, lae (slots s' u) = lae (slots s u)) ->
  (forall u, pcs s' u = pcs s u \/
      (running (pcs s u) = true /\ (forall e, pcs s u <> JoinRead e) /\
       match pcs s' u with
       | Running | Unlinking _ => True
       | LeaveRead e => e = ep s
       | GCSum i m => forall j, j < i -> j < N -> cov s L u m j
       | GCFree m => forall j, j < N -> cov s L u m j
       | _ => False
       end)) ->
  (forall u a c', In a (L' u) -> nth_error (cells s') a = Some c' ->
     (In a (L u) /\ exists c, nth_error (cells s) a = Some c /\ gnode c = gnode c') \/
     match pcs s' u with GCSum i _ => i = 0 | GCFree _ => False | _ => True end) ->
  SI N s' L' J.
Proof.
  intros HS E1 E2 E3 E4 E5 E6 E7 E8.
  assert (Hrun : forall u, running (pcs s' u) = true -> running (pcs s u) = true).
  { intros u Hu. destruct (E7 u) as [<-|[? _]]; auto. }
  assert (Hcov : forall t m j, cov s L t m j -> match pcs s' t with GCSum i _ => i <> 0 | GCFree _ => True | _ => False end -> cov s' L' t m j).
  { intros t m j Hc Ht. eapply cov_frame; eauto.
    - intros e He. left. exists e. rewrite E6. auto.
    - intros x ops a c' X1 X2 X3 X4 X5 X6. rewrite E2 in X1. rewrite E4. split; auto. split; auto. split; auto.
      destruct (E8 _ _ _ X4 X5) as [[Y (c & Z1 & Z2)]|Y].
      + split; auto. exists c. split; congruence.
      + destruct (pcs s' t); contradiction. }
  constructor; rewrite ?E1, ?E2, ?E3, ?E4.
  - intros t Ht. pose proof (si_out _ _ _ _ HS t Ht) as X.
    destruct (E7 t) as [->|[Y _]]; auto. rewrite X in Y; discriminate.
  - intros t e He. rewrite E6 in He. destruct (si_lae _ _ _ _ HS t e He) as (H2 & H3 & H5).
    split; auto. split; [intros; apply H3; auto|].
    intros e' Ee'. destruct (E7 t) as [X|(_ & _ & X)]; rewrite Ee' in X; [apply H5; auto|subst; lia].
  - intros t He. rewrite E6 in He. destruct (si_none _ _ _ _ HS t He) as [H|[e H]]; destruct (E7 t) as [X|(X & Y & _)].
    + left. congruence.
    + rewrite H in X. discriminate.
    + right. exists e. congruence.
    + destruct (Y e H).
  - intros t. destruct (si_J _ _ _ _ HS t) as (H1 & H2 & H3). split; [auto|]. split; intros e' Ee'.
    + destruct (E7 t) as [X|(_ & _ & X)]; rewrite Ee' in X; [apply H2; auto|contradiction].
    + destruct (E7 t) as [X|(_ & _ & X)]; rewrite Ee' in X; [apply H3; auto|subst; lia].
  - apply HS.
  - intros x ops t k e H1 H2 H3 H4. rewrite E6 in H4. destruct (E7 t) as [X|(_ & _ & X)]; rewrite H3 in X; [|contradiction].
    eapply (si_new _ _ _ _ HS); eauto.
  - intros x ops t k a c' H1 H2 H3 H4 H5 H6 H7.
    destruct (E5 _ _ H5 H7) as [(c & Ec & -> & Eg & Ha)| ->].
    + eapply (si_de _ _ _ _ HS); eauto. congruence.
    + apply (proj1 (si_J _ _ _ _ HS t)). auto.
  - intros x ops t k H1 H2 H3 H4 H5. eapply (si_fr _ _ _ _ HS); eauto.
  - intros t i m j H1 H2 H3. apply Hcov; [|rewrite H1; lia]. destruct (E7 t) as [X|(_ & _ & X)]; rewrite H1 in X.
    + eapply (si_sum _ _ _ _ HS); eauto.
    + apply X; auto.
  - intros t m j H1 H2. apply Hcov; [|rewrite H1; exact I]. destruct (E7 t) as [X|(_ & _ & X)]; rewrite H1 in X.
    + eapply (si_free _ _ _ _ HS); eauto.
    + apply X; auto.
Qed.

Lemma cov_emin1 s L t m j l' : cov s L t m j -> cov s L t (emin m l') j.
Proof.
  intros [(x & e & -> & El & H)|H]; [|right; exact H]. left. destruct l' as [e'|]; simpl; rewrite El.
  - exists (Nat.min x e'), e. repeat split; auto. lia.
  - exists x, e. auto.
Qed.
Lemma cov_emin2 N s L J t m j : SI N s L J -> cov s L t (emin m (lae (slots s j))) j.
Proof.
  intros HS. destruct (lae (slots s j)) as [e|] eqn:El.
  - left. rewrite El. destruct m as [x|]; simpl.
    + exists (Nat.min x e), e. repeat split; auto. lia.
    + exists e, e. auto.
  - right. intros x ops a c X1 X2 X3 _ _ _. destruct (si_none _ _ _ _ HS j El) as [H|[e H]].
    + rewrite H in X3. discriminate.
    + pose proof (si_new _ _ _ _ HS _ _ _ _ _ X1 X2 H El). lia.
Qed.
(** What is below the bound of a collecting thread is used by nobody. *)
Lemma cov_unused N s L J F t m a c : LI F s L -> SI N s L J -> pcs s t = GCFree m -> In a (L t) -> nth_error (cells s) a = Some c -> alive c = true ->
  elt (de c) m = true -> still_used s (gnode c) = false.
Proof.
  intros HL HS Ep Hin Ec Ha Em. apply not_true_iff_false. intros X. apply still_used_spec in X as (ops & u & k & X1 & X2 & X3 & X4).
  pose proof (si_de _ _ _ _ HS _ _ _ _ _ _ X1 X2 X3 X4 Ec eq_refl Ha) as HJ.
  destruct (si_ops _ _ _ _ HS _ _ _ _ X1 X2) as [HuN _].
  destruct (si_free _ _ _ _ HS _ _ _ Ep HuN) as [(y & e & -> & He & Hye)|H].
  - destruct (si_lae _ _ _ _ HS u e He) as (_ & Hr & _). specialize (Hr X3). simpl in Em. apply Nat.ltb_lt in Em. lia.
  - subst k. eapply H; eauto.
Qed.

Lemma step_inv N th a s s' : Inv N s -> step N th a s = Some s' -> Inv N s'.
Proof.
  intros (L & J & HL & HS & HB) Hst. destruct a as [|t|t x|t|t|t]; simpl in Hst.
  - (* tick *)
    inversion Hst; subst; clear Hst. exists L, J. split; [|split; auto].
    + eapply LI_frame; eauto; simpl; auto.
    + constructor; simpl; try apply HS.
      * intros t e He. destruct (si_lae _ _ _ _ HS t e He) as (H2 & H3 & H5). split; auto.
      * intros t. destruct (si_J _ _ _ _ HS t) as (H1 & H2 & H3). split; [intros X; specialize (H1 X); lia|]. split; auto.
  - (* invoke *)
    destruct (Nat.ltb_spec t N) as [Ht|]; [|discriminate].
    destruct (pcs s t) eqn:Ep; try discriminate. inversion Hst; subst; clear Hst.
    exists L, (upd J t (ep s)). split; [|split; auto].
    + eapply LI_frame; eauto; simpl; auto.
      * intros u. updc; auto. rewrite Ep; auto.
      * intros u. updc; auto. rewrite Ep; auto.
    + assert (Hcov : forall u m j, cov s L u m j -> cov {| ep := ep s; slots := slots s; cells := cells s; pcs := upd (pcs s) t (JoinRead (ep s));
          opno := upd (opno s) t (S (opno s t)); unl := unl s; freed := freed s; bad := bad s |} L u m j).
      { intros u m j Hc. apply (cov_frame s) with (L := L); [exact Hc| |]; simpl; [intros e He; left; eauto|]. intros x ops a c X1 X2 X3 X4 X5 X6. split; auto. updc.
        - destruct (si_ops _ _ _ _ HS _ _ _ _ X1 X2). lia.
        - split; auto. split; auto. split; auto. eauto. }
      constructor; simpl; try (intros; apply Hcov).
      * intros u Hu. updc; [lia|apply HS; auto].
      * intros u e He. destruct (si_lae _ _ _ _ HS u e He) as (H2 & H3 & H5). split; auto. updc; auto. split; auto. discriminate.
      * intros u He. updc; [right; eauto|]. apply (si_none _ _ _ _ HS); auto.
      * intros u. destruct (si_J _ _ _ _ HS u) as (H1 & H2 & H3). updc; auto. split; auto. split; [congruence|discriminate].
      * intros x ops u k H1 H2. destruct (si_ops _ _ _ _ HS _ _ _ _ H1 H2). split; auto. updc; lia.
      * intros x ops u k e H1 H2 H3 H4. updc.
        -- destruct (si_ops _ _ _ _ HS _ _ _ _ H1 H2). lia.
        -- eapply (si_new _ _ _ _ HS); eauto.
      * intros x ops u k a c H1 H2 H3 H4 H5 H6 H7. updc.
        -- destruct (si_ops _ _ _ _ HS _ _ _ _ H1 H2). lia.
        -- eapply (si_de _ _ _ _ HS); eauto.
      * intros x ops u k H1 H2 H3 H4 H5. updc.
        -- destruct (si_ops _ _ _ _ HS _ _ _ _ H2 H3). lia.
        -- eapply (si_fr _ _ _ _ HS); eauto.
      * unfold upd in H. destruct (Nat.eqb_spec t0 t); [discriminate|]. eapply (si_sum _ _ _ _ HS); eauto.
      * unfold upd in H. destruct (Nat.eqb_spec t0 t); [discriminate|]. eapply (si_free _ _ _ _ HS); eauto.
  - (* unlink *)
    destruct (pcs s t) eqn:Ep; try discriminate.
    destruct (existsb _ (unl s)) eqn:Ex; [discriminate|]. inversion Hst; subst; clear Hst.
    assert (Hx : ~ In x (map fst (unl s))).
    { intros Hin. apply not_true_iff_false in Ex. apply Ex. apply existsb_exists.
      apply in_map_iff in Hin as ((y & o) & E & Hin). exists (y, o). split; auto.
      simpl in E; subst. apply Nat.eqb_refl. }
    assert (Hxc : ~ In x (map gnode (cells s))).
    { intros X. apply Hx. apply (li_unl2 _ _ _ HL); auto. }
    exists L, J. split; [|split; auto].
    + constructor; simpl; try apply HL.
      * intros u H1 H2. apply (li_last0 _ _ _ HL); auto. updc; auto. rewrite Ep; auto.
      * intros u y. updc.
        -- simpl. intros E; inversion E; subst. auto.
        -- intros E. destruct (li_pend _ _ _ HL _ _ E). auto.
      * intros u v y. updc; auto; simpl.
        -- intros E E2. inversion E; subst. destruct (li_pend _ _ _ HL _ _ E2). contradiction.
        -- intros E2 E. inversion E; subst. destruct (li_pend _ _ _ HL _ _ E2). contradiction.
        -- apply (li_pend1 _ _ _ HL).
      * intros y [<-|Hin].
        -- right. exists t. rewrite upd_same. auto.
        -- destruct (li_unl _ _ _ HL _ Hin) as [|[u Hu]]; auto. right. exists u.
           updc; auto. rewrite Ep in Hu; discriminate.
      * intros y Hy. right. apply (li_unl2 _ _ _ HL); auto.
    + assert (Hrun : forall u, running (upd (pcs s) t (Unlinking x) u) = running (pcs s u)).
      { intros u. updc; auto. rewrite Ep; auto. }
      assert (Hcov : forall u m j, cov s L u m j -> cov {| ep := ep s; slots := slots s; cells := cells s; pcs := upd (pcs s) t (Unlinking x);
          opno := opno s; unl := (x, running_ops N s) :: unl s; freed := freed s; bad := bad s |} L u m j).
      { intros u m j Hc. apply (cov_frame s) with (L := L); [exact Hc| |]; simpl; [intros e He; left; eauto|]. intros y ops a c [E|X1] X2 X3 X4 X5 X6.
        - inversion E; subst. exfalso. apply Hxc. apply in_map_iff. exists c. split; auto. eapply nth_error_In; eauto.
        - rewrite Hrun in X3. split; auto. split; auto. split; auto. split; auto. eauto. }
      constructor; simpl; try (intros; apply Hcov).
      * intros u Hu. updc; [|apply HS; auto]. rewrite (si_out _ _ _ _ HS) in Ep; [discriminate|auto].
      * intros u e He. destruct (si_lae _ _ _ _ HS u e He) as (H2 & H3 & H5).
        rewrite Hrun. split; auto. split; auto. updc; auto. intros; discriminate.
      * intros u He. destruct (si_none _ _ _ _ HS u He) as [H|[e H]]; updc; try congruence; eauto.
      * intros u. destruct (si_J _ _ _ _ HS u) as (H1 & H2 & H3). rewrite Hrun. split; auto. updc; auto. split; intros; discriminate.
      * intros y ops u k [E|H1] H2; [|eapply (si_ops _ _ _ _ HS); eauto].
        inversion E; subst. apply running_ops_In in H2 as (? & ? & ->). auto.
      * intros y ops u k e [E|H1] H2 H3 H4.
        -- inversion E; subst. apply running_ops_In in H2 as (_ & Hk & _). unfold known in Hk. rewrite H4 in Hk. updc; [discriminate|]. rewrite H3 in Hk. discriminate.
        -- unfold upd in H3. destruct (Nat.eqb_spec u t); [discriminate|]. eapply (si_new _ _ _ _ HS); eauto.
      * intros y ops u k a c [E|H1] H2 H3 H4 H5 H6 H7.
        -- inversion E; subst. exfalso. apply Hxc. apply in_map_iff. exists c.
           split; auto. eapply nth_error_In; eauto.
        -- rewrite Hrun in H3. eapply (si_de _ _ _ _ HS); eauto.
      * intros y ops u k H1 [E|H2] H3 H4 H5.
        -- inversion E; subst. apply Hxc. apply (li_freed _ _ _ HL) in H1 as (a & c & Ea & _ & Eg).
           apply in_map_iff. exists c. split; auto. eapply nth_error_In; eauto.
        -- rewrite Hrun in H4. eapply (si_fr _ _ _ _ HS); eauto.
      * unfold upd in H. destruct (Nat.eqb_spec t0 t); [discriminate|]. eapply (si_sum _ _ _ _ HS); eauto.
      * unfold upd in H. destruct (Nat.eqb_spec t0 t); [discriminate|]. eapply (si_free _ _ _ _ HS); eauto.
  - (* leave *)
    destruct (pcs s t) eqn:Ep; try discriminate. inversion Hst; subst; clear Hst.
    exists L, J. split; [|split; auto].
    + eapply LI_frame; eauto; simpl; auto; intros u; updc; auto; rewrite Ep; auto.
    + eapply SI_frame; eauto; simpl.
      * intros a c E Ha. left. eauto.
      * intros u. updc; auto. right. rewrite Ep. split; auto. split; auto. discriminate.
  - (* unregister *)
    destruct (Nat.ltb_spec t N) as [Ht|]; [|discriminate].
    destruct (pcs s t) eqn:Ep; try discriminate. inversion Hst; subst; clear Hst.
    exists L, J. split; [|split; auto].
    + eapply LI_frame; eauto; simpl; auto. intros u; updc; simpl; auto.
    + assert (Hcov : forall u m j, cov s L u m j -> cov (unregister s t) L u m j).
      { intros u m j Hc. apply (cov_frame s) with (L := L); [exact Hc| |]; simpl.
        - intros e He. updc; [right; rewrite Ep; auto|left; eauto].
        - intros x ops a c X1 X2 X3 X4 X5 X6. split; auto. split; auto. split; auto. split; auto. eauto. }
      constructor; simpl; try apply HS.
      * intros u e He. unfold upd in He. destruct (Nat.eqb_spec u t); [discriminate|]. apply (si_lae _ _ _ _ HS); auto.
      * intros u He. unfold upd in He. destruct (Nat.eqb_spec u t); [subst; auto|]. apply (si_none _ _ _ _ HS); auto.
      * intros x ops u k e H1 H2 H3 H4. unfold upd in H4. destruct (Nat.eqb_spec u t); [congruence|]. eapply (si_new _ _ _ _ HS); eauto.
      * intros u i m j H1 H2 H3. apply Hcov. eapply (si_sum _ _ _ _ HS); eauto.
      * intros u m j H1 H2. apply Hcov. eapply (si_free _ _ _ _ HS); eauto.
  - (* internal steps *)
    assert (HtN : pcs s t <> Idle -> t < N).
    { intros H. destruct (Nat.lt_ge_cases t N); auto. exfalso. apply H. apply HS; auto. }
    destruct (pcs s t) as [|e| |x|i m|m|e] eqn:Ep; try discriminate.
    + (* join *)
      inversion Hst; subst; clear Hst. exists L, J.
      destruct (si_J _ _ _ _ HS t) as (H1 & H2 & _). rewrite Ep in H1. specialize (H1 eq_refl). specialize (H2 _ Ep). subst e.
      assert (Hrun : forall u, running (upd (pcs s) t Running u) = running (pcs s u)) by (intros u; updc; auto; rewrite Ep; auto).
      match goal with |- LI _ ?z _ /\ _ => set (s' := z) end.
      assert (Hcov : forall u m j, cov s L u m j -> cov s' L u m j).
      { intros u m j Hc. apply (cov_frame s) with (L := L); [exact Hc| |]; unfold s'; simpl.
        - intros e He. left. updc; eauto. simpl. exists (J t). split; auto. apply (proj1 (proj2 (si_lae _ _ _ _ HS t e He))). rewrite Ep. auto.
        - intros x ops a c X1 X2 X3 X4 X5 X6. rewrite Hrun in X3. split; auto. split; auto. split; auto. split; auto. eauto. }
      split; [|split; auto].
      * eapply LI_frame; eauto; simpl; auto; intros u; updc; simpl; auto; rewrite Ep; auto.
      * constructor; simpl; try apply HS.
        -- intros u Hu. updc; [|apply HS; auto]. pose proof (HtN ltac:(discriminate)). lia.
        -- intros u e. destruct (Nat.eq_dec u t) as [->|Hn].
           ++ rewrite !upd_same. simpl. intros E. inversion E; subst. repeat split; auto. discriminate.
           ++ rewrite !upd_other by auto. apply HS.
        -- intros u. destruct (Nat.eq_dec u t) as [->|Hn].
           ++ rewrite !upd_same. discriminate.
           ++ rewrite !upd_other by auto. apply HS.
        -- intros u. destruct (Nat.eq_dec u t) as [->|Hn].
           ++ rewrite !upd_same. simpl. repeat split; auto; discriminate.
           ++ rewrite !upd_other by auto. apply HS.
        -- intros y ops u k e X1 X2 X3 X4. unfold upd in X3, X4. destruct (Nat.eqb_spec u t); [discriminate|]. eapply (si_new _ _ _ _ HS); eauto.
        -- intros y ops u k a c X1 X2 X3 X4 X5 X6. rewrite Hrun in X3. eapply (si_de _ _ _ _ HS); eauto.
        -- intros y ops u k X1 X2 X3 X4 X5. rewrite Hrun in X4. eapply (si_fr _ _ _ _ HS); eauto.
        -- intros u i m j X1 X2 X3. apply Hcov.
           unfold upd in X1. destruct (Nat.eqb_spec u t); [discriminate|]. eapply (si_sum _ _ _ _ HS); eauto.
        -- intros u m j X1 X2. apply Hcov.
           unfold upd in X1. destruct (Nat.eqb_spec u t); [discriminate|]. eapply (si_free _ _ _ _ HS); eauto.
    + (* add garbage *)
      inversion Hst; subst; clear Hst.
      assert (Hf : isfree (pcs s t) = false) by (rewrite Ep; auto).
      destruct (LI_add _ th s L t x HL Ep Hf) as (H1 & H2 & (cn & H3 & H3' & _) & H4 & H5).
      assert (Hpc : pcs (add_garbage th s t x) =
        upd (pcs s) t (if Nat.ltb th (S (cnt (slots s t))) then GCSum 0 None else Running)).
      { unfold add_garbage. destruct (last (slots s t)); [destruct (nth_error (cells s) n); [destruct (alive c)|]|]; auto. }
      exists (upd L t (L t ++ [length (cells s)])), J. split; [|split; [|congruence]].
      * eapply LI_setF; eauto. intros u _. cbv beta. rewrite Hpc. updc; auto.
      * eapply SI_frame; eauto.
        -- unfold add_garbage. destruct (last (slots s t)); [destruct (nth_error (cells s) n); [destruct (alive c)|]|]; auto.
        -- unfold add_garbage. destruct (last (slots s t)); [destruct (nth_error (cells s) n); [destruct (alive c)|]|]; auto.
        -- unfold add_garbage. destruct (last (slots s t)); [destruct (nth_error (cells s) n); [destruct (alive c)|]|]; auto.
        -- unfold add_garbage. destruct (last (slots s t)); [destruct (nth_error (cells s) n); [destruct (alive c)|]|]; auto.
        -- intros a c' E Ha. destruct (Nat.eq_dec a (length (cells s))) as [->|Hn].
           ++ right. congruence.
           ++ left. assert (a < length (cells s)) by (apply nth_error_lt in E; lia).
              destruct (H4 _ _ H E) as (c & Ec & Q1 & Q2 & Q3). exists c. repeat split; auto. congruence.
        -- intros u. unfold add_garbage. destruct (last (slots s t)); [destruct (nth_error (cells s) n); [destruct (alive c)|]|];
             simpl; updc; auto.
        -- intros u. rewrite Hpc. updc; auto. right. rewrite Ep. split; auto. split; [discriminate|].
           destruct (Nat.ltb th (S (cnt (slots s t)))); auto. intros; lia.
        -- intros u a c' Ha E. rewrite Hpc. destruct (Nat.eq_dec u t) as [->|Hn].
           ++ right. rewrite upd_same. destruct (Nat.ltb th (S (cnt (slots s t)))); auto.
           ++ left. rewrite upd_other in Ha by auto. split; auto.
              destruct (linked_in _ _ _ _ (li_link _ _ _ HL u) Ha) as (c & Ec & _).
              destruct (H4 a c') as (c0 & Ec0 & _ & Q2 & _); auto; [eapply nth_error_lt; eauto|]. exists c0. auto.
    + (* summarize *)
      destruct (Nat.ltb_spec i N) as [Hi|Hi]; inversion Hst; subst; clear Hst; exists L, J;
        (split; [|split; auto]).
      * eapply LI_frame; eauto; simpl; auto; intros u; updc; auto; rewrite Ep; auto.
      * eapply SI_frame; eauto; simpl.
        -- intros a c E Ha. left; eauto.
        -- intros u. updc; auto. right. rewrite Ep. split; auto. split; [discriminate|]. intros j Hj HjN.
           destruct (Nat.eq_dec j i) as [->|Hn].
           ++ eapply cov_emin2; eauto.
           ++ apply cov_emin1. eapply (si_sum _ _ _ _ HS); eauto. lia.
      * eapply LI_frame; eauto; simpl; auto; intros u; updc; auto; rewrite Ep; auto.
      * eapply SI_frame; eauto; simpl.
        -- intros a c E Ha. left; eauto.
        -- intros u. updc; auto. right. rewrite Ep. split; auto. split; [discriminate|]. intros j Hj.
           eapply (si_sum _ _ _ _ HS); eauto. lia.
    + (* free *)
      assert (HF : isfree (pcs s t) = true) by (rewrite Ep; auto).
      destruct (LI_gc _ s L t m HL HF) as [H (F1 & F2 & F3 & F4 & F5)].
      destruct (gc_iter s t m) as [s1 more] eqn:Eg. simpl in *.
      assert (HSd : forall s2, ep s2 = ep s -> opno s2 = opno s -> unl s2 = unl s ->
                (forall u, lae (slots s2 u) = lae (slots s u)) -> cells s2 = cells s ->
                freed s2 = freed s -> pcs s2 = upd (pcs s) t Running -> SI N s2 L J).
      { intros s2 Q1 Q2 Q3 Q4 Q5 Q6 Q7. eapply SI_frame; eauto.
        - intros a c E Ha. left. rewrite Q5 in E. eauto.
        - intros u. rewrite Q7. updc; auto. right. rewrite Ep. split; auto. split; auto. discriminate.
        - intros u a c Ha E. left. rewrite Q5 in E. eauto. }
      destruct (L t) as [|a r] eqn:EL.
      * destruct H as (-> & Hb & HL1 & Hc & Hfr). inversion Hst; subst; clear Hst.
        exists L, J. split; [|split].
        -- eapply LI_frame; [exact HL1|..]; simpl; auto; intros u; rewrite F2; updc; auto.
           rewrite Ep; auto.
        -- apply HSd; simpl; auto. congruence.
        -- simpl. congruence.
      * destruct H as (c & Ec & Ha & H). destruct (elt (de c) m) eqn:Em.
        -- destruct H as (-> & Hb & HL1 & Hfr & Hcs). inversion Hst; subst; clear Hst.
           assert (Hsu : still_used s (gnode c) = false) by (eapply (cov_unused N s L J); eauto; rewrite EL; left; auto).
           assert (Hcov : forall u m0 j, cov s L u m0 j -> cov s' (upd L t r) u m0 j).
           { intros u m0 j Hc. apply (cov_frame s) with (L := L); [exact Hc| |]; rewrite ?F1, ?F2, ?F3, ?F4.
             - intros e He. left. rewrite F5. eauto.
             - intros y ops b cb X1 X2 X3 X4 X5 X6. split; auto. split; auto. split; auto. split.
               + unfold upd in X4. destruct (Nat.eqb_spec u t); [subst u; rewrite EL; right; auto|auto].
               + rewrite Hcs in X5. destruct (Nat.eq_dec b a) as [->|Hn].
                 * rewrite nth_set_same in X5 by (eapply nth_error_lt; eauto). inversion X5; subst cb. eauto.
                 * rewrite nth_set_other in X5 by auto. eauto. }
           exists (upd L t r), J. split; [|split].
           ++ eapply LI_setF; eauto. intros u _. rewrite F2. auto.
           ++ constructor; rewrite ?F1, ?F2, ?F3, ?F4; try apply HS.
              ** intros u e. rewrite F5. apply HS.
              ** intros u. rewrite F5. apply HS.
              ** intros y ops u k e X1 X2 X3 X4. rewrite F5 in X4. eapply (si_new _ _ _ _ HS); eauto.
              ** intros y ops u k b cb X1 X2 X3 X4 X5 X6 X7. rewrite Hcs in X5.
                 destruct (Nat.eq_dec b a) as [->|Hn].
                 --- rewrite nth_set_same in X5 by (eapply nth_error_lt; eauto).
                     inversion X5; subst; discriminate.
                 --- rewrite nth_set_other in X5 by auto. eapply (si_de _ _ _ _ HS); eauto.
              ** intros y ops u k X1 X2 X3 X4 X5. rewrite Hfr in X1. destruct X1 as [<-|X1].
                 --- apply not_true_iff_false in Hsu. apply Hsu. apply still_used_spec. eauto 10.
                 --- eapply (si_fr _ _ _ _ HS); eauto.
              ** intros u i m0 j X1 X2 X3. apply Hcov. eapply (si_sum _ _ _ _ HS); eauto.
              ** intros u m0 j X1 X2. apply Hcov. eapply (si_free _ _ _ _ HS); eauto.
           ++ rewrite Hb, HB, Hsu. auto.
        -- destruct H as (E & HL1). inversion E; subst. inversion Hst; subst; clear Hst.
           exists L, J. split; [|split].
           ++ eapply LI_frame; [exact HL1|..]; simpl; auto; intros u; updc; auto.
              rewrite Ep; auto.
           ++ apply HSd; simpl; auto.
           ++ auto.
    + (* leave write *)
      inversion Hst; subst; clear Hst. exists L, J.
      destruct (si_J _ _ _ _ HS t) as (_ & _ & H3). specialize (H3 _ Ep).
      match goal with |- LI _ ?z _ /\ _ => set (s' := z) end.
      assert (Hcov : forall u m j, cov s L u m j -> cov s' L u m j).
      { intros u m j Hc. apply (cov_frame s) with (L := L); [exact Hc| |]; unfold s'; simpl.
        - intros e0 He. updc; [right; auto|left; eauto].
        - intros x ops a c X1 X2 X3 X4 X5 X6. unfold upd in X3. destruct (Nat.eqb_spec j t); [discriminate|]. split; auto. split; auto. split; auto. split; auto. eauto. }
      split; [|split; auto].
      * eapply LI_frame; eauto; simpl; auto; intros u; updc; simpl; auto; rewrite Ep; auto.
      * constructor; simpl; try apply HS.
        -- intros u Hu. updc; [auto|apply HS; auto].
        -- intros u e0. destruct (Nat.eq_dec u t) as [->|Hn].
           ++ rewrite !upd_same. simpl. intros E. inversion E; subst. repeat split; auto; discriminate.
           ++ rewrite !upd_other by auto. apply HS.
        -- intros u. destruct (Nat.eq_dec u t) as [->|Hn].
           ++ rewrite !upd_same. discriminate.
           ++ rewrite !upd_other by auto. apply HS.
        -- intros u. destruct (Nat.eq_dec u t) as [->|Hn].
           ++ rewrite !upd_same. simpl. repeat split; discriminate.
           ++ rewrite !upd_other by auto. apply HS.
        -- intros y ops u k e0 X1 X2 X3 X4. unfold upd in X3, X4. destruct (Nat.eqb_spec u t); [discriminate|]. eapply (si_new _ _ _ _ HS); eauto.
        -- intros y ops u k a c X1 X2 X3 X4 X5 X6. eapply (si_de _ _ _ _ HS); eauto.
           unfold upd in X3. destruct (Nat.eqb_spec u t); [discriminate|auto].
        -- intros y ops u k X1 X2 X3 X4 X5. eapply (si_fr _ _ _ _ HS); eauto.
           unfold upd in X4. destruct (Nat.eqb_spec u t); [discriminate|auto].
        -- intros u i m j X1 X2 X3. apply Hcov.
           unfold upd in X1. destruct (Nat.eqb_spec u t); [discriminate|]. eapply (si_sum _ _ _ _ HS); eauto.
        -- intros u m j X1 X2. apply Hcov.
           unfold upd in X1. destruct (Nat.eqb_spec u t); [discriminate|]. eapply (si_free _ _ _ _ HS); eauto.
Qed.

Lemma run_inv N th acts s : Inv N s -> Inv N (run N th s acts).
Proof.
  revert s; induction acts as [|a r IH]; simpl; intros s H; auto.
  destruct (step N th a s) eqn:E; apply IH; auto. eapply step_inv; eauto.
Qed.

Lemma unl_mono N th acts s e : In e (unl s) -> In e (unl (run N th s acts)).
Proof.
  revert s; induction acts as [|a r IH]; simpl; intros s H; auto.
  destruct (step N th a s) as [s'|] eqn:E; [|auto]. apply IH.
  assert (unl s' = unl s \/ exists y, unl s' = y :: unl s) as [->|[y ->]]; simpl; auto.
  destruct a as [|t|t x|t|t|t]; simpl in E.
  - inversion E; auto.
  - destruct (Nat.ltb t N); [|discriminate]. destruct (pcs s t); inversion E; auto.
  - destruct (pcs s t); try discriminate. destruct (existsb _ _); inversion E; subst; simpl. eauto.
  - destruct (pcs s t); inversion E; auto.
  - destruct (Nat.ltb t N); [|discriminate]. destruct (pcs s t); inversion E; auto.
  - destruct (pcs s t); try discriminate; try (inversion E; auto; fail).
    + inversion E; subst. unfold add_garbage.
      destruct (last (slots s t)); [destruct (nth_error (cells s) n); [destruct (alive c)|]|]; auto.
    + destruct (Nat.ltb i N); inversion E; auto.
    + unfold gc_iter in E.
      destruct (hdr (slots s t)); [destruct (nth_error (cells s) n); [destruct (alive c); simpl in E;
        [destruct (elt (de c) m); [destruct (Nat.eqb (cnt (slots s t)) 0)|]|]|]|]; inversion E; auto.
Qed.

(** Main safety lemma (C20). *)
Lemma epoch_safe N th acts1 acts2 t x u s1 s1' s2 :
  s1 = run N th init acts1 -> step N th (AUnlink t x) s1 = Some s1' ->
  s2 = run N th s1' acts2 ->
  known s1 u = true -> running (pcs s2 u) = true -> opno s2 u = opno s1 u ->
  ~ In x (freed s2).
Proof.
  intros -> Hst E2 Hr1 Hr2 Ho Hin.
  pose proof (run_inv N th acts1 _ (init_inv N)) as HI1.
  pose proof (step_inv _ _ _ _ _ HI1 Hst) as HI1'.
  pose proof (run_inv N th acts2 _ HI1') as HI2. rewrite <- E2 in HI2.
  destruct HI1 as (L1 & J1 & _ & HS1 & _). destruct HI2 as (L2 & J2 & _ & HS2 & _).
  set (s1 := run N th init acts1) in *.
  assert (HuN : u < N).
  { destruct (Nat.lt_ge_cases u N); auto. apply known_running in Hr1. rewrite (si_out _ _ _ _ HS1) in Hr1 by auto. discriminate. }
  assert (Hu : In (x, running_ops N s1) (unl s1')).
  { simpl in Hst. destruct (pcs s1 t); try discriminate.
    destruct (existsb _ _); inversion Hst; subst; simpl; auto. }
  apply (unl_mono N th acts2) in Hu. rewrite <- E2 in Hu.
  eapply (si_fr _ _ _ _ HS2 x _ u (opno s1 u)); eauto.
  unfold running_ops. apply in_map_iff. exists u. split; auto. apply filter_In. split; auto.
  apply in_seq. lia.
Qed.

Lemma epoch_no_bad N th acts : bad (run N th init acts) = false.
Proof. destruct (run_inv N th acts _ (init_inv N)) as (L & J & _ & _ & H). auto. Qed.

(** The garbage list of slot [o], walked from its head: (page, deletion epoch). *)
Fixpoint walk (cs : list cell) (h : option nat) (n : nat) : list (nat * nat) :=
  match h, n with
  | Some a, S n' => match nth_error cs a with
                    | Some c => (gnode c, de c) :: walk cs (nx c) n'
                    | None => []
                    end
  | _, _ => []
  end.
Definition garbage (s : st) (o : nat) : list (nat * nat) :=
  walk (cells s) (hdr (slots s o)) (cnt (slots s o)).

Definition gof (cs : list cell) (a : nat) : nat * nat :=
  match nth_error cs a with Some c => (gnode c, de c) | None => (0, 0) end.

Lemma walk_linked cs h l : linked cs h l -> walk cs h (length l) = map (gof cs) l.
Proof.
  revert h; induction l as [|a l IH]; intros h H.
  - simpl in *. subst; auto.
  - destruct H as (-> & c & E & _ & H). simpl. unfold gof at 1. rewrite E.
    f_equal. auto.
Qed.

Lemma garbage_LI F s L o : LI F s L -> garbage s o = map (gof (cells s)) (L o).
Proof.
  intros HL. unfold garbage. rewrite (li_cnt _ _ _ HL). apply walk_linked. apply HL.
Qed.

Lemma map_gof_set cs a c' l : ~ In a l ->
  map (gof (set_nth cs a c')) l = map (gof cs) l.
Proof.
  intros H. apply map_ext_in. intros b Hb. unfold gof. rewrite nth_set_other; auto. congruence.
Qed.

(** A collection run to its end, when no operation pins any page of the list. *)
Lemma gc_loop_spec F m o n : forall s L, LI F s L -> F o = true -> length (L o) <= n ->
  (forall g, In g (garbage s o) -> elt (snd g) m = true -> still_used s (fst g) = false) ->
  let s' := gc_loop (S n) s o m in
  freed s' = rev (map fst (filter (fun g => elt (snd g) m) (garbage s o))) ++ freed s /\
  garbage s' o = filter (fun g => negb (elt (snd g) m)) (garbage s o) /\
  bad s' = bad s /\
  (exists L', LI (upd F o false) s' L' /\ (forall u, u <> o -> L' u = L u)) /\
  ep s' = ep s /\ pcs s' = pcs s /\ opno s' = opno s /\ unl s' = unl s /\
  (forall u, lae (slots s' u) = lae (slots s u)).
Proof.
  induction n as [|n IH]; intros s L HL HF Hn Hu.
  - assert (EL : L o = []) by (destruct (L o); auto; simpl in Hn; lia).
    destruct (LI_gc _ s L o m HL HF) as [H (F1 & F2 & F3 & F4 & F5)]. rewrite EL in H.
    simpl. destruct (gc_iter s o m) as [s1 more]. simpl in *. destruct H as (-> & Hb & HL1 & Hc & Hf).
    rewrite (garbage_LI _ _ _ o HL), (garbage_LI _ _ _ o HL1), EL. simpl.
    repeat split; auto. exists L. split; auto.
  - destruct (LI_gc _ s L o m HL HF) as [H (F1 & F2 & F3 & F4 & F5)].
    change (gc_loop (S (S n)) s o m) with
      (let '(s', more) := gc_iter s o m in if more then gc_loop (S n) s' o m else s').
    destruct (gc_iter s o m) as [s1 more] eqn:Eg. cbn [fst snd] in *.
    destruct (L o) as [|a r] eqn:EL.
    + destruct H as (-> & Hb & HL1 & Hc & Hf).
      rewrite (garbage_LI _ _ _ o HL), (garbage_LI _ _ _ o HL1), EL. simpl.
      repeat split; auto. exists L. split; auto.
    + destruct H as (c & Ec & Ha & H). destruct (elt (de c) m) eqn:Em.
      * destruct H as (-> & Hb & HL1 & Hfr & Hcs).
        pose proof (li_nd _ _ _ HL o) as Hnd. rewrite EL in Hnd. apply NoDup_cons_iff in Hnd as [Hna _].
        assert (Hg1 : garbage s1 o = map (gof (cells s)) r).
        { rewrite (garbage_LI _ _ _ o HL1), upd_same, Hcs. apply map_gof_set; auto. }
        assert (Hg : garbage s o = (gnode c, de c) :: garbage s1 o).
        { rewrite (garbage_LI _ _ _ o HL), EL. simpl. rewrite Hg1. unfold gof at 1. rewrite Ec. auto. }
        assert (Hsu : still_used s (gnode c) = false).
        { apply (Hu (gnode c, de c)); auto. rewrite Hg; simpl; auto. }
        destruct (IH s1 (upd L o r) HL1 HF) as (I1 & I2 & I3 & (L' & I4 & I5) & I6 & I7 & I8 & I9 & I10).
        { rewrite upd_same. simpl in Hn. lia. }
        { intros g Hg' Hm. unfold still_used. rewrite F2, F3, F4. apply Hu; auto. rewrite Hg; simpl; auto. }
        rewrite Hg. cbn [filter snd fst]. rewrite Em. cbn [filter map rev fst negb].
        rewrite I1, I2, Hfr, <- app_assoc. cbn [app].
        split; auto. split; auto. split; [rewrite I3, Hb, Hsu, orb_false_r; auto|].
        split; [exists L'; split; auto; intros u Hu'; rewrite I5 by auto; apply upd_other; auto|].
        repeat split; try congruence.
      * destruct H as (E & HL1). inversion E; subst s1 more.
        assert (Hall : forall g, In g (garbage s o) -> elt (snd g) m = false).
        { intros g Hg. rewrite (garbage_LI _ _ _ o HL) in Hg. apply in_map_iff in Hg as (b & <- & Hb).
          assert (Hle : de c <= de_of (cells s) b).
          { pose proof (li_sorted _ _ _ HL o) as Hs. rewrite EL in Hs, Hb.
            assert (Hc : de_of (cells s) a = de c) by (unfold de_of; rewrite Ec; auto).
            destruct Hb as [<-|Hb]; [lia|]. inversion Hs as [|? ? _ HFo]; subst.
            rewrite Forall_forall in HFo. specialize (HFo _ Hb). simpl in HFo. lia. }
          destruct (linked_in _ _ _ _ (li_link _ _ _ HL o) Hb) as (cb & Eb & _).
          unfold gof, de_of in *. rewrite Eb in *. simpl in *.
          destruct m as [m|]; simpl in *; [|discriminate]. apply Nat.ltb_ge in Em. apply Nat.ltb_ge. lia. }
        assert (Hf1 : filter (fun g => elt (snd g) m) (garbage s o) = []).
        { destruct (filter _ (garbage s o)) as [|g l] eqn:E1; auto. exfalso.
          assert (Hin : In g (filter (fun g => elt (snd g) m) (garbage s o))) by (rewrite E1; simpl; auto).
          apply filter_In in Hin as [Hin X]. rewrite Hall in X by auto. discriminate. }
        assert (Hf2 : filter (fun g => negb (elt (snd g) m)) (garbage s o) = garbage s o).
        { clear - Hall. induction (garbage s o) as [|g l IH]; simpl; auto.
          rewrite (Hall g) by (simpl; auto). simpl. f_equal. apply IH. intros; apply Hall; simpl; auto. }
        rewrite Hf1, Hf2. simpl. repeat split; auto. exists L. split; auto.
Qed.

(** Collection of a reachable state in which thread [o] is about to collect (C21). *)
Lemma collect_exact N th acts o m :
  let s := run N th init acts in
  pcs s o = GCFree m ->
  let s' := gc_loop (S (cnt (slots s o))) s o m in
  freed s' = rev (map fst (filter (fun g => elt (snd g) m) (garbage s o))) ++ freed s /\
  garbage s' o = filter (fun g => negb (elt (snd g) m)) (garbage s o) /\ bad s' = false.
Proof.
  intros s Hp s'. destruct (run_inv N th acts _ (init_inv N)) as (L & J & HL & HS & HB).
  fold s in HL, HS, HB.
  destruct (gc_loop_spec (fun t => isfree (pcs s t)) m o (cnt (slots s o)) s L HL) as (H1 & H2 & H3 & _).
  - cbv beta. rewrite Hp; auto.
  - rewrite (li_cnt _ _ _ HL). auto.
  - intros g Hg Hm. rewrite (garbage_LI _ _ _ o HL) in Hg. apply in_map_iff in Hg as (b & <- & Hb).
    destruct (linked_in _ _ _ _ (li_link _ _ _ HL o) Hb) as (cb & Eb & Hab).
    unfold gof in *. rewrite Eb in *. simpl in *. eapply (cov_unused N s L J); eauto.
  - unfold s'. split; auto. split; auto. congruence.
Qed.

(** Every unlinked page is pending in a thread, in some garbage list, or freed. *)
Lemma accounting N th acts :
  let s := run N th init acts in
  NoDup (freed s) /\
  (forall x, In x (freed s) -> In x (map fst (unl s))) /\
  (forall x, In x (map fst (unl s)) ->
     In x (freed s) \/ (exists t, pcs s t = Unlinking x) \/ (exists o, In x (map fst (garbage s o)))) /\
  (forall x o, In x (map fst (garbage s o)) -> ~ In x (freed s)).
Proof.
  intros s. destruct (run_inv N th acts _ (init_inv N)) as (L & J & HL & HS & HB). fold s in HL.
  assert (Hgar : forall x o, In x (map fst (garbage s o)) <-> exists a c, In a (L o) /\
     nth_error (cells s) a = Some c /\ gnode c = x).
  { intros x o. rewrite (garbage_LI _ _ _ o HL), map_map, in_map_iff. split.
    - intros (a & E & Ha). destruct (linked_in _ _ _ _ (li_link _ _ _ HL o) Ha) as (c & Ec & _).
      exists a, c. unfold gof in E. rewrite Ec in E. auto.
    - intros (a & c & Ha & Ec & E). exists a. unfold gof. rewrite Ec. auto. }
  split; [apply HL|]. split; [|split].
  - intros x Hx. apply (li_freed _ _ _ HL) in Hx as (a & c & E & _ & Eg). apply (li_unl2 _ _ _ HL).
    apply in_map_iff. exists c. split; auto. eapply nth_error_In; eauto.
  - intros x Hx. destruct (li_unl _ _ _ HL x Hx) as [H|[t Ht]].
    + apply in_map_iff in H as (c & Eg & Hc). apply In_nth_error in Hc as (a & Ea).
      destruct (alive c) eqn:Eal.
      * right. right. destruct (li_alive _ _ _ HL _ _ Ea Eal) as (o & Ho). exists o.
        apply Hgar. eauto.
      * left. apply (li_freed _ _ _ HL). eauto.
    + right. left. exists t. destruct (pcs s t); simpl in Ht; inversion Ht; auto.
  - intros x o Hx Hf. apply Hgar in Hx as (a & c & Ha & Ec & Eg).
    destruct (linked_in _ _ _ _ (li_link _ _ _ HL o) Ha) as (c' & Ec' & Hal).
    apply (li_freed _ _ _ HL) in Hf as (b & cb & Eb & Hd & Hg).
    assert (a = b) by (eapply nodes_inj; eauto using li_nodes; congruence). subst b. congruence.
Qed.

(** C22: a registered thread that never acts blocks all reclamation. *)
Definition acts_by (a : act) : option nat :=
  match a with ATick => None | AInvoke t | AUnlink t _ | ALeave t | AUnregister t | AStep t => Some t end.

Record PI (u : nat) (s : st) : Prop := {
  pi_u : pcs s u = Idle;
  pi_lae : lae (slots s u) = Some 0;
  pi_fr : freed s = [];
  pi_sum : forall t i m, pcs s t = GCSum i m -> u < i -> m = Some 0;
  pi_free : forall t m, pcs s t = GCFree m -> m = Some 0
}.

Lemma idle_blocks N th u acts : u < N ->
  (forall a, In a acts -> acts_by a <> Some u) ->
  freed (run N th init acts) = [].
Proof.
  intros HuN Hno.
  assert (G : forall acts s, Inv N s -> PI u s -> (forall a, In a acts -> acts_by a <> Some u) ->
     PI u (run N th s acts)).
  2:{ apply (G acts init); auto using init_inv. constructor; auto; simpl; discriminate. }
  clear acts Hno. induction acts as [|a r IH]; intros s HI HP Hno; [exact HP|].
  cbn [run]. destruct (step N th a s) as [s'|] eqn:E; [|apply IH; auto; intros; apply Hno; simpl; auto].
  apply IH; [eapply step_inv; eauto| |intros; apply Hno; simpl; auto].
  destruct HI as (L & J & HL & HS & HB). destruct HP as [P1 P2 P3 P4 P5].
  assert (Ha : acts_by a <> Some u) by (apply Hno; simpl; auto). clear Hno IH.
  assert (Mk : forall t p s1, u <> t -> pcs s1 = upd (pcs s) t p -> lae (slots s1 u) = Some 0 -> freed s1 = [] ->
    match p with GCSum i m => u < i -> m = Some 0 | GCFree m => m = Some 0 | _ => True end -> PI u s1).
  { intros t p s1 Hn Hp Hl Hf Hm. constructor; auto; rewrite Hp.
    - rewrite upd_other; auto.
    - intros v i m. unfold upd. destruct (Nat.eqb_spec v t); [intros ->; auto|apply P4].
    - intros v m. unfold upd. destruct (Nat.eqb_spec v t); [intros ->; auto|apply P5]. }
  destruct a as [|t|t x|t|t|t]; simpl in E, Ha.
  - inversion E; subst; constructor; auto.
  - destruct (Nat.ltb t N); [|discriminate]. destruct (pcs s t); inversion E; subst. eapply (Mk t); [congruence|simpl; reflexivity|simpl; auto|simpl; auto|exact I].
  - destruct (pcs s t); try discriminate. destruct (existsb _ _); inversion E; subst. eapply (Mk t); [congruence|simpl; reflexivity|simpl; auto|simpl; auto|exact I].
  - destruct (pcs s t); inversion E; subst. eapply (Mk t); [congruence|simpl; reflexivity|simpl; auto|simpl; auto|exact I].
  - destruct (Nat.ltb t N); [|discriminate]. destruct (pcs s t); inversion E; subst. constructor; simpl; auto. rewrite upd_other; auto; congruence.
  - assert (Hut : u <> t) by congruence.
    destruct (pcs s t) as [|e| |x|i m|m|e] eqn:Ep; try discriminate.
    + inversion E; subst. eapply (Mk t); [auto|simpl; reflexivity|simpl; rewrite upd_other; auto|simpl; auto|exact I].
    + inversion E; subst. eapply (Mk t (if Nat.ltb th (S (cnt (slots s t))) then GCSum 0 None else Running)); auto.
      * unfold add_garbage. destruct (last (slots s t)); [destruct (nth_error (cells s) n); [destruct (alive c)|]|]; auto.
      * unfold add_garbage. destruct (last (slots s t)); [destruct (nth_error (cells s) n); [destruct (alive c)|]|]; simpl; rewrite upd_other; auto.
      * unfold add_garbage. destruct (last (slots s t)); [destruct (nth_error (cells s) n); [destruct (alive c)|]|]; auto.
      * destruct (Nat.ltb th (S (cnt (slots s t)))); [lia|exact I].
    + destruct (Nat.ltb_spec i N); inversion E; subst; (eapply (Mk t); [auto|simpl; reflexivity|simpl; auto|simpl; auto|cbv beta iota]).
      * intros Hu. destruct (Nat.eq_dec u i) as [<-|Hn].
        -- rewrite P2. destruct m; simpl; auto. f_equal. lia.
        -- rewrite (P4 _ _ _ Ep) by lia. destruct (lae (slots s i)); auto.
      * apply (P4 _ _ _ Ep). lia.
    + assert (HF : isfree (pcs s t) = true) by (rewrite Ep; auto).
      destruct (LI_gc _ s L t m HL HF) as [H (F1 & F2 & F3 & F4 & F5)].
      assert (m = Some 0) by (eapply P5; eauto). subst m.
      destruct (gc_iter s t (Some 0)) as [s1 more]. simpl in *.
      assert (freed s1 = [] /\ more = false) as [H1 ->].
      { destruct (L t); [destruct H as (H & _ & _ & _ & H'); split; congruence|].
        destruct H as (c & _ & _ & H). simpl in H. destruct H as (H & _); inversion H; subst; auto. }
      inversion E; subst. apply (Mk t Running); simpl; auto; [congruence|rewrite F5; auto].
    + inversion E; subst. eapply (Mk t); [auto|simpl; reflexivity|simpl; rewrite upd_other; auto|simpl; auto|exact I].
Qed.

(** Shutdown (ClearThreadLocalGarbage). *)
Lemma fold_unregister l : forall s,
  let s' := fold_left unregister l s in
  cells s' = cells s /\ pcs s' = pcs s /\ unl s' = unl s /\ freed s' = freed s /\ bad s' = bad s /\
  ep s' = ep s /\ opno s' = opno s /\
  (forall u, hdr (slots s' u) = hdr (slots s u) /\ last (slots s' u) = last (slots s u) /\
             cnt (slots s' u) = cnt (slots s u)) /\
  (forall u, In u l -> lae (slots s' u) = None) /\
  (forall u, lae (slots s u) = None -> lae (slots s' u) = None).
Proof.
  induction l as [|t l IH]; intros s; simpl.
  - repeat split; auto. intros u [].
  - destruct (IH (unregister s t)) as (H1 & H2 & H3 & H4 & H5 & H6 & H7 & H8 & H9 & H10).
    simpl in *. repeat split; auto.
    + destruct (H8 u) as (-> & _ & _). updc; auto.
    + destruct (H8 u) as (_ & -> & _). updc; auto.
    + destruct (H8 u) as (_ & _ & ->). updc; auto.
    + intros u [<-|Hin]; auto. apply H10. rewrite upd_same. auto.
    + intros u Hu. apply H10. updc; auto.
Qed.

Lemma summarize_none l : forall s m,
  (forall u, In u l -> lae (slots s u) = None) ->
  fold_left (fun m i => emin m (lae (slots s i))) l m = m.
Proof.
  induction l as [|t l IH]; intros s m H; simpl; auto.
  rewrite (H t) by (simpl; auto). rewrite IH by (intros; apply H; simpl; auto). destruct m; auto.
Qed.

Definition allout (s : st) := forall t, pcs s t = Idle.

Lemma filter_all {A} (f : A -> bool) l : (forall x, f x = true) -> filter f l = l.
Proof. intros H; induction l; simpl; auto. rewrite H; f_equal; auto. Qed.
Lemma filter_none {A} (f : A -> bool) l : (forall x, f x = false) -> filter f l = [].
Proof. intros H; induction l; simpl; auto. rewrite H; auto. Qed.

Lemma clear_all N l : forall s L,
  LI (fun _ => false) s L -> allout s -> (forall u, u < N -> lae (slots s u) = None) ->
  NoDup l ->
  let s' := fold_left (clear_one N) l s in
  bad s' = bad s /\ exists L', LI (fun _ => false) s' L' /\ unl s' = unl s /\ pcs s' = pcs s /\
  (forall u, In u l -> L' u = []) /\ (forall u, ~ In u l -> L' u = L u).
Proof.
  induction l as [|t l IH]; intros s L HL Ho Hn Hnd.
  - simpl. split; auto. exists L. do 3 (split; auto). split; [intros u []|auto].
  - cbn [fold_left]. inversion Hnd; subst.
    assert (Hm : summarize N s = None).
    { unfold summarize. apply summarize_none. intros u Hu. apply in_seq in Hu. apply Hn; lia. }
    assert (HLt : LI (fun u => Nat.eqb u t) s L).
    { eapply LI_setF; eauto. }
    destruct (gc_loop_spec (fun u => Nat.eqb u t) None t (cnt (slots s t)) s L HLt (Nat.eqb_refl t))
      as (I1 & I2 & I3 & (L1 & I4 & I5) & I6 & I7 & I8 & I9 & I10).
    { rewrite (li_cnt _ _ _ HL). auto. }
    { intros g _ _. apply not_true_iff_false. intros X.
      apply still_used_spec in X as (ops & u & k & _ & _ & X & _). rewrite Ho in X. discriminate. }
    set (s1 := gc_loop (S (cnt (slots s t))) s t None) in *.
    assert (HL1t : L1 t = []).
    { rewrite (garbage_LI _ _ _ t I4) in I2. rewrite filter_none in I2 by auto.
      destruct (L1 t); auto; discriminate. }
    assert (Hc : clear_one N s t = s1).
    { unfold clear_one. rewrite Hm. fold s1. rewrite (li_cnt _ _ _ I4), HL1t. auto. }
    rewrite Hc.
    assert (HL1 : LI (fun _ => false) s1 L1).
    { eapply LI_setF; eauto. intros u _ _. updc; auto. }
    destruct (IH s1 L1 HL1) as (Q1 & L' & Q2 & Q3 & Q4 & Q5 & Q6); auto.
    { intros u. rewrite I7. apply Ho. }
    { intros u Hu. rewrite I10. apply Hn; auto. }
    split; [congruence|]. exists L'. split; auto. split; [congruence|]. split; [congruence|].
    split.
    + intros u [<-|Hin]; auto. rewrite Q6; auto.
    + intros u Hu. rewrite Q6 by (intros X; apply Hu; simpl; auto). apply I5. intros ->; apply Hu; simpl; auto.
Qed.

(** A slot that does not exist never receives garbage. *)
Lemma run_out N th acts : forall s, Inv N s -> (forall t, N <= t -> hdr (slots s t) = None) ->
  forall t, N <= t -> hdr (slots (run N th s acts) t) = None.
Proof.
  induction acts as [|a r IH]; intros s HI Hs; [exact Hs|].
  cbn [run]. destruct (step N th a s) as [s'|] eqn:E; [|apply IH; auto].
  apply IH; [eapply step_inv; eauto|].
  destruct HI as (L & J & HL & HS & HB). intros u Hu.
  assert (Hp : forall t, pcs s t <> Idle -> u <> t).
  { intros t Ht ->. apply Ht. apply HS; auto. }
  destruct a as [|t|t x|t|t|t]; simpl in E.
  - inversion E; simpl; auto.
  - destruct (Nat.ltb t N); [|discriminate]. destruct (pcs s t); inversion E; simpl; auto.
  - destruct (pcs s t); try discriminate. destruct (existsb _ _); inversion E; subst; simpl; auto.
  - destruct (pcs s t); inversion E; simpl; auto.
  - destruct (Nat.ltb_spec t N); [|discriminate]. destruct (pcs s t); inversion E; simpl. rewrite upd_other by lia. auto.
  - specialize (Hp t). destruct (pcs s t) eqn:Ep; try discriminate;
      assert (Hut : u <> t) by (apply Hp; discriminate).
    + inversion E; simpl. rewrite upd_other; auto.
    + inversion E; subst. unfold add_garbage.
      destruct (last (slots s t)); [destruct (nth_error (cells s) n); [destruct (alive c)|]|];
        simpl; rewrite upd_other; auto.
    + destruct (Nat.ltb i N); inversion E; simpl; auto.
    + unfold gc_iter in E.
      destruct (hdr (slots s t)); [destruct (nth_error (cells s) n); [destruct (alive c); simpl in E;
        [destruct (elt (de c) m); [destruct (Nat.eqb (cnt (slots s t)) 0)|]|]|]|]; inversion E; simpl;
        auto; rewrite upd_other; auto.
    + inversion E; simpl. rewrite upd_other; auto.
Qed.

Lemma shutdown_all N th acts :
  let s := run N th init acts in
  (forall t, pcs s t = Idle) ->
  let s' := shutdown N s in
  bad s' = false /\ NoDup (freed s') /\ (forall x, In x (freed s') <-> In x (map fst (unl s))).
Proof.
  intros s Hi s'. destruct (run_inv N th acts _ (init_inv N)) as (L & J & HL & HS & HB). fold s in HL, HS, HB.
  destruct (fold_unregister (seq 0 N) s) as (H1 & H2 & H3 & H4 & H5 & H6 & H7 & H8 & H9 & H10).
  set (s0 := fold_left unregister (seq 0 N) s) in *.
  assert (HL0 : LI (fun _ => false) s0 L).
  { eapply LI_frame; eauto.
    - lia.
    - intros u; rewrite H2; auto.
    - cbv beta. intros u. rewrite Hi. auto. }
  destruct (clear_all N (seq 0 N) s0 L HL0) as (Q1 & L' & Q2 & Q3 & Q4 & Q5 & Q6).
  - intros t. rewrite H2. auto.
  - intros u Hu. apply H9. apply in_seq. lia.
  - apply seq_NoDup.
  - unfold s', shutdown. fold s0. set (s2 := fold_left (clear_one N) (seq 0 N) s0) in *.
    split; [congruence|]. split; [apply Q2|]. intros x.
    rewrite (li_freed _ _ _ Q2 x). split.
    + intros (a & c & E & _ & Eg). rewrite <- H3, <- Q3. apply (li_unl2 _ _ _ Q2).
      apply in_map_iff. exists c. split; auto. eapply nth_error_In; eauto.
    + intros Hx. rewrite <- H3, <- Q3 in Hx. destruct (li_unl _ _ _ Q2 x Hx) as [H|[t Ht]].
      * apply in_map_iff in H as (c & Eg & Hc). apply In_nth_error in Hc as (a & Ea).
        exists a, c. split; auto. split; auto. destruct (alive c) eqn:Eal; auto.
        destruct (li_alive _ _ _ Q2 _ _ Ea Eal) as (o & Ho).
        destruct (Nat.lt_ge_cases o N) as [HoN|HoN].
        -- rewrite Q5 in Ho by (apply in_seq; lia). contradiction.
        -- rewrite Q6 in Ho by (rewrite in_seq; lia). exfalso.
           pose proof (run_out N th acts init (init_inv N) (fun _ _ => eq_refl) o HoN) as Hh.
           pose proof (li_link _ _ _ HL o) as Hl. fold s in Hh. rewrite Hh in Hl.
           destruct (L o); [contradiction|]. destruct Hl; discriminate.
      * rewrite Q4, H2, Hi in Ht. discriminate.
Qed.

(** The collection performed step by step by a thread that is not interrupted. *)
Lemma gc_iter_pcs s o m : pcs (fst (gc_iter s o m)) = pcs s.
Proof.
  unfold gc_iter.
  destruct (hdr (slots s o)); [destruct (nth_error (cells s) n); [destruct (alive c); simpl;
    [destruct (elt (de c) m); [destruct (Nat.eqb (cnt (slots s o)) 0)|]|]|]|]; simpl; auto.
Qed.

Lemma run_running N th n o : forall s, pcs s o = Running -> run N th s (repeat (AStep o) n) = s.
Proof.
  induction n as [|n IH]; intros s H; simpl; auto. rewrite H. apply IH; auto.
Qed.

Lemma run_gc N th o m n : forall s F L, LI F s L -> F o = true -> pcs s o = GCFree m -> length (L o) <= n ->
  run N th s (repeat (AStep o) (S n)) = set_pc (gc_loop (S n) s o m) o Running.
Proof.
  induction n as [|n IH]; intros s F L HL HF Hp Hn;
    destruct (LI_gc _ s L o m HL HF) as [H _]; pose proof (gc_iter_pcs s o m) as Hpc.
  - assert (EL : L o = []) by (destruct (L o); auto; simpl in Hn; lia). rewrite EL in H.
    simpl. rewrite Hp. destruct (gc_iter s o m) as [s1 more]; simpl in *.
    destruct H as (-> & _). auto.
  - change (gc_loop (S (S n)) s o m) with
      (let '(s', more) := gc_iter s o m in if more then gc_loop (S n) s' o m else s').
    change (repeat (AStep o) (S (S n))) with (AStep o :: repeat (AStep o) (S n)).
    cbn [run step]. rewrite Hp. destruct (gc_iter s o m) as [s1 more] eqn:Eg; cbn [fst snd] in *.
    assert (Hstop : more = false -> run N th (set_pc s1 o Running) (repeat (AStep o) (S n)) =
                    set_pc s1 o Running).
    { intros _. apply run_running. simpl. apply upd_same. }
    destruct (L o) as [|a r] eqn:EL.
    + destruct H as (-> & _). auto.
    + destruct H as (c & Ec & Ha & H). destruct (elt (de c) m).
      * destruct H as (-> & Hb & HL1 & _). apply (IH s1 F (upd L o r)); auto.
        -- congruence.
        -- rewrite upd_same. simpl in Hn; lia.
      * destruct H as (H & _). inversion H; subst. auto.
Qed.

Lemma run_sum N th o n : forall s i m, pcs s o = GCSum i m -> i + n = N ->
  exists s', run N th s (repeat (AStep o) (S n)) = s' /\
  pcs s' o = GCFree (fold_left (fun m i => emin m (lae (slots s i))) (seq i n) m) /\
  cells s' = cells s /\ slots s' = slots s /\ freed s' = freed s.
Proof.
  induction n as [|n IH]; intros s i m Hp Hin.
  - simpl. rewrite Hp. destruct (Nat.ltb_spec i N); [lia|]. eexists. split; [reflexivity|].
    simpl. rewrite upd_same. auto.
  - change (repeat (AStep o) (S (S n))) with (AStep o :: repeat (AStep o) (S n)).
    cbn [run step]. rewrite Hp. destruct (Nat.ltb_spec i N); [|lia].
    destruct (IH (set_pc s o (GCSum (S i) (emin m (lae (slots s i))))) (S i) (emin m (lae (slots s i))))
      as (s' & E & H1 & H2 & H3 & H4); [simpl; apply upd_same|lia|].
    exists s'. split; auto.
Qed.

Lemma run_app N th s a b : run N th s (a ++ b) = run N th (run N th s a) b.
Proof.
  revert s; induction a as [|x a IH]; simpl; intros s; auto. destruct (step N th x s); auto.
Qed.

Lemma emin_gt e m x : (match m with None => True | Some y => e < y end) -> e < x ->
  (match emin m (Some x) with None => True | Some y => e < y end).
Proof. destruct m; simpl; lia. Qed.

Lemma fold_emin_gt s e l : forall m, (match m with None => True | Some y => e < y end) ->
  (forall u x, In u l -> lae (slots s u) = Some x -> e < x) ->
  match fold_left (fun m i => emin m (lae (slots s i))) l m with None => True | Some y => e < y end.
Proof.
  induction l as [|t l IH]; intros m Hm H; simpl; auto.
  apply IH; [|intros u x Hu; apply H; simpl; auto].
  destruct (lae (slots s t)) as [x|] eqn:El; [apply emin_gt; auto; eapply H; simpl; eauto|]. destruct m; auto.
Qed.

(** C22, conditional progress. *)
Lemma collect_progress N th acts o e x d :
  let s := run N th init acts in
  pcs s o = GCSum 0 None ->
  (forall u l, u < N -> lae (slots s u) = Some l -> e < l) ->
  In (x, d) (garbage s o) -> d <= e ->
  In x (freed (run N th s (repeat (AStep o) (S N + S (cnt (slots s o)))))).
Proof.
  intros s Hp Hl Hg Hd.
  rewrite repeat_app, run_app.
  destruct (run_sum N th o N s 0 None Hp eq_refl) as (s1 & E & H1 & H2 & H3 & H4). rewrite E.
  assert (Hs1 : s1 = run N th init (acts ++ repeat (AStep o) (S N))).
  { rewrite run_app. fold s. auto. }
  destruct (run_inv N th (acts ++ repeat (AStep o) (S N)) _ (init_inv N)) as (L & J & HL & HS & HB).
  rewrite <- Hs1 in *.
  set (m := fold_left (fun m i => emin m (lae (slots s i))) (seq 0 N) None) in *.
  rewrite (run_gc N th o m (cnt (slots s o)) s1 _ L HL).
  - cbn [set_pc freed]. rewrite <- H3.
    pose proof (collect_exact N th (acts ++ repeat (AStep o) (S N)) o m) as HC.
    rewrite <- Hs1 in HC. destruct (HC H1) as (Hf & _). rewrite Hf.
    apply in_app_iff. left. apply -> in_rev. apply in_map_iff. exists (x, d). split; auto.
    apply filter_In. split.
    + unfold garbage in *. rewrite H2, H3. auto.
    + pose proof (fold_emin_gt s e (seq 0 N) None I) as Hm. fold m in Hm.
      assert (Hm' : match m with None => True | Some y => e < y end).
      { apply Hm. intros u l Hu. apply in_seq in Hu. apply Hl. lia. }
      simpl. destruct m; simpl; auto. apply Nat.ltb_lt. lia.
  - cbv beta. rewrite H1. auto.
  - auto.
  - rewrite <- H3, (li_cnt _ _ _ HL). auto.
Qed.

(** A thread that does not unregister keeps its epoch. *)
Lemma lae_upd s t sl u : lae (slots s t) <> None -> lae sl <> None -> lae (slots (set_slot s u sl) t) <> None.
Proof. intros H1 H2. cbn. unfold upd. destruct (Nat.eqb t u); auto. Qed.
Lemma lae_upd_eq s t u sl : lae (slots s t) <> None -> lae sl = lae (slots s u) -> lae (slots (set_slot s u sl) t) <> None.
Proof. intros H1 H2. cbn. unfold upd. destruct (Nat.eqb_spec t u); auto. subst. congruence. Qed.
Lemma step_registered N th a s s' t : step N th a s = Some s' -> a <> AUnregister t -> lae (slots s t) <> None -> lae (slots s' t) <> None.
Proof.
  intros E Ha Ht. destruct a as [|u|u x|u|u|u]; cbn [step] in E.
  - injection E as <-. exact Ht.
  - destruct (Nat.ltb u N); [|discriminate]. destruct (pcs s u); try discriminate. injection E as <-. exact Ht.
  - destruct (pcs s u); try discriminate. destruct (existsb _ _); [discriminate|]. injection E as <-. exact Ht.
  - destruct (pcs s u); try discriminate. injection E as <-. exact Ht.
  - destruct (Nat.ltb u N); [|discriminate]. destruct (pcs s u); try discriminate. injection E as <-. cbn. unfold upd. destruct (Nat.eqb_spec t u); [congruence|exact Ht].
  - destruct (pcs s u) as [|e| |x|i m|m|e]; try discriminate.
    + injection E as <-. apply lae_upd; [exact Ht|discriminate].
    + injection E as <-. unfold add_garbage. destruct (last (slots s u)) as [p|]; [destruct (nth_error (cells s) p) as [c|]; [destruct (alive c)|]|]; apply (lae_upd_eq s t u); auto.
    + destruct (Nat.ltb i N); injection E as <-; exact Ht.
    + assert (H : lae (slots (fst (gc_iter s u m)) t) <> None).
      { unfold gc_iter. destruct (hdr (slots s u)); [|apply lae_upd_eq; auto]. destruct (nth_error (cells s) n); [|exact Ht]. destruct (negb (alive c)); [exact Ht|].
        destruct (elt (de c) m); [|exact Ht]. destruct (Nat.eqb _ _); apply (lae_upd_eq s t u); auto. }
      destruct (gc_iter s u m) as [s1 []]; injection E as <-; exact H.
    + injection E as <-. apply lae_upd; [exact Ht|discriminate].
Qed.
Lemma registered N th t acts : ~ In (AUnregister t) acts -> lae (slots (run N th init acts) t) <> None.
Proof.
  intros H. assert (G : lae (slots init t) <> None) by discriminate. revert G. generalize init. induction acts as [|a acts IH]; intros s Hs; [exact Hs|]. cbn [run].
  destruct (step N th a s) as [s'|] eqn:E; apply IH; try (intros X; apply H; right; exact X); auto. eapply step_registered; eauto. intros ->. apply H. left. reflexivity.
Qed.
