(** A small program logic for the programs of Tree.v: a program is [safe] if
    each of its atomic steps keeps the invariant of TreeInv.v, whatever other
    threads do in between. *)
From Coq Require Import List Arith Lia Bool ZArith.
From Verif Require Import Base Leaf LeafSpec LeafProofs LeafWeak LeafProofs2 Inner InnerSpec InnerProofs InnerProofs2 Tree TreeSpec TreeInv.
Import ListNotations.

Section TreeSafe.
Context {P : Params}.

(** Histories: all worlds since the operation was called, latest first. *)
Notation hist := (list world).
Definition now (h : hist) : world := hd winit h.
Definition hgood (h : hist) : Prop := h <> [] /\ forall w, In w h -> wok w.
Lemma now_ok h : hgood h -> wok (now h).
Proof. destruct h as [|w h]; intros [H0 H]; [congruence|apply H; simpl; auto]. Qed.

(** [own]: an id this thread has allocated and not yet published. *)
Definition keep (own : option nat) (w w' : world) : Prop :=
  match own with
  | None => True
  | Some j => ~ pub w j -> ~ pub w' j /\ get (wm w') j = get (wm w) j
  end.
Record hext (own : option nat) (h h' : hist) : Prop := {
  x_app : exists l, h' = l ++ h;
  x_le : le (now h) (now h');
  x_good : hgood h';
  x_keep : keep own (now h) (now h')
}.
Lemma keep_refl own w : keep own w w.
Proof. destruct own; simpl; auto. Qed.
Lemma keep_trans own a b c : keep own a b -> keep own b c -> keep own a c.
Proof.
  destruct own as [j|]; simpl; auto. intros H1 H2 Hn. destruct (H1 Hn) as [A B]. destruct (H2 A) as [C D].
  split; auto. congruence.
Qed.
Lemma hext_refl own h : hgood h -> hext own h h.
Proof. intros H. constructor; auto. exists []; auto. apply le_refl. apply keep_refl. Qed.
Lemma hext_trans own a b c : hext own a b -> hext own b c -> hext own a c.
Proof.
  intros [(l & ->) B C D] [(l' & ->) F G H]. constructor; auto.
  - exists (l' ++ l). rewrite app_assoc. auto.
  - eapply le_trans; eauto.
  - eapply keep_trans; eauto.
Qed.
Lemma hext_none own h h' : hext own h h' -> hext None h h'.
Proof. intros [A B C D]. constructor; simpl; auto. Qed.
Lemma hext_in own h h' w : hext own h h' -> In w h -> In w h'.
Proof. intros [(l & ->) _ _ _] H. apply in_or_app; auto. Qed.

(** What a step of this thread may do to the world. *)
Record guar (own : option nat) (w w' : world) : Prop := {
  g_ok : wok w';
  g_le : le w w';
  g_keep : forall j, own <> Some j -> j < nid (wm w) -> ~ pub w j -> ~ pub w' j /\ get (wm w') j = get (wm w) j
}.
Lemma hext_cons own own' h w' : hgood h -> guar own (now h) w' -> own' = None -> hext own' h (w' :: h).
Proof.
  intros Hg [A B C] ->. constructor; simpl; auto. exists [w']; auto.
  split; [discriminate|]. intros w [<-|H]; auto. apply Hg; auto.
Qed.

(** After the step [w -> w'] of this thread: either the contents are as
    before and the program goes on, or the operation took effect and the
    program is about to return. *)
Fixpoint safe {A} (D : world -> world -> A -> Prop) (own : option nat) (p : prog A) (Q : A -> hist -> Prop) (h : hist) : Prop :=
  let cont w w' (own' : option nat) (q : prog A) (h' : hist) (rest : Prop) :=
    guar own w w' /\
    ((same (contents (wm w)) (contents (wm w')) /\ rest) \/ (exists a, q = Ret a /\ D w w' a)) in
  match p with
  | Ret a => forall h', hext own h h' -> Q a h'
  | Err _ => True
  | PLoad i k => forall h', hext own h h' -> pub (now h') i /\ forall x, get (wm (now h')) i = Some x -> safe D own (k x) Q h'
  | Cas i o n k => forall h', hext own h h' ->
      let w := now h' in
      (tab (wm w) i <> Some o -> safe D None (k None) Q h') /\
      (tab (wm w) i = Some o -> pub w i /\ exists pb,
         let w' := {| wm := cas_mem (wm w) i n; pub := pb |} in
         cont w w' None (k (Some (nptr (wm w)))) h' (safe D None (k (Some (nptr (wm w)))) Q (w' :: h')))
  | CasPtr i o n k => forall h', hext own h h' ->
      let w := now h' in
      (tab (wm w) i <> Some o -> safe D None (k false) Q h') /\
      (tab (wm w) i = Some o -> exists pb,
         let w' := {| wm := ptr_mem (wm w) i n; pub := pb |} in
         cont w w' None (k true) h' (safe D None (k true) Q (w' :: h')))
  | LoadRoot k => forall h', hext own h h' -> safe D own (k (root (wm (now h')))) Q h'
  | CasRoot o n k => forall h', hext own h h' ->
      let w := now h' in
      (root (wm w) <> o -> safe D None (k false) Q h') /\
      (root (wm w) = o -> exists pb,
         let w' := {| wm := root_mem (wm w) n; pub := pb |} in
         cont w w' None (k true) h' (safe D None (k true) Q (w' :: h')))
  | NewNode n k => forall h', hext own h h' ->
      let w := now h' in
      let w' := {| wm := new_mem (wm w) n; pub := pub w |} in
      safe D (Some (nid (wm w))) (k (nid (wm w))) Q (w' :: h')
  end.

Definition ND {A} : world -> world -> A -> Prop := fun _ _ _ => False.

Lemma safe_ext {A} D own (p : prog A) Q h h' : safe D own p Q h -> hext own h h' -> safe D own p Q h'.
Proof.
  destruct p; simpl; intros H Hx; auto; intros h2 H2;
    apply H; eapply hext_trans; eauto.
Qed.
Lemma safe_pre {A} D own (p : prog A) Q h : (forall h', hext own h h' -> safe D own p Q h') -> safe D own p Q h.
Proof.
  assert (R : forall h', hext own h h' -> hext own h' h') by (intros h' [_ _ G _]; apply hext_refl; auto).
  destruct p; simpl; intros H; auto; intros h' Hx;
    apply (H _ Hx _ (R _ Hx)).
Qed.
Lemma safe_mono {A} (D D' : world -> world -> A -> Prop) own own' (p : prog A) (Q Q' : A -> hist -> Prop) h :
  (forall w w' a, D w w' a -> D' w w' a) -> (forall a h', Q a h' -> Q' a h') ->
  own = None \/ own = own' ->
  safe D own p Q h -> safe D' own' p Q' h.
Proof.
  intros HD HQ.
  assert (HX : forall own own' h h', own = None \/ own = own' -> hext own' h h' -> hext own h h').
  { intros o o' h1 h2 [->| ->] Hx; auto. eapply hext_none; eauto. }
  assert (HG : forall own own' w w', own = None \/ own = own' -> guar own w w' -> guar own' w w').
  { intros o o' w w' [->| ->] [a b c]; constructor; auto. intros j _. apply c. discriminate. }
  assert (HC : forall (q : prog A) own own' w w' (R R' : Prop), own = None \/ own = own' ->
     (R -> R') ->
     guar own w w' /\ ((same (contents (wm w)) (contents (wm w')) /\ R) \/ (exists a, q = Ret a /\ D w w' a)) ->
     guar own' w w' /\ ((same (contents (wm w)) (contents (wm w')) /\ R') \/ (exists a, q = Ret a /\ D' w w' a))).
  { intros q o o' w w' R R' Ho HR [G [[S H]|(a & E & H)]]; split; eauto. }
  revert own own' h. induction p; intros own own' h Ho; simpl; intros H0; auto.
  - intros h' Hx. apply HQ, H0. eauto.
  - intros h' Hx. destruct (H0 h') as [Hp H1]; [eauto|]. split; [exact Hp|]. intros x Hg. eapply H; [exact Ho|]. apply H1; auto.
  - intros h' Hx. destruct (H0 h') as [H1 H2]; [eauto|]. split; [intros E; eapply H; [|exact (H1 E)]; auto|].
    intros E. destruct (H2 E) as (Hp & pb & H3). split; [exact Hp|]. exists pb. eapply HC; [exact Ho| |exact H3].
    apply H. auto.
  - intros h' Hx. destruct (H0 h') as [H1 H2]; [eauto|]. split; [intros E; eapply H; [|exact (H1 E)]; auto|].
    intros E. destruct (H2 E) as (pb & H3). exists pb. eapply HC; [exact Ho| |exact H3].
    apply H. auto.
  - intros h' Hx. eapply H; [|apply H0]; eauto.
  - intros h' Hx. destruct (H0 h') as [H1 H2]; [eauto|]. split; [intros E; eapply H; [|exact (H1 E)]; auto|].
    intros E. destruct (H2 E) as (pb & H3). exists pb. eapply HC; [exact Ho| |exact H3].
    apply H. auto.
  - intros h' Hx. eapply H; [|apply H0]; eauto.
Qed.

Lemma new_guar own w n : wok w -> guar own w {| wm := new_mem (wm w) n; pub := pub w |} /\
  same (contents (wm w)) (contents (new_mem (wm w) n)).
Proof.
  intros Hw. assert (Hn : ~ pub w (nid (wm w))).
  { intros Hp. destruct (k_pub _ Hw _ Hp) as (a & A & _). apply node_of_get in A as (p & A).
    apply get_tab in A as [A _]. apply (b_tab _ (k_bound _ Hw)) in A. lia. }
  destruct (new_ok w n Hw Hn) as (A & B & C). split; auto. constructor; auto.
  intros j _ Hj Hp. simpl. split; auto. apply (u_other _ _ _ _ _ (new_upd1 _ n (k_bound _ Hw))). lia.
Qed.

(** The history at the end extends the one at the start. *)
Lemma safe_hext {A} (D : world -> world -> A -> Prop) own p (Q : A -> hist -> Prop) h : hgood h ->
  safe D own p Q h -> safe D own p (fun a h' => hext None h h' /\ Q a h') h.
Proof.
  intros Hg. assert (G : forall (p : prog A) own h0, hext None h h0 -> safe D own p Q h0 ->
    safe D own p (fun a h' => hext None h h' /\ Q a h') h0).
  { clear p own. induction p; intros own h0 H0; simpl; intros Hs; auto.
    - intros h' Hx. split; [|auto]. eapply hext_trans; [exact H0|eapply hext_none; exact Hx].
    - intros h' Hx. destruct (Hs h' Hx) as [Hp H1]. split; [exact Hp|]. intros x Hgt. apply H; auto. eapply hext_trans; [exact H0|eapply hext_none; exact Hx].
    - intros h' Hx. assert (Hx' : hext None h h') by (eapply hext_trans; [exact H0|eapply hext_none; exact Hx]).
      destruct (Hs h' Hx) as [H1 H2]. split; [intros E; apply H; auto|].
      intros E. destruct (H2 E) as (Hp & pb & H3 & H4). split; [exact Hp|]. exists pb. split; auto. destruct H4 as [[H5 H6]|H5]; [left|right; auto].
      split; auto. apply H; auto. eapply hext_trans; [exact Hx'|eapply hext_cons; [apply Hx|exact H3|auto]].
    - intros h' Hx. assert (Hx' : hext None h h') by (eapply hext_trans; [exact H0|eapply hext_none; exact Hx]).
      destruct (Hs h' Hx) as [H1 H2]. split; [intros E; apply H; auto|].
      intros E. destruct (H2 E) as (pb & H3 & H4). exists pb. split; auto. destruct H4 as [[H5 H6]|H5]; [left|right; auto].
      split; auto. apply H; auto. eapply hext_trans; [exact Hx'|eapply hext_cons; [apply Hx|exact H3|auto]].
    - intros h' Hx. apply H; auto. eapply hext_trans; [exact H0|eapply hext_none; exact Hx].
    - intros h' Hx. assert (Hx' : hext None h h') by (eapply hext_trans; [exact H0|eapply hext_none; exact Hx]).
      destruct (Hs h' Hx) as [H1 H2]. split; [intros E; apply H; auto|].
      intros E. destruct (H2 E) as (pb & H3 & H4). exists pb. split; auto. destruct H4 as [[H5 H6]|H5]; [left|right; auto].
      split; auto. apply H; auto. eapply hext_trans; [exact Hx'|eapply hext_cons; [apply Hx|exact H3|auto]].
    - intros h' Hx. apply H; auto. eapply hext_trans; [exact H0|].
      eapply hext_trans; [eapply hext_none; exact Hx|]. eapply hext_cons; [apply Hx| |auto].
      apply (new_guar None). apply now_ok. apply Hx. }
  apply G. apply hext_refl; auto.
Qed.

Lemma safe_bind0 {A B} (D : world -> world -> B -> Prop) own (p : prog A) (f : A -> prog B) Q h :
  safe ND own p (fun a h' => safe D None (f a) Q h') h -> safe D own (pbind p f) Q h.
Proof.
  assert (HC : forall (q : prog A) (q' : prog B) own w w' (R R' : Prop), (R -> R') ->
     guar own w w' /\ ((same (contents (wm w)) (contents (wm w')) /\ R) \/ (exists a, q = Ret a /\ ND w w' a)) ->
     guar own w w' /\ ((same (contents (wm w)) (contents (wm w')) /\ R') \/ (exists a, q' = Ret a /\ D w w' a))).
  { intros q q' o w w' R R' HR [G [[S H]|(a & E & [])]]; split; auto. }
  revert own h. induction p; intros own h; simpl; intros Hs; auto.
  - apply safe_pre. intros h' Hx. eapply safe_mono; [| | |apply Hs; exact Hx]; auto.
  - intros h' Hx. destruct (Hs h' Hx) as [Hp H1]. split; [exact Hp|]. intros x Hgt. apply H; auto.
  - intros h' Hx. destruct (Hs h' Hx) as [H1 H2]. split; auto. intros E. destruct (H2 E) as (Hp & pb & H3). split; [exact Hp|]. exists pb.
    eapply HC; [|exact H3]. apply H.
  - intros h' Hx. destruct (Hs h' Hx) as [H1 H2]. split; auto. intros E. destruct (H2 E) as (pb & H3). exists pb.
    eapply HC; [|exact H3]. apply H.
  - intros h' Hx. destruct (Hs h' Hx) as [H1 H2]. split; auto. intros E. destruct (H2 E) as (pb & H3). exists pb.
    eapply HC; [|exact H3]. apply H.
Qed.
Lemma safe_bind {A B} (D : world -> world -> B -> Prop) own (p : prog A) (f : A -> prog B) R Q h : hgood h ->
  safe ND own p R h -> (forall a h', hext None h h' -> R a h' -> safe D None (f a) Q h') ->
  safe D own (pbind p f) Q h.
Proof.
  intros Hg Hp Hf. apply safe_bind0. apply safe_hext in Hp; auto.
  eapply safe_mono; [| | |exact Hp]; auto. intros a h' [H1 H2]. auto.
Qed.
Lemma safe_map {A B} (g : A -> B) (D : world -> world -> B -> Prop) own (p : prog A) Q h :
  safe (fun w w' a => D w w' (g a)) own p (fun a h' => Q (g a) h') h ->
  safe D own (pbind p (fun a => Ret (g a))) Q h.
Proof.
  assert (HC : forall (q : prog A) own w w' (R R' : Prop), (R -> R') ->
     guar own w w' /\ ((same (contents (wm w)) (contents (wm w')) /\ R) \/ (exists a, q = Ret a /\ D w w' (g a))) ->
     guar own w w' /\ ((same (contents (wm w)) (contents (wm w')) /\ R') \/
                       (exists a, pbind q (fun a => Ret (g a)) = Ret a /\ D w w' a))).
  { intros q o w w' R R' HR [G [[S H]|(a & E & H)]]; split; auto. right. exists (g a). rewrite E. auto. }
  revert own h. induction p; intros own h; simpl; intros Hs; auto.
  - intros h' Hx. destruct (Hs h' Hx) as [Hp H1]. split; [exact Hp|]. intros x Hgt. apply H; auto.
  - intros h' Hx. destruct (Hs h' Hx) as [H1 H2]. split; auto. intros E. destruct (H2 E) as (Hp & pb & H3). split; [exact Hp|]. exists pb.
    eapply HC; [|exact H3]. apply H.
  - intros h' Hx. destruct (Hs h' Hx) as [H1 H2]. split; auto. intros E. destruct (H2 E) as (pb & H3). exists pb.
    eapply HC; [|exact H3]. apply H.
  - intros h' Hx. destruct (Hs h' Hx) as [H1 H2]. split; auto. intros E. destruct (H2 E) as (pb & H3). exists pb.
    eapply HC; [|exact H3]. apply H.
Qed.
Lemma safe_ret {A} (D : world -> world -> A -> Prop) own a (Q : A -> hist -> Prop) h :
  (forall h', hext own h h' -> Q a h') -> safe D own (Ret a) Q h.
Proof. auto. Qed.
Lemma safe_lift {A} (D : world -> world -> A -> Prop) own (r : res A) (Q : A -> hist -> Prop) h :
  (forall a h', r = Ok a -> hext own h h' -> Q a h') -> safe D own (lift r) Q h.
Proof. destruct r; simpl; auto. Qed.
End TreeSafe.
