(** Running long schedules of the index model with two threads: the same steps
    as in Tree.v on a memory kept in search trees. *)
From Coq Require Import List Arith Lia Bool NArith PArith Pnat FMapPositive.
From Verif Require Import Base Leaf LeafSpec Inner Tree TreeSpec TreeRun.
Import ListNotations.

(** Binary numbers as keys. *)
Program Definition binP : Params := {|
  K := N; klt := N.ltb; keq := N.eqb; kdef := 0%N;
  V := N; veq := N.eqb; vhash := fun x => x;
  phash := fun x => (fst x + snd x)%N |}.
Next Obligation. apply N.ltb_irrefl. Qed.
Next Obligation. rewrite N.ltb_lt in *. lia. Qed.
Next Obligation. rewrite N.ltb_ge in *. lia. Qed.
Next Obligation. rewrite N.eqb_eq. tauto. Qed.
Next Obligation. rewrite N.eqb_eq. tauto. Qed.

Section Fast.
Context {P : Params}.
Notation pm := PositiveMap.t.
Definition key_of (i : nat) : positive := Pos.of_succ_nat i.
Definition pget {A} (m : pm A) (i : nat) : option A := PositiveMap.find (key_of i) m.
Definition pset {A} (m : pm A) (i : nat) (x : A) : pm A := PositiveMap.add (key_of i) x m.
Lemma pset_get {A} (m : pm A) i x j : pget (pset m i x) j = if j =? i then Some x else pget m j.
Proof.
  unfold pget, pset. destruct (j =? i) eqn:E.
  - apply Nat.eqb_eq in E. subst. apply PositiveMap.gss.
  - apply Nat.eqb_neq in E. apply PositiveMap.gso. unfold key_of. intros H. apply SuccNat2Pos.inj in H. auto.
Qed.
Definition hget {A} (m : pm A) (p : N) : option A := PositiveMap.find (N.succ_pos p) m.
Definition hset {A} (m : pm A) (p : N) (x : A) : pm A := PositiveMap.add (N.succ_pos p) x m.
Lemma hset_get {A} (m : pm A) p x q : hget (hset m p x) q = if N.eqb q p then Some x else hget m q.
Proof.
  unfold hget, hset. destruct (N.eqb q p) eqn:E.
  - apply N.eqb_eq in E. subst. apply PositiveMap.gss.
  - apply N.eqb_neq in E. apply PositiveMap.gso. intros H. apply E. lia.
Qed.
Record fmem := { f_heap : pm node; f_nptr : N; f_tab : pm N; f_nid : nat; f_root : nat }.
Definition finit : fmem := {|
  f_heap := hset (hset (PositiveMap.empty _) 0%N (NInner (IBase 0 None FIRST_LEAF [(kdef, FIRST_LEAF)] None))) 1%N (NLeaf (LBase None [] None));
  f_nptr := 2%N; f_tab := pset (pset (PositiveMap.empty _) 1 0%N) 2 1%N; f_nid := 3; f_root := 1 |}.
Record rep (f : fmem) (m : mem) : Prop := {
  r_heap : forall p, hget (f_heap f) p = heap m p;
  r_nptr : f_nptr f = nptr m;
  r_tab : forall i, pget (f_tab f) i = tab m i;
  r_nid : f_nid f = nid m;
  r_root : f_root f = root m }.
Lemma rep_init : rep finit minit.
Proof.
  constructor; try reflexivity; intros p; simpl; rewrite ?pset_get, ?hset_get; unfold pget, hget; rewrite PositiveMap.gempty.
  - destruct p as [|[p|p|]]; reflexivity.
  - destruct p as [|[|[|p]]]; reflexivity.
Qed.
Definition fstep {A} (f : fmem) (p : prog A) : fmem * prog A :=
  match p with
  | Ret a => (f, Ret a)
  | Err e => (f, Err e)
  | PLoad i k => match pget (f_tab f) i with
                 | None => (f, Err ENull)
                 | Some q => match hget (f_heap f) q with None => (f, Err ENull) | Some n => (f, k (q, n)) end
                 end
  | Cas i o n k =>
      match pget (f_tab f) i with
      | Some p' =>
          if N.eqb p' o then
            ({| f_heap := hset (f_heap f) (f_nptr f) n; f_nptr := N.succ (f_nptr f);
                f_tab := pset (f_tab f) i (f_nptr f); f_nid := f_nid f; f_root := f_root f |}, k (Some (f_nptr f)))
          else (f, k None)
      | None => (f, k None)
      end
  | CasPtr i o n k =>
      match pget (f_tab f) i with
      | Some p' =>
          if N.eqb p' o then
            ({| f_heap := f_heap f; f_nptr := f_nptr f; f_tab := pset (f_tab f) i n; f_nid := f_nid f; f_root := f_root f |}, k true)
          else (f, k false)
      | None => (f, k false)
      end
  | LoadRoot k => (f, k (f_root f))
  | CasRoot o n k =>
      if f_root f =? o
      then ({| f_heap := f_heap f; f_nptr := f_nptr f; f_tab := f_tab f; f_nid := f_nid f; f_root := n |}, k true)
      else (f, k false)
  | NewNode n k =>
      ({| f_heap := hset (f_heap f) (f_nptr f) n; f_nptr := N.succ (f_nptr f);
          f_tab := pset (f_tab f) (f_nid f) (f_nptr f); f_nid := S (f_nid f); f_root := f_root f |}, k (f_nid f))
  end.
Lemma fstep_ok {A} f m (p : prog A) : rep f m -> rep (fst (fstep f p)) (fst (pstep m p)) /\ snd (fstep f p) = snd (pstep m p).
Proof.
  intros H. pose proof H as [H1 H2 H3 H4 H5]. destruct p; simpl; auto.
  - unfold get. rewrite H3. destruct (tab m i) as [q|]; simpl; auto. rewrite H1. destruct (heap m q); simpl; auto.
  - rewrite H3, H2. destruct (tab m i) as [q|]; simpl; auto. destruct (N.eqb q old); simpl; auto. split; auto.
    constructor; simpl; auto; intros j; rewrite ?pset_get, ?hset_get; unfold fset, pfset; rewrite ?H1, ?H3; reflexivity.
  - rewrite H3. destruct (tab m i) as [q|]; simpl; auto. destruct (N.eqb q old); simpl; auto. split; auto.
    constructor; simpl; auto; intros j; rewrite ?pset_get, ?hset_get; unfold fset, pfset; rewrite ?H1, ?H3; reflexivity.
  - rewrite H5. destruct (root m =? old); simpl; auto. split; auto. constructor; auto.
  - rewrite H2, H4. split; auto.
    constructor; simpl; auto; intros j; rewrite ?pset_get, ?hset_get; unfold fset, pfset; rewrite ?H1, ?H3; reflexivity.
Qed.

(** Two threads: 0 and 1. *)
Record fsys := { g_mem : fmem; g_run : bool -> option (op * prog resp) }.
Definition slot (a b : option (op * prog resp)) : bool -> option (op * prog resp) := fun t => if t then b else a.
Definition put (r : bool -> option (op * prog resp)) (t : bool) (x : option (op * prog resp)) : bool -> option (op * prog resp) :=
  if t then slot (r false) x else slot x (r true).
Definition tid (t : bool) : nat := if t then 1 else 0.
Inductive fcmd := FCall (t : bool) (o : op) (fuel : nat) | FStep (t : bool) (n : nat) | FRet (t : bool).
Fixpoint fsteps (n : nat) (f : fmem) (p : prog resp) : fmem * prog resp :=
  match n with
  | O => (f, p)
  | S n' => match p with Ret _ | Err _ => (f, p) | _ => let x := fstep f p in fsteps n' (fst x) (snd x) end
  end.
Definition fdo (s : fsys) (c : fcmd) : fsys :=
  match c with
  | FCall t o fuel => match g_run s t with None => {| g_mem := g_mem s; g_run := put (g_run s) t (Some (o, code fuel o)) |} | Some _ => s end
  | FStep t n => match g_run s t with
                 | Some (o, p) => let x := fsteps n (g_mem s) p in {| g_mem := fst x; g_run := put (g_run s) t (Some (o, snd x)) |}
                 | None => s end
  | FRet t => match g_run s t with Some (o, Ret r) => {| g_mem := g_mem s; g_run := put (g_run s) t None |} | _ => s end
  end.
Definition fplay (l : list fcmd) : fsys := fold_left fdo l {| g_mem := finit; g_run := slot None None |}.
Definition freaches (s : fsys) : Prop :=
  exists tr ss s', exec tr ss s' /\ rep (g_mem s) (sm s') /\ (forall t, g_run s t = running s' (tid t)) /\ forall u, 2 <= u -> running s' u = None.
Lemma put_ok r t x (g : nat -> option (op * prog resp)) : (forall u, r u = g (tid u)) -> forall u, put r t x u = tset g (tid t) x (tid u).
Proof. intros H u. unfold put, slot, tset. destruct t, u; simpl; auto; apply H. Qed.
Lemma tid_two t : tid t < 2.
Proof. destruct t; simpl; lia. Qed.
Lemma tset_two {A} (g : nat -> option A) t x : (forall u, 2 <= u -> g u = None) -> forall u, 2 <= u -> tset g (tid t) x u = None.
Proof. intros H u Hu. unfold tset. pose proof (tid_two t). destruct (u =? tid t) eqn:E; [apply Nat.eqb_eq in E; lia|auto]. Qed.
Lemma fsteps_ok n : forall f p f' p' tr ss s t o (r : bool -> option (op * prog resp)), exec tr ss s -> rep f (sm s) -> running s (tid t) = Some (o, p) ->
  (forall u, u <> t -> r u = running s (tid u)) -> (forall u, 2 <= u -> running s u = None) -> fsteps n f p = (f', p') ->
  exists tr' ss' s', exec tr' ss' s' /\ rep f' (sm s') /\ running s' (tid t) = Some (o, p') /\ (forall u, u <> t -> r u = running s' (tid u)) /\ forall u, 2 <= u -> running s' u = None.
Proof.
  induction n as [|n IH]; intros f p f' p' tr ss s t o r Hx Hr Hp Ho Hz E.
  - injection E as <- <-. exists tr, ss, s. auto.
  - assert (Hd : (exists a, p = Ret a) \/ (exists e, p = Err e) \/ ((forall a, p <> Ret a) /\ (forall e, p <> Err e))).
    { destruct p; [left; eauto|right; left; eauto|right; right; split; discriminate..]. }
    destruct Hd as [(a & ->)|[(e & ->)|[Ha He]]]; [simpl in E; injection E as <- <-; exists tr, ss, s; auto..|].
    assert (E' : fsteps n (fst (fstep f p)) (snd (fstep f p)) = (f', p')).
    { destruct p; [exfalso; eapply Ha; reflexivity|exfalso; eapply He; reflexivity|exact E..]. }
    destruct (fstep_ok f (sm s) p Hr) as [Hr' Ep]. rewrite Ep in E'.
    eapply IH; [econstructor; [exact Hx|apply S_step; [exact Hp|exact Ha|exact He]]| | | | |exact E'].
    + exact Hr'.
    + simpl. unfold tset. rewrite Nat.eqb_refl. reflexivity.
    + intros u Hu. simpl. unfold tset. destruct (tid u =? tid t) eqn:Eu; [|auto]. exfalso. destruct u, t; try discriminate; auto.
    + simpl. apply tset_two, Hz.
Qed.
Lemma fdo_ok s c : freaches s -> freaches (fdo s c).
Proof.
  intros (tr & ss & s' & Hx & Hr & Hg & Hz). destruct c as [t o fuel|t n|t]; simpl.
  - destruct (g_run s t) eqn:E; [exists tr, ss, s'; auto|]. rewrite Hg in E. eexists _, _, _. split; [econstructor; [exact Hx|apply S_call; exact E]|].
    split; [exact Hr|]. split; [apply put_ok, Hg|apply tset_two, Hz].
  - destruct (g_run s t) as [[o p]|] eqn:E; [|exists tr, ss, s'; auto]. rewrite Hg in E. destruct (fsteps n (g_mem s) p) as [f' p'] eqn:Ef.
    destruct (fsteps_ok n _ _ _ _ _ _ _ t o (g_run s) Hx Hr E (fun u _ => Hg u) Hz Ef) as (tr2 & ss2 & s2 & Hx2 & Hr2 & Hp2 & Ho2 & Hz2).
    exists tr2, ss2, s2. split; [exact Hx2|]. split; [exact Hr2|]. split; [|exact Hz2]. intros u. simpl. unfold put, slot. destruct t, u; simpl; auto; apply Ho2; discriminate.
  - destruct (g_run s t) as [[o p]|] eqn:E; [|exists tr, ss, s'; auto]. destruct p; try (exists tr, ss, s'; auto; fail). rewrite Hg in E.
    eexists _, _, _. split; [econstructor; [exact Hx|apply S_ret; exact E]|]. split; [exact Hr|]. split; [apply put_ok, Hg|apply tset_two, Hz].
Qed.
Lemma fplay_ok l : freaches (fplay l).
Proof.
  unfold fplay. assert (H : freaches {| g_mem := finit; g_run := slot None None |}).
  { exists [], [sinit], sinit. split; [constructor|]. split; [apply rep_init|]. split; [intros [|]; reflexivity|reflexivity]. }
  revert H. generalize {| g_mem := finit; g_run := slot None None |}. induction l as [|c l IH]; intros s H; simpl; auto. apply IH, fdo_ok, H.
Qed.
Definition fwhole (t : bool) (o : op) : list fcmd := [FCall t o 40; FStep t 400; FRet t].
Definition ffate (s : fsys) (t : bool) : option (option (resp + err)) :=
  match g_run s t with
  | None => None
  | Some (_, Ret r) => Some (Some (inl r))
  | Some (_, Err e) => Some (Some (inr e))
  | Some _ => Some None
  end.
End Fast.
