(** Single-threaded use of the index: every call returns what a set of pairs
    would return. *)
From Coq Require Import List Arith Lia Bool ZArith Sorted.
From Verif Require Import Base Leaf LeafSpec LeafProofs LeafProofs2 Inner InnerSpec InnerProofs InnerProofs2 Tree TreeSpec TreeInv TreeProg TreeProg4 TreeLin SeqTree SeqTree2 SeqPot SeqUp SeqProg SeqAdjust SeqSmo SeqMerge SeqSettle SeqTrav SeqFuel Keeps SeqOps.
Import ListNotations.

Section SeqRun.
Context {P : Params}.

(** Calls made one after the other on a fresh index, with their results,
    latest first.  A call that does not return does not appear. *)
Inductive seqrun : list (op * resp) -> mem -> Prop :=
| Q_init : seqrun [] minit
| Q_call l m fuel o m' r : seqrun l m -> prun m (code fuel o) = (m', Ok r) -> seqrun ((o, r) :: l) m'.
(** All calls but backward page fetches. *)
Definition plain (o : op) : Prop := match o with OpPageBI _ => False | _ => True end.

(** * What a leaf in range stores is what the index stores *)
Lemma seg_last_none N low l i n : seg N low l None -> rangeok N l -> In i l -> N i = Some n -> forall hk j, nhigh n = Some (hk, j) -> In j l.
Proof.
  intros Hs Hr Hi En hk j Eh. apply in_split in Hi as (a & b & ->). destruct (seg_mid _ _ _ _ _ _ Hs Hr) as (n' & En' & Hn). rewrite En in En'. injection En' as <-.
  destruct b as [|j' b]; [congruence|]. destruct Hn as (k' & E & _). rewrite Eh in E. injection E as _ ->. apply in_or_app. right. right. left. auto.
Qed.
Lemma leaf_reach m lev H j : tree (node_of m) (root m) lev H -> reach m j -> In j (ids (lev 0)).
Proof.
  intros T. assert (H0 : 0 <= H) by lia. induction 1 as [|i c h n Hr IH En Eh].
  - pose proof (t_leaf _ _ _ _ T) as E. destruct (ids (lev 0)); [discriminate|]. injection E as ->. left. auto.
  - apply (seg_last_none _ _ _ _ (NLeaf c) (t_seg _ _ _ _ T 0 H0) (tree_ranges _ _ _ _ 0 T H0) IH En h n Eh).
Qed.
Lemma reach_leaf m lev H i : tree (node_of m) (root m) lev H -> In i (ids (lev 0)) -> reach m i.
Proof.
  intros T Hi. assert (H0 : 0 <= H) by lia. pose proof (t_seg _ _ _ _ T 0 H0) as Hs. pose proof (tree_ranges _ _ _ _ 0 T H0) as Hr. pose proof (t_leaf _ _ _ _ T) as Hf.
  assert (Hl : forall j, In j (ids (lev 0)) -> exists c, node_of m j = Some (NLeaf c)). { intros j Hj. destruct (t_ok _ _ _ _ T 0 j H0 Hj) as ([c|c] & En & [Hok _]); [eauto|lia]. }
  apply in_split in Hi as (a & b & E). rewrite E in *. clear E. revert i b Hs Hr Hf Hl. induction a as [|x a IH] using rev_ind; intros i b Hs Hr Hf Hl.
  - simpl in Hf. injection Hf as ->. constructor.
  - rewrite <- app_assoc in *. simpl in *. destruct (seg_mid _ _ _ _ _ _ Hs Hr) as (n & En & hk & E1 & _). destruct (Hl x ltac:(apply in_elt)) as (c & Ec). rewrite Ec in En. injection En as <-.
    eapply R_next; [apply (IH x (i :: b)); auto|exact Ec|exact E1].
Qed.
Lemma range_uniq m lev H i j c d k : tree (node_of m) (root m) lev H -> In i (ids (lev 0)) -> In j (ids (lev 0)) ->
  node_of m i = Some (NLeaf c) -> node_of m j = Some (NLeaf d) -> in_range c k -> in_range d k -> i = j.
Proof.
  intros T. assert (H0 : 0 <= H) by lia. pose proof (t_seg _ _ _ _ T 0 H0) as Hs. pose proof (tree_ranges _ _ _ _ 0 T H0) as Hr. pose proof (tree_sorted _ _ _ _ 0 T H0) as Ho.
  set (L := ids (lev 0)) in *. clearbody L.
  assert (Hhalf : forall a i b j c d, L = a ++ i :: b -> In j b -> node_of m i = Some (NLeaf c) -> node_of m j = Some (NLeaf d) -> in_range c k -> in_range d k -> False).
  { intros a i0 b j0 c0 d0 -> Hj Ei Ej [_ Hb] [Ha _]. destruct (seg_mid _ _ _ _ _ _ Hs Hr) as (n & En & Hn). rewrite Ei in En. injection En as <-.
    destruct b as [|x b]; [destruct Hj|]. destruct Hn as (hk & E1 & E2). simpl in E1. rewrite E1 in Hb. simpl in Hb.
    assert (Hle : x = j0 \/ lolt (nlo (node_of m) x) (nlo (node_of m) j0)). { destruct Hj as [->|Hj]; auto. right. apply ss_app in Ho as (_ & Ho & _). inversion Ho as [|? ? Ho1 _]; subst. inversion Ho1 as [|? ? _ Ho2]; subst. rewrite Forall_forall in Ho2. auto. }
    assert (Ej' : nlo (node_of m) j0 = llow d0) by (unfold nlo; rewrite Ej; auto).
    destruct Hle as [->|Hlt]; [rewrite E2 in Ej'; rewrite <- Ej' in Ha; simpl in Ha; congruence|].
    rewrite E2, Ej' in Hlt. destruct (llow d0) as [y|]; simpl in *; [|auto]. order. }
  intros Hi Hj Ei Ej Rc Rd. apply in_split in Hi as (a & b & E). rewrite E in Hj. apply in_app_or in Hj as [Hj|[Hj|Hj]]; auto.
  - exfalso. apply in_split in Hj as (a1 & a2 & ->). apply (Hhalf a1 j (a2 ++ i :: b) i d c); auto; [rewrite E, <- app_assoc; reflexivity|apply in_elt].
  - exfalso. apply (Hhalf a i b j c d); auto.
Qed.
Lemma leaf_contents m lev H i c k v : tree (node_of m) (root m) lev H -> In i (ids (lev 0)) -> node_of m i = Some (NLeaf c) -> in_range c k ->
  (contents m k v <-> lmem c k v).
Proof.
  intros T Hi Ei Rc. split.
  - intros (j & d & Hr & Ej & Rd & Hm). pose proof (leaf_reach _ _ _ _ T Hr) as Hj. rewrite (range_uniq _ _ _ _ _ _ _ _ T Hi Hj Ei Ej Rc Rd) in Ei. rewrite Ej in Ei. injection Ei as <-. exact Hm.
  - intros Hm. exists i, c. split; [eapply reach_leaf; eauto|]. auto.
Qed.

Lemma get_value_spec f m lev H k : ready m lev H -> calm m -> H + 3 < f ->
  tot m (get_value f k) (fun m' l => m' = m /\ NoDup l /\ forall v, In v l <-> contents m k v).
Proof.
  intros R C Hf. destruct f as [|f]; [lia|]. cbn [get_value]. pose proof (r_tree _ _ _ R) as T. pose proof (t_H _ _ _ _ T) as H1. destruct (t_top _ _ _ _ T) as (o & Et).
  change (tot m (pbind (load_ro k (root m)) (fun o => match o with None => get_value f k | Some x => pbind (descend_ro f x) (fun o' => match o' with None => get_value f k | Some y => pbind (leaf_of y) (fun c => lift (lvalues k c)) end) end))
    (fun m' l => m' = m /\ NoDup l /\ forall v, In v l <-> contents m k v)).
  destruct (ro_load m lev H H k (root m) o [] [] R Et ltac:(lia)) as (x & X1 & X2 & X3 & X4 & X5 & X6). apply X6. destruct H as [|h]; [lia|].
  assert (Hlo : nlow (s_node (cur x)) = None). { pose proof (t_seg _ _ _ _ T (S h) ltac:(lia)) as Hs. rewrite Et in Hs. simpl in Hs. destruct Hs as (n & En & Hn & _). rewrite <- X2, (cursn_node _ _ X1) in En. injection En as <-. exact Hn. }
  eapply tot_bind; [apply (ro_descend h f m lev (S h) k x o [] [] R C)|].
  - lia.
  - rewrite X2. exact Et.
  - exact X1.
  - exact X3.
  - exact X4.
  - rewrite Hlo. exact Logic.I.
  - constructor.
  - lia.
  - intros m1 o1 [-> (y & c & -> & Y1 & Y2 & Y3 & Y4 & Y5)]. unfold leaf_of. rewrite Y1. cbn [pbind].
    destruct (t_ok _ _ _ _ T 0 _ ltac:(lia) Y4) as (n & En & [Hok _]). rewrite Y3 in En. injection En as <-. destruct Hok as (_ & W & M).
    assert (Eb : lbody c = c) by (destruct c; auto; discriminate). rewrite Eb in W, M.
    assert (Hcl : clean c) by (clear - M; induction c; simpl in *; auto; destruct M).
    destruct (lvalues_spec c k W Hcl Y5) as (l & El & Nd & Hl). eapply tot_lift; [exact El|]. split; auto. split; auto.
    intros v. rewrite Hl. symmetry. eapply leaf_contents; eauto.
Qed.

(** * The fresh index *)
Definition lev0 (h : nat) : list cell := match h with 0 => [(2, None)] | 1 => [(1, None)] | _ => [] end.
Lemma ready_init : ready minit lev0 1.
Proof.
  pose proof (k_bound _ wok_init) as B. simpl in B. constructor; [exact B| |].
  - constructor; simpl; auto.
    + intros h i Hh Hi. destruct h as [|[|h]]; [| |lia]; simpl in Hi; destruct Hi as [<-|[]]; eexists; (split; [reflexivity|]); (split; [|discriminate]).
      * simpl. split; auto. split; [|exact Logic.I]. split; [|constructor]. split; [constructor|]. split; [intros x []|exact Logic.I].
      * split; [lia|]. split; [|split; [|split]].
        { exists []. split; [reflexivity|]. split; [constructor|]. split; [reflexivity|]. split; [exact Logic.I|]. intros s i []. }
        { exact Logic.I. }
        { exact Logic.I. }
        { split; [|intros j []]. intros j [->|[<-|[]]]; discriminate. }
    + intros h Hh. destruct h as [|[|h]]; [| |lia]; simpl; eexists; repeat split; reflexivity.
    + intros h Hh. assert (h = 0) as -> by lia. change (lev0 0) with ([(2, None)] ++ [] : list cell). simpl ids. constructor; [|constructor].
      eexists _, None, []. split; [reflexivity|]. split; [reflexivity|]. intros x j. simpl. split; [intros []|intros [(o & []) _]].
    + intros h i s Hh Hi. destruct h as [|[|h]]; [| |lia]; simpl in Hi; destruct Hi as [E|[]]; discriminate.
    + intros h Q c Hh Hi En. assert (h = 1) as -> by lia. simpl in Hi. destruct Hi as [<-|[]]. injection En as <-. reflexivity.
    + eauto.
    + intros h h' i Hh Hh' Hi Hi'. destruct h as [|[|h]], h' as [|[|h']]; try lia; simpl in *; destruct Hi as [<-|[]], Hi' as [E|[]]; discriminate.
    + intros i Hi. right. destruct i as [|[|[|i]]]; [destruct Hi; reflexivity| | |destruct Hi; reflexivity]; [exists 1|exists 0]; split; simpl; auto.
  - intros h Hh. destruct h as [|[|h]]; [| |lia]; constructor; [reflexivity|constructor|reflexivity|constructor].
Qed.

(** * Calls return *)
Definition need_calm (m : mem) (o : op) : Prop := match o with OpGet _ => calm m | OpCond k v _ => heapok (nodel k v) m | _ => True end.
Lemma call_tot m lev H o : ready m lev H -> plain o -> need_calm m o ->
  exists f m' r, prun m (code f o) = (m', Ok r) /\ (exists lev' H', ready m' lev' H') /\
    match o, r with OpGet k, RVals l => m' = m /\ NoDup l /\ forall v, In v l <-> contents m k v | OpGet _, _ => False | _, _ => True end.
Proof.
  intros R Hp Hc.
  assert (Hex : forall f (Q : mem -> resp -> Prop), tot m (code f o) Q -> exists m' r, prun m (code f o) = (m', Ok r) /\ Q m' r).
  { intros f Q HQ. unfold tot in HQ. destruct (prun m (code f o)) as [m' [r|e]]; [eauto|destruct HQ]. }
  destruct o as [k v|k v|k v pred|k|k|k|]; try destruct Hp.
  - set (f := 3 * mpot m lev H + 2). destruct (Hex f (fun m' _ => exists lev' H', ready m' lev' H')) as (m' & r & E & HR).
    { simpl. eapply tot_bind; [apply (insert_ready f m lev H k v R); unfold f; lia|]. intros m' b Hb. apply tot_ret. exact Hb. }
    exists f, m', r. auto.
  - set (f := 3 * mpot m lev H + 2). destruct (Hex f (fun m' _ => exists lev' H', ready m' lev' H')) as (m' & r & E & HR).
    { simpl. eapply tot_bind; [apply (delete_ready f m lev H k v R); unfold f; lia|]. intros m' b Hb. apply tot_ret. exact Hb. }
    exists f, m', r. auto.
  - set (f := 3 * mpot m lev H + 2). destruct (Hex f (fun m' _ => exists lev' H', ready m' lev' H')) as (m' & r & E & HR).
    { simpl. eapply tot_bind; [apply (cond_ready f m lev H k v pred R Hc); unfold f; lia|]. intros m' b Hb. apply tot_ret. exact Hb. }
    exists f, m', r. auto.
  - set (f := H + 4). destruct (Hex f (fun m' r => exists l, r = RVals l /\ m' = m /\ NoDup l /\ forall v, In v l <-> contents m k v)) as (m' & r & E & l & -> & -> & HR).
    { simpl. eapply tot_bind; [apply (get_value_spec f m lev H k R Hc); unfold f; lia|]. intros m' b Hb. apply tot_ret. eauto. }
    exists f, m, (RVals l). split; [exact E|]. split; [eauto|]. auto.
  - set (f := 3 * mpot m lev H + 1). destruct (Hex f (fun m' _ => exists lev' H', ready m' lev' H')) as (m' & r & E & HR).
    { apply (fetch_ready f m lev H k R). unfold f. lia. }
    exists f, m', r. auto.
  - destruct (first_ready m lev H R) as (r & E). exists 0, m, r. simpl. split; [exact E|]. split; [eauto|auto].
Qed.
Lemma call_any m f f' o m' r m'' r' : prun m (code f o) = (m', Ok r) -> prun m (code f' o) = (m'', Ok r') -> m'' = m' /\ r' = r.
Proof.
  intros E E'. pose proof (code_more f (f + f') o m m' r ltac:(lia) E) as E1. pose proof (code_more f' (f + f') o m m'' r' ltac:(lia) E') as E2. rewrite E1 in E2. injection E2 as <- <-. auto.
Qed.

(** A pair that was never deleted has no pending delete. *)
Lemma seqrun_nodel l m k v : seqrun l m -> ~ In (OpDel k v) (map fst l) -> heapok (nodel k v) m.
Proof.
  induction 1 as [|l m fuel o m' r Hq IH E]; intros Hn.
  - intros [|[p|p|]] n Hp; simpl in Hp; try discriminate; injection Hp as <-; simpl; auto.
  - simpl in Hn. refine (proj1 (keeps_run _ _ (fun _ => True) m m' (Ok r) (IH (fun Hi => Hn (or_intror Hi))) (code_keeps _ (closed_w _ (nodel_closed k v)) fuel o _) E)).
    destruct o as [k1 v1|k1 v1|k1 v1 pred|k1|k1|k1|]; auto; simpl; try (intros ix c Hc; exact Hc). intros ix c Hc [[-> ->]|Hp]; auto.
Qed.

(** Restrictions on the next call of a history: GetValue in a calm state, no
    conditional insert of a pair that a call of Delete named before. *)
Definition need (l : list (op * resp)) (m : mem) (o : op) : Prop :=
  match o with OpGet _ => calm m | OpCond k v _ => ~ In (OpDel k v) (map fst l) | _ => True end.
Lemma need_calm_ok l m o : seqrun l m -> need l m o -> need_calm m o.
Proof. destruct o; simpl; auto. intros Hq. apply seqrun_nodel. exact Hq. Qed.
(** Histories within these restrictions. *)
Inductive calmrun : list (op * resp) -> mem -> Prop :=
| C_init : calmrun [] minit
| C_call l m fuel o m' r : calmrun l m -> plain o -> need l m o -> prun m (code fuel o) = (m', Ok r) -> calmrun ((o, r) :: l) m'.
Lemma calmrun_seqrun l m : calmrun l m -> seqrun l m.
Proof. induction 1; econstructor; eauto. Qed.
Lemma calmrun_ready l m : calmrun l m -> exists lev H, ready m lev H.
Proof.
  induction 1 as [|l m fuel o m' r Hq (lev & H & R) Hp Hc E]; [exists lev0, 1; apply ready_init|].
  destruct (call_tot m lev H o R Hp (need_calm_ok _ _ _ (calmrun_seqrun _ _ Hq) Hc)) as (f & m1 & r1 & E1 & HR & _). destruct (call_any _ _ _ _ _ _ _ _ E1 E) as [-> _]. exact HR.
Qed.

(** * Results *)
Definition svis (l : list (op * resp)) : list vis := flat_map (fun x => [VRet 0 (fst x) (snd x); VCall 0 (fst x)]) l.
Lemma seqrun_exec l m : seqrun l m -> exists tr ss s, exec tr ss s /\ visible tr = svis l /\ sm s = m /\ forall t, running s t = None.
Proof.
  induction 1 as [|l m fuel o m' r Hq (tr & ss & s & He & Hv & Em & Hi) E].
  - eexists _, _, _. split; [constructor|]. simpl. auto.
  - subst m. destruct (call_exec fuel o tr ss s m' r He Hi E) as (tr' & ss' & s' & He' & Hv' & Em' & Hi'). exists tr', ss', s'. rewrite Hv', Hv. auto.
Qed.
(** The set after a history. *)
Inductive explained : list (op * resp) -> pairs -> Prop :=
| E_nil A : (forall k v, ~ A k v) -> explained [] A
| E_cons o r l A A' : explained l A -> effect false o A A' r -> explained ((o, r) :: l) A'.
Lemma effect_fun o A A' B B' r : same A B -> effect false o A A' r -> effect false o B B' r -> same A' B'.
Proof.
  intros Hs E1 E2 k v. specialize (Hs k v). destruct o as [k0 v0|k0 v0|k0 v0 pred|k0|k0|k0|], r as [b|b sat|l|low items high]; try (destruct E1; fail); try (destruct sat, b); try (destruct b);
    try (destruct E1; fail); simpl in E1, E2;
    repeat match goal with H : _ /\ _ |- _ => destruct H end; unfold same in *;
    repeat match goal with H : forall _ _, _ <-> _ |- _ => specialize (H k v) end; tauto.
Qed.
Lemma explained_fun l : forall A B, explained l A -> explained l B -> same A B.
Proof.
  induction l as [|[o r] l IH]; intros A B HA HB; inversion HA as [A1 N1|o1 r1 l1 A1 A2 X1 F1]; inversion HB as [B1 N2|o2 r2 l2 B1 B2 X2 F2]; subst.
  - intros k v. split; intros Hx; exfalso; [eapply N1|eapply N2]; eauto.
  - eapply effect_fun; [|exact F1|exact F2]. eapply IH; eauto.
Qed.
(** Sequential traces of the atomic object: thread 0 alone. *)
Lemma aexec_explained atr A st : aexec false atr (A, st) -> forall l,
  (avisible atr = svis l -> (forall t, st t = Idle) /\ explained l A) /\
  (forall o, avisible atr = VCall 0 o :: svis l -> (forall t, t <> 0 -> st t = Idle) /\ ((st 0 = Called o /\ explained l A) \/ exists r, st 0 = Done o r /\ explained ((o, r) :: l) A)).
Proof.
  remember (A, st) as a eqn:Ea. intros He. revert A st Ea. induction He as [|tr a e a' He IH Hs]; intros A st Ea l.
  - injection Ea as <- <-. split; [|intros o E; discriminate]. intros E. destruct l as [|x l]; [|discriminate]. split; auto. constructor. auto.
  - destruct Hs as [A0 st0 t o Ht|A0 A1 st0 t o r Ht Hef|A0 st0 t o r Ht]; injection Ea as <- <-.
    + change (avisible (ACall t o :: tr)) with (VCall t o :: avisible tr). split.
      * intros E. destruct l as [|x l]; discriminate.
      * intros o' E. injection E as -> -> E. destruct (proj1 (IH _ _ eq_refl l) E) as [Hi Hx]. split; [intros t Hne; rewrite tset_ne; auto|]. left. rewrite tset_eq. auto.
    + change (avisible (ALin t :: tr)) with (avisible tr). split.
      * intros E. destruct (proj1 (IH _ _ eq_refl l) E) as [Hi _]. rewrite Hi in Ht. discriminate.
      * intros o' E. destruct (proj2 (IH _ _ eq_refl l) o' E) as [Hi Hx]. destruct (Nat.eq_dec t 0) as [->|Hne]; [|rewrite Hi in Ht; [discriminate|auto]].
        split; [intros u Hne; rewrite tset_ne; auto|]. destruct Hx as [[E0 Hx]|(r' & E0 & Hx)]; rewrite Ht in E0; [|discriminate]. injection E0 as <-.
        right. exists r. rewrite tset_eq. split; auto. econstructor; eauto.
    + change (avisible (ARet t o r :: tr)) with (VRet t o r :: avisible tr). split.
      * intros E. destruct l as [|[o1 r1] l]; [discriminate|]. change (svis ((o1, r1) :: l)) with (VRet 0 o1 r1 :: VCall 0 o1 :: svis l) in E. injection E as -> -> -> E.
        destruct (proj2 (IH _ _ eq_refl l) o1 E) as [Hi Hx]. destruct Hx as [[E0 Hx]|(r' & E0 & Hx)]; rewrite Ht in E0; [discriminate|]. injection E0 as <-. split; auto.
        intros u. destruct (Nat.eq_dec u 0) as [->|Hne]; [apply tset_eq|rewrite tset_ne; auto].
      * intros o' E. discriminate.
Qed.
Lemma seqrun_explained l m : seqrun l m -> explained l (contents m).
Proof.
  intros Hq. destruct (seqrun_exec l m Hq) as (tr & ss & s & He & Hv & Em & _).
  assert (Hlin : linearizable false tr (sm s)) by (apply (linearizable_ok false tr ss s He); discriminate).
  destruct Hlin as (atr & A & st & Ha & Hav & Hs). rewrite Hv in Hav. destruct (proj1 (aexec_explained _ _ _ Ha l) Hav) as [_ Hx]. subst m.
  destruct l as [|[o r] l]; inversion Hx as [A1 N1|o1 r1 l1 A1 A2 X1 F1]; subst.
  - constructor. intros k v Hk. apply (N1 k v), Hs, Hk.
  - econstructor; [exact X1|]. eapply effect_same; [| |exact F1]; [apply same_refl|exact Hs].
Qed.
(** The effect of a call on a history. *)
Lemma call_effect l m f o m' r : seqrun l m -> prun m (code f o) = (m', Ok r) -> effect false o (contents m) (contents m') r.
Proof.
  intros Hq E. pose proof (seqrun_explained _ _ Hq) as X. pose proof (seqrun_explained _ _ (Q_call l m f o m' r Hq E)) as X'. inversion X' as [|o1 r1 l1 A1 A2 X1 F1]; subst.
  eapply effect_same; [|apply same_refl|exact F1]. eapply explained_fun; eauto.
Qed.
Lemma call_full l m f lev H o m' r : seqrun l m -> ready m lev H -> plain o -> need_calm m o -> prun m (code f o) = (m', Ok r) -> effect true o (contents m) (contents m') r.
Proof.
  intros Hq R Hp Hc E. pose proof (call_effect _ _ _ _ _ _ Hq E) as Hf. destruct (call_tot m lev H o R Hp Hc) as (f1 & m1 & r1 & E1 & _ & Hg). destruct (call_any _ _ _ _ _ _ _ _ E1 E) as [-> ->].
  destruct o; auto. destruct r1; try (destruct Hf; fail). simpl in *. destruct Hg as (_ & G1 & G2). split; [split; [auto|split; [exact G1|intros v Hv; apply G2, Hv]]|apply Hf].
Qed.
Lemma seq_set l m o : calmrun l m -> plain o -> need l m o ->
  exists f0 m' r, (forall f, f0 <= f -> prun m (code f o) = (m', Ok r)) /\ effect true o (contents m) (contents m') r.
Proof.
  intros Hq Hp Hc0. pose proof (need_calm_ok _ _ _ (calmrun_seqrun _ _ Hq) Hc0) as Hc. destruct (calmrun_ready l m Hq) as (lev & H & R). destruct (call_tot m lev H o R Hp Hc) as (f & m' & r & E & _).
  exists f, m', r. split; [intros f' Hf; eapply code_more; eauto|]. eapply call_full; eauto. apply calmrun_seqrun. exact Hq.
Qed.
End SeqRun.
