(** Properties of every node a program publishes, whatever the other threads
    do: if all nodes it reads have the property, so have all nodes it writes. *)
From Coq Require Import NArith List Arith Lia Bool ZArith.
From Verif Require Import Base Leaf LeafSpec LeafProofs LeafProofs2 Inner Tree TreeSpec.
Import ListNotations.

Section Keeps.
Context {P : Params}.
Variable Q : node -> Prop.

Fixpoint keeps {A} (p : prog A) (R : A -> Prop) : Prop :=
  match p with
  | Ret a => R a
  | Err _ => True
  | PLoad i k => forall x, Q (snd x) -> keeps (k x) R
  | Cas i o n k => Q n /\ forall r, keeps (k r) R
  | CasPtr i o n k => forall b, keeps (k b) R
  | LoadRoot k => forall r, keeps (k r) R
  | CasRoot o n k => forall b, keeps (k b) R
  | NewNode n k => Q n /\ forall i, keeps (k i) R
  end.
Definition heapok (m : mem) : Prop := forall p n, heap m p = Some n -> Q n.

Lemma keeps_mono {A} (p : prog A) (R R' : A -> Prop) : (forall a, R a -> R' a) -> keeps p R -> keeps p R'.
Proof. intros Hm. induction p; simpl; auto; try (intros [? ?]; split; auto; fail). Qed.
Lemma keeps_bind {A B} (p : prog A) (f : A -> prog B) R R' : keeps p R -> (forall a, R a -> keeps (f a) R') -> keeps (pbind p f) R'.
Proof. intros Hp Hf. induction p; simpl in *; auto; try (destruct Hp; split; auto; fail). Qed.
Lemma keeps_lift {A} (r : res A) (R : A -> Prop) : (forall a, r = Ok a -> R a) -> keeps (lift r) R.
Proof. destruct r; simpl; auto. Qed.
Lemma keeps_liftb {A B} (r : res A) (f : A -> prog B) R : (forall a, r = Ok a -> keeps (f a) R) -> keeps (pbind (lift r) f) R.
Proof. intros H. eapply keeps_bind; [apply keeps_lift; exact H|]. auto. Qed.

Lemma heap_set m p n : heapok m -> Q n -> forall q n', pfset (heap m) p n q = Some n' -> Q n'.
Proof. intros Hm Hn q n'. unfold pfset. destruct (N.eqb q p); [intros E; injection E as <-; auto|apply Hm]. Qed.
Lemma get_ok m i x : heapok m -> get m i = Some x -> Q (snd x).
Proof. intros Hm. unfold get. destruct (tab m i) as [p|]; [|discriminate]. destruct (heap m p) as [n|] eqn:E; [|discriminate]. intros E'. injection E' as <-. apply (Hm p n E). Qed.
Lemma keeps_step {A} (p : prog A) R m : heapok m -> keeps p R -> heapok (fst (pstep m p)) /\ keeps (snd (pstep m p)) R.
Proof.
  intros Hm Hk. destruct p; simpl in *; auto.
  - destruct (get m i) eqn:E; simpl; auto. split; auto. apply Hk. eapply get_ok; eauto.
  - destruct Hk as [Hn Hk]. destruct (tab m i) as [p'|]; simpl; auto. destruct (N.eqb p' old); simpl; auto. split; auto. exact (heap_set m (nptr m) n Hm Hn).
  - destruct (tab m i) as [p'|]; simpl; auto. destruct (N.eqb p' old); simpl; auto.
  - destruct (root m =? old); simpl; auto.
  - destruct Hk as [Hn Hk]. split; auto. exact (heap_set m (nptr m) n Hm Hn).
Qed.
Lemma keeps_run {A} (p : prog A) R : forall m m' r, heapok m -> keeps p R -> prun m p = (m', r) -> heapok m' /\ match r with Ok a => R a | Er _ => True end.
Proof.
  induction p as [a|e|i k IH|i o n k IH|i o n k IH|k IH|o n k IH|n k IH]; intros m m' r Hm Hk E; simpl in *.
  - injection E as <- <-. auto.
  - injection E as <- <-. auto.
  - destruct (get m i) eqn:Eg; [|injection E as <- <-; auto]. eapply IH; [| |exact E]; auto. apply Hk. eapply get_ok; eauto.
  - destruct Hk as [Hn Hk]. destruct (tab m i) as [p'|]; [|eapply IH; [| |exact E]; auto]. destruct (N.eqb p' o); eapply IH; try exact E; auto. exact (heap_set m (nptr m) n Hm Hn).
  - destruct (tab m i) as [p'|]; [|eapply IH; [| |exact E]; auto]. destruct (N.eqb p' o); eapply IH; try exact E; auto.
  - eapply IH; [| |exact E]; auto.
  - destruct (root m =? o); eapply IH; try exact E; auto.
  - destruct Hk as [Hn Hk]. eapply IH; [| |exact E]; auto. exact (heap_set m (nptr m) n Hm Hn).
Qed.

(** What [Q] has to be closed under: everything but data updates. *)
Record closed : Prop := {
  q_base : forall low items high, Q (NLeaf (LBase low items high));
  q_inner : forall c, Q (NInner c);
  q_split : forall k i n c, Q (NLeaf c) -> Q (NLeaf (LSplit k i n c));
  q_remove : forall i c, Q (NLeaf c) -> Q (NLeaf (LRemove i c));
  q_merge : forall k i j rc lc, Q (NLeaf (LRemove j rc)) -> Q (NLeaf lc) -> Q (NLeaf (LMerge k i rc lc))
}.
(** The same with what is known about the pages at these places. *)
Record closedw : Prop := {
  w_cons : forall c c', Q (NLeaf c) -> lconsolidate c = Ok c' -> Q (NLeaf c');
  w_sib : forall c s, Q (NLeaf c) -> lsplit_sibling c = Ok (Some s) -> Q (NLeaf s);
  w_inner : forall c, Q (NInner c);
  w_split : forall k i c si high, Q (NLeaf c) -> lsplit_sibling c = Ok (Some (LBase (Some k) si high)) ->
              Q (NLeaf (LSplit k i (length si) c));
  w_remove : forall i low items high, Q (NLeaf (LBase low items high)) -> length items <= LEAF_SIZE_LOWER ->
              Q (NLeaf (LRemove i (LBase low items high)));
  w_merge : forall k i j rc lc, Q (NLeaf (LRemove j rc)) -> Q (NLeaf lc) -> Q (NLeaf (LMerge k i rc lc))
}.
Lemma lcons_base c c' : lconsolidate c = Ok c' -> exists low items high, c' = LBase low items high.
Proof.
  unfold lconsolidate. destruct (lcollect _ _ _ _ _) as [[[out a] b]|e]; simpl; [|discriminate]. destruct (Z.ltb _ _); [discriminate|]. destruct (Z.eqb _ _); [|discriminate]. intros E. injection E as <-. eauto.
Qed.
Lemma closed_w : closed -> closedw.
Proof.
  intros C. constructor; try (intros; apply C; assumption).
  - intros c c' _ E. destruct (lcons_base _ _ E) as (low & items & high & ->). apply C.
  - intros [low items high| | | | |] s _ E; simpl in E; try discriminate.
    destruct (find_split_point items) as [[i|]|e]; simpl in E; try discriminate.
    destruct (nth_error items i); [|discriminate]. injection E as <-. apply C.
  - intros k i j rc lc. apply C.
Qed.
Hypothesis C : closedw.

Definition cok (x : ctx) : Prop := Q (s_node (cur x)).
Definition ook (o : option ctx) : Prop := match o with Some x => cok x | None => True end.


Lemma consolidate_keeps s : Q (s_node s) -> keeps (consolidate s) (fun s' => Q (s_node s')).
Proof.
  intros Hs. unfold consolidate.
  apply keeps_bind with (R := Q).
  - destruct (s_node s) as [c|c]; apply keeps_liftb; intros c' E; simpl; [|apply (w_inner C)]. exact (w_cons C _ _ Hs E).
  - intros n Hn. simpl. split; auto. intros [p|]; simpl; auto.
Qed.
Lemma try_keeps x : cok x -> keeps (try_consolidate x) cok.
Proof.
  intros Hx. unfold try_consolidate. destruct (is_delta _); [|exact Hx]. destruct (match s_node (cur x) with NLeaf c => _ | NInner c => _ end); [|exact Hx].
  eapply keeps_bind; [apply consolidate_keeps; exact Hx|]. intros s Hs. exact Hs.
Qed.
Lemma parent_keeps {A} s (f : ichain -> prog A) R : (forall c, keeps (f c) R) -> keeps (pbind (parent_inner s) f) R.
Proof. intros Hf. unfold parent_inner. destruct (s_node s); simpl; auto. Qed.
Lemma post_remove_keeps ps s rm (R : option ctx -> Prop) : Q rm -> R None -> keeps (post_remove ps s rm) R.
Proof.
  intros Hr HR. unfold post_remove. apply parent_keeps. intros c. simpl. split; [apply C|]. intros [p|]; simpl; auto. split; auto. intros _ [|]; simpl; auto.
Qed.
Lemma adjust_keeps x : cok x -> keeps (adjust x) ook.
Proof.
  intros Hx. unfold adjust, cok in *. destruct (s_node (cur x)) as [[low items high| | | | |]|[d low lid items high| | | | | |]] eqn:En; try (simpl; unfold cok; rewrite En; exact Hx).
  - destruct (LEAF_SIZE_UPPER <=? length items).
    + apply keeps_liftb. intros [[[kk|] si hh| | | | |]|] Es; simpl; unfold cok; try rewrite En; auto. split; [exact (w_sib C _ _ Hx Es)|]. intros i. split; [exact (w_split C _ _ _ _ _ Hx Es)|]. intros [p|]; simpl; auto. unfold cok. rewrite En. auto.
    + destruct (length items <=? LEAF_SIZE_LOWER) eqn:El; [|simpl; unfold cok; rewrite En; exact Hx]. destruct (prt x) as [| |ps]; simpl; auto.
      apply parent_keeps. intros c. destruct (ilid c =? s_id (cur x)); [simpl; unfold cok; rewrite En; exact Hx|]. apply post_remove_keeps; simpl; auto. apply (w_remove C); [exact Hx|apply Nat.leb_le, El].
  - destruct (INNER_SIZE_UPPER <=? length items).
    + apply keeps_liftb. intros [d' [kk|] first si hh| | | | | |] _; simpl; auto. intros f _. destruct (is_remove (snd f)); simpl; [unfold cok; rewrite En; exact Hx|]. split; [apply C|]. intros i. split; [apply C|]. intros [p|]; simpl; auto. unfold cok. rewrite En. exact Hx.
    + destruct (length items <=? INNER_SIZE_LOWER); [|simpl; unfold cok; rewrite En; exact Hx]. destruct (prt x) as [| |ps]; simpl; auto; [unfold cok; rewrite En; exact Hx|].
      apply parent_keeps. intros c. destruct (ilid c =? s_id (cur x)); [simpl; unfold cok; rewrite En; exact Hx|]. apply post_remove_keeps; simpl; auto. apply C.
Qed.
Lemma find_left_keeps k ps : keeps (find_left k ps) (fun _ => True).
Proof.
  unfold find_left. apply parent_keeps. intros c. apply keeps_liftb. intros [i|] _; simpl; auto. apply keeps_liftb. intros c' _. simpl. split; [apply C|]. intros r. apply keeps_liftb. intros [i|] _; simpl; auto.
Qed.
Definition jok (jump : nat -> ctx -> prog (option ctx)) : Prop := forall i x, keeps (jump i x) ook.
Lemma jump_left_keeps jump x : jok jump -> keeps (jump_left jump x) ook.
Proof.
  intros Hj. unfold jump_left. destruct (prt x) as [| |ps]; simpl; auto. apply parent_keeps. intros c. destruct (ilid c =? s_id (cur x)); simpl; auto.
  intros y _. destruct (N.eqb (fst y) (s_ptr ps)); simpl; auto. eapply keeps_bind; [apply find_left_keeps|]. intros f _. eapply keeps_bind; [apply Hj|]. intros [x'|] Hx'; simpl; auto.
  destruct (nhigh (s_node (cur x'))) as [[h n]|]; simpl; auto. destruct (n =? s_id (cur x)); simpl; auto.
Qed.
Lemma finish_merge_keeps x dk di nx : cok x -> keeps (finish_merge x dk di nx) ook.
Proof.
  intros Hx. unfold finish_merge. destruct (prt x) as [| |ps]; simpl; auto. intros y _. destruct (N.eqb (fst y) (s_ptr ps)); simpl; auto. apply parent_keeps. intros c. apply keeps_liftb. intros [[[a fi]|] loc] _; simpl; auto.
  destruct (fi =? di); simpl; auto. split; [apply C|]. intros [p|]; simpl; auto. intros g _. destruct (is_remove (snd g)); simpl; auto.
  eapply keeps_bind; [apply consolidate_keeps; exact Hx|]. intros s Hs. exact Hs.
Qed.
Lemma finish_split_keeps x k sib nx : cok x -> keeps (finish_split x k sib nx) ook.
Proof.
  intros Hx. unfold finish_split. destruct (prt x) as [| |ps]; simpl; auto. { split; [apply C|]. intros r b. simpl. auto. }
  apply parent_keeps. intros c. destruct (match ihigh c with Some (h, _) => kge k h | None => false end); [exact Hx|]. apply keeps_liftb. intros [[[a fi]|] loc] _; simpl; [destruct (fi =? sib); simpl; auto|].
  split; [apply C|]. intros [p|]; simpl; auto. eapply keeps_bind; [apply consolidate_keeps; exact Hx|]. intros s Hs. exact Hs.
Qed.
Lemma strip_cok x : cok x -> cok (set_cur x (strip_snap (cur x))).
Proof. unfold cok, strip_snap. simpl. destruct (s_node (cur x)) eqn:E; [rewrite E; auto|]. intros _. destruct (strip _ _). simpl. apply C. Qed.
Lemma finish_smo_keeps jump x : jok jump -> cok x -> keeps (finish_smo jump x) ook.
Proof.
  intros Hj Hx. pose proof (strip_cok x Hx) as Hs. unfold finish_smo. set (y := set_cur x (strip_snap (cur x))) in *.
  pose proof Hs as Hs'. unfold cok in Hs'. destruct (s_node (cur y)) as [[]|[]] eqn:En; try (exact Hs); try (apply finish_merge_keeps; exact Hs); try (apply finish_split_keeps; exact Hs).
  - eapply keeps_bind; [apply jump_left_keeps; exact Hj|]. intros [x'|] Hx'; simpl; auto. destruct (s_node (cur x')) as [lc|] eqn:En'; simpl; auto. destruct (lhigh lc) as [[mk ?]|]; simpl; auto.
    assert (Hm : Q (NLeaf (LMerge mk (s_id (cur y)) c lc))). { eapply (w_merge C); [exact Hs'|]. unfold ook, cok in Hx'. rewrite En' in Hx'. exact Hx'. }
    split; [exact Hm|]. intros [p|]; simpl; auto. apply finish_merge_keeps. exact Hm.
  - eapply keeps_bind; [apply jump_left_keeps; exact Hj|]. intros [x'|] Hx'; simpl; auto. destruct (s_node (cur x')) as [|lc] eqn:En'; simpl; auto. destruct (ihigh lc) as [[mk ?]|]; simpl; auto.
    split; [apply C|]. intros [p|]; simpl; auto. apply finish_merge_keeps. apply C.
Qed.
Lemma settle_keeps jump x : jok jump -> cok x -> keeps (settle jump x) ook.
Proof.
  intros Hj Hx. unfold settle. eapply keeps_bind; [apply finish_smo_keeps; auto|]. intros [x'|] Hx'; simpl; auto. eapply keeps_bind; [apply try_keeps; exact Hx'|]. intros x'' Hx''. apply adjust_keeps. exact Hx''.
Qed.
Lemma jump_keeps f : jok (jump_to f).
Proof.
  induction f as [|f IH]; intros i x; simpl; auto. intros y Hy. destruct (_ && _); simpl; auto. apply settle_keeps; auto.
Qed.
Lemma load_keeps f k p i : keeps (load_node f k p i) ook.
Proof. simpl. intros y Hy. apply settle_keeps; [apply jump_keeps|exact Hy]. Qed.
Lemma chain_keeps go f : forall x, cok x -> keeps (sibling_chain go f x) ook.
Proof.
  induction f as [|f IH]; intros x Hx; simpl; auto. destruct (nhigh (s_node (cur x))) as [[h n]|]; [|exact Hx]. destruct (go (key x) h); [|exact Hx].
  eapply keeps_bind; [apply jump_keeps|]. intros [x'|] Hx'; simpl; auto.
Qed.
Lemma nav_keeps go nav f x : cok x -> keeps (nav_inner go nav f x) (fun _ => True).
Proof.
  intros Hx. unfold nav_inner. eapply keeps_bind; [apply chain_keeps; exact Hx|]. intros [x'|] Hx'; simpl; auto. destruct (s_node (cur x')); simpl; auto. apply keeps_liftb. simpl. auto.
Qed.
Lemma descend_keeps go nav f : forall x, cok x -> keeps (descend go nav f x) ook.
Proof.
  induction f as [|f IH]; intros x Hx; simpl; auto. eapply keeps_bind; [apply nav_keeps; exact Hx|]. intros [[i x']|] _; simpl; auto.
  intros y Hy. eapply keeps_bind; [apply settle_keeps; [apply jump_keeps|exact Hy]|]. intros [z|] Hz; simpl; auto. destruct (is_leaf _); simpl; auto.
Qed.
Lemma attempt_keeps go nav f k : keeps (attempt go nav f k) ook.
Proof.
  simpl. intros r y Hy. eapply keeps_bind; [apply settle_keeps; [apply jump_keeps|exact Hy]|]. intros [x|] Hx; simpl; auto.
  eapply keeps_bind; [apply descend_keeps; exact Hx|]. intros [z|] Hz; simpl; auto. apply chain_keeps. exact Hz.
Qed.
Lemma traverse_keeps go nav f : forall k, keeps (traverse_with go nav f k) cok.
Proof.
  induction f as [|f IH]; intros k; [exact I|]. cbn [traverse_with]. eapply keeps_bind; [apply attempt_keeps|]. intros [x|] Hx; simpl; auto.
Qed.
Lemma leaf_keeps {A} x (f : lchain -> prog A) R : cok x -> (forall c, Q (NLeaf c) -> keeps (f c) R) -> keeps (pbind (leaf_of x) f) R.
Proof. unfold cok, leaf_of. intros Hx Hf. destruct (s_node (cur x)); simpl; auto. Qed.

Lemma insert_keeps f k v : (forall ix c, Q (NLeaf c) -> Q (NLeaf (LIns k v ix c))) -> keeps (insert f k v) (fun _ => True).
Proof.
  intros Hi. induction f as [|f IH]; [exact I|]. cbn [insert]. eapply keeps_bind; [apply traverse_keeps|]. intros x Hx. apply leaf_keeps; auto. intros c Hc.
  apply keeps_liftb. intros r _. destruct (fst r); simpl; auto. split; auto. intros [p|]; simpl; auto.
Qed.
Lemma delete_keeps f k v : (forall ix c, Q (NLeaf c) -> Q (NLeaf (LDel k v ix c))) -> keeps (delete f k v) (fun _ => True).
Proof.
  intros Hi. induction f as [|f IH]; [exact I|]. cbn [delete]. eapply keeps_bind; [apply traverse_keeps|]. intros x Hx. apply leaf_keeps; auto. intros c Hc.
  apply keeps_liftb. intros r _. destruct (fst r); simpl; auto. split; auto. intros [p|]; simpl; auto.
Qed.
Lemma cond_keeps f k v pred : (forall ix c, Q (NLeaf c) -> Q (NLeaf (LIns k v ix c))) -> keeps (cond_insert f k v pred) (fun _ => True).
Proof.
  intros Hi. induction f as [|f IH]; [exact I|]. cbn [cond_insert]. eapply keeps_bind; [apply traverse_keeps|]. intros x Hx. apply leaf_keeps; auto. intros c Hc.
  apply keeps_liftb. intros [| |ix] _; simpl; auto. split; auto. intros [p|]; simpl; auto.
Qed.
Lemma load_ro_keeps k i : keeps (load_ro k i) ook.
Proof.
  simpl. intros y Hy. match goal with |- keeps (if is_remove (s_node ?s) then _ else _) _ => set (s1 := s) end. destruct (is_remove (s_node s1)); simpl; auto.
  apply (strip_cok {| key := k; cur := {| s_id := i; s_ptr := fst y; s_node := snd y |}; prt := PUninit |}). exact Hy.
Qed.
Lemma descend_ro_keeps f : forall x, cok x -> keeps (descend_ro f x) ook.
Proof.
  induction f as [|f IH]; intros x Hx; [exact I|]. cbn [descend_ro]. eapply keeps_bind; [apply nav_keeps; exact Hx|]. intros [[i x']|] _; [|exact I].
  eapply keeps_bind; [apply load_ro_keeps|]. intros [y|] Hy; [|exact I]. destruct (is_leaf _); [apply chain_keeps; exact Hy|apply IH; exact Hy].
Qed.
Lemma get_keeps f k : keeps (get_value f k) (fun _ => True).
Proof.
  induction f as [|f IH]; [exact I|]. cbn [get_value keeps]. intros r. eapply keeps_bind; [apply load_ro_keeps|]. intros [x|] Hx; [|exact IH].
  eapply keeps_bind; [apply descend_ro_keeps; exact Hx|]. intros [y|] Hy; [|exact IH]. apply leaf_keeps; auto. intros c _. apply keeps_lift. auto.
Qed.
(** Pages handed to iterators have the property, too. *)
Definition pageq (r : resp) : Prop := match r with RPage low items high => Q (NLeaf (LBase low items high)) | _ => True end.
Lemma page_keeps c : Q (NLeaf c) -> keeps (pbind (lift (lconsolidate c)) page_resp) pageq.
Proof. intros Hc. apply keeps_liftb. intros c' E. pose proof (w_cons C _ _ Hc E) as H. destruct c'; simpl; auto. Qed.
Lemma fetch_keeps go nav f k : keeps (fetch (traverse_with go nav) f k) pageq.
Proof.
  unfold fetch. eapply keeps_bind; [apply traverse_keeps|]. intros x Hx. apply leaf_keeps; auto. intros c Hc. apply page_keeps. exact Hc.
Qed.
Lemma code_pages f o : match o with
    | OpIns k v | OpCond k v _ => forall ix c, Q (NLeaf c) -> Q (NLeaf (LIns k v ix c))
    | OpDel k v => forall ix c, Q (NLeaf c) -> Q (NLeaf (LDel k v ix c))
    | _ => True end -> keeps (code f o) pageq.
Proof.
  destruct o as [k v|k v|k v pred|k|k|k|]; intros Ho; unfold code.
  - eapply keeps_bind; [apply insert_keeps; auto|]. intros; exact I.
  - eapply keeps_bind; [apply delete_keeps; auto|]. intros; exact I.
  - eapply keeps_bind; [apply cond_keeps; auto|]. intros; exact I.
  - eapply keeps_bind; [apply get_keeps|]. intros; exact I.
  - apply fetch_keeps.
  - apply fetch_keeps.
  - simpl. intros y Hy. destruct (snd y); simpl; auto. apply page_keeps. exact Hy.
Qed.
Lemma code_keeps f o : match o with
    | OpIns k v | OpCond k v _ => forall ix c, Q (NLeaf c) -> Q (NLeaf (LIns k v ix c))
    | OpDel k v => forall ix c, Q (NLeaf c) -> Q (NLeaf (LDel k v ix c))
    | _ => True end -> keeps (code f o) (fun _ => True).
Proof. intros H. eapply keeps_mono; [|apply code_pages, H]. auto. Qed.
End Keeps.

(** * Pending deletes *)
Section Dels.
Context {P : Params}.
(** The page has an unconsolidated delete of the pair. *)
Fixpoint pending_del (c : lchain) (k : K) (v : V) : Prop :=
  match c with
  | LBase _ _ _ => False
  | LIns _ _ _ c | LRemove _ c | LSplit _ _ _ c => pending_del c k v
  | LDel k' v' _ c => (k' = k /\ v' = v) \/ pending_del c k v
  | LMerge _ _ r c => pending_del r k v \/ pending_del c k v
  end.
Definition nodel (k : K) (v : V) (n : node) : Prop := match n with NLeaf c => ~ pending_del c k v | NInner _ => True end.
Lemma nodel_closed k v : closed (nodel k v).
Proof. constructor; simpl; tauto. Qed.
Lemma stored_mem c k v : lwf c -> in_range c k -> ~ pending_del c k v -> stored c k v -> lmem c k v.
Proof.
  induction c as [low items high|k' v' ix c IH|k' v' ix c IH|sk sib n c IH|i c IH|mk i r IHr c IHc]; intros Hw Hr Hd Hs.
  - exact Hs.
  - right. apply IH; auto. apply Hw.
  - simpl in Hd. split; [intros [-> ->]; apply Hd; auto|]. apply IH; auto. apply Hw.
  - simpl in *. destruct c; try (destruct Hw; fail). split; [apply Hr|exact Hs].
  - destruct Hw.
  - pose proof (in_range_merge _ _ _ _ _ Hw Hr) as Hr'. destruct Hw as (H1 & H2 & _). simpl in *. destruct (klt k mk); [apply IHc|apply IHr]; tauto.
Qed.
End Dels.
