(** Traversals create no new keys: every key in a page they install was a key
    of a page before.  Used to bound the number of pages an iterator visits. *)
From Coq Require Import NArith List Arith Lia Bool ZArith.
From Verif Require Import Base SmallSet Bloom Leaf LeafSpec LeafProofs Inner Tree TreeSpec TreeInv.
Import ListNotations.

Section IterKeys.
Context {P : Params}.

Definition okeys (l : option K) : list K := match l with None => [] | Some x => [x] end.
Definition hkeys (h : option (K * nat)) : list K := match h with None => [] | Some (x, _) => [x] end.
Fixpoint lkeys (c : lchain) : list K :=
  match c with
  | LBase low items high => okeys low ++ map fst items ++ hkeys high
  | LIns k _ _ c | LDel k _ _ c | LSplit k _ _ c => k :: lkeys c
  | LRemove _ c => lkeys c
  | LMerge mk _ r c => mk :: lkeys r ++ lkeys c
  end.

Section S.
Variable S0 : list K.
Definition kin (n : node) : Prop := match n with NLeaf c => incl (lkeys c) S0 | NInner _ => True end.
Definition okin (h : option (K * nat)) : Prop := incl (hkeys h) S0.
Definition iin (l : list (K * V)) : Prop := forall x, In x l -> In (fst x) S0.
Definition din (l : list ldata) : Prop := forall d, In d l -> In (d_k d) S0.

Lemma lkeys_high c : incl (lkeys c) S0 -> okin (lhigh c).
Proof.
  induction c as [low items high|k v ix c IH|k v ix c IH|k i n c IH|i c IH|mk i r IHr c IHc]; simpl; intros H; auto.
  - intros x Hx. apply H. apply in_or_app. right. apply in_or_app. auto.
  - apply IH. intros x Hx. apply H. right. auto.
  - apply IH. intros x Hx. apply H. right. auto.
  - intros x [<-|[]]. apply H. left. auto.
  - apply IHr. intros x Hx. apply H. right. apply in_or_app. auto.
Qed.
Lemma lkeys_low c : incl (lkeys c) S0 -> incl (okeys (llow c)) S0.
Proof.
  induction c as [low items high|k v ix c IH|k v ix c IH|k i n c IH|i c IH|mk i r IHr c IHc]; simpl; intros H; auto.
  - intros x Hx. apply H. apply in_or_app. auto.
  - apply IH. intros x Hx. apply H. right. auto.
  - apply IH. intros x Hx. apply H. right. auto.
  - apply IH. intros x Hx. apply H. right. auto.
  - apply IHc. intros x Hx. apply H. right. apply in_or_app. auto.
Qed.

(** * Consolidation *)
Lemma slice_in {B} (l : list B) a b r x : slice l a b = Ok r -> In x r -> In x l.
Proof.
  unfold slice. destruct (_ && _); [|discriminate]. intros E. injection E as <-. intros Hx.
  rewrite <- (firstn_skipn a l). apply in_or_app. right. rewrite <- (firstn_skipn (b - a) (skipn a l)). apply in_or_app. auto.
Qed.
Lemma ldrain_in ci l : forall over o ov rest, din l -> ldrain ci over l = (o, ov, rest) -> iin o /\ din rest.
Proof.
  induction l as [|d l IH]; simpl; intros over o ov rest Hd E.
  - injection E as <- _ <-. split; [intros x []|auto].
  - destruct (d_idx d =? ci).
    + destruct (ldrain ci (over || d_fl d) l) as [[o1 ov1] r1] eqn:E1. injection E as <- _ <-.
      destruct (IH _ _ _ _ (fun y Hy => Hd y (or_intror Hy)) E1) as [A B]. split; auto.
      destruct (d_ins d); auto. intros x [<-|Hx]; [apply Hd; left; auto|auto].
    + injection E as <- _ <-. split; [intros x []|auto].
Qed.
Lemma lloop_in f items : iin items -> forall cs ce l out, din l -> lloop f items cs ce l = Ok out -> iin out.
Proof.
  intros Hi. induction f as [|f IH]; intros cs ce l out Hd E.
  - destruct l as [|d l]; simpl in E; [|discriminate]. intros x Hx. apply Hi. eapply slice_in; eauto.
  - destruct l as [|d l]; simpl in E; [intros x Hx; apply Hi; eapply slice_in; eauto|].
    destruct (_ && _); [|discriminate]. destruct (slice items cs (d_idx d)) as [a|] eqn:Ea; [|discriminate]. cbn [bind] in E.
    destruct (if d_idx d =? d_idx d then _ else _) as [[o ov] rest] eqn:Ed.
    destruct (lloop f items (if ov then S (d_idx d) else d_idx d) ce rest) as [b|] eqn:Eb; [|discriminate]. injection E as <-.
    destruct (ldrain_in (d_idx d) (d :: l) false o ov rest Hd Ed) as [A B].
    intros x Hx. apply in_app_or in Hx as [Hx|Hx]; [apply Hi; eapply slice_in; eauto|].
    apply in_app_or in Hx as [Hx|Hx]; [apply A; auto|]. eapply (IH _ _ _ _ B); eauto.
Qed.
Lemma nodedup_in d x (s : list ldata) : In x (insert_nodedup dlt d s) -> x = d \/ In x s.
Proof.
  unfold insert_nodedup. set (i := first_not _ _). intros H. rewrite <- (firstn_skipn i s).
  apply in_app_or in H as [H|[H|H]]; auto; right; apply in_or_app; auto.
Qed.
Lemma lcollect_in c : forall cap hk s ds o s' ds', incl (lkeys c) S0 -> din s -> lcollect cap hk c s ds = Ok (o, s', ds') -> iin o /\ din s'.
Proof.
  induction c as [low items high|k v ix c IH|k v ix c IH|k i n c IH|i c IH|mk i r IHr c IHc]; simpl; intros cap hk s ds o s' ds' Hk Hd E.
  - set (n := sss_end hk s) in *.
    destruct (lloop _ items 0 _ (firstn n s)) as [out|] eqn:El; [|discriminate]. injection E as <- <- _. split.
    + apply (lloop_in _ items) in El; auto.
      * intros x Hx. apply Hk. apply in_or_app. right. apply in_or_app. left. apply in_map. auto.
      * intros x Hx. apply Hd. rewrite <- (firstn_skipn n s). apply in_or_app. auto.
    + intros x Hx. apply Hd. rewrite <- (firstn_skipn n s). apply in_or_app. auto.
  - assert (Hc : incl (lkeys c) S0) by (intros x Hx; apply Hk; right; auto).
    destruct (pseen (k, v) ds); [eapply IH; eauto|]. destruct (binsert _ _ _ _) as [b|]; [|discriminate]. simpl in E.
    eapply IH; [exact Hc| |exact E]. intros d Hx. apply nodedup_in in Hx as [->|Hx]; [apply Hk; left; auto|auto].
  - assert (Hc : incl (lkeys c) S0) by (intros x Hx; apply Hk; right; auto).
    destruct (pseen (k, v) ds); [eapply IH; eauto|]. destruct (binsert _ _ _ _) as [b|]; [|discriminate]. simpl in E.
    eapply IH; [exact Hc| |exact E]. intros d Hx. apply nodedup_in in Hx as [->|Hx]; [apply Hk; left; auto|auto].
  - eapply IH; [|exact Hd|exact E]. intros x Hx. apply Hk. right. auto.
  - discriminate.
  - assert (Hr : incl (lkeys r) S0) by (intros x Hx; apply Hk; right; apply in_or_app; auto).
    assert (Hc : incl (lkeys c) S0) by (intros x Hx; apply Hk; right; apply in_or_app; auto).
    destruct (lcollect cap (lhigh c) c s ds) as [[[o1 s1] ds1]|] eqn:E1; [|discriminate]. simpl in E.
    destruct (lcollect cap (lhigh r) r s1 ds1) as [[[o2 s2] ds2]|] eqn:E2; [|discriminate]. simpl in E. injection E as <- <- _.
    destruct (IHc _ _ _ _ _ _ _ Hc Hd E1) as [A B]. destruct (IHr _ _ _ _ _ _ _ Hr B E2) as [A' B']. split; auto.
    intros x Hx. apply in_app_or in Hx as [Hx|Hx]; auto.
Qed.
Lemma lconsolidate_in c c' : incl (lkeys c) S0 -> lconsolidate c = Ok c' -> incl (lkeys c') S0.
Proof.
  intros Hk. unfold lconsolidate. destruct (lcollect _ _ c [] empty) as [[[o s] ds]|] eqn:E; [|discriminate]. simpl.
  destruct (_ <? _)%Z; [discriminate|]. destruct (_ =? _)%Z; [|discriminate]. intros Ec. injection Ec as <-.
  destruct (lcollect_in c _ _ _ _ _ _ _ Hk (fun d (F : In d []) => match F with end) E) as [A _].
  simpl. intros x Hx. apply in_app_or in Hx as [Hx|Hx]; [apply (lkeys_low c Hk); auto|].
  apply in_app_or in Hx as [Hx|Hx]; [apply in_map_iff in Hx as (y & <- & Hy); auto|apply (lkeys_high c Hk); auto].
Qed.
Lemma lsplit_in c c' : incl (lkeys c) S0 -> lsplit_sibling c = Ok (Some c') -> incl (lkeys c') S0.
Proof.
  intros Hk. unfold lsplit_sibling. destruct c as [low items high| | | | |]; try discriminate.
  destruct (find_split_point items) as [[i|]|]; try discriminate. simpl. destruct (nth_error items i) as [x|] eqn:E; [|discriminate].
  intros Ec. injection Ec as <-. simpl in *. intros y [<-|Hy].
  - apply Hk. apply in_or_app. right. apply in_or_app. left. apply in_map. eapply nth_error_In; eauto.
  - apply in_app_or in Hy as [Hy|Hy]; apply Hk; apply in_or_app; right; apply in_or_app; [left|auto].
    apply in_map_iff in Hy as (z & <- & Hz). apply in_map. rewrite <- (firstn_skipn i items). apply in_or_app. auto.
Qed.

(** * Programs *)
Fixpoint kp {A} (p : prog A) (Q : A -> Prop) : Prop :=
  match p with
  | Ret a => Q a
  | Err _ => True
  | PLoad i k => forall y, kin (snd y) -> kp (k y) Q
  | Cas i o n k => kin n /\ forall r, kp (k r) Q
  | CasPtr i o n k => forall r, kp (k r) Q
  | LoadRoot k => forall r, kp (k r) Q
  | CasRoot o n k => forall r, kp (k r) Q
  | NewNode n k => kin n /\ forall i, kp (k i) Q
  end.
Definition mkin (m : mem) : Prop := forall p n, heap m p = Some n -> kin n.
Lemma kp_run {A} (p : prog A) Q : forall m m' a, mkin m -> kp p Q -> prun m p = (m', Ok a) -> mkin m' /\ Q a.
Proof.
  induction p as [a|e|i k IH|i old n k IH|i old n k IH|k IH|old n k IH|n k IH]; simpl; intros m m' a' Hm Hp E.
  - injection E as <- <-. auto.
  - discriminate.
  - destruct (get m i) as [[q n]|] eqn:Eg; [|discriminate]. eapply IH; [exact Hm| |exact E]. apply Hp. simpl.
    apply get_tab in Eg. eapply Hm. apply Eg.
  - destruct Hp as [H1 H2]. destruct (tab m i) as [q|]; [destruct (N.eqb q old)|]; (eapply IH; [|apply H2|exact E]); auto.
    intros p1 n1. simpl. unfold pfset. destruct (N.eqb _ _); [intros F; injection F as <-; auto|apply Hm].
  - destruct (tab m i) as [q|]; [destruct (N.eqb q old)|]; (eapply IH; [|apply Hp|exact E]); auto.
  - (eapply IH; [|apply Hp|exact E]); auto.
  - destruct (root m =? old); (eapply IH; [|apply Hp|exact E]); auto.
  - destruct Hp as [H1 H2]. (eapply IH; [|apply H2|exact E]); auto.
    intros p1 n1. simpl. unfold pfset. destruct (N.eqb _ _); [intros F; injection F as <-; auto|apply Hm].
Qed.
Lemma kp_mono {A} (p : prog A) (Q R : A -> Prop) : (forall a, Q a -> R a) -> kp p Q -> kp p R.
Proof.
  intros HQ. induction p as [a|e|i k IH|i old n k IH|i old n k IH|k IH|old n k IH|n k IH]; simpl; auto; intros H; try (split; [apply H|]); intros; apply IH; auto; apply H.
Qed.
Lemma kp_bind {A B} (p : prog A) (f : A -> prog B) Q R : kp p Q -> (forall a, Q a -> kp (f a) R) -> kp (pbind p f) R.
Proof.
  intros Hp Hf. induction p as [a|e|i k IH|i old n k IH|i old n k IH|k IH|old n k IH|n k IH]; simpl in *; auto; try (destruct Hp as [H1 H2]; split; auto).
Qed.
Lemma kp_lift {A} (r : res A) (Q : A -> Prop) : (forall a, r = Ok a -> Q a) -> kp (lift r) Q.
Proof. destruct r; simpl; auto. Qed.
Definition xin (x : ctx) : Prop := kin (s_node (cur x)).
Definition oxin (o : option ctx) : Prop := match o with None => True | Some x => xin x end.

Lemma consolidate_kp s : kin (s_node s) -> kp (consolidate s) (fun s' => kin (s_node s')).
Proof.
  intros Hs. unfold consolidate. eapply (kp_bind _ _ kin).
  - destruct (s_node s) as [c|c]; (eapply kp_bind; [apply kp_lift; intros a E; exact E|]).
    + intros c' E. simpl. eapply lconsolidate_in; eauto.
    + intros c' _. exact I.
  - intros n Hn. simpl. split; auto. intros [p|]; simpl; auto.
Qed.
Lemma try_kp x : xin x -> kp (try_consolidate x) xin.
Proof.
  intros Hx. unfold try_consolidate. destruct (is_delta _); [|exact Hx]. destruct (match s_node (cur x) with NLeaf _ => _ | NInner _ => _ end); [|exact Hx].
  eapply kp_bind; [apply consolidate_kp; exact Hx|]. intros s Hs. exact Hs.
Qed.
Lemma parent_kp s (R : ichain -> Prop) : (forall c, R c) -> kp (parent_inner s) R.
Proof. intros H. unfold parent_inner. destruct (s_node s); simpl; auto. Qed.
Lemma remove_kp ps s n : kin n -> kp (post_remove ps s n) oxin.
Proof.
  intros Hn. unfold post_remove. eapply kp_bind; [apply (parent_kp _ (fun _ => True)); auto|]. intros c _. simpl. split; auto. intros [p|]; simpl; auto.
  split; auto. intros _ []; simpl; auto.
Qed.
Lemma adjust_kp x : xin x -> kp (adjust x) oxin.
Proof.
  intros Hx. unfold adjust, xin in *. destruct (s_node (cur x)) as [[low items high| | | | |]|[d low lid items high| | | | | |]] eqn:En; try (simpl; unfold xin; rewrite En; exact Hx).
  - destruct (_ <=? _); [|destruct (_ <=? _)].
    + eapply kp_bind; [apply kp_lift; intros a E; exact E|]. intros [sc|] E; [|simpl; unfold xin; rewrite En; exact Hx].
      pose proof (lsplit_in _ _ Hx E) as Hs. destruct sc as [[k|] si h| | | | |]; try exact I.
      split; [exact Hs|]. intros i. split.
      * simpl. intros y [<-|Hy]; [apply Hs; left; auto|apply Hx; auto].
      * intros [p|]; simpl; auto. unfold xin. rewrite En. exact Hx.
    + destruct (prt x) as [| |ps]; try exact I. eapply kp_bind; [apply (parent_kp _ (fun _ => True)); auto|]. intros c _.
      destruct (_ =? _); [simpl; unfold xin; rewrite En; exact Hx|]. apply remove_kp. exact Hx.
    + simpl. unfold xin. rewrite En. exact Hx.
  - destruct (_ <=? _); [|destruct (_ <=? _)].
    + eapply kp_bind; [apply (kp_lift _ (fun _ => True)); auto|]. intros sc _. destruct sc as [? [k|] f si ?| | | | | |]; try exact I.
      intros y _. destruct (is_remove _); [simpl; unfold xin; rewrite En; exact I|]. split; [exact I|]. intros i. split; [exact I|]. intros [p|]; simpl; auto. unfold xin. rewrite En. exact I.
    + destruct (prt x) as [| |ps]; try exact I; [simpl; unfold xin; rewrite En; exact I|]. eapply kp_bind; [apply (parent_kp _ (fun _ => True)); auto|]. intros c _.
      destruct (_ =? _); [simpl; unfold xin; rewrite En; exact I|]. apply remove_kp. exact I.
    + simpl. unfold xin. rewrite En. exact I.
Qed.
Lemma left_kp k ps : kp (find_left k ps) (fun _ => True).
Proof.
  unfold find_left. eapply kp_bind; [apply (parent_kp _ (fun _ => True)); auto|]. intros c _. eapply kp_bind; [apply (kp_lift _ (fun _ => True)); auto|]. intros [i|] _; [exact I|].
  eapply kp_bind; [apply (kp_lift _ (fun _ => True)); auto|]. intros c' _. split; [exact I|]. intros o. eapply kp_bind; [apply (kp_lift _ (fun _ => True)); auto|]. intros [i|] _; exact I.
Qed.
Section J.
Variable jump : nat -> ctx -> prog (option ctx).
Hypothesis Hj : forall i x, xin x -> kp (jump i x) oxin.
Lemma jump_left_kp x : xin x -> kp (jump_left jump x) oxin.
Proof.
  intros Hx. unfold jump_left. destruct (prt x) as [| |ps]; try exact I. eapply kp_bind; [apply (parent_kp _ (fun _ => True)); auto|]. intros c _.
  destruct (_ =? _); [exact I|]. intros y _. destruct (N.eqb _ _); [|exact I]. eapply kp_bind; [apply left_kp|]. intros f _. eapply kp_bind; [apply Hj; exact Hx|].
  intros [x'|] Hx'; [|exact I]. destruct (nhigh _) as [[h n]|]; [|exact I]. destruct (_ =? _); [exact Hx'|exact I].
Qed.
Lemma merge_kp x dk di nx : xin x -> kp (finish_merge x dk di nx) oxin.
Proof.
  intros Hx. unfold finish_merge. destruct (prt x) as [| |ps]; try exact I. intros y _. destruct (N.eqb _ _); [|exact I].
  eapply kp_bind; [apply (parent_kp _ (fun _ => True)); auto|]. intros c _. eapply kp_bind; [apply (kp_lift _ (fun _ => True)); auto|]. intros [[[a fi]|] loc] _; [|exact Hx].
  destruct (_ =? _); [|exact I]. split; [exact I|]. intros [p|]; [|exact I]. intros g _. destruct (is_remove _); [|exact I].
  eapply kp_bind; [apply consolidate_kp; exact Hx|]. intros s Hs. exact Hs.
Qed.
Lemma split_kp x k sib nx : xin x -> kp (finish_split x k sib nx) oxin.
Proof.
  intros Hx. unfold finish_split. destruct (prt x) as [| |ps]; [exact I| |].
  - split; [exact I|]. intros i r. exact I.
  - eapply kp_bind; [apply (parent_kp _ (fun _ => True)); auto|]. intros c _. destruct (match ihigh c with Some _ => _ | None => _ end); [exact Hx|].
    eapply kp_bind; [apply (kp_lift _ (fun _ => True)); auto|]. intros [[[a fi]|] loc] _.
    + destruct (_ =? _); [exact Hx|exact I].
    + split; [exact I|]. intros [p|]; [|exact I]. eapply kp_bind; [apply consolidate_kp; exact Hx|]. intros s Hs. exact Hs.
Qed.
Lemma strip_kin s : kin (s_node s) -> kin (s_node (strip_snap s)).
Proof. unfold strip_snap. destruct (s_node s) as [c|c] eqn:E; [rewrite E; auto|]. destruct (strip _ c). intros _. exact I. Qed.
Lemma smo_kp x : xin x -> kp (finish_smo jump x) oxin.
Proof.
  intros Hx0. unfold finish_smo. set (x1 := set_cur x (strip_snap (cur x))). assert (Hx : xin x1) by (apply strip_kin; exact Hx0). clearbody x1. clear Hx0 x.
  unfold xin in Hx. destruct (s_node (cur x1)) as [[| | |k i n c|i rc|mk i r c]|[| | |k i n c|i rc|mk i r c|]] eqn:En; try (simpl; unfold xin; rewrite En; exact Hx).
  - apply split_kp. unfold xin. rewrite En. exact Hx.
  - eapply kp_bind; [apply jump_left_kp; unfold xin; rewrite En; exact Hx|]. intros [x'|] Hx'; [|exact I]. simpl in Hx'. unfold xin in Hx'.
    destruct (s_node (cur x')) as [lc|] eqn:En'; [|exact I]. pose proof (lkeys_high _ Hx') as Hh. destruct (lhigh lc) as [[mk nn]|]; [|exact I].
    assert (Hm : incl (lkeys (LMerge mk (s_id (cur x1)) rc lc)) S0).
    { simpl. intros y [<-|Hy]; [apply Hh; left; auto|]. apply in_app_or in Hy as [Hy|Hy]; [apply Hx; auto|apply Hx'; auto]. }
    split; [exact Hm|]. intros [p|]; [|exact I]. apply merge_kp. exact Hm.
  - apply merge_kp. unfold xin. rewrite En. exact Hx.
  - apply split_kp. unfold xin. rewrite En. exact Hx.
  - eapply kp_bind; [apply jump_left_kp; unfold xin; rewrite En; exact Hx|]. intros [x'|] Hx'; [|exact I].
    destruct (s_node (cur x')) as [|lc] eqn:En'; [exact I|]. destruct (ihigh lc) as [[mk nn]|]; [|exact I]. split; [exact I|]. intros [p|]; [|exact I]. apply merge_kp. exact I.
  - apply merge_kp. unfold xin. rewrite En. exact Hx.
Qed.
Lemma settle_kp x : xin x -> kp (settle jump x) oxin.
Proof.
  intros Hx. unfold settle. eapply kp_bind; [apply smo_kp; exact Hx|]. intros [x'|] Hx'; [|exact I]. eapply kp_bind; [apply try_kp; exact Hx'|]. intros x2 H2. apply adjust_kp. exact H2.
Qed.
End J.
Lemma jump_to_kp f : forall i x, xin x -> kp (jump_to f i x) oxin.
Proof.
  induction f as [|f IH]; intros i x Hx; [exact I|]. cbn [jump_to]. intros y Hy. destruct (_ && _); [|exact I]. apply (settle_kp _ (IH)). exact Hy.
Qed.
Lemma load_kp f k p i : kp (load_node f k p i) oxin.
Proof. unfold load_node. intros y Hy. apply (settle_kp _ (jump_to_kp f)). exact Hy. Qed.
Lemma chain_kp go f : forall x, xin x -> kp (sibling_chain go f x) oxin.
Proof.
  induction f as [|f IH]; intros x Hx; [exact I|]. cbn [sibling_chain]. destruct (nhigh _) as [[h n]|]; [|exact Hx]. destruct (go _ _); [|exact Hx].
  eapply kp_bind; [apply jump_to_kp; exact Hx|]. intros [x'|] Hx'; [|exact I]. apply IH. exact Hx'.
Qed.
Lemma nav_kp go nav f x : xin x -> kp (nav_inner go nav f x) (fun _ => True).
Proof.
  intros Hx. unfold nav_inner. eapply kp_bind; [apply chain_kp; exact Hx|]. intros [x'|] Hx'; [|exact I]. destruct (s_node _); [exact I|].
  eapply kp_bind; [apply (kp_lift _ (fun _ => True)); auto|]. intros i _. exact I.
Qed.
Lemma descend_kp go nav f : forall x, xin x -> kp (descend go nav f x) oxin.
Proof.
  induction f as [|f IH]; intros x Hx; [exact I|]. cbn [descend]. eapply kp_bind; [apply nav_kp; exact Hx|]. intros [[i x']|] _; [|exact I].
  eapply kp_bind; [apply load_kp|]. intros [y|] Hy; [|exact I]. destruct (is_leaf _); [exact Hy|apply IH; exact Hy].
Qed.
Lemma traverse_kp go nav f : forall k, kp (traverse_with go nav f k) xin.
Proof.
  induction f as [|f IH]; intros k; [exact I|]. cbn [traverse_with]. eapply (kp_bind _ _ oxin).
  - unfold attempt. intros r. eapply kp_bind; [apply load_kp|]. intros [x|] Hx; [|exact I]. eapply kp_bind; [apply descend_kp; exact Hx|]. intros [y|] Hy; [|exact I]. apply chain_kp. exact Hy.
  - intros [x|] Hx; [exact Hx|apply IH].
Qed.
Definition page_in (r : resp) : Prop := match r with RPage _ _ high => okin high | _ => True end.
Lemma fetch_kp go nav f k : kp (fetch (traverse_with go nav) f k) page_in.
Proof.
  unfold fetch. eapply kp_bind; [apply traverse_kp|]. intros x Hx. unfold leaf_of. unfold xin in Hx. destruct (s_node (cur x)) as [c|]; [|exact I]. cbn [pbind].
  eapply kp_bind; [apply kp_lift; intros a E; exact E|]. intros c' E. unfold page_resp. pose proof (lconsolidate_in _ _ Hx E) as Hc. apply lkeys_high in Hc. destruct c'; try exact I. exact Hc.
Qed.
Lemma page_keys m f k m' r : mkin m -> prun m (code f (OpPage k)) = (m', Ok r) -> mkin m' /\ page_in r.
Proof. intros Hm E. apply (kp_run _ _ _ _ _ Hm (fetch_kp kge inavigate f k) E). Qed.
End S.

(** All keys of a memory. *)
Definition allkeys (m : mem) : list K :=
  flat_map (fun p => match heap m p with Some (NLeaf c) => lkeys c | _ => [] end) (map N.of_nat (seq 0 (N.to_nat (nptr m)))).
Lemma allkeys_kin m : mbound m -> mkin (allkeys m) m.
Proof.
  intros B p n E. destruct n as [c|c]; [|exact I]. intros x Hx. apply in_flat_map. exists p. rewrite E. split; auto.
  apply in_map_iff. exists (N.to_nat p). split; [lia|]. apply in_seq. destruct (N.lt_ge_cases p (nptr m)); [lia|]. rewrite (b_heap _ B) in E; [discriminate|auto].
Qed.
End IterKeys.
