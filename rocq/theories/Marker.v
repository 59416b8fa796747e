(** While a removal keeps the parent page blocked (InnerAbortNode), nobody else
    replaces that page, and the removal takes its marker off again. *)
From Coq Require Import NArith List Arith Lia Bool ZArith.
From Verif Require Import Base Leaf Inner Tree TreeSpec TreeInv Keeps MarkerSpec.
Import ListNotations.

Section Marker.
Context {P : Params}.

(** * Programs *)
(** The heap cells seen so far. *)
Definition cells := N -> node -> Prop.
Definition cle (w w' : cells) : Prop := forall p n, w p n -> w' p n.
Lemma cle_refl w : cle w w. Proof. intros p n H. exact H. Qed.
Lemma cle_trans a b c : cle a b -> cle b c -> cle a c. Proof. intros A B p n H. apply B, A, H. Qed.
Local Hint Resolve cle_refl : core.
Ltac fl := lazymatch goal with |- cle _ _ => first [assumption | exact (cle_refl _) | eapply cle_trans; [eassumption|]; fl] | _ => assumption end.
Definition unmarked (n : node) : Prop := match n with NInner (IAbort _ _) => False | _ => True end.
Definition live (n : node) : Prop := unmarked n /\ is_remove n = false.
Local Hint Extern 1 (live _) => split; [exact I|reflexivity] : core.
(** What replaces a node: an update on top of it, or a base node. *)
Definition onto (no n : node) : Prop := is_delta n = false \/ child n = Some no.
Definition markok (w : cells) (n : node) : Prop := match n with NInner (IAbort p c) => w p (NInner c) /\ unmarked (NInner c) | _ => True end.
Lemma markok_le w w' n : cle w w' -> markok w n -> markok w' n.
Proof. intros F. destruct n as [|[]]; simpl; auto. intros [A B]. split; auto. Qed.

(** What a thread has to do: nothing in particular; use the page removal it has
    blocked [i] for ([ap] is the marker, [o] what is below); unblock. *)
Inductive duty := Free | Use (i : nat) (ap o : N) | Unblock (i : nat) (ap o : N).
Definition owes (d : duty) : option (nat * N * N) := match d with Free => None | Use i a o | Unblock i a o => Some (i, a, o) end.

Fixpoint duly {A} (p : prog A) (d : duty) (Q : cells -> A -> Prop) (w : cells) : Prop :=
  match d with
  | Free =>
      match p with
      | Ret a => forall w', cle w w' -> Q w' a
      | Err e => True
      | PLoad i k => forall w' p n, cle w w' -> w' p n -> markok w' n -> duly (k (p, n)) Free Q w'
      | Cas i o n k => forall w', cle w w' -> (exists no, w' o no /\ live no /\ onto no n) /\ duly (k None) Free Q w' /\
          ((unmarked n /\ forall p w2, cle w' w2 -> w2 p n -> duly (k (Some p)) Free Q w2) \/
           (exists c, n = NInner (IAbort o c) /\ w' o (NInner c) /\ unmarked (NInner c) /\ forall p w2, cle w' w2 -> duly (k (Some p)) (Use i p o) Q w2))
      | CasPtr i o n k => False
      | LoadRoot k => forall w' r, cle w w' -> duly (k r) Free Q w'
      | CasRoot o n k => forall w' b, cle w w' -> duly (k b) Free Q w'
      | NewNode n k => (unmarked n /\ is_delta n = false) /\ forall w' i, cle w w' -> duly (k i) Free Q w'
      end
  | Use i ap o =>
      match p with
      | Cas j a n k => (exists no, w a no /\ live no /\ onto no n) /\ unmarked n /\ forall r w', cle w w' -> duly (k r) (Unblock i ap o) Q w'
      | _ => False
      end
  | Unblock i ap o =>
      match p with
      | CasPtr j a n k => j = i /\ a = ap /\ n = o /\ forall w', cle w w' -> duly (k true) Free Q w'
      | _ => False
      end
  end.
Lemma duly_le {A} (p : prog A) d Q : forall w w', cle w w' -> duly p d Q w -> duly p d Q w'.
Proof.
  destruct d, p; simpl; intros w w' F H; auto.
  - intros w2 F2. apply H. fl.
  - intros w2 p n F2 H1 H2. apply H; auto. fl.
  - intros w2 F2. apply H. fl.
  - intros w2 r F2. apply H. fl.
  - intros w2 r F2. apply H. fl.
  - destruct H as [H1 H2]. split; auto. intros w2 i F2. apply H2. fl.
  - destruct H as ((no & H1 & H2) & H3 & H4). split; [exists no; auto|]. split; auto. intros r w2 F2. apply H4. fl.
  - destruct H as (H1 & H2 & H3 & H4). repeat (split; auto). intros w2 F2. apply H4. fl.
Qed.
Lemma duly_bind {A B} (p : prog A) (f : A -> prog B) Q Q' : forall d w, duly p d Q w ->
  (forall w' a, cle w w' -> Q w' a -> duly (f a) Free Q' w') -> duly (pbind p f) d Q' w.
Proof.
  induction p as [a|e|i k IH|i old n k IH|i old n k IH|k IH|old n k IH|n k IH]; intros d w Hd Hf; destruct d; simpl in *; auto; try contradiction.
  - intros w' p n F H1 H2. apply IH; auto. intros. apply Hf; auto. fl.
  - intros w' F. destruct (Hd w' F) as (H1 & H2 & H3). split; auto. split; [apply IH; auto; intros; apply Hf; auto; fl|].
    destruct H3 as [[H3 H4]|(c & H3 & H4 & H5 & H6)]; [left|right].
    + split; auto. intros p w2 F2 H. apply IH; auto. intros. apply Hf; auto. fl.
    + exists c. split; auto. split; auto. split; auto. intros p w2 F2. apply IH; auto. intros. apply Hf; auto. fl.
  - destruct Hd as (H1 & H2 & H3). split; auto. split; auto. intros r w' F. apply IH; auto. intros. apply Hf; auto. fl.
  - destruct Hd as (H1 & H2 & H3 & H4). repeat (split; auto). intros w' F. apply IH; auto. intros. apply Hf; auto. fl.
  - intros w' r F. apply IH; auto. intros. apply Hf; auto. fl.
  - intros w' b F. apply IH; auto. intros. apply Hf; auto. fl.
  - destruct Hd as [H1 H2]. split; auto. intros w' i F. apply IH; auto. intros. apply Hf; auto. fl.
Qed.
Lemma duly_lift {A B} (r : res A) (f : A -> prog B) Q w : (forall a, r = Ok a -> duly (f a) Free Q w) -> duly (pbind (lift r) f) Free Q w.
Proof. intros H. destruct r; simpl; auto. Qed.

(** * Contexts *)
Definition raw (w : cells) (s : snap) : Prop := w (s_ptr s) (s_node s) /\ markok w (s_node s).
Definition sok (w : cells) (s : snap) : Prop := w (s_ptr s) (s_node s) /\ live (s_node s).
Definition bare (w : cells) (s : snap) : Prop := w (s_ptr s) (s_node s) /\ unmarked (s_node s).
Definition pok (w : cells) (p : par) : Prop := match p with PNode ps => sok w ps | _ => True end.
Definition xok (w : cells) (x : ctx) : Prop := sok w (cur x) /\ pok w (prt x).
Definition some {A} (X : cells -> A -> Prop) (w : cells) (o : option A) : Prop := match o with Some x => X w x | None => True end.
Lemma sok_le w w' s : cle w w' -> sok w s -> sok w' s. Proof. intros F [A B]. split; auto. Qed.
Lemma pok_le w w' p : cle w w' -> pok w p -> pok w' p. Proof. intros F. destruct p; simpl; auto. apply sok_le, F. Qed.
Lemma xok_le w w' x : cle w w' -> xok w x -> xok w' x.
Proof. intros F [A B]. split; [eapply sok_le; eauto|eapply pok_le; eauto]. Qed.
Lemma sok_ex w w' s n : cle w w' -> sok w s -> onto (s_node s) n -> exists no, w' (s_ptr s) no /\ live no /\ onto no n.
Proof. intros F [A B] C. exists (s_node s). split; auto. Qed.
Lemma onto_base no n : is_delta n = false -> onto no n. Proof. left. auto. Qed.
Lemma onto_child no no' n : no = no' -> child n = Some no' -> onto no n. Proof. intros ->. right. auto. Qed.
Ltac ex := eapply sok_ex; [| eassumption | first [eapply onto_child; [eassumption|reflexivity] | apply onto_base; tauto]]; fl.
Lemma icons_unmarked d c c' : iconsolidate d c = Ok c' -> live (NInner c') /\ is_delta (NInner c') = false.
Proof.
  unfold iconsolidate. destruct (icollect _ _ _ _ _) as [[out b]|]; simpl; [|discriminate]. destruct (_ <? _)%Z; [discriminate|].
  destruct (_ =? _)%Z; [|discriminate]. intros E. injection E as <-. split; auto.
Qed.

Lemma cons_duly s w : sok w s -> duly (consolidate s) Free sok w.
Proof.
  intros Hs. unfold consolidate. apply duly_bind with (Q := fun _ n => live n /\ is_delta n = false).
  - destruct (s_node s) as [c|c]; apply duly_lift; intros c' E w' F; simpl; [|apply (icons_unmarked _ _ _ E)].
    destruct (lcons_base _ _ E) as (? & ? & ? & ->). auto.
  - intros w1 n F1 Hn w2 F2. assert (F : cle w w2) by fl. split; [ex|]. split; [intros w3 F3; eapply sok_le; [|exact Hs]; fl|].
    left. split; [apply Hn|]. intros p w3 F3 H w4 F4. split; simpl; auto. apply Hn.
Qed.
Lemma try_duly x w : xok w x -> duly (try_consolidate x) Free xok w.
Proof.
  intros H. unfold try_consolidate. assert (S0 : duly (Ret x) Free xok w) by (intros w' F; eapply xok_le; eauto). destruct (is_delta _); [|exact S0].
  destruct (match s_node (cur x) with NLeaf c => _ | NInner c => _ end); [|exact S0]. destruct H as [H1 H2].
  eapply duly_bind; [apply cons_duly; exact H1|]. intros w1 s F1 Hs w2 F2. split; simpl; [eapply sok_le; eauto|]. eapply pok_le; [|exact H2]. fl.
Qed.
Lemma parent_duly {A} s (f : ichain -> prog A) Q w : (forall c, s_node s = NInner c -> duly (f c) Free Q w) -> duly (pbind (parent_inner s) f) Free Q w.
Proof. intros Hf. unfold parent_inner. destruct (s_node s); simpl; auto. Qed.
Lemma none_duly {A} (X : cells -> A -> Prop) w : duly (Ret None) Free (some X) w. Proof. intros w' _. exact I. Qed.
Lemma xok_duly w x : xok w x -> duly (Ret (Some x)) Free (some xok) w. Proof. intros H w' F. eapply xok_le; eauto. Qed.

Lemma post_remove_duly ps s rm (Q : cells -> option ctx -> Prop) w : sok w ps -> sok w s -> unmarked rm -> child rm = Some (s_node s) -> (forall w', Q w' None) -> duly (post_remove ps s rm) Free Q w.
Proof.
  intros Hp Hs Hr Hch HQ. unfold post_remove. apply parent_duly. intros c Ec. intros w1 F1. split; [ex|]. split; [intros w2 _; apply HQ|].
  right. exists c. split; auto. pose proof (sok_le _ _ _ F1 Hp) as [Ha Hb]. rewrite Ec in Ha, Hb. split; auto. split; [apply Hb|].
  intros p w2 F2. split; [eapply (sok_ex w); [fl|auto|right; exact Hch]|]. split; auto. intros r w3 F3. repeat (split; auto). intros w4 F4 w5 F5. apply HQ.
Qed.
Lemma adjust_duly x w : xok w x -> duly (adjust x) Free (some xok) w.
Proof.
  intros Hx. pose proof (xok_duly _ _ Hx) as Hsame. unfold adjust. destruct Hx as [Hc Hp].
  destruct (s_node (cur x)) as [[low items high| | | | |]|[d low lid items high| | | | | |]] eqn:En; try exact Hsame.
  - destruct (LEAF_SIZE_UPPER <=? length items).
    + apply duly_lift. intros [[[kk|] si hh| | | | |]|] _; try exact I; [|exact Hsame]. split; [split; [exact I|reflexivity]|]. intros w1 i F1 w2 F2. assert (F : cle w w2) by fl.
      split; [ex|]. split; [eapply duly_le; eauto|]. left. split; [exact I|]. intros. apply none_duly.
    + destruct (length items <=? LEAF_SIZE_LOWER); [|exact Hsame]. destruct (prt x) as [| |ps] eqn:Ep; try exact I.
      apply parent_duly. intros c _. destruct (ilid c =? s_id (cur x)); [exact Hsame|]. apply post_remove_duly; auto; [exact I|rewrite En; reflexivity|intros; exact I].
  - destruct (INNER_SIZE_UPPER <=? length items).
    + apply duly_lift. intros [d' [kk|] first si hh| | | | | |] _; try exact I. intros w1 p n F1 _ _. cbn [snd]. destruct (is_remove n); [eapply duly_le; eauto|].
      split; [split; [exact I|reflexivity]|]. intros w2 i F2 w3 F3. assert (F : cle w w3) by fl. split; [ex|]. split; [eapply duly_le; eauto|]. left. split; [exact I|]. intros. apply none_duly.
    + destruct (length items <=? INNER_SIZE_LOWER); [|exact Hsame]. destruct (prt x) as [| |ps] eqn:Ep; [exact I|exact Hsame|].
      apply parent_duly. intros c _. destruct (ilid c =? s_id (cur x)); [exact Hsame|]. apply post_remove_duly; auto; [exact I|rewrite En; reflexivity|intros; exact I].
Qed.
Lemma find_left_duly k ps w : sok w ps -> duly (find_left k ps) Free (fun w f => sok w (snd f)) w.
Proof.
  intros Hp. unfold find_left. apply parent_duly. intros c Ec. apply duly_lift. intros [i|] _. { intros w1 F1. eapply sok_le; eauto. }
  apply duly_lift. intros c' E'. pose proof (icons_unmarked _ _ _ E') as Hu. intros w1 F1. split; [ex|]. split; [|left; split; [apply Hu|intros p w2 F2 H]].
  - apply duly_lift. intros [i|] _; [|exact I]. intros w3 F3. eapply sok_le; [|exact Hp]. fl.
  - apply duly_lift. intros [i|] _; [|exact I]. intros w3 F3. split; simpl; auto. apply Hu.
Qed.
Definition jduly (jump : nat -> ctx -> prog (option ctx)) : Prop := forall w i x, pok w (prt x) -> duly (jump i x) Free (some xok) w.
Lemma jump_left_duly jump x w : jduly jump -> pok w (prt x) -> duly (jump_left jump x) Free (some xok) w.
Proof.
  intros Hj Hp. unfold jump_left. destruct (prt x) as [| |ps] eqn:Ep; try exact I. apply parent_duly. intros c _. destruct (ilid c =? s_id (cur x)); [apply none_duly|].
  intros w1 p n F1 _ _. destruct (N.eqb (fst (p, n)) (s_ptr ps)); [|apply none_duly].
  eapply duly_bind; [apply find_left_duly; eapply sok_le; eauto|]. intros w2 f F2 Hf. eapply duly_bind; [apply Hj; exact Hf|]. intros w3 [x'|] F3 Hx'; [|apply none_duly].
  destruct (nhigh (s_node (cur x'))) as [[h m]|]; [|apply none_duly]. destruct (m =? s_id (cur x)); [|apply none_duly]. apply xok_duly. exact Hx'.
Qed.
Lemma finish_merge_duly x dk di nx w : xok w x -> duly (finish_merge x dk di nx) Free (some xok) w.
Proof.
  intros Hx. unfold finish_merge. destruct (prt x) as [| |ps] eqn:Ep; try exact I. pose proof Hx as [Hc Hp]. rewrite Ep in Hp. intros w1 q n F1 _ _.
  destruct (N.eqb (fst (q, n)) (s_ptr ps)); [|apply none_duly]. apply parent_duly. intros c Ec. apply duly_lift. intros [[[a fi]|] loc] _; [|apply xok_duly; eapply xok_le; eauto].
  destruct (fi =? di); [|exact I]. intros w2 F2. split; [ex|]. split; [apply none_duly|]. left. split; [exact I|].
  intros p w3 F3 H3 w4 p' n' F4 _ _. cbn [snd]. destruct (is_remove n'); [|exact I].
  eapply duly_bind; [apply cons_duly; eapply sok_le; [|exact Hc]; fl|]. intros w5 s F5 Hs w6 F6. split; simpl; [eapply sok_le; eauto|]. split; simpl; auto.
Qed.
Lemma finish_split_duly x k sib nx w : xok w x -> duly (finish_split x k sib nx) Free (some xok) w.
Proof.
  intros Hx. unfold finish_split. pose proof Hx as [Hc Hp]. destruct (prt x) as [| |ps] eqn:Ep; [exact I| |].
  - split; [split; [exact I|reflexivity]|]. intros w1 i F1 w2 b F2. apply none_duly.
  - apply parent_duly. intros c Ec. destruct (match ihigh c with Some (h, _) => kge k h | None => false end); [apply xok_duly; exact Hx|]. apply duly_lift.
    intros [[[a fi]|] loc] _; [destruct (fi =? sib); [apply xok_duly; exact Hx|apply none_duly]|]. intros w1 F1. split; [ex|]. split; [apply none_duly|].
    left. split; [exact I|]. intros p w2 F2 H2. eapply duly_bind; [apply cons_duly; eapply sok_le; [|exact Hc]; fl|]. intros w5 s F5 Hs w6 F6. split; simpl; [eapply sok_le; eauto|]. split; simpl; auto.
Qed.
Lemma strip_raw w s : raw w s -> bare w (strip_snap s).
Proof.
  intros [H1 H2]. unfold strip_snap. destruct s as [i p [c|c]]; cbn [s_node s_ptr s_id] in *; [split; auto; exact I|].
  destruct c as [| | | | | |p' c]; cbn [strip]; try (split; [exact H1|exact I]). destruct H2 as [H2 H3]. destruct c; simpl in H3; try contradiction; split; auto; exact I.
Qed.
Lemma finish_smo_duly jump x w : jduly jump -> raw w (cur x) -> pok w (prt x) -> duly (finish_smo jump x) Free (some xok) w.
Proof.
  intros Hj Hs Hp. pose proof (strip_raw _ _ Hs) as Hs'. unfold finish_smo. set (y := set_cur x (strip_snap (cur x))) in *.
  assert (Hy : bare w (cur y) /\ pok w (prt y)) by (split; auto). clearbody y. destruct Hy as [Hby Hpy].
  destruct (is_remove (s_node (cur y))) eqn:Er.
  - destruct (s_node (cur y)) as [[]|[]] eqn:En; try discriminate.
    + eapply duly_bind; [apply jump_left_duly; auto|]. intros w1 [x'|] F1 Hx'; [|apply none_duly]. destruct (s_node (cur x')) as [lc|] eqn:El; [|exact I]. destruct (lhigh lc) as [[mk ?]|]; [|exact I].
      destruct Hx' as [Hc' Hp']. intros w2 F2. split; [ex|]. split; [apply none_duly|]. left. split; [exact I|]. intros p w3 F3 H3.
      apply finish_merge_duly. split; [split; simpl; auto|]. simpl. eapply pok_le; [|exact Hp']. fl.
    + eapply duly_bind; [apply jump_left_duly; auto|]. intros w1 [x'|] F1 Hx'; [|apply none_duly]. destruct (s_node (cur x')) as [|lc] eqn:El; [exact I|]. destruct (ihigh lc) as [[mk ?]|]; [|exact I].
      destruct Hx' as [Hc' Hp']. intros w2 F2. split; [ex|]. split; [apply none_duly|]. left. split; [exact I|]. intros p w3 F3 H3.
      apply finish_merge_duly. split; [split; simpl; auto|]. simpl. eapply pok_le; [|exact Hp']. fl.
  - assert (Hy : xok w y) by (destruct Hby as [Ha Hb]; split; auto; split; auto; split; auto).
    destruct (s_node (cur y)) as [[]|[]] eqn:En; try discriminate; try (apply xok_duly; exact Hy); try (apply finish_merge_duly; exact Hy); try (apply finish_split_duly; exact Hy).
Qed.
Lemma settle_duly jump x w : jduly jump -> raw w (cur x) -> pok w (prt x) -> duly (settle jump x) Free (some xok) w.
Proof.
  intros Hj Hs Hp. unfold settle. eapply duly_bind; [apply finish_smo_duly; auto|]. intros w1 [x'|] F1 Hx'; [|apply none_duly]. eapply duly_bind; [apply try_duly; exact Hx'|]. intros w2 x'' F2 Hx''. apply adjust_duly. exact Hx''.
Qed.
Lemma jump_duly f : jduly (jump_to f).
Proof.
  induction f as [|f IH]; intros w i x Hp; [exact I|]. intros w1 p n F1 H1 H2. cbn [fst snd]. destruct (_ && _); [|exact I]. apply settle_duly; auto; [split; auto|eapply pok_le; eauto].
Qed.
Lemma load_duly f k p i w : pok w p -> duly (load_node f k p i) Free (some xok) w.
Proof. intros Hp w1 q n F1 H1 H2. cbn [fst snd]. apply settle_duly; [apply jump_duly|split; auto|eapply pok_le; eauto]. Qed.
Lemma chain_duly go f : forall x w, xok w x -> duly (sibling_chain go f x) Free (some xok) w.
Proof.
  induction f as [|f IH]; intros x w Hx; [exact I|]. cbn [sibling_chain]. destruct (nhigh (s_node (cur x))) as [[h n]|]; [|apply xok_duly; exact Hx]. destruct (go (key x) h); [|apply xok_duly; exact Hx].
  eapply duly_bind; [apply jump_duly; apply Hx|]. intros w1 [x'|] F1 Hx'; [|apply none_duly]. apply IH. exact Hx'.
Qed.
Lemma nav_duly go nav f x w : xok w x -> duly (nav_inner go nav f x) Free (some (fun w y => xok w (snd y))) w.
Proof.
  intros Hx. unfold nav_inner. eapply duly_bind; [apply chain_duly; exact Hx|]. intros w1 [x'|] F1 Hx'; [|apply none_duly]. destruct (s_node (cur x')); [exact I|]. apply duly_lift. intros i _ w2 F2. simpl. eapply xok_le; eauto.
Qed.
Lemma descend_duly go nav f : forall x w, xok w x -> duly (descend go nav f x) Free (some xok) w.
Proof.
  induction f as [|f IH]; intros x w Hx; [exact I|]. cbn [descend]. eapply duly_bind; [apply nav_duly; exact Hx|]. intros w1 [[i x']|] F1 Hx'; [|apply none_duly].
  eapply duly_bind; [apply load_duly; apply Hx'|]. intros w2 [y|] F2 Hy; [|apply none_duly]. destruct (is_leaf _); [apply xok_duly; exact Hy|]. apply IH. exact Hy.
Qed.
Lemma attempt_duly go nav f k w : duly (attempt go nav f k) Free (some xok) w.
Proof.
  intros w1 r F1. eapply duly_bind; [apply load_duly; exact I|]. intros w2 [x|] F2 Hx; [|apply none_duly].
  eapply duly_bind; [apply descend_duly; exact Hx|]. intros w3 [z|] F3 Hz; [|apply none_duly]. apply chain_duly. exact Hz.
Qed.
Lemma traverse_duly go nav f : forall k w, duly (traverse_with go nav f k) Free xok w.
Proof.
  induction f as [|f IH]; intros k w; [exact I|]. cbn [traverse_with]. eapply duly_bind; [apply attempt_duly|]. intros w1 [x|] F1 Hx; [|apply IH]. intros w2 F2. eapply xok_le; eauto.
Qed.
Lemma leaf_duly {A} x (f : lchain -> prog A) Q w : (forall c, s_node (cur x) = NLeaf c -> duly (f c) Free Q w) -> duly (pbind (leaf_of x) f) Free Q w.
Proof. intros Hf. unfold leaf_of. destruct (s_node (cur x)); simpl; auto. Qed.
Definition any {A} (w : cells) (a : A) : Prop := True.
Lemma insert_duly f k v : forall w, duly (insert f k v) Free any w.
Proof.
  induction f as [|f IH]; intros w; [exact I|]. cbn [insert]. eapply duly_bind; [apply traverse_duly|]. intros w1 x F1 [Hx _]. apply leaf_duly. intros c Ec. apply duly_lift. intros r _.
  destruct (fst r); [intros w2 _; exact I|]. intros w2 F2. split; [ex|]. split; [apply IH|]. left. split; [exact I|]. intros p w3 F3 _ w4 F4. exact I.
Qed.
Lemma delete_duly f k v : forall w, duly (delete f k v) Free any w.
Proof.
  induction f as [|f IH]; intros w; [exact I|]. cbn [delete]. eapply duly_bind; [apply traverse_duly|]. intros w1 x F1 [Hx _]. apply leaf_duly. intros c Ec. apply duly_lift. intros r _.
  destruct (fst r); [|intros w2 _; exact I]. intros w2 F2. split; [ex|]. split; [apply IH|]. left. split; [exact I|]. intros p w3 F3 _ w4 F4. exact I.
Qed.
Lemma cond_duly f k v pred : forall w, duly (cond_insert f k v pred) Free any w.
Proof.
  induction f as [|f IH]; intros w; [exact I|]. cbn [cond_insert]. eapply duly_bind; [apply traverse_duly|]. intros w1 x F1 [Hx _]. apply leaf_duly. intros c Ec. apply duly_lift. intros [| |ix] _; try (intros w2 _; exact I).
  intros w2 F2. split; [ex|]. split; [apply IH|]. left. split; [exact I|]. intros p w3 F3 _ w4 F4. exact I.
Qed.
Lemma load_ro_duly k i w : duly (load_ro k i) Free (some xok) w.
Proof.
  intros w1 p n F1 H1 H2. cbn [fst snd]. match goal with |- duly (if is_remove (s_node ?s) then _ else _) _ _ _ => set (s1 := s) end. destruct (is_remove (s_node s1)) eqn:Er; [apply none_duly|].
  apply xok_duly. split; [|exact I]. destruct (strip_raw w1 {| s_id := i; s_ptr := p; s_node := n |}) as [Ha Hb]; [split; auto|]. split; auto. split; auto.
Qed.
Lemma descend_ro_duly f : forall x w, xok w x -> duly (descend_ro f x) Free (some xok) w.
Proof.
  induction f as [|f IH]; intros x w Hx; [exact I|]. cbn [descend_ro]. eapply duly_bind; [apply nav_duly; exact Hx|]. intros w1 [[i x']|] F1 _; [|apply none_duly].
  eapply duly_bind; [apply load_ro_duly|]. intros w2 [y|] F2 Hy; [|apply none_duly]. destruct (is_leaf _); [apply chain_duly; exact Hy|apply IH; exact Hy].
Qed.
Lemma get_duly f k : forall w, duly (get_value f k) Free any w.
Proof.
  induction f as [|f IH]; intros w; [exact I|]. cbn [get_value]. intros w1 r F1. eapply duly_bind; [apply load_ro_duly|]. intros w2 [x|] F2 Hx; [|apply IH].
  eapply duly_bind; [apply descend_ro_duly; exact Hx|]. intros w3 [y|] F3 Hy; [|apply IH]. apply leaf_duly. intros c Ec. destruct (lvalues k c); simpl; auto. intros; exact I.
Qed.
Lemma page_duly c w : duly (pbind (lift (lconsolidate c)) page_resp) Free any w.
Proof. apply duly_lift. intros [] _; simpl; auto. intros; exact I. Qed.
Lemma fetch_duly go nav f k w : duly (fetch (traverse_with go nav) f k) Free any w.
Proof. unfold fetch. eapply duly_bind; [apply traverse_duly|]. intros w1 x F1 Hx. apply leaf_duly. intros c Ec. apply page_duly. Qed.
Lemma code_duly f o w : duly (code f o) Free any w.
Proof.
  destruct o as [k v|k v|k v pred|k|k|k|]; unfold code.
  - eapply duly_bind; [apply insert_duly|]. intros w1 b F1 _ w2 F2. exact I.
  - eapply duly_bind; [apply delete_duly|]. intros w1 b F1 _ w2 F2. exact I.
  - eapply duly_bind; [apply cond_duly|]. intros w1 b F1 _ w2 F2. exact I.
  - eapply duly_bind; [apply get_duly|]. intros w1 b F1 _ w2 F2. exact I.
  - apply fetch_duly.
  - apply fetch_duly.
  - intros w1 p n F1 _ _. cbn [snd]. destruct n; [apply page_duly|exact I].
Qed.
(** * Executions *)
Definition cw (m : mem) : cells := fun p n => heap m p = Some n.
Record minv (s : sys) (D : nat -> duty) : Prop := {
  mi_run : forall t o p, running s t = Some (o, p) -> duly p (D t) any (cw (sm s));
  mi_idle : forall t, running s t = None -> D t = Free;
  mi_hold : forall t i a o, owes (D t) = Some (i, a, o) -> tab (sm s) i = Some a /\ exists c, heap (sm s) a = Some (NInner (IAbort o c));
  mi_mark : forall i a o c, tab (sm s) i = Some a -> heap (sm s) a = Some (NInner (IAbort o c)) -> exists t, owes (D t) = Some (i, a, o);
  mi_one : forall t u i a o a' o', owes (D t) = Some (i, a, o) -> owes (D u) = Some (i, a', o') -> t = u;
  mi_heap : forall p n, heap (sm s) p = Some n -> markok (cw (sm s)) n /\ (p < nptr (sm s))%N;
  mi_tab : forall i p, tab (sm s) i = Some p -> i < nid (sm s) /\ exists n, heap (sm s) p = Some n
}.
Lemma minv_init : minv sinit (fun _ => Free).
Proof.
  split; simpl; try discriminate; auto.
  - intros [|[|[]]] a o c E; inversion E; subst; simpl; discriminate.
  - intros [|[q|q|]] n E; inversion E; subst; simpl; split; auto; lia.
  - intros [|[|[]]] p E; try discriminate; injection E as <-; split; eauto; lia.
Qed.
Lemma duly_cont {A} (p : prog A) d w w' : cle w w' -> duly p d any w -> duly p d any w'. Proof. apply duly_le. Qed.

(** Steps that do not touch table and heap. *)
Lemma minv_same s D m' t d x : minv s D -> heap m' = heap (sm s) -> nptr m' = nptr (sm s) -> tab m' = tab (sm s) -> nid m' = nid (sm s) ->
  owes d = owes (D t) -> match x with Some (o, p) => duly p d any (cw (sm s)) | None => d = Free end ->
  minv {| sm := m'; running := tset (running s) t x |} (tset D t d).
Proof.
  intros [H1 H2 H3 H4 H5 H6 H7] E1 E2 E3 E4 Ed Hp.
  assert (Ho : forall u, owes (tset D t d u) = owes (D u)) by (intros u; unfold tset; destruct (u =? t) eqn:Eu; auto; apply Nat.eqb_eq in Eu; subst; auto).
  split; cbn [sm running]; try rewrite E1; try rewrite E2; try rewrite E3; try rewrite E4; auto.
  - intros u o' p' E. unfold cw. rewrite E1. unfold tset in *. destruct (u =? t) eqn:Eu; [subst x; exact Hp|eapply H1; exact E].
  - intros u E. unfold tset in *. destruct (u =? t); [subst x; exact Hp|auto].
  - intros u i a o'. rewrite Ho. apply H3.
  - intros i a o' c Ha Hc. destruct (H4 _ _ _ _ Ha Hc) as [u Hu]. exists u. rewrite Ho. exact Hu.
  - intros u v i a q a' q'. rewrite !Ho. apply H5.
  - intros q n E. destruct (H6 q n E) as [Ha Hb]. split; auto. unfold cw. rewrite E1. exact Ha.
Qed.
(** A node is allocated and put under [i], which nobody holds. *)
Lemma minv_put s D m' t i o n d p : minv s D ->
  heap m' = pfset (heap (sm s)) (nptr (sm s)) n -> nptr m' = N.succ (nptr (sm s)) -> tab m' = fset (tab (sm s)) i (nptr (sm s)) -> i < nid m' -> nid (sm s) <= nid m' ->
  (forall u a q, u <> t -> owes (D u) = Some (i, a, q) -> False) ->
  (forall j a q, owes d = Some (j, a, q) -> (j = i /\ a = nptr (sm s) /\ exists c, n = NInner (IAbort q c)) \/ (j <> i /\ owes (D t) = Some (j, a, q))) ->
  (forall j a q, owes (D t) = Some (j, a, q) -> owes d = Some (j, a, q)) ->
  markok (cw (sm s)) n -> (forall q c, n = NInner (IAbort q c) -> owes d = Some (i, nptr (sm s), q)) ->
  duly p d any (cw m') ->
  minv {| sm := m'; running := tset (running s) t (Some (o, p)) |} (tset D t d).
Proof.
  intros [H1 H2 H3 H4 H5 H6 H7] E1 E2 E3 E4 E5 Hfree Hd Hdt Hn Hnd Hp.
  assert (HF : cle (cw (sm s)) (cw m')).
  { intros q x Hq. unfold cw in *. rewrite E1. rewrite pfset_ne; auto. intros ->. apply H6 in Hq as [_ Hq]. lia. }
  split; cbn [sm running].
  - intros u o' p' E. unfold tset in *. destruct (u =? t) eqn:Eu; [injection E as <- <-; exact Hp|]. eapply duly_le; [exact HF|eapply H1; exact E].
  - intros u E. unfold tset in *. destruct (u =? t); [discriminate|auto].
  - intros u j a q E. unfold tset in E. destruct (u =? t) eqn:Eu.
    + destruct (Hd _ _ _ E) as [(-> & -> & c & ->)|[Hj E']].
      * rewrite E3, fset_eq. split; auto. exists c. rewrite E1. apply pfset_eq.
      * destruct (H3 _ _ _ _ E') as [Ha [c Hc]]. rewrite E3, fset_ne by auto. split; auto. exists c. apply HF, Hc.
    + apply Nat.eqb_neq in Eu. destruct (H3 _ _ _ _ E) as [Ha [c Hc]]. rewrite E3. destruct (Nat.eq_dec j i) as [->|Hj]; [exfalso; eapply Hfree; eauto|].
      rewrite fset_ne by auto. split; auto. exists c. apply HF, Hc.
  - intros j a q c Ha Hc. rewrite E3 in Ha. destruct (Nat.eq_dec j i) as [->|Hj].
    + rewrite fset_eq in Ha. injection Ha as <-. rewrite E1, pfset_eq in Hc. injection Hc as Hc. exists t. unfold tset. rewrite Nat.eqb_refl. eapply Hnd; eauto.
    + rewrite fset_ne in Ha by auto. rewrite E1 in Hc. destruct (N.eq_dec a (nptr (sm s))) as [->|Hne].
      * apply H7 in Ha as [_ [x Ha]]. apply H6 in Ha as [_ Ha]. lia.
      * rewrite pfset_ne in Hc by auto. destruct (H4 _ _ _ _ Ha Hc) as [u Hu]. exists u. unfold tset. destruct (u =? t) eqn:Eu; auto. apply Nat.eqb_eq in Eu; subst u. auto.
  - intros u v j a q a' q' Hu Hv. unfold tset in *. destruct (u =? t) eqn:Eu, (v =? t) eqn:Ev; try (apply Nat.eqb_eq in Eu); try (apply Nat.eqb_eq in Ev); try congruence.
    + apply Nat.eqb_neq in Ev. subst u. destruct (Hd _ _ _ Hu) as [(-> & _)|[_ E']]; [exfalso; eapply Hfree; eauto|]. eapply H5; eauto.
    + apply Nat.eqb_neq in Eu. subst v. destruct (Hd _ _ _ Hv) as [(-> & _)|[_ E']]; [exfalso; eapply Hfree; eauto|]. eapply H5; eauto.
    + eapply H5; eauto.
  - intros q x E. rewrite E1 in E. destruct (N.eq_dec q (nptr (sm s))) as [->|Hne].
    + rewrite pfset_eq in E. injection E as <-. split; [eapply markok_le; eauto|lia].
    + rewrite pfset_ne in E by auto. destruct (H6 _ _ E) as [Ha Hb]. split; [eapply markok_le; eauto|lia].
  - intros j q E. rewrite E3 in E. destruct (Nat.eq_dec j i) as [->|Hj]; [rewrite fset_eq in E; injection E as <-; split; auto; exists n; rewrite E1; apply pfset_eq|]. rewrite fset_ne in E by auto. apply H7 in E as [Ea [x Ex]]. split; [lia|]. exists x. apply HF, Ex.
Qed.
Lemma held_marked s D t i a o n : minv s D -> owes (D t) = Some (i, a, o) -> tab (sm s) i = Some a /\ (heap (sm s) a = Some n -> unmarked n -> False).
Proof. intros H E. destruct (mi_hold _ _ H _ _ _ _ E) as [Ha [c Hc]]. split; auto. intros E'. rewrite Hc in E'. injection E' as <-. auto. Qed.
Lemma minv_step s D e s' : minv s D -> sstep s e s' -> exists D', minv s' D'.
Proof.
  intros H Hs. destruct Hs as [s t o fuel Hr|s t o p Hr Hnr Hne|s t o r Hr].
  - exists (tset D t Free). apply minv_same; auto; [rewrite (mi_idle _ _ H _ Hr); auto|]. apply code_duly.
  - pose proof (mi_run _ _ H _ _ _ Hr) as Hp. destruct (D t) as [|i a q|i a q] eqn:Ed.
    + destruct p as [r|er|i k|i old n k|i old n k|k|old n k|n k]; cbn [pstep].
      * destruct (Hnr r); auto.
      * destruct (Hne er); auto.
      * unfold get. destruct (tab (sm s) i) as [x|] eqn:Et; [|exists (tset D t Free); cbn [fst snd]; apply minv_same; auto; [rewrite Ed; auto|exact I]].
        destruct (heap (sm s) x) as [n|] eqn:Eh; exists (tset D t Free); cbn [fst snd]; apply minv_same; auto; try (rewrite Ed; auto; fail); [|exact I].
        apply Hp; auto. apply (mi_heap _ _ H _ _ Eh).
      * simpl in Hp. destruct (Hp _ (cle_refl _)) as ((no & Hno & Hu & Hon) & Hf & Hc). 
        destruct (tab (sm s) i) as [x|] eqn:Et; [|exists (tset D t Free); cbn [fst snd]; apply minv_same; auto; rewrite Ed; auto].
        destruct (N.eqb x old) eqn:Ex; [|exists (tset D t Free); cbn [fst snd]; apply minv_same; auto; rewrite Ed; auto]. apply N.eqb_eq in Ex. subst x.
        assert (Hfr : forall u a q, u <> t -> owes (D u) = Some (i, a, q) -> False).
        { intros u a q _ Hh. destruct (held_marked _ _ _ _ _ _ no H Hh) as [Ha Hb]. rewrite Et in Ha. injection Ha as ->. apply Hb; [auto|apply Hu]. }
        destruct (mi_tab _ _ H _ _ Et) as [Hi _]. 
        assert (Hle : forall n', cle (cw (sm s)) (cw {| heap := pfset (heap (sm s)) (nptr (sm s)) n'; nptr := N.succ (nptr (sm s)); tab := fset (tab (sm s)) i (nptr (sm s)); nid := nid (sm s); root := root (sm s) |})).
        { intros n' q y Hq. unfold cw in *. cbn [heap]. rewrite pfset_ne; auto. intros ->. apply (mi_heap _ _ H) in Hq as [_ Hq]. lia. }
        cbn [fst snd]. destruct Hc as [[Hn Hk]|(c & -> & Hcc & Huc & Hk)].
        -- exists (tset D t Free). eapply minv_put; eauto; cbn [heap nptr tab nid]; auto.
           ++ intros; discriminate.
           ++ rewrite Ed. intros; discriminate.
           ++ destruct n as [|[]]; simpl in *; auto; contradiction.
           ++ intros q c ->. contradiction.
           ++ apply Hk; [apply Hle|]. apply pfset_eq.
        -- exists (tset D t (Use i (nptr (sm s)) old)). eapply minv_put; eauto; cbn [heap nptr tab nid]; auto.
           ++ simpl. intros j a q E. injection E as <- <- <-. left. split; auto. split; auto. eauto.
           ++ rewrite Ed. intros; discriminate.
           ++ split; auto.
           ++ simpl. intros q c' E. injection E as -> _. auto.
      * contradiction.
      * exists (tset D t Free). cbn [fst snd]. apply minv_same; auto; try (rewrite Ed; auto; fail); apply Hp; auto.
      * destruct (root (sm s) =? old); exists (tset D t Free); cbn [fst snd]; apply minv_same; auto; try (rewrite Ed; auto; fail); apply Hp; auto.
      * destruct Hp as [[Hn _] Hk]. exists (tset D t Free). cbn [fst snd]. eapply minv_put; eauto; cbn [heap nptr tab nid]; auto.
        -- intros u a q _ Hh. destruct (mi_hold _ _ H _ _ _ _ Hh) as [Ha _]. apply (mi_tab _ _ H) in Ha. lia.
        -- intros; discriminate.
        -- rewrite Ed. intros; discriminate.
        -- destruct n as [|[]]; simpl in *; auto; contradiction.
        -- intros q c ->. contradiction.
        -- apply Hk. intros q y Hq. unfold cw in *. cbn [heap]. rewrite pfset_ne; auto. intros ->. apply (mi_heap _ _ H) in Hq as [_ Hq]. lia.
    + assert (Hh : owes (D t) = Some (i, a, q)) by (rewrite Ed; auto). destruct p as [| | |j b n k| | | |]; try contradiction. destruct Hp as ((no & Hno & Hu & Hon) & Hn & Hk). cbn [pstep].
      destruct (tab (sm s) j) as [x|] eqn:Et; [|exists (tset D t (Unblock i a q)); cbn [fst snd]; apply minv_same; auto].
      destruct (N.eqb x b) eqn:Ex; [|exists (tset D t (Unblock i a q)); cbn [fst snd]; apply minv_same; auto]. apply N.eqb_eq in Ex. subst x.
      assert (Hfr : forall u a q, owes (D u) = Some (j, a, q) -> False).
      { intros u a' q' Hh'. destruct (held_marked _ _ _ _ _ _ no H Hh') as [Ha Hb]. rewrite Et in Ha. injection Ha as ->. apply Hb; [auto|apply Hu]. }
      assert (Hj : i <> j) by (intros ->; eapply Hfr; eauto). destruct (mi_tab _ _ H _ _ Et) as [Hi _].
      exists (tset D t (Unblock i a q)). cbn [fst snd]. eapply minv_put; eauto; cbn [heap nptr tab nid]; auto.
      * intros j' a' q' E. simpl in E. injection E as <- <- <-. right. auto.
      * rewrite Ed. auto.
      * destruct n as [|[]]; simpl in *; auto; contradiction.
      * intros q' c ->. contradiction.
      * apply Hk. intros y z Hq. unfold cw in *. cbn [heap]. rewrite pfset_ne; auto. intros ->. apply (mi_heap _ _ H) in Hq as [_ Hq]. lia.
    + assert (Hh : owes (D t) = Some (i, a, q)) by (rewrite Ed; auto). destruct p as [| | | |j b n k| | |]; try contradiction. destruct Hp as (-> & -> & -> & Hk). cbn [pstep].
      destruct (mi_hold _ _ H _ _ _ _ Hh) as [Ha [c Hc]]. rewrite Ha, N.eqb_refl. cbn [fst snd]. pose proof (proj1 (mi_heap _ _ H _ _ Hc)) as [Hq Hu]. unfold cw in Hq.
      exists (tset D t Free). destruct H as [H1 H2 H3 H4 H5 H6 H7]. split; cbn [sm running heap nptr tab nid]; auto.
      * intros u o' p' E. unfold tset in *. destruct (u =? t) eqn:Eu; [injection E as <- <-; apply Hk; apply cle_refl|eapply H1; exact E].
      * intros u E. unfold tset in *. destruct (u =? t); [discriminate|auto].
      * intros u j a' q' E. unfold tset in E. destruct (u =? t) eqn:Eu; [discriminate|]. apply Nat.eqb_neq in Eu. destruct (Nat.eq_dec j i) as [->|Hj]; [exfalso; apply Eu; eapply H5; eauto|].
        rewrite fset_ne by auto. eapply H3; eauto.
      * intros j a' q' c' Ha' Hc'. destruct (Nat.eq_dec j i) as [->|Hj].
        -- rewrite fset_eq in Ha'. injection Ha' as <-. rewrite Hq in Hc'. injection Hc' as ->. contradiction.
        -- rewrite fset_ne in Ha' by auto. destruct (H4 _ _ _ _ Ha' Hc') as [u Hu']. exists u. unfold tset. destruct (u =? t) eqn:Eu; auto. apply Nat.eqb_eq in Eu. subst u. rewrite Hh in Hu'. congruence.
      * intros u v j x y x' y' E E'. unfold tset in *. destruct (u =? t); [discriminate|]. destruct (v =? t); [discriminate|]. eapply H5; eauto.
      * intros j y E. destruct (Nat.eq_dec j i) as [->|Hj]; [rewrite fset_eq in E; injection E as <-; split; [apply (H7 _ _ Ha)|eauto]|]. rewrite fset_ne in E by auto. auto.
  - exists (tset D t Free). pose proof (mi_run _ _ H _ _ _ Hr) as Hp. destruct (D t) eqn:Ed; try contradiction. apply minv_same; auto. rewrite Ed. auto.
Qed.
Lemma exec_minv tr ss s : exec tr ss s -> exists D, minv s D.
Proof. induction 1 as [|tr ss s e s' Hx [D H] Hs]; [exists (fun _ => Free); apply minv_init|eapply minv_step; eauto]. Qed.
(** * What follows *)
Lemma heap_step s e s' p n : (exists D, minv s D) -> sstep s e s' -> heap (sm s) p = Some n -> heap (sm s') p = Some n.
Proof.
  intros [D H] Hs E. pose proof (proj2 (mi_heap _ _ H _ _ E)) as Hp. destruct Hs as [s t o fuel Hr|s t o pr Hr Hnr Hne|s t o r Hr]; auto. cbn [sm].
  destruct pr as [r|er|i k|i old m k|i old m k|k|old m k|m k]; cbn [pstep]; auto.
  - destruct (get (sm s) i); auto.
  - destruct (tab (sm s) i) as [x|]; auto. destruct (N.eqb x old); auto. cbn [fst heap]. rewrite pfset_ne; auto. lia.
  - destruct (tab (sm s) i) as [x|]; auto. destruct (N.eqb x old); auto.
  - destruct (root (sm s) =? old); auto.
  - cbn [fst heap]. rewrite pfset_ne; auto. lia.
Qed.
(** Who owns a blocked page. *)
Lemma blocked_owner s D i p q : minv s D -> blocked (sm s) i p q ->
  exists t, owes (D t) = Some (i, p, q) /\ (unblocks s t i p q \/ unblocks_soon s t i p q) /\ exists c, heap (sm s) q = Some (NInner c) /\ unmarked (NInner c).
Proof.
  intros H [Ht [c Hc]]. destruct (mi_mark _ _ H _ _ _ _ Ht Hc) as [t E]. exists t. split; auto. pose proof (proj1 (mi_heap _ _ H _ _ Hc)) as [Hq Hu]. split; [|exists c; auto].
  destruct (running s t) as [[o pr]|] eqn:Er; [|rewrite (mi_idle _ _ H _ Er) in E; discriminate]. pose proof (mi_run _ _ H _ _ _ Er) as Hd.
  destruct (D t) as [|i' a' q'|i' a' q'] eqn:Ed; [discriminate| |]; simpl in E; injection E as -> -> ->.
  - right. destruct pr as [| | |j b n k| | | |]; try contradiction. destruct Hd as (_ & _ & Hk). exists o, j, b, n, k. split; auto. intros r. pose proof (Hk r _ (cle_refl _)) as Hr.
    destruct (k r) as [| | | |j' b' n' k'| | |]; try contradiction. destruct Hr as (-> & -> & -> & _). eauto.
  - left. destruct pr as [| | | |j b n k| | |]; try contradiction. destruct Hd as (-> & -> & -> & _). exists o, k. auto.
Qed.
Lemma unblocks_owes s D t i p q : minv s D -> unblocks s t i p q -> D t = Unblock i p q.
Proof.
  intros H (o & k & Er). pose proof (mi_run _ _ H _ _ _ Er) as Hd. destruct (D t) as [|i' a' q'|i' a' q']; try contradiction. destruct Hd as (-> & -> & -> & _). auto.
Qed.
Lemma soon_owes s D t i p q : minv s D -> unblocks_soon s t i p q -> D t = Use i p q.
Proof.
  intros H (o & j & a & n & k & Er & Hk). pose proof (mi_run _ _ H _ _ _ Er) as Hd. destruct (D t) as [|i' a' q'|i' a' q']; try contradiction.
  - exfalso. destruct (Hd _ (cle_refl _)) as (_ & Hn & _). destruct (Hk None) as [k' Hk']. rewrite Hk' in Hn. contradiction.
  - destruct Hd as (_ & _ & Hr). destruct (Hk None) as [k' Hk']. pose proof (Hr None _ (cle_refl _)) as Hx. rewrite Hk' in Hx. destruct Hx as (-> & -> & -> & _). auto.
Qed.
(** How the entry of a page changes. *)
Lemma entry_step s D e s' i x : minv s D -> sstep s e s' -> tab (sm s) i = Some x ->
  tab (sm s') i = Some x \/ (exists t p, e = EStep t /\ unblocks s t i x p /\ tab (sm s') i = Some p) \/
  (exists n, heap (sm s) x = Some n /\ live n /\ tab (sm s') i = Some (nptr (sm s)) /\
     forall q c, heap (sm s') (nptr (sm s)) = Some (NInner (IAbort q c)) -> q = x /\ heap (sm s) x = Some (NInner c)).
Proof.
  intros H Hs Ht. destruct Hs as [s t o fuel Hr|s t o pr Hr Hnr Hne|s t o r Hr]; auto. cbn [sm]. pose proof (mi_run _ _ H _ _ _ Hr) as Hd.
  destruct pr as [r|er|j k|j old m k|j old m k|k|old m k|m k]; cbn [pstep]; auto.
  - destruct (get (sm s) j); auto.
  - destruct (tab (sm s) j) as [y|] eqn:Ey; auto. destruct (N.eqb y old) eqn:Eo; auto. apply N.eqb_eq in Eo. subst y. cbn [fst tab heap].
    destruct (Nat.eq_dec i j) as [->|Hj]; [|rewrite fset_ne by auto; auto]. rewrite Ht in Ey. injection Ey as ->. right. right. rewrite fset_eq, pfset_eq.
    destruct (D t) as [|i' a' q'|i' a' q']; try contradiction.
    + destruct (Hd _ (cle_refl _)) as ((no & Hno & Hu & Hon) & _ & Hc). exists no. split; auto. split; auto. split; auto. intros q c E. injection E as ->.
      destruct Hc as [[Hc _]|(c' & E & Hc & _)]; [contradiction|]. injection E as -> ->. split; auto.
    + destruct Hd as ((no & Hno & Hu & Hon) & Hn & _). exists no. split; auto. split; auto. split; auto. intros q c E. injection E as ->. contradiction.
  - destruct (tab (sm s) j) as [y|] eqn:Ey; auto. destruct (N.eqb y old) eqn:Eo; auto. apply N.eqb_eq in Eo. subst y. cbn [fst tab heap].
    destruct (Nat.eq_dec i j) as [->|Hj]; [|rewrite fset_ne by auto; auto]. rewrite Ht in Ey. injection Ey as ->. right. left. exists t, m. split; auto. split; [exists o, k; auto|]. apply fset_eq.
  - destruct (root (sm s) =? old); auto.
  - left. cbn [fst tab]. pose proof (proj1 (mi_tab _ _ H _ _ Ht)) as Hi. rewrite fset_ne by lia. exact Ht.
Qed.
End Marker.
