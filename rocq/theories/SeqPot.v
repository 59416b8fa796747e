(** Growing a new root; the potential that restructuring consumes; where
    removed pages can be during a single-threaded run. *)
From Coq Require Import List Arith Lia Bool ZArith Sorted.
From Verif Require Import Base Leaf LeafSpec LeafProofs LeafProofs2 Inner InnerSpec InnerProofs InnerProofs2 Tree TreeSpec TreeInv TreeProg SeqTree SeqTree2.
Import ListNotations.

Section SeqPot.
Context {P : Params}.

Lemma newroot_tree N N' r lev H s r' k :
  tree N r lev H -> lev H = [(r, Some s)] -> nlo N s = Some k -> N r' = None ->
  N' r' = Some (NInner (IBase 0 None r [(kdef, r); (k, s)] None)) -> (forall j, j <> r' -> N' j = N j) ->
  tree N' r' (setl (setl lev H [(r, None); (s, None)]) (S H) [(r', None)]) (S H).
Proof.
  intros T E2 Hk Hn En Hf.
  assert (Hne : forall x j, x <= H -> In j (ids (lev x)) -> j <> r'). { intros x j Hx Hj ->. apply (tree_some _ _ _ _ x r' T); auto. }
  assert (Hs : forall x j, x <= H -> In j (ids (lev x)) -> N' j = N j) by (intros; apply Hf; eauto).
  set (lev' := setl (setl lev H _) (S H) _).
  assert (Eid : forall x, x <= H -> ids (lev' x) = ids (lev x)).
  { intros x Hx. unfold lev'. rewrite setl_ne by lia. destruct (Nat.eq_dec x H) as [->|Hx']; [rewrite setl_eq, E2; auto|rewrite setl_ne; auto]. }
  assert (Elo : forall x, x < H -> lev' x = lev x) by (intros x Hx; unfold lev'; rewrite !setl_ne by lia; auto).
  assert (Etop : lev' (S H) = [(r', None)]) by (unfold lev'; apply setl_eq).
  assert (EH : lev' H = [(r, None); (s, None)]) by (unfold lev'; rewrite setl_ne by lia; apply setl_eq).
  assert (Hr : In r (ids (lev H))) by (rewrite E2; simpl; auto).
  assert (Hsi : In s (ids (lev H))) by (rewrite E2; simpl; auto).
  assert (Hm : mono N N').
  { intros j Hj. assert (j <> r') by congruence. unfold nlo, rem. rewrite Hf; auto. }
  assert (Hlor : nlo N r = None). { pose proof (t_seg _ _ _ _ T H (le_n _)) as Hg. rewrite E2 in Hg. apply seg_hd in Hg. auto. }
  assert (Hrr : N' r <> None) by (rewrite (Hs H); auto; apply (tree_some _ _ _ _ H r T); auto).
  assert (Hss : N' s <> None) by (rewrite (Hs H); auto; apply (tree_some _ _ _ _ H s T); auto).
  assert (Hlor' : nlo N' r = None) by (unfold nlo; rewrite (Hs H); auto).
  assert (Hlos' : nlo N' s = Some k) by (unfold nlo; rewrite (Hs H); auto).
  constructor.
  - lia.
  - intros h i Hh Hi. destruct (Nat.eq_dec h (S H)) as [->|Hne1].
    + rewrite Etop in Hi. destruct Hi as [Eq|[]]. rewrite <- Eq. eexists. split; [exact En|]. split; [|discriminate].
      split; [lia|]. split; [|split; [exact I|split; [exact I|]]].
      * simpl. exists [(k, s)]. split; auto. split; [repeat constructor|]. split; auto. split; simpl; auto.
        intros x j [Ej|[]]. injection Ej as <- <-. auto.
      * simpl. split; [|intros j []]. intros j [->|[<-|[<-|[]]]]; auto.
    + rewrite Eid in Hi by lia. destruct (t_ok _ _ _ _ T h i ltac:(lia) Hi) as (n & E & Hnk). exists n. rewrite (Hs h); auto; [|lia].
      split; auto. apply (nodeok_mono N N'); auto.
  - intros h Hh. destruct (Nat.eq_dec h (S H)) as [->|Hne1].
    + rewrite Etop. simpl. eexists. split; [exact En|]. auto.
    + rewrite Eid by lia. eapply seg_ext; [|apply (t_seg _ _ _ _ T h ltac:(lia))]. intros i n Hi E. exists n. rewrite (Hs h); auto. lia.
  - intros h Hh. destruct (Nat.eq_dec h H) as [->|Hne1].
    + rewrite Etop, EH. apply link_one. eexists _, None, [(s, None)]. split; [exact En|]. split; auto. simpl.
      intros x j. split.
      * intros [Ej|[]]. injection Ej as <- <-. eauto.
      * intros [(o & [Ej|[]]) Hx]. injection Ej as <- _. left. congruence.
    + rewrite (Eid (S h)), Elo by lia. eapply link_ext; [..|apply (t_link _ _ _ _ T h ltac:(lia))].
      * intros R Hr'. apply (Hs (S h)); auto. lia.
      * intros j Hj. apply Hm; auto.
      * intros j o Hj. apply (tree_some _ _ _ _ h j T); [lia|]. eapply ids_in; eauto.
      * intros R cR Hr'. apply (tree_refs _ _ _ _ (S h) R cR T); auto. lia.
  - intros h i s0 Hh Hi. destruct (Nat.eq_dec h (S H)) as [->|Hne1]; [rewrite Etop in Hi; destruct Hi as [|[]]; discriminate|].
    destruct (Nat.eq_dec h H) as [->|Hne2]; [rewrite EH in Hi; destruct Hi as [|[|[]]]; discriminate|].
    rewrite Elo in Hi by lia. unfold pending. rewrite (Hs h i), (Hs h s0); try lia; [|eapply ids_sib; eauto|eapply ids_in; eauto]. apply (t_cell _ _ _ _ T h); auto. lia.
  - intros h Q c Hh HQ EQ. destruct (Nat.eq_dec h (S H)) as [->|Hne1].
    + rewrite Etop in HQ. simpl in HQ. destruct HQ as [Eq|[]]. rewrite <- Eq, En in EQ. injection EQ as <-. simpl. unfold rem. rewrite (Hs H); auto. apply T.
    + rewrite Eid in HQ by lia. rewrite (Hs h) in EQ; auto; [|lia]. destruct h as [|h]; [lia|].
      pose proof (link_first _ _ _ _ _ (t_link _ _ _ _ T h ltac:(lia)) HQ EQ) as Hf'. unfold rem. rewrite (Hs h); auto; [|lia]. apply (t_first _ _ _ _ T (S h) Q); auto. lia.
  - exists None. auto.
  - unfold rem. rewrite En. auto.
  - intros x y i Hx Hy Hi Hj. destruct (Nat.eq_dec x (S H)) as [->|Hx1], (Nat.eq_dec y (S H)) as [->|Hy1]; auto.
    + rewrite Etop in Hi. destruct Hi as [Eq|[]]. rewrite Eid in Hj by lia. destruct (Hne y i ltac:(lia) Hj); auto.
    + rewrite Etop in Hj. destruct Hj as [Eq|[]]. rewrite Eid in Hi by lia. destruct (Hne x i ltac:(lia) Hi); auto.
    + rewrite Eid in Hi, Hj by lia. apply (t_dist _ _ _ _ T x y i); auto; lia.
  - rewrite Eid by lia. apply T.
  - intros i Hi. destruct (Nat.eq_dec i r') as [->|Hir]. { right. exists (S H). rewrite Etop. simpl. auto. }
    rewrite Hf in Hi by auto. destruct (t_all _ _ _ _ T i Hi) as [Hd|(h & Hh & Hi')].
    + left. unfold rem. rewrite Hf; auto.
    + right. exists h. rewrite Eid by lia. split; [lia|auto].
Qed.

(** * Potential *)
Definition f0 (n : nat) : nat := if n <=? 32 then 33 else n - 1.
Definition fi (n : nat) : nat := 4 * (n - 65) + 6 * (65 - Nat.max n 32).
Definition wt (n : node) : nat :=
  (if is_remove n then 1 else 2) + match n with NLeaf _ => 8 * f0 (nsize n) | NInner _ => fi (nsize n) end.
Definition pw (N : nmap) (i : nat) : nat := match N i with Some n => wt n | None => 0 end.
Definition bq (h : nat) : nat := match h with O => 5 | S _ => 205 end.
Definition cw (N : nmap) (h : nat) (c : cell) : nat :=
  pw N (fst c) + match snd c with None => 0 | Some s => bq h + pw N s end.
Definition lw (N : nmap) (h : nat) (l : list cell) : nat := list_sum (map (cw N h) l).
Fixpoint sumto (f : nat -> nat) (n : nat) : nat := f n + match n with O => 0 | S m => sumto f m end.
Definition pot (N : nmap) (lev : nat -> list cell) (H : nat) : nat := sumto (fun h => lw N h (lev h)) H.

Lemma lw_app N h a b : lw N h (a ++ b) = lw N h a + lw N h b.
Proof. unfold lw. rewrite map_app, list_sum_app. auto. Qed.
Lemma lw_cons N h c l : lw N h (c :: l) = cw N h c + lw N h l. Proof. reflexivity. Qed.
Lemma lw_ext N N' h l : (forall j, In j (ids l) -> N' j = N j) -> lw N' h l = lw N h l.
Proof.
  induction l as [|[i o] l IH]; intros Hf; auto. rewrite !lw_cons, IH; [|intros; apply Hf; simpl; rewrite in_app_iff; auto].
  f_equal. unfold cw, pw. simpl. rewrite (Hf i) by (simpl; auto). destruct o; auto. rewrite (Hf n) by (simpl; auto). auto.
Qed.
Lemma lw_one N N' h l Q : NoDup (ids l) -> In Q (ids l) -> (forall j, In j (ids l) -> j <> Q -> N' j = N j) ->
  lw N' h l + pw N Q = lw N h l + pw N' Q.
Proof.
  induction l as [|c l IH]; intros Hn HQ Hf; [destruct HQ|]. change (ids (c :: l)) with (cids c ++ ids l) in *. rewrite !lw_cons.
  rewrite in_app_iff in HQ. assert (Hl : In Q (cids c) -> lw N' h l = lw N h l).
  { intros Hc. apply lw_ext. intros j Hj. apply Hf; [apply in_app_iff; auto|]. intros ->. eapply nodup_disj; eauto. }
  destruct HQ as [HQ|HQ].
  - rewrite Hl; auto. destruct c as [i o]. unfold cw, pw, cids in *. simpl in *.
    destruct HQ as [->|HQ].
    + destruct o as [s|]; [|lia]. rewrite (Hf s); [lia|simpl; auto|]. intros ->. inversion Hn; subst. simpl in *. tauto.
    + destruct o as [s|]; [|destruct HQ]. destruct HQ as [->|[]]. rewrite (Hf i); [lia|simpl; auto|]. intros ->. inversion Hn; subst. simpl in *. tauto.
  - assert (Hc : cw N' h c = cw N h c).
    { assert (Hcc : forall j, In j (cids c) -> N' j = N j).
      { intros j Hj. apply Hf; [apply in_app_iff; auto|]. intros ->. eapply nodup_disj; eauto. }
      destruct c as [i o]. unfold cw, pw, cids in *. simpl in *. rewrite (Hcc i); auto. destruct o as [s|]; auto. rewrite (Hcc s); simpl; auto. }
    rewrite Hc. assert (lw N' h l + pw N Q = lw N h l + pw N' Q); [|lia]. apply IH; auto. { eapply nodup_r; eauto. }
    intros j Hj. apply Hf. apply in_app_iff; auto.
Qed.
Lemma sumto_ext f f' n : (forall x, x <= n -> f' x = f x) -> sumto f' n = sumto f n.
Proof. induction n; intros Hf; simpl; [rewrite Hf; auto|]. rewrite Hf, IHn; auto. Qed.
Lemma sumto_one f f' n h : h <= n -> (forall x, x <= n -> x <> h -> f' x = f x) -> sumto f' n + f h = sumto f n + f' h.
Proof.
  induction n; intros Hh Hf.
  - assert (h = 0) by lia. subst. simpl. lia.
  - simpl. destruct (Nat.eq_dec h (S n)) as [->|Hne].
    + rewrite (sumto_ext f f' n); [lia|]. intros x Hx. apply Hf; lia.
    + rewrite (Hf (S n)) by lia. assert (sumto f' n + f h = sumto f n + f' h); [|lia]. apply IHn; [lia|]. intros; apply Hf; lia.
Qed.
Lemma sumto_two f f' n h : S h <= n -> (forall x, x <= n -> x <> h -> x <> S h -> f' x = f x) ->
  sumto f' n + f h + f (S h) = sumto f n + f' h + f' (S h).
Proof.
  intros Hh Hf. set (g := fun x => if x =? h then f' x else f x).
  assert (H1 : sumto g n + f h = sumto f n + g h). { apply sumto_one; [lia|]. intros x _ Hx. unfold g. destruct (Nat.eqb_spec x h); congruence. }
  assert (H2 : sumto f' n + g (S h) = sumto g n + f' (S h)).
  { apply sumto_one; [lia|]. intros x Hx Hne. unfold g. destruct (Nat.eqb_spec x h) as [->|]; auto. }
  unfold g in H1 at 2. rewrite Nat.eqb_refl in H1. unfold g in H2 at 1. destruct (Nat.eqb_spec (S h) h); lia.
Qed.

Lemma pot_regroup N N' r lev H h A Q B pre ga mid gb post mid' :
  tree N r lev H -> h < H -> focus N lev h A Q B pre (ga ++ mid ++ gb) post ->
  (forall j, j <> Q -> ~ In j (ids mid) -> N j <> None -> N' j = N j) ->
  pot N' (setl lev h (pre ++ (ga ++ mid' ++ gb) ++ post)) H + pw N Q + lw N h mid = pot N lev H + pw N' Q + lw N' h mid'.
Proof.
  intros T Hh (E1 & E2 & _) Hf.
  set (lev' := setl lev h _).
  assert (Hlev : forall x j, x <= H -> x <> h -> In j (ids (lev x)) -> ~ In j (ids mid)).
  { intros x j Hx Hne Hi Hj. apply Hne. apply (t_dist _ _ _ _ T x h j); auto; try lia. rewrite E2, !in_ids_app; auto. }
  assert (HQ : In Q (ids (lev (S h)))) by (rewrite E1; apply in_elt).
  assert (HQx : forall x, x <= H -> x <> S h -> ~ In Q (ids (lev x))).
  { intros x Hx Hne Hi. apply Hne. apply (t_dist _ _ _ _ T x (S h) Q); auto. }
  pose proof (sumto_two (fun h => lw N h (lev h)) (fun h => lw N' h (lev' h)) H h Hh) as HS.
  assert (Hx : forall x, x <= H -> x <> h -> x <> S h -> lw N' x (lev' x) = lw N x (lev x)).
  { intros x Hx H1 H2. unfold lev'. rewrite setl_ne; auto. apply lw_ext. intros j Hj. apply Hf.
    - intros ->. eapply HQx; eauto.
    - eapply Hlev; eauto.
    - eapply tree_some; eauto. }
  specialize (HS Hx). fold (pot N' lev' H) in HS. fold (pot N lev H) in HS. cbv beta in HS.
  assert (Ha : lw N' (S h) (lev' (S h)) + pw N Q = lw N (S h) (lev (S h)) + pw N' Q).
  { unfold lev'. rewrite setl_ne by lia. apply lw_one; auto. { eapply tree_nodup; eauto. }
    intros j Hj Hne. apply Hf; auto. { apply (Hlev (S h)); auto. } eapply tree_some; eauto. }
  assert (Hb : lw N' h (lev' h) + lw N h mid = lw N h (lev h) + lw N' h mid').
  { unfold lev'. rewrite setl_eq, E2, !lw_app.
    assert (Hd : forall l, (forall j, In j (ids l) -> In j (ids (lev h)) /\ ~ In j (ids mid)) -> lw N' h l = lw N h l).
    { intros l Hl. apply lw_ext. intros j Hj. destruct (Hl j Hj) as [H1 H2]. apply Hf; auto.
      - intros ->. apply (HQx h); auto; lia.
      - apply (tree_some _ _ _ _ h j T); auto. lia. }
    pose proof (tree_nodup _ _ _ _ h T ltac:(lia)) as Nd. rewrite E2, !ids_app in Nd.
    assert (Hin : forall j, In j (ids pre) \/ In j (ids ga) \/ In j (ids gb) \/ In j (ids post) -> In j (ids (lev h)) /\ ~ In j (ids mid)).
    { intros j Hj. split; [rewrite E2, !in_ids_app; tauto|]. intros Hm. destruct Hj as [Hj|[Hj|[Hj|Hj]]].
      - eapply (nodup_disj (ids pre)); eauto. rewrite !in_app_iff; auto.
      - apply nodup_r in Nd. rewrite <- app_assoc in Nd. eapply (nodup_disj (ids ga)); eauto. rewrite !in_app_iff; auto.
      - apply nodup_r in Nd. rewrite <- app_assoc in Nd. apply nodup_r in Nd. rewrite <- app_assoc in Nd. eapply (nodup_disj (ids mid)); eauto. rewrite !in_app_iff; auto.
      - apply nodup_r in Nd. rewrite <- app_assoc in Nd. apply nodup_r in Nd. rewrite <- app_assoc in Nd. eapply (nodup_disj (ids mid)); eauto. rewrite !in_app_iff; auto. }
    rewrite (Hd pre), (Hd ga), (Hd gb), (Hd post) by (intros; apply Hin; tauto). lia. }
  lia.
Qed.
Lemma pot_retop N N' r lev H o o' :
  tree N r lev H -> lev H = [(r, o)] -> (forall j, ~ In j (ids [(r, o)]) -> N j <> None -> N' j = N j) ->
  pot N' (setl lev H [(r, o')]) H + lw N H [(r, o)] = pot N lev H + lw N' H [(r, o')].
Proof.
  intros T E Hf. pose proof (sumto_one (fun h => lw N h (lev h)) (fun x => lw N' x (setl lev H [(r, o')] x)) H H (le_n _)) as HS.
  cbv beta in HS. rewrite setl_eq, E in HS. fold (pot N lev H) in HS. unfold pot at 1. apply HS.
  intros x Hx Hne. rewrite setl_ne; auto. apply lw_ext. intros j Hj. apply Hf; [|eapply tree_some; eauto].
  rewrite <- E. intros Hj'. apply Hne. apply (t_dist _ _ _ _ T x H j); auto.
Qed.
Lemma pot_newroot N N' r lev H s r' k :
  tree N r lev H -> lev H = [(r, Some s)] -> N r' = None ->
  N' r' = Some (NInner (IBase 0 None r [(kdef, r); (k, s)] None)) -> (forall j, j <> r' -> N' j = N j) ->
  pot N' (setl (setl lev H [(r, None); (s, None)]) (S H) [(r', None)]) (S H) < pot N lev H.
Proof.
  intros T E Hn En Hf. unfold pot. simpl. rewrite setl_eq.
  rewrite (sumto_ext (fun h => lw N' h (setl lev H [(r, None); (s, None)] h))) by (intros x Hx; rewrite (setl_ne _ (S H)) by lia; auto).
  pose proof (sumto_one (fun h => lw N h (lev h)) (fun x => lw N' x (setl lev H [(r, None); (s, None)] x)) H H (le_n _)) as HS.
  cbv beta in HS. rewrite setl_eq, E in HS.
  assert (Hs : forall x j, x <= H -> In j (ids (lev x)) -> N' j = N j).
  { intros x j Hx Hj. apply Hf. intros ->. apply (tree_some _ _ _ _ x r' T); auto. }
  assert (HS' : forall x, x <= H -> x <> H -> lw N' x (setl lev H [(r, None); (s, None)] x) = lw N x (lev x)).
  { intros x Hx Hne. rewrite setl_ne; auto. apply lw_ext. intros; eapply Hs; eauto. }
  specialize (HS HS'). pose proof (t_H _ _ _ _ T) as HH.
  unfold lw in HS at 2 4. unfold lw at 1. simpl in *. unfold cw in *. simpl in *.
  assert (Er : pw N' r = pw N r) by (unfold pw; rewrite (Hs H); auto; rewrite E; simpl; auto).
  assert (Es : pw N' s = pw N s) by (unfold pw; rewrite (Hs H); auto; rewrite E; simpl; auto).
  assert (Ew : pw N' r' = 200) by (unfold pw; rewrite En; reflexivity).
  rewrite Er, Es in HS. rewrite Ew. destruct H; [lia|]. simpl bq in *. lia.
Qed.

Lemma wt_pos n : 1 <= wt n. Proof. unfold wt. destruct (is_remove n); lia. Qed.
Lemma lw_length N h l : (forall j o, In (j, o) l -> N j <> None) -> length l <= lw N h l.
Proof.
  induction l as [|[i o] l IH]; intros Hf; [simpl; lia|]. rewrite lw_cons. unfold cw, pw. simpl.
  assert (N i <> None) by (apply (Hf i o); simpl; auto). destruct (N i) as [n|]; [|congruence]. pose proof (wt_pos n).
  assert (length l <= lw N h l) by (apply IH; intros; eapply Hf; simpl; eauto). lia.
Qed.
Lemma sumto_le f n h : h <= n -> f h <= sumto f n.
Proof. induction n; intros Hh; simpl; [assert (h = 0) by lia; subst; lia|]. destruct (Nat.eq_dec h (S n)) as [->|]; [lia|]. specialize (IHn ltac:(lia)). lia. Qed.
Lemma tree_length N r lev H h : tree N r lev H -> h <= H -> length (lev h) <= pot N lev H.
Proof.
  intros T Hh. pose proof (sumto_le (fun h => lw N h (lev h)) H h Hh) as H1. cbv beta in H1. fold (pot N lev H) in H1.
  pose proof (lw_length N h (lev h)) as H2. assert (length (lev h) <= lw N h (lev h)); [|lia]. apply H2.
  intros j o Hj. apply (tree_some _ _ _ _ h j T); auto. eapply ids_in; eauto.
Qed.
Lemma sumto_count f n : (forall h, h <= n -> 1 <= f h) -> S n <= sumto f n.
Proof. induction n; intros Hf; simpl; [specialize (Hf 0); lia|]. assert (S n <= sumto f n) by (apply IHn; intros; apply Hf; lia). specialize (Hf (S n) (le_n _)). lia. Qed.
Lemma tree_height N r lev H : tree N r lev H -> S H <= pot N lev H.
Proof.
  intros T. apply sumto_count. intros h Hh. pose proof (t_seg _ _ _ _ T h Hh) as Hs.
  assert (length (lev h) <= lw N h (lev h)). { apply lw_length. intros j o Hj. apply (tree_some _ _ _ _ h j T); auto. eapply ids_in; eauto. }
  destruct (lev h); [destruct Hs|]. simpl in *. lia.
Qed.

(** Arithmetic of the weights. *)
Lemma f0_split a b : 32 < a -> 32 < b -> f0 a + f0 b + 1 = f0 (a + b).
Proof. intros Ha Hb. unfold f0. destruct (Nat.leb_spec a 32), (Nat.leb_spec b 32), (Nat.leb_spec (a + b) 32); lia. Qed.
Lemma f0_merge a b : b <= 32 -> f0 (a + b) + 1 <= f0 a + f0 b.
Proof. intros Hb. unfold f0. destruct (Nat.leb_spec a 32), (Nat.leb_spec b 32), (Nat.leb_spec (a + b) 32); lia. Qed.
Lemma fi_S n : fi (S n) <= fi n + 4. Proof. unfold fi. lia. Qed.
Lemma fi_P n : fi n <= fi (S n) + 6. Proof. unfold fi. lia. Qed.
Lemma fi_split n a b : 128 <= n -> a + b = n -> a <= S b -> b <= S a -> fi a + fi b + 240 <= fi n. Proof. unfold fi. lia. Qed.
Lemma fi_merge a b : b <= 32 -> fi (a + b) + 70 <= fi a + fi b. Proof. unfold fi. lia. Qed.

(** * Removed pages *)
Definition live (N : nmap) (c : cell) : Prop := rem N (fst c) = false.
Definition dead (N : nmap) (c : cell) : Prop := rem N (fst c) = true.
(** The removed pages of a level are neighbours, the last one responsible for [k]. *)
Definition remrun (N : nmap) (l : list cell) (k : K) : Prop :=
  exists A B C, l = A ++ B ++ C /\ Forall (live N) A /\ Forall (dead N) B /\ Forall (live N) C /\
    (B = [] \/ (Forall (fun c => lolt (Some k) (nlo N (fst c))) C /\ Forall (fun c => above (nlo N (fst c)) k) B)).

Lemma remrun_ext N N' l l' k : map fst l' = map fst l ->
  (forall c, In c l -> rem N' (fst c) = rem N (fst c) /\ nlo N' (fst c) = nlo N (fst c)) -> remrun N l k -> remrun N' l' k.
Proof.
  intros El Hf (A & B & C & -> & HA & HB & HC & Hd).
  rewrite !map_app in El. 
  assert (Hs : exists A' B' C', l' = A' ++ B' ++ C' /\ map fst A' = map fst A /\ map fst B' = map fst B /\ map fst C' = map fst C).
  { exists (firstn (length A) l'), (firstn (length B) (skipn (length A) l')), (skipn (length B) (skipn (length A) l')).
    rewrite !firstn_skipn. split; auto. rewrite <- !firstn_map, <- !skipn_map, El.
    replace (length A) with (length (map fst A)) by apply map_length. replace (length B) with (length (map fst B)) by apply map_length.
    rewrite firstn_app, firstn_all, Nat.sub_diag, skipn_app, skipn_all, Nat.sub_diag. simpl.
    rewrite firstn_app, firstn_all, Nat.sub_diag, skipn_app, skipn_all, Nat.sub_diag. simpl. rewrite !app_nil_r. auto. }
  destruct Hs as (A' & B' & C' & -> & EA & EB & EC).
  assert (Hall : forall (Pr Pr' : nat -> Prop) X X', map fst X' = map fst X -> (forall c, In c X -> Pr (fst c) -> Pr' (fst c)) ->
            Forall (fun c : cell => Pr (fst c)) X -> Forall (fun c : cell => Pr' (fst c)) X').
  { intros Pr Pr' X X' E Hp HX. rewrite Forall_forall in *. intros c Hc. assert (Hc' : In (fst c) (map fst X)) by (rewrite <- E; apply in_map; auto).
    apply in_map_iff in Hc' as (c0 & E0 & Hc0). rewrite <- E0. auto. }
  exists A', B', C'. split; auto. split; [|split; [|split]].
  - apply (Hall (fun i => rem N i = false) (fun i => rem N' i = false) A A'); auto. intros c Hc. rewrite (proj1 (Hf c ltac:(rewrite !in_app_iff; auto))). auto.
  - apply (Hall (fun i => rem N i = true) (fun i => rem N' i = true) B B'); auto. intros c Hc. rewrite (proj1 (Hf c ltac:(rewrite !in_app_iff; auto))). auto.
  - apply (Hall (fun i => rem N i = false) (fun i => rem N' i = false) C C'); auto. intros c Hc. rewrite (proj1 (Hf c ltac:(rewrite !in_app_iff; auto))). auto.
  - destruct Hd as [->|[H1 H2]]. { left. destruct B'; [auto|discriminate]. } right. split.
    + apply (Hall (fun i => lolt (Some k) (nlo N i)) (fun i => lolt (Some k) (nlo N' i)) C C'); auto. intros c Hc. rewrite (proj2 (Hf c ltac:(rewrite !in_app_iff; auto))). auto.
    + apply (Hall (fun i => above (nlo N i) k) (fun i => above (nlo N' i) k) B B'); auto. intros c Hc. rewrite (proj2 (Hf c ltac:(rewrite !in_app_iff; auto))). auto.
Qed.
Lemma cell_split (A B C : list cell) c l1 l2 : A ++ B ++ C = l1 ++ c :: l2 ->
  (exists a1 a2, A = a1 ++ c :: a2 /\ l1 = a1 /\ l2 = a2 ++ B ++ C) \/
  (exists b1 b2, B = b1 ++ c :: b2 /\ l1 = A ++ b1 /\ l2 = b2 ++ C) \/
  (exists c1 c2, C = c1 ++ c :: c2 /\ l1 = A ++ B ++ c1 /\ l2 = c2).
Proof.
  assert (G : forall X Y : list cell, forall l1 l2, X ++ Y = l1 ++ c :: l2 ->
    (exists a1 a2, X = a1 ++ c :: a2 /\ l1 = a1 /\ l2 = a2 ++ Y) \/ (exists b1 b2, Y = b1 ++ c :: b2 /\ l1 = X ++ b1 /\ l2 = b2)).
  { induction X as [|x X IH]; intros Y m1 m2 E.
    - right. exists m1, m2. auto.
    - destruct m1 as [|y m1]; simpl in E; injection E as -> E.
      + left. exists [], X. auto.
      + destruct (IH Y m1 m2 E) as [(a1 & a2 & -> & -> & ->)|(b1 & b2 & -> & -> & ->)]; [left; exists (y :: a1), a2; auto|right; exists b1, b2; auto]. }
  intros E. destruct (G A (B ++ C) l1 l2 E) as [(a1 & a2 & -> & -> & ->)|(b1 & b2 & Eb & -> & ->)]; [left; eauto|].
  right. symmetry in Eb. destruct (G B C b1 b2 (eq_sym Eb)) as [(a1 & a2 & -> & -> & ->)|(c1 & c2 & -> & -> & ->)]; [left; eauto|right].
  exists c1, c2. rewrite <- ?app_assoc. auto.
Qed.
Lemma app_cons_comm {A} (l : list A) x r : l ++ x :: r = (l ++ [x]) ++ r. Proof. rewrite <- app_assoc. auto. Qed.

Lemma remrun_post N l1 i o s l2 k : rem N i = false -> rem N s = false -> lolt (nlo N i) (nlo N s) ->
  remrun N (l1 ++ (i, o) :: l2) k -> remrun N (l1 ++ (i, None) :: (s, None) :: l2) k.
Proof.
  intros Hi Hs Hl (A & B & C & E & HA & HB & HC & Hd). symmetry in E. apply cell_split in E as [(a1 & a2 & -> & -> & ->)|[(b1 & b2 & -> & -> & ->)|(c1 & c2 & -> & -> & ->)]].
  - exists (a1 ++ (i, None) :: (s, None) :: a2), B, C. split; [rewrite <- app_assoc; auto|]. split; auto. rewrite Forall_app in *. destruct HA as [H1 H2]. inversion H2; subst. split; auto.
  - rewrite Forall_app in HB. destruct HB as [_ HB]. inversion HB as [|? ? Hx]; subst. unfold dead in Hx. simpl in Hx. congruence.
  - exists A, B, (c1 ++ (i, None) :: (s, None) :: c2). split; [rewrite <- !app_assoc; auto|]. split; auto. split; auto. rewrite Forall_app in HC. destruct HC as [H1 H2]. inversion H2; subst. split.
    + apply Forall_app. split; auto.
    + destruct Hd as [->|[Hx Hy]]; auto. right. split; auto. rewrite Forall_app in *. destruct Hx as [Hx1 Hx2]. inversion Hx2; subst. split; auto.
      constructor; auto. constructor; auto. eapply lolt_trans; eauto.
Qed.
Lemma remrun_merge N l1 i s l2 k : rem N i = false -> rem N s = true -> remrun N (l1 ++ (i, None) :: (s, None) :: l2) k -> remrun N (l1 ++ (i, None) :: l2) k.
Proof.
  intros Hi Hs (A & B & C & E & HA & HB & HC & Hd). rewrite app_cons_comm in E. symmetry in E. apply cell_split in E as [(a1 & a2 & -> & E1 & ->)|[(b1 & b2 & -> & E1 & ->)|(c1 & c2 & -> & E1 & ->)]].
  - rewrite Forall_app in HA. destruct HA as [_ HA]. inversion HA as [|? ? Hx]; subst. unfold live in Hx. simpl in Hx. congruence.
  - rewrite app_cons_comm, E1. exists A, (b1 ++ b2), C. rewrite <- !app_assoc. split; auto. split; auto. rewrite Forall_app in *. destruct HB as [H1 H2]. inversion H2; subst. split; auto. split; auto.
    destruct Hd as [Hd|[Hx Hy]]; [destruct b1; discriminate|]. right. split; auto. rewrite Forall_app in *. destruct Hy as [Hx1 Hx2]. inversion Hx2; subst. auto.
  - rewrite Forall_app in HC. destruct HC as [_ HC]. inversion HC as [|? ? Hx]; subst. unfold live in Hx. simpl in Hx. congruence.
Qed.

(** [i] may be removed: it is responsible for [k], or its right neighbour is removed. *)
Definition mayrem (N : nmap) (k : K) (i : nat) (l2 : list cell) : Prop :=
  (above (nlo N i) k /\ Forall (fun c => lolt (Some k) (nlo N (fst c))) l2) \/
  (exists R o l, l2 = (R, o) :: l /\ rem N R = true).
Lemma remrun_remove N N' l1 i l2 k : remrun N (l1 ++ (i, None) :: l2) k -> mayrem N k i l2 -> rem N i = false -> rem N' i = true ->
  (forall c, In c (l1 ++ l2) -> rem N' (fst c) = rem N (fst c)) -> (forall c, In c (l1 ++ (i, None) :: l2) -> nlo N' (fst c) = nlo N (fst c)) ->
  (forall c, In c l2 -> lolt (nlo N i) (nlo N (fst c))) -> remrun N' (l1 ++ (i, None) :: l2) k.
Proof.
  intros Hr Hm Hi Hi' Hrem Hlo Hs.
  assert (Hlive : forall X, (forall c, In c X -> In c (l1 ++ l2)) -> Forall (live N) X -> Forall (live N') X).
  { intros X Hx HX. rewrite Forall_forall in *. intros c Hc. unfold live. rewrite Hrem; auto. apply HX; auto. }
  assert (Hdead : forall X, (forall c, In c X -> In c (l1 ++ l2)) -> Forall (dead N) X -> Forall (dead N') X).
  { intros X Hx HX. rewrite Forall_forall in *. intros c Hc. unfold dead. rewrite Hrem; auto. apply HX; auto. }
  destruct Hr as (A & B & C & E & HA & HB & HC & Hd). symmetry in E.
  assert (Hgo : Forall (live N) l1 -> forall B' C', l2 = B' ++ C' -> Forall (dead N) B' -> Forall (live N) C' ->
            Forall (fun c => lolt (Some k) (nlo N (fst c))) C' -> above (nlo N i) k -> Forall (fun c => above (nlo N (fst c)) k) B' -> remrun N' (l1 ++ (i, None) :: l2) k).
  { intros H1 B' C' El2 H2 H3 H4 H5 H6. exists l1, ((i, None) :: B'), C'. split; [simpl; rewrite El2; reflexivity|].
    split; [apply Hlive; auto; intros; apply in_app_iff; auto|].
    split; [constructor; auto; apply Hdead; auto; intros; rewrite El2, !in_app_iff; auto|].
    split; [apply Hlive; auto; intros; rewrite El2, !in_app_iff; auto|]. right. split.
    - rewrite Forall_forall in *. intros c Hc. rewrite Hlo; auto. rewrite El2, in_app_iff. simpl. rewrite in_app_iff. auto.
    - constructor; [rewrite (Hlo (i, None)) by apply in_elt; auto|]. rewrite Forall_forall in *. intros c Hc. rewrite Hlo; auto. rewrite El2, in_app_iff. simpl. rewrite in_app_iff. auto. }
  apply cell_split in E as [(a1 & a2 & -> & E1 & E2)|[(b1 & b2 & -> & E1 & E2)|(c1 & c2 & -> & E1 & E2)]].
  - rewrite Forall_app in HA. destruct HA as [HA1 HA2]. inversion HA2 as [|? ? _ HA3]; subst. destruct Hm as [[Hm1 Hm2]|(R & o & l & El & HR)].
    + destruct B as [|b B].
      * apply (Hgo HA1 [] (a2 ++ [] ++ C)); auto. simpl. apply Forall_app; auto.
      * exfalso. destruct Hd as [|[_ Hd]]; [discriminate|]. inversion Hd as [|? ? Hb]; subst. rewrite Forall_forall in Hm2. specialize (Hm2 b).
        rewrite !in_app_iff in Hm2. simpl in Hm2. specialize (Hm2 ltac:(auto)). unfold lolt in Hm2. unfold above in Hb. destruct (nlo N (fst b)); [|auto]. rewrite Hb in Hm2. discriminate.
    + destruct a2 as [|x a2].
      * destruct B as [|b B].
        -- simpl in El. subst C. inversion HC as [|? ? Hx]; subst. unfold live in Hx. simpl in Hx. congruence.
        -- destruct Hd as [|[Hd1 Hd2]]; [discriminate|]. apply (Hgo HA1 (b :: B) C); auto. inversion Hd2; subst. eapply lolt_above; [|eassumption]. apply Hs. simpl. auto.
      * simpl in El. injection El as -> _. inversion HA3 as [|? ? Hx]; subst. unfold live in Hx. simpl in Hx. congruence.
  - rewrite Forall_app in HB. destruct HB as [_ HB]. inversion HB as [|? ? Hx]; subst. unfold dead in Hx. simpl in Hx. congruence.
  - rewrite Forall_app in HC. destruct HC as [HC1 HC2]. inversion HC2 as [|? ? _ HC3]; subst. destruct Hm as [[Hm1 Hm2]|(R & o & l & El & HR)].
    + destruct B as [|b B].
      * simpl. apply (Hgo ltac:(apply Forall_app; auto) [] c2); auto.
      * exfalso. destruct Hd as [|[Hd _]]; [discriminate|]. rewrite Forall_app in Hd. destruct Hd as [_ Hd]. inversion Hd as [|? ? Hb]; subst. simpl in Hb.
        unfold lolt in Hb. unfold above in Hm1. destruct (nlo N i); [|auto]. rewrite Hm1 in Hb. discriminate.
    + subst c2. inversion HC3 as [|? ? Hx]; subst. unfold live in Hx. simpl in Hx. congruence.
Qed.
End SeqPot.
