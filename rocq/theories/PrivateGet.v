(** GetValue by the only thread that updates a key (C58): the moment at which
    it reads. *)
From Coq Require Import List Arith Bool Lia.
From Verif Require Import Base Leaf LeafSpec Inner Tree TreeSpec TreeLin TreeRun BalanceSpec PrivateSpec Private Balance MomentSpec Moment InsertTestSpec InsertTest Phantom.
Import ListNotations.

Section PrivateGet.
Context {P : Params}.

Lemma visible_app a b : visible (a ++ b) = visible a ++ visible b.
Proof. unfold visible. apply flat_map_app. Qed.
Lemma vis_cut t o r tr : forall l1 l2, visible tr = l1 ++ VRet t o r :: l2 -> exists a b, tr = a ++ ERet t o r :: b /\ visible b = l2.
Proof.
  induction tr as [|e tr IH]; intros l1 l2 H; [destruct l1; discriminate|]. destruct e as [u p|u|u p q].
  - change (VCall u p :: visible tr = l1 ++ VRet t o r :: l2) in H. destruct l1 as [|x l1]; [discriminate|]. injection H as _ H. destruct (IH _ _ H) as (a & b & -> & E). exists (ECall u p :: a), b. auto.
  - change (visible tr = l1 ++ VRet t o r :: l2) in H. destruct (IH _ _ H) as (a & b & -> & E). exists (EStep u :: a), b. auto.
  - change (VRet u p q :: visible tr = l1 ++ VRet t o r :: l2) in H. destruct l1 as [|x l1].
    + injection H as -> -> -> H. exists [], tr. auto.
    + injection H as _ H. destruct (IH _ _ H) as (a & b & -> & E). exists (ERet u p q :: a), b. auto.
Qed.
(** A thread inside a call does not begin another one. *)
Lemma busy s0 tr ss s t x : later s0 tr ss s -> running s0 t = Some x -> (forall o r, ~ In (ERet t o r) tr) ->
  (exists y, running s t = Some y) /\ forall o, ~ In (ECall t o) tr.
Proof.
  intros Hl H0. induction Hl as [|tr ss s e s' Hl IH Hs]; intros Hn; [split; [eauto|intros o []]|].
  destruct IH as [[y IH1] IH2]; [intros o r H; apply (Hn o r); right; exact H|].
  inversion Hs as [sx u o' fuel Hr|sx u o' q Hr H1 H2|sx u o' r Hr]; subst sx e s'; simpl; unfold tset; destruct (t =? u) eqn:E; try (apply Nat.eqb_eq in E; subst u).
  - congruence.
  - split; [eauto|]. intros o [H|H]; [injection H as -> _; rewrite Nat.eqb_refl in E; discriminate|exact (IH2 o H)].
  - split; [eauto|]. intros o [H|H]; [discriminate|exact (IH2 o H)].
  - split; [eauto|]. intros o [H|H]; [discriminate|exact (IH2 o H)].
  - exfalso. apply (Hn o' r). left. reflexivity.
  - split; [eauto|]. intros o [H|H]; [discriminate|exact (IH2 o H)].
Qed.
Lemma own_skip k v z l : (forall u o r, In (VRet u o r) z -> target o <> Some (k, v)) -> own k v (z ++ l) = own k v l.
Proof.
  induction z as [|e z IH]; intros H; [reflexivity|]. assert (IH' : own k v (z ++ l) = own k v l) by (apply IH; intros u o r Hi; apply (H u o r); right; exact Hi).
  destruct e as [u o|u o r]; simpl; [exact IH'|]. pose proof (H u o r (or_introl eq_refl)) as Ht.
  assert (X : forall a b, target o = Some (a, b) -> only k v a b = false).
  { intros a b E. destruct (only k v a b) eqn:Eo; [|reflexivity]. exfalso. apply only_true in Eo. destruct Eo as [-> ->]. congruence. }
  destruct o as [a b|a b|a b pr|a|a|a|], r as [[]|[] []|vs|low items high]; simpl; auto; rewrite (X a b eq_refl); exact IH'.
Qed.
Lemma ret_called tr ss s u o r : exec tr ss s -> In (ERet u o r) tr -> In (ECall u o) tr.
Proof.
  intros Hx H. destruct (idle_calls _ _ _ _ u (exec_from_init _ _ _ Hx) eq_refl) as [_ G]. destruct (G o r H) as (a & b & c & -> & _).
  apply in_or_app. right. right. apply in_or_app. right. left. reflexivity.
Qed.

Lemma private_moment tr ss s t k : exec tr ss s -> keeper t k (visible tr) ->
  forall l1 vs l2, visible tr = l1 ++ VRet t (OpGet k) (RVals vs) :: l2 ->
  exists s1, In s1 ss /\ (forall v, contents (sm s1) k v <-> own k v l2 = true) /\
    NoDup vs /\ (forall v, In v vs -> contents (sm s1) k v) /\ (page_clean (sm s1) k -> forall v, contents (sm s1) k v -> In v vs).
Proof.
  intros Hx Hp l1 vs l2 Hv. destruct (vis_cut _ _ _ _ _ _ Hv) as (a & b & -> & <-). set (o := OpGet k) in *. set (r := RVals vs) in *.
  pose proof (exec_from_init _ _ _ Hx) as Hl. apply later_split in Hl as (sx & ssx & ssy & Hl & _ & rx & ry & _ & _ & E0).
  assert (Hinc : incl ssx ss) by (rewrite E0; apply incl_appr, incl_refl). clear E0.
  inversion Hl as [|b' ssb sb e sx' Hlb Hsb]; subst e b' sx'. inversion Hsb as [| |sb' u o' r' Hr]; subst sb' u o' r'.
  destruct (idle_calls _ _ _ _ t Hlb eq_refl) as [Hc _]. destruct (Hc _ _ Hr) as (b1 & c & -> & Hn). clear Hc.
  replace (ERet t o r :: b1 ++ ECall t o :: c) with ((ERet t o r :: b1 ++ [ECall t o]) ++ c) in Hl by (simpl; rewrite <- app_assoc; reflexivity).
  set (q := ERet t o r :: b1 ++ [ECall t o]) in *.
  assert (Hl0 : later sinit (q ++ c) ssx sx) by exact Hl.
  apply later_split in Hl0 as (s0 & ssc & ssq & Lc & Lq & rc & rq & E1 & E2 & E3).
  destruct (exec_later _ _ _ X_init _ _ _ Lc) as (ss3 & Hxc). rewrite app_nil_r in Hxc.
  assert (Lq' := Lq). unfold q in Lq'. change (ERet t o r :: b1 ++ [ECall t o]) with ((ERet t o r :: b1) ++ [ECall t o]) in Lq'.
  apply later_split in Lq' as (s01 & ss01 & ssr & L1 & L2 & _). inversion L1 as [|tr1 ss1 sz e1 s1' Lz Sz]; subst e1 tr1 s1'. inversion Lz; subst sz ss1.
  assert (R0 : running s0 t = None) by (inversion Sz; assumption).
  assert (R1 : exists x, running s01 t = Some x) by (inversion Sz; subst; simpl; unfold tset; rewrite Nat.eqb_refl; eauto). destruct R1 as [x1 R1].
  inversion L2 as [|tr2 ss2 sw e2 s2' Lw Sw]; subst e2 tr2 s2'. destruct (busy _ _ _ _ t x1 Lw R1 Hn) as [_ Hb].
  assert (Hcall : call_in q t o r) by (exists [], b1, []; split; [reflexivity|exact Hn]).
  destruct (moment_at _ _ _ _ _ _ _ _ _ Hxc Lq Hcall) as (s1 & s2 & M & He).
  assert (Hi : In s1 ssq) by (destruct M as [[_ M]|(m1 & m2 & ->)]; [exact M|apply in_or_app; right; right; left; reflexivity]).
  destruct (later_from _ _ _ _ Lq s1 Hi) as (x & y & ssy' & ssx' & Eq & Ly & _).
  destruct (exec_later _ _ _ Hxc _ _ _ Ly) as (ss4 & Hx1).
  assert (Hall : forall e, In e (q ++ c) -> In e (a ++ ERet t o r :: b1 ++ ECall t o :: c)).
  { intros e He'. apply in_or_app. right. unfold q in He'. rewrite in_app_iff in He'. simpl in He'. rewrite in_app_iff in He'. simpl in *. rewrite in_app_iff. simpl. tauto. }
  assert (Hyq : forall e, In e y -> In e q) by (intros e H; rewrite Eq; apply in_or_app; right; exact H).
  assert (Hq : forall z, (forall e, In e z -> In e q) -> forall v u o' r', In (VRet u o' r') (visible z) -> target o' <> Some (k, v)).
  { intros z Hz v u o' r' H Ht. apply vis_ret in H. apply Hz in H.
    assert (u = t).
    { apply (Hp v u o'); [|exact Ht]. apply vis_call. eapply ret_called; [exact Hx|]. apply Hall. apply in_or_app. left. exact H. }
    subst u. unfold q in H. destruct H as [H|H]; [injection H as <- <-; discriminate|]. apply in_app_iff in H. destruct H as [H|[H|[]]]; [exact (Hn _ _ H)|discriminate]. }
  assert (Ey : forall v, own k v (visible (y ++ c)) = own k v (visible c)) by (intros v; rewrite visible_app; apply own_skip; apply Hq; exact Hyq).
  assert (Eb : forall v, own k v (visible (b1 ++ ECall t o :: c)) = own k v (visible c)).
  { intros v. replace (b1 ++ ECall t o :: c) with ((b1 ++ [ECall t o]) ++ c) by (rewrite <- app_assoc; reflexivity). rewrite visible_app. apply own_skip. apply Hq. intros e H. right. exact H. }
  exists s1. split; [|split; [|split; [|split]]].
  - apply Hinc. rewrite E3. destruct (in_app_or rq [s0] s1) as [H|[<-|[]]]; [rewrite <- E2; exact Hi|apply in_or_app; left; exact H|]. rewrite E1. apply in_or_app. right. left. reflexivity.
  - intros v. rewrite Eb, <- Ey. apply (exec_mine false t k v (y ++ c) ss4 s1 Hx1 (linearizable_ok false _ _ _ Hx1 ltac:(discriminate))).
    + intros u o' H Ht. apply (Hp v u o'); [|exact Ht]. apply vis_call. apply vis_call in H. apply Hall. apply in_or_app. apply in_app_or in H. destruct H as [H|H]; [left; apply Hyq, H|right; exact H].
    + intros o' p Hr'. destruct (idle_calls _ _ _ _ t Ly R0) as [G _]. destruct (G _ _ Hr') as (y1 & y2 & Ey' & _).
      assert (Hin : In (ECall t o') q) by (apply Hyq; rewrite Ey'; apply in_or_app; right; left; reflexivity).
      unfold q in Hin. destruct Hin as [H|H]; [discriminate|]. apply in_app_iff in H. destruct H as [H|[H|[]]]; [destruct (Hb _ H)|injection H as <-; discriminate].
  - apply (He false); discriminate.
  - apply (He false); discriminate.
  - intros Hc v C. destruct (He true (fun _ => Hc)) as [[G _] _]. apply G; [reflexivity|exact C].
Qed.
End PrivateGet.
