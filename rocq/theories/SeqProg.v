(** Single-threaded runs of the help-along, consolidation and size adjustment
    steps: they end without error, and every abort has used up potential. *)
From Coq Require Import NArith List Arith Lia Bool ZArith Sorted.
From Verif Require Import Base Leaf LeafSpec LeafProofs LeafProofs2 Inner InnerSpec InnerProofs InnerProofs2 Tree TreeSpec TreeInv TreeProg SeqTree SeqTree2 SeqPot SeqUp.
Import ListNotations.

Section SeqProg.
Context {P : Params}.

(** * Running a program to its end *)
Definition tot {A} (m : mem) (p : prog A) (Q : mem -> A -> Prop) : Prop :=
  match prun m p with (m', Ok a) => Q m' a | (_, Er _) => False end.
Lemma prun_bind {A B} (p : prog A) (f : A -> prog B) : forall m,
  prun m (pbind p f) = match prun m p with (m', Ok a) => prun m' (f a) | (m', Er e) => (m', Er e) end.
Proof.
  induction p as [a|e|i k IH|i o n k IH|i o n k IH|k IH|o n k IH|n k IH]; intros m; simpl; auto.
  - destruct (get m i); auto.
  - destruct (tab m i) as [p'|]; auto. destruct (N.eqb p' o); auto.
  - destruct (tab m i) as [p'|]; auto. destruct (N.eqb p' o); auto.
  - destruct (root m =? o); auto.
Qed.
Lemma tot_ret {A} m (a : A) (Q : mem -> A -> Prop) : Q m a -> tot m (Ret a) Q. Proof. auto. Qed.
Lemma tot_bind {A B} m (p : prog A) (f : A -> prog B) Q R : tot m p Q -> (forall m' a, Q m' a -> tot m' (f a) R) -> tot m (pbind p f) R.
Proof. unfold tot. intros Hp Hf. rewrite prun_bind. destruct (prun m p) as [m' [a|e]]; [|destruct Hp]. apply Hf; auto. Qed.
Lemma tot_mono {A} m (p : prog A) (Q R : mem -> A -> Prop) : tot m p Q -> (forall m' a, Q m' a -> R m' a) -> tot m p R.
Proof. unfold tot. intros Hp Hf. destruct (prun m p) as [m' [a|e]]; auto. Qed.
Lemma tot_lift {A} m (r : res A) a (Q : mem -> A -> Prop) : r = Ok a -> Q m a -> tot m (lift r) Q. Proof. intros -> Hq. exact Hq. Qed.
Lemma tot_liftb {A B} m (r : res A) a (f : A -> prog B) Q : r = Ok a -> tot m (f a) Q -> tot m (pbind (lift r) f) Q. Proof. intros -> Hq. exact Hq. Qed.
Lemma tot_load {A} m i x (k : _ -> prog A) Q : get m i = Some x -> tot m (k x) Q -> tot m (PLoad i k) Q.
Proof. unfold tot. simpl. intros ->. auto. Qed.
Lemma tot_cas {A} m i o n (k : _ -> prog A) Q : tab m i = Some o -> tot (cas_mem m i n) (k (Some (nptr m))) Q -> tot m (Cas i o n k) Q.
Proof. unfold tot. simpl. intros ->. rewrite N.eqb_refl. auto. Qed.
Lemma tot_ptr {A} m i o n (k : _ -> prog A) Q : tab m i = Some o -> tot (ptr_mem m i n) (k true) Q -> tot m (CasPtr i o n k) Q.
Proof. unfold tot. simpl. intros ->. rewrite N.eqb_refl. auto. Qed.
Lemma tot_new {A} m n (k : _ -> prog A) Q : tot (new_mem m n) (k (nid m)) Q -> tot m (NewNode n k) Q.
Proof. auto. Qed.
Lemma tot_casroot {A} m o n (k : _ -> prog A) Q : root m = o -> tot (root_mem m n) (k true) Q -> tot m (CasRoot o n k) Q.
Proof. unfold tot. simpl. intros ->. rewrite Nat.eqb_refl. auto. Qed.

(** * Consolidation *)
Definition rawok (N : nmap) (h : nat) (n : node) : Prop :=
  match n with
  | NLeaf c => h = 0 /\ lwf c
  | NInner c => 0 < h /\ iwf (nlo N) c /\ forall j, irefs c j -> N j <> None
  end.
Definition kids (n n' : node) : Prop :=
  match n, n' with
  | NLeaf _, NLeaf _ => True
  | NInner c, NInner c' => ilid c' = ilid c /\ ibody c' = c' /\ forall x j, seps c' x j <-> seps c x j
  | _, _ => False
  end.
Definition cons_node (n : node) : res node :=
  match n with
  | NLeaf c => do c' <- lconsolidate c; Ok (NLeaf c')
  | NInner c => do c' <- iconsolidate 0 c; Ok (NInner c')
  end.
Lemma nodeok_raw N h n : nodeok N h n -> is_remove n = false -> rawok N h n.
Proof. destruct n as [[]|[]]; simpl; unfold nodeok; simpl; intros [Hx _] Hr; try discriminate; tauto. Qed.
Lemma cons_ok N h n : rawok N h n -> exists n', cons_node n = Ok n' /\ nodeok N h n' /\ nlow n' = nlow n /\ nhigh n' = nhigh n /\
  nsize n' = nsize n /\ is_remove n' = false /\ is_delta n' = false /\ kids n n'.
Proof.
  destruct n as [c|c]; simpl.
  - intros [-> Hw]. destruct (lconsolidate_spec c Hw) as (items & E & Hw' & Hc & _). rewrite E. simpl.
    eexists. split; auto. split; [split; [exact (conj eq_refl (conj Hw' I))|discriminate]|]. repeat split; auto. unfold nsize. simpl. rewrite Hc. auto.
  - intros (Hh & Hw & Hr). destruct (iconsolidate_spec (nlo N) c 0 Hw) as (rest & E & Hs & Hin & Hc & Hw'). rewrite E. simpl.
    eexists. split; auto. split; [split; [|discriminate]|].
    + split; auto. split; auto. split; [exact I|]. split; [exact I|]. simpl. split; [|intros j []]. intros j [->|[<-|Hj]]; [apply Hr, lid_refs|apply Hr, lid_refs|].
      apply in_map_iff in Hj as ([x y] & <- & Hj). apply Hin in Hj. apply Hr. eapply seps_refs; eauto.
    + simpl. repeat split; auto; try apply Hin. unfold nsize. rewrite Hc. cbn [icount length]. f_equal. lia.
Qed.
Lemma tot_consolidate m s n' (Q : mem -> snap -> Prop) : tab m (s_id s) = Some (s_ptr s) -> cons_node (s_node s) = Ok n' ->
  Q (cas_mem m (s_id s) n') {| s_id := s_id s; s_ptr := nptr m; s_node := n' |} -> tot m (consolidate s) Q.
Proof.
  intros Ht Hc HQ. unfold consolidate. destruct (s_node s) as [c|c]; simpl in *.
  - destruct (lconsolidate c) as [c'|e]; [|discriminate]. simpl in *. injection Hc as <-. apply tot_cas; auto.
  - destruct (iconsolidate 0 c) as [c'|e]; [|discriminate]. simpl in *. injection Hc as <-. apply tot_cas; auto.
Qed.
Lemma kids_same n n' : is_remove n = false -> kids n n' -> samekids n n'.
Proof.
  destruct n as [c|c], n' as [c'|c']; simpl; auto. intros Hr (H1 & H2 & H3). rewrite H2. assert (Hb : ibody c = c) by (destruct c; auto; discriminate). rewrite Hb. auto.
Qed.
Lemma wt_same n n' : is_remove n = false -> is_remove n' = false -> nsize n' = nsize n -> kids n n' -> wt n' = wt n.
Proof. intros H1 H2 H3 H4. unfold wt. rewrite H1, H2, H3. destruct n, n'; auto; destruct H4. Qed.

(** * Contexts *)
Definition cursn (m : mem) (s : snap) : Prop := get m (s_id s) = Some (s_ptr s, s_node s).
Definition pid (p : par) : option nat := match p with PNode ps => Some (s_id ps) | _ => None end.
Record atx (m : mem) (lev : nat -> list cell) (H h : nat) (x : ctx) (o : option nat) (pre ga gb post : list cell) : Prop := {
  a_cur : cursn m (cur x);
  a_par : match prt x with PUninit => False | PRoot => True | PNode ps => cursn m ps end;
  a_place : place (node_of m) (root m) lev H h (pid (prt x)) pre (ga ++ (s_id (cur x), o) :: gb) post
}.
Definition minv (m : mem) (lev : nat -> list cell) (H : nat) (k : K) : Prop := mbound m /\ inv (node_of m) (root m) lev H k.
Definition mpot (m : mem) (lev : nat -> list cell) (H : nat) : nat := pot (node_of m) lev H.
Definition samepar (p p' : par) : Prop :=
  match p, p' with
  | PRoot, PRoot => True
  | PNode a, PNode b => s_id b = s_id a /\ nlow (s_node b) = nlow (s_node a) /\ nhigh (s_node b) = nhigh (s_node a)
  | _, _ => False
  end.
Definition fails (m : mem) (lev : nat -> list cell) (H : nat) (k : K) (m' : mem) : Prop :=
  exists lev' H', minv m' lev' H' k /\ mpot m' lev' H' < mpot m lev H.
Record goes (m : mem) (lev : nat -> list cell) (H h : nat) (k : K) (x : ctx) (pre ga gb post : list cell)
            (m' : mem) (x' : ctx) (lev' : nat -> list cell) (ga' gb' : list cell) : Prop := {
  go_inv : minv m' lev' H k;
  go_root : root m' = root m;
  go_at : atx m' lev' H h x' None pre ga' gb' post;
  go_key : key x' = key x;
  go_par : samepar (prt x) (prt x');
  go_live : is_remove (s_node (cur x')) = false;
  go_lo : lole (nlow (s_node (cur x'))) (nlow (s_node (cur x)));
  go_others : others (node_of m) (node_of m') lev lev' H h;
  go_right : forall j, In j (ids (gb ++ post)) -> get m' j = get m j;
  go_pot : (mpot m' lev' H < mpot m lev H /\ (gb' = gb \/ exists s, gb' = (s, None) :: gb)) \/
           (mpot m' lev' H = mpot m lev H /\ ga' = ga /\ gb' = gb /\ s_id (cur x') = s_id (cur x) /\ lev' h = lev h)
}.
Lemma samepar_refl p : p <> PUninit -> samepar p p. Proof. destruct p; simpl; auto. Qed.
Lemma samepar_trans a b c : samepar a b -> samepar b c -> samepar a c.
Proof. destruct a, b, c; simpl; try tauto. intros (E1 & E2 & E3) (E4 & E5 & E6). repeat split; congruence. Qed.
Lemma samepar_pid a b : samepar a b -> pid b = pid a. Proof. destruct a, b; simpl; try tauto. intros (-> & _). auto. Qed.
Lemma others_refl N lev H h : others N N lev lev H h. Proof. intros y _ _. auto. Qed.
Lemma others_trans N N1 N2 lev lev1 lev2 H h : others N N1 lev lev1 H h -> others N1 N2 lev1 lev2 H h -> others N N2 lev lev2 H h.
Proof.
  intros H1 H2 y Hy Hy'. destruct (H1 y Hy Hy') as [E1 F1]. destruct (H2 y Hy Hy') as [E2 F2]. split; [congruence|].
  intros j Hj. destruct (F1 j Hj) as [A1 A2]. rewrite E1 in F2. destruct (F2 j Hj) as [A3 A4]. split; congruence.
Qed.

Lemma cursn_node m s : cursn m s -> node_of m (s_id s) = Some (s_node s).
Proof. intros E. apply node_of_get. eauto. Qed.
Lemma cursn_tab m s : cursn m s -> tab m (s_id s) = Some (s_ptr s). Proof. intros E. apply get_tab in E. tauto. Qed.

(** What a current snapshot at a cell tells. *)
Section At.
Variables (m : mem) (lev : nat -> list cell) (H h : nat) (k : K) (x : ctx) (o : option nat) (pre ga gb post : list cell).
Hypothesis I : minv m lev H k.
Hypothesis A : atx m lev H h x o pre ga gb post.
Let N := node_of m.
Let i := s_id (cur x).
Lemma at_tree : tree N (root m) lev H. Proof. apply I. Qed.
Lemma at_h : h <= H. Proof. apply (place_lev _ _ _ _ _ _ _ _ _ (a_place _ _ _ _ _ _ _ _ _ _ A)). Qed.
Lemma at_lev : lev h = (pre ++ ga) ++ (i, o) :: gb ++ post.
Proof. destruct (place_lev _ _ _ _ _ _ _ _ _ (a_place _ _ _ _ _ _ _ _ _ _ A)) as [_ E]. rewrite E, <- !app_assoc. auto. Qed.
Lemma at_in : In (i, o) (lev h). Proof. rewrite at_lev. apply in_elt. Qed.
Lemma at_node : N i = Some (s_node (cur x)). Proof. apply cursn_node, A. Qed.
Lemma at_ok : nodeok N h (s_node (cur x)).
Proof. destruct (t_ok _ _ _ _ at_tree h i at_h (ids_in _ _ _ at_in)) as (n & E & Hn). rewrite at_node in E. injection E as <-. auto. Qed.
Lemma at_good : good N ((pre ++ ga) ++ (i, o) :: gb ++ post). Proof. rewrite <- at_lev. apply (tree_good _ _ _ _ h at_tree at_h). Qed.
Lemma at_ne j oj : In (j, oj) (pre ++ ga) \/ In (j, oj) (gb ++ post) -> j <> i.
Proof. intros Hj ->. destruct (good_order _ _ _ _ _ at_good) as [H1 H2]. destruct Hj as [Hj|Hj]; [apply H1 in Hj|apply H2 in Hj]; eapply lolt_irr; eauto. Qed.
Lemma at_nodup : NoDup (ids (pre ++ ga) ++ cids (i, o) ++ ids (gb ++ post)).
Proof. pose proof (tree_nodup _ _ _ _ h at_tree at_h) as Hn. rewrite at_lev in Hn. rewrite ids_app in Hn. exact Hn. Qed.
Lemma at_ne_id j : In j (ids (gb ++ post)) -> j <> i.
Proof. intros Hj ->. pose proof at_nodup as Hn. apply nodup_r in Hn. eapply (nodup_disj (cids (i, o))); eauto. simpl; auto. Qed.
Lemma at_high : match cids (i, o) ++ ids (gb ++ post) with _ :: j :: _ => exists k', nhigh (s_node (cur x)) = Some (k', j) /\ nlo N j = Some k' | _ => nhigh (s_node (cur x)) = None end.
Proof.
  pose proof (t_seg _ _ _ _ at_tree h at_h) as Hs. pose proof (tree_ranges _ _ _ _ h at_tree at_h) as Hr.
  rewrite at_lev, ids_app in Hs, Hr. change (ids ((i, o) :: gb ++ post)) with (cids (i, o) ++ ids (gb ++ post)) in Hs, Hr. unfold cids in Hs, Hr |- *. simpl in Hs, Hr |- *.
  destruct (seg_mid _ _ _ _ _ _ Hs Hr) as (n & E & Hn). rewrite at_node in E. injection E as <-. auto.
Qed.
Lemma at_split s : o = Some s -> is_remove (s_node (cur x)) = false /\ pending N i s.
Proof.
  intros Eo. pose proof at_in as Hi. rewrite Eo in Hi. pose proof (t_cell _ _ _ _ at_tree h i s at_h Hi) as Hp. split; auto. unfold pending in Hp. rewrite at_node in Hp. destruct (s_node (cur x)) as [[]|[]]; auto; destruct Hp.
Qed.
Lemma at_leaf : is_leaf (s_node (cur x)) = (h =? 0).
Proof. pose proof at_ok as [Hn _]. destruct (s_node (cur x)); simpl in *; destruct Hn as [Hn _]; [rewrite Hn; auto|]. symmetry. apply Nat.eqb_neq. lia. Qed.
Lemma at_par ps : prt x = PNode ps -> h < H /\ In (s_id ps, None) (lev (S h)) /\ N (s_id ps) = Some (s_node ps) /\
  exists c A0 B0, s_node ps = NInner c /\ ibody c = c /\ focus N lev h A0 (s_id ps) B0 pre (ga ++ (i, o) :: gb) post /\ nodeok N (S h) (NInner c) /\ rem N (ilid c) = false.
Proof.
  intros E. pose proof A as [_ Ap Apl]. rewrite E in Ap, Apl. simpl in Apl. destruct Apl as (Hh & HQ & Hr & A0 & B0 & F).
  split; auto. split; auto. pose proof (cursn_node _ _ Ap) as En. split; auto.
  pose proof F as (_ & _ & _ & (c & o0 & g' & EQ & _) & _). rewrite En in EQ. injection EQ as EQ. exists c, A0, B0. split; auto.
  unfold rem in Hr. rewrite En, EQ in Hr. assert (Eb : ibody c = c) by (destruct c; auto; discriminate). split; auto. split; auto.
  destruct (t_ok _ _ _ _ at_tree (S h) (s_id ps) ltac:(lia) (ids_in _ _ _ HQ)) as (n & E1 & Hn). unfold N in E1. rewrite En in E1. injection E1 as <-. rewrite EQ in Hn. split; auto.
  rewrite <- Eb. apply (t_first _ _ _ _ at_tree (S h) (s_id ps)); [lia|eapply ids_in; eauto|unfold N; congruence].
Qed.
Lemma at_par_ne ps : prt x = PNode ps -> forall j, In j (ids (lev h)) -> j <> s_id ps.
Proof. intros E j Hj ->. destruct (at_par ps E) as (Hh & HQ & _). assert (S h = h); [|lia]. apply (t_dist _ _ _ _ at_tree (S h) h (s_id ps)); auto; try lia. eapply ids_in; eauto. Qed.
Lemma at_bound j p n : get m j = Some (p, n) -> j < nid m.
Proof. intros E. apply get_tab in E as [E _]. destruct I as [B _]. apply (b_tab _ B j p E). Qed.
Lemma at_get j : In j (ids (lev h)) -> exists p n, get m j = Some (p, n).
Proof. intros Hj. destruct (t_ok _ _ _ _ at_tree h j at_h Hj) as (n & E & _). apply node_of_get in E as (p & E). eauto. Qed.
End At.

(** Replacing the current page by one with the same bounds and children. *)
Lemma step_page m lev H h k x pre ga gb post n' :
  minv m lev H k -> atx m lev H h x None pre ga gb post ->
  nlow n' = nlow (s_node (cur x)) -> nhigh n' = nhigh (s_node (cur x)) -> nodeok (node_of m) h n' -> samekids (s_node (cur x)) n' -> is_remove (s_node (cur x)) = false ->
  is_remove n' = false ->
  let m' := cas_mem m (s_id (cur x)) n' in let x' := set_cur x {| s_id := s_id (cur x); s_ptr := nptr m; s_node := n' |} in
  minv m' lev H k /\ atx m' lev H h x' None pre ga gb post /\ mpot m' lev H + wt (s_node (cur x)) = mpot m lev H + wt n' /\
  others (node_of m) (node_of m') lev lev H h /\ (forall j, j <> s_id (cur x) -> get m' j = get m j).
Proof.
  intros I A Hlo Hhi Hok Hk Hl Hl' m' x'. pose proof I as [B Iv].
  pose proof (a_cur _ _ _ _ _ _ _ _ _ _ A) as Hc. pose proof (cas_upd1 m (s_id (cur x)) n' B (at_bound _ _ _ _ I _ _ _ Hc)) as U. fold m' in U.
  destruct (up_page (node_of m) (node_of m') (root m) lev H h _ pre ga (s_id (cur x)) gb post (s_node (cur x)) n' k Iv (a_place _ _ _ _ _ _ _ _ _ _ A)) as (I' & Pl' & Hp & Ho); auto.
  - apply cursn_node; auto.
  - apply (upd1_node _ _ _ _ _ U).
  - intros j Hj. apply (upd1_other _ _ _ _ _ j U Hj).
  - split; [split; [apply U|exact I']|]. split; [|split; [exact Hp|split; [exact Ho|apply U]]].
    constructor.
    + apply U.
    + pose proof (a_par _ _ _ _ _ _ _ _ _ _ A) as Hpar. simpl. destruct (prt x) as [| |ps] eqn:Ep; auto. unfold cursn. rewrite (u_other _ _ _ _ _ U); auto.
      intros Eq. symmetry in Eq. revert Eq. apply (at_par_ne m lev H h k x None pre ga gb post I A ps Ep). eapply ids_in. apply (at_in _ _ _ _ _ _ _ _ _ _ A).
    + exact Pl'.
Qed.

(** TryConsolidateNode. *)
Lemma try_cons_spec m lev H h k x pre ga gb post : minv m lev H k -> atx m lev H h x None pre ga gb post -> is_remove (s_node (cur x)) = false ->
  tot m (try_consolidate x) (fun m' x' => minv m' lev H k /\ atx m' lev H h x' None pre ga gb post /\ mpot m' lev H = mpot m lev H /\
    others (node_of m) (node_of m') lev lev H h /\ (forall j, j <> s_id (cur x) -> get m' j = get m j) /\
    s_id (cur x') = s_id (cur x) /\ key x' = key x /\ prt x' = prt x /\ nlow (s_node (cur x')) = nlow (s_node (cur x)) /\ is_remove (s_node (cur x')) = false /\
    nsize (s_node (cur x')) = nsize (s_node (cur x)) /\ root m' = root m).
Proof.
  intros I A Hl.
  assert (Hself : tot m (Ret x) (fun m' x' => minv m' lev H k /\ atx m' lev H h x' None pre ga gb post /\ mpot m' lev H = mpot m lev H /\
    others (node_of m) (node_of m') lev lev H h /\ (forall j, j <> s_id (cur x) -> get m' j = get m j) /\
    s_id (cur x') = s_id (cur x) /\ key x' = key x /\ prt x' = prt x /\ nlow (s_node (cur x')) = nlow (s_node (cur x)) /\ is_remove (s_node (cur x')) = false /\
    nsize (s_node (cur x')) = nsize (s_node (cur x)) /\ root m' = root m)).
  { apply tot_ret. split; [exact I|]. split; [exact A|]. split; auto. split; [apply others_refl|]. repeat (split; auto). }
  unfold try_consolidate. destruct (is_delta (s_node (cur x))); auto.
  match goal with |- tot _ (if ?b then _ else _) _ => destruct b; auto end.
  pose proof (at_ok _ _ _ _ _ _ _ _ _ _ _ I A) as Hok.
  destruct (cons_ok _ _ _ (nodeok_raw _ _ _ Hok Hl)) as (n' & En' & H1 & H2 & H3 & H4 & H5 & H6 & H7).
  eapply (tot_bind _ _ _ (fun m' s => m' = cas_mem m (s_id (cur x)) n' /\ s = {| s_id := s_id (cur x); s_ptr := nptr m; s_node := n' |})). { eapply tot_consolidate; [apply cursn_tab, A|exact En'|]. auto. }
  intros m' s [-> ->]. apply tot_ret.
  destruct (step_page m lev H h k x pre ga gb post n' I A H2 H3 H1 (kids_same _ _ Hl H7) Hl H5) as (I' & A' & Hp & Ho & Hg).
  rewrite (wt_same _ n' Hl H5 H4 H7) in Hp. split; [exact I'|]. split; [exact A'|]. split; [lia|]. split; [exact Ho|]. split; [exact Hg|]. repeat (split; auto).
Qed.
End SeqProg.
