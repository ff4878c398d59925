(** Proofs about the vtrees made from tree decompositions. *)
From Verif Require Import Base Vtree VtreeProofs PgmLayout VtreeGen VtreeGenProofs.

(** ** Specification: tree decompositions.
    A vertex is the list of child numbers that leads to it from the root. *)
Fixpoint bag_at (d : dtree) (p : list nat) : option (list N) :=
  match d, p with
  | DT bag _, [] => Some bag
  | DT _ ch, i :: p' => match nth_error ch i with Some c => bag_at c p' | None => None end
  end.
Definition holds (d : dtree) (v : N) (p : list nat) : Prop := exists bag, bag_at d p = Some bag /\ In v bag.
(** A walk from vertex to neighbouring vertex that stays among the vertices whose bags contain v *)
Inductive walk (d : dtree) (v : N) : list nat -> list nat -> Prop :=
| walk_here p : holds d v p -> walk d v p p
| walk_step p p' q i : holds d v p -> p' = p ++ [i] \/ p = p' ++ [i] -> walk d v p' q -> walk d v p q.
Record tree_decomposition (n : nat) (scopes : list (list N)) (d : dtree) : Prop := {
  td_bags : forall p bag, bag_at d p = Some bag -> NoDup bag;
  td_vertices : forall v, In v (range n) <-> exists p, holds d v p;
  td_edges : Forall (fun S => exists p bag, bag_at d p = Some bag /\ incl S bag) scopes;
  td_connected : forall v p q, holds d v p -> holds d v q -> walk d v p q;
}.

(** ** Walks inside a child *)
Lemma walk_start d v p q : walk d v p q -> holds d v p.
Proof. destruct 1; auto. Qed.
Lemma walk_trans d v p q r : walk d v p q -> walk d v q r -> walk d v p r.
Proof. induction 1 as [|p p' q i H N W IH]; auto. intros H2. eapply walk_step; eauto. Qed.
Lemma walk_sym d v p q : walk d v p q -> walk d v q p.
Proof.
  induction 1 as [p H|p p' q i H N W IH]; [constructor; auto|]. eapply walk_trans; [exact IH|].
  apply (walk_step d v p' p p i); [exact (walk_start _ _ _ _ W)|tauto|constructor; auto].
Qed.
Lemma holds_child bag ch v i p : holds (DT bag ch) v (i :: p) <-> exists c, nth_error ch i = Some c /\ holds c v p.
Proof.
  unfold holds. simpl. destruct (nth_error ch i) as [c|]; split.
  - intros H. exists c. auto.
  - intros (c' & [= <-] & H). auto.
  - intros (b & [=] & _).
  - intros (c' & [=] & _).
Qed.
Lemma app_single_cons (i : nat) x p j : i :: x = p ++ [j] -> p = [] /\ x = [] /\ i = j \/ exists p', p = i :: p' /\ x = p' ++ [j].
Proof. destruct p as [|k p]; simpl; intros [= E1 E2]; subst; eauto. Qed.
Lemma walk_child bag ch v i c p q : nth_error ch i = Some c -> walk (DT bag ch) v p q -> forall x, p = i :: x ->
  (exists y, q = i :: y /\ walk c v x y) \/ (In v bag /\ walk c v x []).
Proof.
  intros Hc. induction 1 as [p H|p p' q j H N W IH]; intros x ->.
  - left. exists x. split; auto. apply holds_child in H as (c' & E & H). rewrite Hc in E. injection E as <-. constructor; auto.
  - apply holds_child in H as (c' & E & H). rewrite Hc in E. injection E as <-. destruct N as [->|N].
    + simpl in IH. destruct (IH (x ++ [j]) eq_refl) as [(y & -> & W')|[I W']].
      * left. exists y. split; auto. apply (walk_step c v x (x ++ [j]) y j); auto.
      * right. split; auto. apply (walk_step c v x (x ++ [j]) [] j); auto.
    + apply app_single_cons in N as [(-> & -> & <-)|(p1 & -> & ->)].
      * right. split; [|constructor; auto]. apply walk_start in W as (b & [= <-] & I). auto.
      * destruct (IH p1 eq_refl) as [(y & -> & W')|[I W']].
        -- left. exists y. split; auto. apply (walk_step c v (p1 ++ [j]) p1 y j); auto.
        -- right. split; auto. apply (walk_step c v (p1 ++ [j]) p1 [] j); auto.
Qed.

(** ** The conditions by recursion *)
Definition occurs (v : N) (d : dtree) : Prop := exists p, holds d v p.
Definition top_bag (d : dtree) : list N := match d with DT bag _ => bag end.
Lemma occurs_DT v bag ch : occurs v (DT bag ch) <-> In v bag \/ exists c, In c ch /\ occurs v c.
Proof.
  split.
  - intros [[|i p] H].
    + destruct H as (b & [= <-] & H). auto.
    + apply holds_child in H as (c & E & H). right. exists c. split; [eapply nth_error_In; eauto|exists p; auto].
  - intros [H|(c & I & p & H)].
    + exists [], bag. auto.
    + apply In_nth_error in I as [i I]. exists (i :: p). apply holds_child. eauto.
Qed.
Inductive rgood : dtree -> Prop :=
| rgood_DT bag ch : NoDup bag -> Forall rgood ch -> (forall c v, In c ch -> In v bag -> occurs v c -> In v (top_bag c)) ->
    (forall a c1 b c2 d v, ch = a ++ c1 :: b ++ c2 :: d -> occurs v c1 -> occurs v c2 -> In v bag) -> rgood (DT bag ch).
Lemma dtree_rect' (Q : dtree -> Prop) : (forall bag ch, Forall Q ch -> Q (DT bag ch)) -> forall d, Q d.
Proof.
  intros H. fix IH 1. intros [bag ch]. apply H. induction ch as [|c ch IHc]; constructor; auto.
Qed.
Lemma td_rgood d : (forall p bag, bag_at d p = Some bag -> NoDup bag) -> (forall v p q, holds d v p -> holds d v q -> walk d v p q) -> rgood d.
Proof.
  induction d as [bag ch IH] using dtree_rect'. intros B C. constructor.
  - apply (B []). reflexivity.
  - rewrite Forall_forall in *. intros c Hc. apply IH; auto; apply In_nth_error in Hc as [i Hi].
    + intros p b E. apply (B (i :: p)). simpl. rewrite Hi. exact E.
    + intros v p q Hp Hq.
      assert (holds (DT bag ch) v (i :: p)) as Hp' by (apply holds_child; eauto).
      assert (holds (DT bag ch) v (i :: q)) as Hq' by (apply holds_child; eauto).
      destruct (walk_child bag ch v i c _ _ Hi (C v _ _ Hp' Hq') p eq_refl) as [(y & [= <-] & W)|[_ W]]; auto.
      destruct (walk_child bag ch v i c _ _ Hi (C v _ _ Hq' Hp') q eq_refl) as [(y & [= <-] & W')|[_ W']]; [apply walk_sym; auto|].
      eapply walk_trans; [exact W|apply walk_sym; exact W'].
  - intros c v Hc Hv [p Hp]. apply In_nth_error in Hc as [i Hi].
    assert (holds (DT bag ch) v (i :: p)) as Hp' by (apply holds_child; eauto).
    assert (holds (DT bag ch) v []) as H0 by (exists bag; auto).
    assert (walk c v p []) as W.
    { destruct (walk_child bag ch v i c _ _ Hi (C v _ _ Hp' H0) p eq_refl) as [(y & [=] & W)|[_ W]]; auto. }
    apply walk_sym, walk_start in W as (b & E & I). destruct c as [b' ch']. simpl in E. injection E as ->. exact I.
  - intros a c1 b c2 d v E [p Hp] [q Hq].
    assert (nth_error ch (length a) = Some c1) as H1 by (rewrite E, nth_error_app2, Nat.sub_diag; auto).
    assert (nth_error ch (length a + S (length b)) = Some c2) as H2.
    { rewrite E, nth_error_app2 by lia. replace (length a + S (length b) - length a) with (S (length b)) by lia. simpl.
      rewrite nth_error_app2, Nat.sub_diag; auto. }
    assert (holds (DT bag ch) v (length a :: p)) as Hp' by (apply holds_child; eauto).
    assert (holds (DT bag ch) v ((length a + S (length b)) :: q)) as Hq' by (apply holds_child; eauto).
    destruct (walk_child bag ch v _ c1 _ _ H1 (C v _ _ Hp' Hq') p eq_refl) as [(y & E' & W)|[I _]]; auto. injection E' as E' _. lia.
Qed.

(** ** The vtree of a vertex *)
Definition oleaves (o : option vtree) : list N := match o with Some t => leaves t | None => [] end.
Definition orl (S : list N) (o : option vtree) : Prop := match o with Some t => right_linear S t | None => True end.
Lemma on_top_leaves l : forall rc, Permutation (oleaves (fold_left on_top l rc)) (flat_map leaves l ++ oleaves rc).
Proof.
  induction l as [|t l IH]; intros rc; simpl; auto. rewrite IH. destruct rc as [r|]; simpl; rewrite ?app_nil_r.
  - rewrite <- app_assoc. rewrite (app_assoc _ (leaves t)), (Permutation_app_comm _ (leaves t)), <- app_assoc. reflexivity.
  - apply Permutation_app_comm.
Qed.
Lemma orl_none S o : (forall v, In v (oleaves o) -> ~ In v S) -> orl S o.
Proof. destruct o; simpl; auto. apply rl_none. Qed.
Lemma orl_keep S l : forall rc, orl S rc -> Forall (fun t => forall v, In v (leaves t) -> ~ In v S) l -> orl S (fold_left on_top l rc).
Proof.
  induction l as [|t l IH]; intros rc H F; simpl; auto. apply Forall_cons_iff in F as [F1 F]. apply IH; auto.
  destruct rc; simpl; [left; auto|apply rl_none; auto].
Qed.
Lemma orl_one S l1 t l2 rc : right_linear S t -> Forall (fun t => forall v, In v (leaves t) -> ~ In v S) l1 ->
  Forall (fun t => forall v, In v (leaves t) -> ~ In v S) l2 -> (forall v, In v (oleaves rc) -> ~ In v S) ->
  orl S (fold_left on_top (l1 ++ t :: l2) rc).
Proof.
  intros R F1 F2 H. rewrite fold_left_app. simpl. apply orl_keep; auto.
  assert (forall v, In v (oleaves (fold_left on_top l1 rc)) -> ~ In v S) as H'.
  { intros v Hv. apply (Permutation_in v (on_top_leaves l1 rc)) in Hv. apply in_app_or in Hv as [Hv|Hv]; auto.
    apply in_flat_map in Hv as (t' & I & Hv). rewrite Forall_forall in F1. apply (F1 t'); auto. }
  destruct (fold_left on_top l1 rc) as [r|]; simpl in *; auto.
Qed.
Lemma orl_leaves S l : forall rc, orl S rc -> orl S (fold_left on_top (map Leaf l) rc).
Proof. induction l as [|v l IH]; intros rc H; simpl; auto. apply IH. destruct rc; simpl in *; auto. apply rl_leaf. exact H. Qed.
Lemma opt_list_app {A} (l1 l2 : list (option A)) : opt_list (l1 ++ l2) = opt_list l1 ++ opt_list l2.
Proof. apply flat_map_app. Qed.
Lemma opt_list_leaves {A} (f : A -> option vtree) l : flat_map leaves (opt_list (map f l)) = flat_map (fun a => oleaves (f a)) l.
Proof. induction l as [|a l IH]; simpl; auto. destruct (f a); simpl; rewrite <- IH; auto. Qed.
Lemma opt_list_In {A} (f : A -> option vtree) l t : In t (opt_list (map f l)) <-> exists a, In a l /\ f a = Some t.
Proof.
  induction l as [|a l IH]; simpl.
  - split; [tauto|intros (? & [] & _)].
  - destruct (f a) eqn:E; simpl; rewrite IH; split.
    + intros [<-|(b & H & E')]; eauto.
    + intros (b & [<-|H] & E'); [left; congruence|eauto].
    + intros (b & H & E'); eauto.
    + intros (b & [<-|H] & E'); [congruence|eauto].
Qed.
Lemma nodup_flat_map {A} (f : A -> list N) l : Forall (fun a => NoDup (f a)) l ->
  (forall x a y b z v, l = x ++ a :: y ++ b :: z -> In v (f a) -> In v (f b) -> False) -> NoDup (flat_map f l).
Proof.
  induction l as [|a l IH]; intros F D; simpl; [constructor|]. apply Forall_cons_iff in F as [F1 F].
  apply NoDup_app_intro; auto.
  - apply IH; auto. intros x a1 y b z v E. apply (D (a :: x) a1 y b z v). simpl. rewrite E. reflexivity.
  - intros v Hv Hv'. apply in_flat_map in Hv' as (b & I & Hv'). apply in_split in I as (y & z & ->). apply (D [] a y b z v); auto.
Qed.
Lemma jt_eq pb bag ch : jt_vertex pb (DT bag ch) =
  fold_left on_top (map Leaf (filter (fun v => negb (NmemB v pb)) bag)) (fold_left on_top (opt_list (map (jt_vertex bag) ch)) None).
Proof. reflexivity. Qed.
Theorem jt_spec d : rgood d -> forall pb, (forall v, In v pb -> occurs v d -> In v (top_bag d)) ->
  NoDup (oleaves (jt_vertex pb d)) /\ (forall v, In v (oleaves (jt_vertex pb d)) <-> occurs v d /\ ~ In v pb) /\
  forall S, (exists p bag, bag_at d p = Some bag /\ incl S bag) -> orl S (jt_vertex pb d).
Proof.
  induction d as [bag ch IH] using dtree_rect'. intros G pb A. inversion G as [bag' ch' ND GC TC SEP]; subst bag' ch'. simpl in A.
  assert (forall c, In c ch -> NoDup (oleaves (jt_vertex bag c)) /\ (forall v, In v (oleaves (jt_vertex bag c)) <-> occurs v c /\ ~ In v bag) /\
    forall S, (exists p b, bag_at c p = Some b /\ incl S b) -> orl S (jt_vertex bag c)) as HC.
  { intros c Hc. rewrite Forall_forall in IH, GC. apply IH; auto. }
  clear IH. rewrite jt_eq.
  set (rc := fold_left on_top (opt_list (map (jt_vertex bag) ch)) None).
  assert (Permutation (oleaves rc) (flat_map (fun c => oleaves (jt_vertex bag c)) ch)) as PR.
  { unfold rc. rewrite on_top_leaves, opt_list_leaves. simpl. rewrite app_nil_r. reflexivity. }
  assert (forall v, In v (oleaves rc) <-> (exists c, In c ch /\ occurs v c) /\ ~ In v bag) as IR.
  { intros v. split.
    - intros H. apply (Permutation_in v PR), in_flat_map in H as (c & Hc & H). apply HC in H as [H1 H2]; auto. split; eauto.
    - intros [(c & Hc & H) NB]. apply (Permutation_in v (Permutation_sym PR)), in_flat_map. exists c. split; auto. apply HC; auto. }
  assert (NoDup (oleaves rc)) as NR.
  { apply (Permutation_NoDup (Permutation_sym PR)). apply nodup_flat_map.
    - apply Forall_forall. intros c Hc. apply HC; auto.
    - intros x a y b z v E Ha Hb.
      assert (In a ch) as Ia by (rewrite E; apply in_or_app; simpl; auto).
      assert (In b ch) as Ib by (rewrite E; apply in_or_app; right; right; apply in_or_app; simpl; auto).
      apply HC in Ha as [H1 H2]; auto. apply HC in Hb as [H3 _]; auto. apply H2. apply (SEP x a y b z v); auto. }
  set (add := filter (fun v => negb (NmemB v pb)) bag).
  assert (forall v, In v add <-> In v bag /\ ~ In v pb) as IA.
  { intros v. unfold add. rewrite filter_In, negb_true_iff. split; intros [H1 H2]; split; auto; apply NmemB_false; auto. }
  assert (flat_map leaves (map Leaf add) = add) as EA.
  { generalize add. intros l. induction l as [|x l IHl]; simpl; auto. rewrite IHl. auto. }
  pose proof (on_top_leaves (map Leaf add) rc) as PF. rewrite EA in PF. split; [|split].
  - apply (Permutation_NoDup (Permutation_sym PF)). apply NoDup_app_intro; auto.
    + apply NoDup_filter. exact ND.
    + intros v H1 H2. apply IA in H1 as [H1 _]. apply IR in H2 as [_ H2]. auto.
  - intros v. rewrite occurs_DT. split.
    + intros H. apply (Permutation_in v PF) in H. apply in_app_or in H as [H|H].
      * apply IA in H. tauto.
      * apply IR in H as [H NB]. split; auto. intros HP. apply NB. apply A; auto. apply occurs_DT. auto.
    + intros [H NP]. apply (Permutation_in v (Permutation_sym PF)), in_or_app. rewrite IA, IR.
      destruct (in_dec N.eq_dec v bag) as [I|NI]; auto. destruct H as [H|H]; auto.
  - intros S [p (b & E & I)]. apply orl_leaves. destruct p as [|i p].
    + simpl in E. injection E as <-. apply orl_none. intros v Hv HS. apply IR in Hv as [_ Hv]. auto.
    + simpl in E. destruct (nth_error ch i) as [c|] eqn:Ei; [|discriminate].
      assert (In c ch) as Hc by (eapply nth_error_In; eauto).
      destruct (HC c Hc) as (_ & IC & RC). specialize (RC S (ex_intro _ p (ex_intro _ b (conj E I)))).
      destruct (nth_error_split ch i Ei) as (c1 & c2 & E2 & _).
      assert (forall v, In v S -> occurs v c) as OS. { intros v Hv. exists p, b. auto. }
      assert (Forall (fun t => forall v, In v (leaves t) -> ~ In v S) (opt_list (map (jt_vertex bag) c1))) as F1.
      { apply Forall_forall. intros t Ht v Hv HS. apply opt_list_In in Ht as (c' & I' & Et).
        assert (In c' ch) as Hc' by (rewrite E2; apply in_or_app; auto).
        assert (In v (oleaves (jt_vertex bag c'))) as H by (rewrite Et; exact Hv). apply HC in H as [H1 H2]; auto. apply H2.
        apply in_split in I' as (x & y & ->). rewrite <- app_assoc in E2. simpl in E2. apply (SEP x c' y c c2 v); auto. }
      assert (Forall (fun t => forall v, In v (leaves t) -> ~ In v S) (opt_list (map (jt_vertex bag) c2))) as F2.
      { apply Forall_forall. intros t Ht v Hv HS. apply opt_list_In in Ht as (c' & I' & Et).
        assert (In c' ch) as Hc' by (rewrite E2; apply in_or_app; simpl; auto).
        assert (In v (oleaves (jt_vertex bag c'))) as H by (rewrite Et; exact Hv). apply HC in H as [H1 H2]; auto. apply H2.
        apply in_split in I' as (x & y & ->). apply (SEP c1 c x c' y v); auto. }
      unfold rc. rewrite E2, map_app, opt_list_app. simpl. destruct (jt_vertex bag c) as [t|]; simpl.
      * apply orl_one; auto.
      * apply orl_keep; [simpl; auto|]. apply Forall_app. auto.
Qed.
Theorem jointree_full n scopes d : tree_decomposition n scopes d -> n <> 0 ->
  exists t, JointreeVtree d = Ok t /\ Permutation (leaves t) (range n) /\ Forall (fun S => right_linear S t) scopes.
Proof.
  intros T N0. pose proof (td_rgood d (td_bags _ _ _ T) (td_connected _ _ _ T)) as G.
  destruct (jt_spec d G []) as (ND & IL & RL); [intros v []|].
  assert (forall v, In v (oleaves (jt_vertex [] d)) <-> In v (range n)) as IV.
  { intros v. rewrite IL, (td_vertices _ _ _ T). simpl. unfold occurs. tauto. }
  unfold JointreeVtree. destruct (jt_vertex [] d) as [t|].
  - exists t. split; auto. split.
    + apply NoDup_Permutation; auto. apply range_nodup.
    + eapply Forall_impl; [|apply (td_edges _ _ _ T)]. intros S HS. apply (RL S HS).
  - exfalso. simpl in IV. apply (IV 1%N). apply range_In. lia.
Qed.
Lemma jointree_empty d : (forall v, ~ exists p, holds d v p) -> JointreeVtree d = Abort.
Proof.
  intros H. unfold JointreeVtree. enough (forall pb, oleaves (jt_vertex pb d) = []) as E.
  { specialize (E []). destruct (jt_vertex [] d) as [t|]; auto. exfalso. simpl in E. destruct t; simpl in E; [discriminate|].
    destruct t1; simpl in E; [discriminate|]. revert E. clear. intros E.
    assert (forall t, leaves t <> []) as L. { induction t as [v|l IHl r IHr]; simpl; [discriminate|]. intros Z. apply app_eq_nil in Z as [Z _]. auto. }
    apply app_eq_nil in E as [E _]. apply app_eq_nil in E as [E _]. apply (L _ E). }
  revert H. induction d as [bag ch IH] using dtree_rect'. intros H pb. rewrite jt_eq.
  assert (bag = []) as ->. { destruct bag as [|v bag]; auto. exfalso. apply (H v). exists [], (v :: bag). simpl; auto. }
  simpl. apply Permutation_nil, Permutation_sym. rewrite on_top_leaves, opt_list_leaves. simpl. rewrite app_nil_r.
  rewrite Forall_forall in IH. assert (forall c, In c ch -> oleaves (jt_vertex [] c) = []) as HC.
  { intros c Hc. apply IH; auto. intros v [p Hp]. apply (H v). apply In_nth_error in Hc as [i Hi]. exists (i :: p). apply holds_child. eauto. }
  clear -HC. induction ch as [|c ch IHc]; simpl; auto. rewrite HC by (simpl; auto). simpl. apply IHc. intros; apply HC; simpl; auto.
Qed.
