(** What the compiler of factors needs of the vtree, and the order in which it meets the variables of a factor. *)
From Coq Require Import Sorting.Sorted.
From Verif Require Import Base Param Vtree VtreeProofs Heap Manager HeapProofs Pgm.

(** ** Specification: the variables [S] are laid out right-linearly.
    Wherever variables of S occur on both sides of a vtree node, there is exactly one on the left. *)
Fixpoint right_linear (S : list N) (t : vtree) : Prop :=
  match t with
  | Leaf _ => True
  | VNode l r =>
      ((forall v, In v (leaves l) -> ~ In v S) /\ right_linear S r) \/
      ((forall v, In v (leaves r) -> ~ In v S) /\ right_linear S l) \/
      (exists a v b, leaves l = a ++ v :: b /\ In v S /\ (forall w, In w (a ++ b) -> ~ In w S)) /\ right_linear S r
  end.

(** The leaves from left to right, with their paths *)
Fixpoint lpaths (p : path) (t : vtree) : list (path * N) :=
  match t with
  | Leaf v => [(p, v)]
  | VNode l r => lpaths (false :: p) l ++ lpaths (true :: p) r
  end.
Lemma lpaths_leaves t : forall p, map snd (lpaths p t) = leaves t.
Proof. induction t as [v|l IHl r IHr]; intros p; simpl; auto. rewrite map_app, IHl, IHr. reflexivity. Qed.
Lemma lpaths_nodes t : forall p q v, In (q, v) (lpaths p t) <-> In (q, Leaf v) (nodes p t).
Proof.
  induction t as [w|l IHl r IHr]; intros p q v; simpl.
  - split; intros [E|[]]; injection E as <- <-; auto.
  - rewrite !in_app_iff, IHl, IHr. split; auto. intros [E|E]; [discriminate|auto].
Qed.
Lemma lpaths_subtree root q v : In (q, v) (lpaths [] root) <-> subtree root q = Some (Leaf v).
Proof. rewrite lpaths_nodes. apply nodes_root. Qed.

(** ** Positions increase from left to right *)
Lemma pos_down_split rp : forall t l r ru rw s, subtree t (rev rp) = Some (VNode l r) -> subtree l (rev ru) = Some s ->
  pos_down t (rp ++ false :: ru) < pos_down t (rp ++ true :: rw).
Proof.
  induction rp as [|b rp IH]; intros t l r ru rw s H HS.
  - simpl in H. injection H as ->. simpl. pose proof (pos_down_lt _ _ _ HS). lia.
  - simpl in H. rewrite subtree_app in H. simpl in H. destruct t as [v|tl tr]; simpl in H; [discriminate|].
    simpl. destruct b.
    + apply (IH tr l r ru rw s) in H; auto. lia.
    + apply (IH tl l r ru rw s) in H; auto.
Qed.
Lemma vpos_split root p l r u w s : subtree root p = Some (VNode l r) -> subtree l u = Some s ->
  vpos root (u ++ false :: p) < vpos root (w ++ true :: p).
Proof.
  intros H HS. unfold vpos. rewrite !rev_app_distr. simpl. rewrite <- !app_assoc. simpl.
  eapply pos_down_split; rewrite ?rev_involutive; eauto.
Qed.
Definition pos_lt root (a b : path * N) : Prop := vpos root (fst a) < vpos root (fst b).
Lemma sorted_app_intro {A} (R : A -> A -> Prop) l1 l2 : StronglySorted R l1 -> StronglySorted R l2 -> (forall a b, In a l1 -> In b l2 -> R a b) ->
  StronglySorted R (l1 ++ l2).
Proof.
  induction 1 as [|a l1 S1 IH F]; intros S2 H; simpl; auto. constructor.
  - apply IH; auto. intros; apply H; simpl; auto.
  - apply Forall_app. split; auto. apply Forall_forall. intros; apply H; simpl; auto.
Qed.
Lemma lpaths_sorted root t : forall p, subtree root p = Some t -> StronglySorted (pos_lt root) (lpaths p t).
Proof.
  induction t as [v|l IHl r IHr]; intros p H; simpl.
  - repeat constructor.
  - assert (subtree root (false :: p) = Some l) as Hl by (simpl; rewrite H; auto).
    assert (subtree root (true :: p) = Some r) as Hr by (simpl; rewrite H; auto).
    apply sorted_app_intro; auto. intros [qa va] [qb vb] Ha Hb. apply lpaths_nodes in Ha, Hb.
    destruct (in_nodes_suffix _ _ _ _ Ha) as [u ->]. destruct (in_nodes_suffix _ _ _ _ Hb) as [w ->].
    unfold pos_lt. simpl. eapply vpos_split; eauto.
    apply (nodes_subtree root l _ Hl) in Ha as (u' & E & Ha). apply app_inv_tail in E. subst u'. exact Ha.
Qed.

(** ** Sorting by decreasing position *)
Definition pos_ge root (a b : path * N) : Prop := vpos root (fst b) <= vpos root (fst a).
Lemma insert_pos_perm root x l : Permutation (insert_pos root x l) (x :: l).
Proof.
  induction l as [|y l IH]; simpl; auto. destruct (Nat.ltb _ _); auto.
  rewrite IH. apply perm_swap.
Qed.
Lemma sort_pos_perm root l : Permutation (sort_pos root l) l.
Proof. induction l as [|x l IH]; simpl; auto. rewrite insert_pos_perm, IH. auto. Qed.
Lemma insert_pos_sorted root x l : StronglySorted (pos_ge root) l -> StronglySorted (pos_ge root) (insert_pos root x l).
Proof.
  induction 1 as [|y l S IH F]; simpl; [repeat constructor|]. destruct (Nat.ltb _ _) eqn:E.
  - apply Nat.ltb_lt in E. constructor; auto. rewrite Forall_forall in *. intros z Hz.
    apply (Permutation_in z (insert_pos_perm root x l)) in Hz as [<-|Hz]; unfold pos_ge in *; [lia|apply F; auto].
  - apply Nat.ltb_ge in E. constructor; [constructor; auto|]. rewrite Forall_forall in *. intros z [<-|Hz]; [exact E|].
    specialize (F z Hz). unfold pos_ge in *. lia.
Qed.
Lemma sort_pos_sorted root l : StronglySorted (pos_ge root) (sort_pos root l).
Proof. induction l as [|x l IH]; simpl; [constructor|]. apply insert_pos_sorted, IH. Qed.
Lemma sorted_unique {A} (R : A -> A -> Prop) : forall l1 l2, StronglySorted R l1 -> StronglySorted R l2 -> Permutation l1 l2 ->
  (forall a b, In a l1 -> In b l1 -> R a b -> R b a -> a = b) -> l1 = l2.
Proof.
  induction l1 as [|a l1 IH]; intros l2 S1 S2 PM U.
  - apply Permutation_nil in PM. auto.
  - destruct l2 as [|b l2]; [apply Permutation_sym, Permutation_nil in PM; discriminate|].
    inversion S1 as [|? ? S1' F1]; inversion S2 as [|? ? S2' F2]; subst. rewrite Forall_forall in F1, F2.
    assert (a = b) as ->.
    { assert (In b (a :: l1)) as Hb by (eapply Permutation_in; [apply Permutation_sym, PM|left; auto]).
      assert (In a (b :: l2)) as Ha by (eapply Permutation_in; [apply PM|left; auto]).
      destruct Hb as [->|Hb]; auto. destruct Ha as [Ha|Ha]; auto. apply U; simpl; auto. }
    f_equal. apply IH; auto.
    + eapply Permutation_cons_inv; eauto.
    + intros; apply U; simpl; auto.
Qed.
Lemma sorted_filter {A} (R : A -> A -> Prop) f l : StronglySorted R l -> StronglySorted R (filter f l).
Proof.
  induction 1 as [|a l S IH F]; simpl; [constructor|]. destruct (f a); auto. constructor; auto.
  rewrite Forall_forall in *. intros b Hb. apply filter_In in Hb as [Hb _]. auto.
Qed.
Lemma sorted_rev {A} (R S : A -> A -> Prop) l : (forall a b, R a b -> S b a) -> StronglySorted R l -> StronglySorted S (rev l).
Proof.
  intros H. induction 1 as [|a l S0 IH F]; simpl; [constructor|]. apply sorted_app_intro; auto.
  - repeat constructor.
  - intros x y Hx [<-|[]]. rewrite Forall_forall in F. apply H, F, in_rev, Hx.
Qed.
Lemma NoDup_flat_map {A B} (f : A -> list B) l : NoDup l -> (forall a, In a l -> NoDup (f a)) ->
  (forall a b x, In a l -> In b l -> In x (f a) -> In x (f b) -> a = b) -> NoDup (flat_map f l).
Proof.
  induction 1 as [|a l NI ND IH]; intros H1 H2; simpl; [constructor|]. apply NoDup_app_intro.
  - apply H1; simpl; auto.
  - apply IH; intros; [apply H1|eapply H2]; simpl; eauto.
  - intros x Hx Hy. apply in_flat_map in Hy as (b & Hb & Hy). assert (a = b) as <-; auto. eapply H2; simpl; eauto.
Qed.
Lemma in_leaf_v_nodes ser scope q v : In (q, v) (leaf_v_nodes ser scope) <-> In (q, Leaf v) ser /\ In v scope.
Proof.
  unfold leaf_v_nodes. rewrite in_flat_map. split.
  - intros (w & Hw & H). apply in_flat_map in H as ([q' t] & Ht & H). simpl in H. destruct t as [u|]; [|contradiction].
    destruct (N.eqb u w) eqn:E; [|contradiction]. apply N.eqb_eq in E. destruct H as [H|[]]. injection H as <- <-. subst; auto.
  - intros [H1 H2]. exists v. split; auto. apply in_flat_map. exists (q, Leaf v). split; auto. simpl. rewrite N.eqb_refl. left; auto.
Qed.
Lemma leaf_v_nodes_nodup ser scope : NoDup (map fst ser) -> NoDup scope -> NoDup (leaf_v_nodes ser scope).
Proof.
  intros NS ND. apply NoDup_flat_map; auto.
  - intros w _. assert (NoDup ser) as NS' by (eapply NoDup_map_inv; eauto). apply NoDup_flat_map; auto.
    + intros [q t] _. simpl. destruct t as [u|]; [|constructor]. destruct (N.eqb u w); repeat constructor; auto.
    + intros [q t] [q' t'] [q0 v0] H1 H2 E1 E2. simpl in E1, E2. destruct t as [u|]; [|contradiction]. destruct t' as [u'|]; [|contradiction].
      destruct (N.eqb u w); [|contradiction]. destruct (N.eqb u' w); [|contradiction]. destruct E1 as [E1|[]], E2 as [E2|[]]. congruence.
  - intros w w' [q v] Hw Hw' H1 H2. apply in_flat_map in H1 as ([q1 t1] & _ & H1), H2 as ([q2 t2] & _ & H2). simpl in H1, H2.
    destruct t1 as [u1|]; [|contradiction]. destruct t2 as [u2|]; [|contradiction].
    destruct (N.eqb u1 w) eqn:E1; [|contradiction]. destruct (N.eqb u2 w') eqn:E2; [|contradiction].
    apply N.eqb_eq in E1, E2. destruct H1 as [H1|[]], H2 as [H2|[]]. congruence.
Qed.

(** The variables of a scope in the order of the vtree *)
Definition in_scope (S : list N) (x : path * N) : bool := NmemB (snd x) S.
Theorem scope_order root S : NoDup S -> forall ser, SerializeVtree [] root = Ok ser ->
  sort_pos root (leaf_v_nodes ser S) = rev (filter (in_scope S) (lpaths [] root)).
Proof.
  intros ND ser E. destruct (serialize_vtree_spec [] root) as (L & E' & PL & _). rewrite E in E'. injection E' as <-.
  assert (NoDup (lpaths [] root)) as NL.
  { pose proof (lpaths_sorted root root [] eq_refl) as S0. clear - S0. induction S0 as [|a l S0 IH F]; constructor; auto.
    intros H. rewrite Forall_forall in F. specialize (F a H). unfold pos_lt in F. lia. }
  assert (Permutation (leaf_v_nodes ser S) (filter (in_scope S) (lpaths [] root))) as PM.
  { apply NoDup_Permutation.
    - apply leaf_v_nodes_nodup; auto. eapply ser_nodup; eauto.
    - apply NoDup_filter, NL.
    - intros [q v]. rewrite in_leaf_v_nodes, filter_In, lpaths_nodes. unfold in_scope. simpl. rewrite NmemB_In.
      split; intros [H1 H2]; split; auto; (eapply Permutation_in; [|exact H1]); auto using Permutation_sym. }
  apply (sorted_unique (pos_ge root)).
  - apply sort_pos_sorted.
  - eapply sorted_rev; [|apply sorted_filter, (lpaths_sorted root root []); reflexivity]. unfold pos_lt, pos_ge. intros; lia.
  - rewrite sort_pos_perm, PM. apply Permutation_rev.
  - intros [qa va] [qb vb] Ha Hb H1 H2. unfold pos_ge in *. simpl in *.
    apply (Permutation_in _ (sort_pos_perm _ _)) in Ha, Hb. apply (Permutation_in _ PM) in Ha, Hb.
    apply filter_In in Ha as [Ha _], Hb as [Hb _]. apply lpaths_subtree in Ha, Hb.
    assert (qa = qb) as <- by (eapply vpos_inj; eauto; lia). congruence.
Qed.

(** ** Right-linear layouts, from the point of view of the compiler *)
(** The leaves (left to right) hang off a path: each is left of a node that has all later ones on its right. *)
Inductive spine (root : vtree) : list (path * N) -> path -> Prop :=
| spine_one p v : subtree root p = Some (Leaf v) -> spine root [(p, v)] p
| spine_cons u w a v L : subtree root (u ++ false :: a) = Some (Leaf v) -> spine root L (w ++ true :: a) ->
    spine root ((u ++ false :: a, v) :: L) a.
Lemma filter_none {A} (f : A -> bool) l : (forall a, In a l -> f a = false) -> filter f l = [].
Proof. induction l as [|a l IH]; simpl; intros H; auto. rewrite H by auto. apply IH; auto. Qed.
Lemma scope_none S t p : (forall v, In v (leaves t) -> ~ In v S) -> filter (in_scope S) (lpaths p t) = [].
Proof.
  intros H. apply filter_none. intros [q v] Hq. apply NmemB_false. simpl. apply H. rewrite <- (lpaths_leaves t p).
  apply in_map_iff. exists (q, v). auto.
Qed.
Lemma scope_one S t p a v b : leaves t = a ++ v :: b -> In v S -> (forall w, In w (a ++ b) -> ~ In w S) ->
  exists q, filter (in_scope S) (lpaths p t) = [(q, v)] /\ In (q, v) (lpaths p t).
Proof.
  rewrite <- (lpaths_leaves t p). intros E Hv HN.
  assert (exists la x lb, lpaths p t = la ++ x :: lb /\ map snd la = a /\ snd x = v /\ map snd lb = b) as (la & [q v'] & lb & E2 & <- & <- & <-).
  { apply map_eq_app in E as (la & l2 & -> & <- & E). apply map_eq_cons in E as (x & lb & -> & <- & <-). exists la, x, lb. auto. }
  exists q. simpl in *. rewrite E2, filter_app. simpl. unfold in_scope at 2. simpl. rewrite (proj2 (NmemB_In _ _) Hv).
  assert (forall l, (forall w, In w (map snd l) -> ~ In w S) -> filter (in_scope S) l = []) as X.
  { intros l H. apply filter_none. intros y Hy. apply NmemB_false, H, in_map, Hy. }
  rewrite !X; [split; auto; apply in_app_iff; right; left; auto| |]; intros w Hw; apply HN, in_app_iff; auto.
Qed.
Theorem right_linear_spine root S : forall t p, subtree root p = Some t -> right_linear S t ->
  (exists v, In v (leaves t) /\ In v S) -> exists u, spine root (filter (in_scope S) (lpaths p t)) (u ++ p).
Proof.
  induction t as [v|l IHl r IHr]; intros p Hp RL (w & Hw & HS).
  - simpl in *. destruct Hw as [<-|[]]. unfold in_scope. simpl. rewrite (proj2 (NmemB_In _ _) HS). exists []. constructor. auto.
  - assert (subtree root (false :: p) = Some l) as Hl by (simpl; rewrite Hp; auto).
    assert (subtree root (true :: p) = Some r) as Hr by (simpl; rewrite Hp; auto).
    simpl lpaths. rewrite filter_app. simpl in Hw. apply in_app_iff in Hw. simpl in RL.
    assert (forall b u, exists u', u ++ b :: p = u' ++ p) as SH.
    { intros b u. exists (u ++ [b]). rewrite <- app_assoc. reflexivity. }
    destruct RL as [[N1 RL]|[[N1 RL]|[(a & v & b & El & Hv & HN) RL]]].
    + rewrite (scope_none S l _ N1). simpl. destruct (IHr _ Hr RL) as [u Hu].
      { exists w. split; auto. destruct Hw as [Hw|Hw]; auto. exfalso. eapply N1; eauto. }
      destruct (SH true u) as [u' E]. exists u'. rewrite <- E. exact Hu.
    + rewrite (scope_none S r _ N1), app_nil_r. destruct (IHl _ Hl RL) as [u Hu].
      { exists w. split; auto. destruct Hw as [Hw|Hw]; auto. exfalso. eapply N1; eauto. }
      destruct (SH false u) as [u' E]. exists u'. rewrite <- E. exact Hu.
    + destruct (scope_one S l (false :: p) a v b El Hv HN) as (q & Eq & Hq). rewrite Eq.
      apply lpaths_nodes in Hq. destruct (in_nodes_suffix _ _ _ _ Hq) as [u ->].
      assert (subtree root (u ++ false :: p) = Some (Leaf v)) as Hleaf.
      { apply (nodes_subtree root l _ Hl) in Hq as (u' & E & H'). apply app_inv_tail in E. subst u'. rewrite subtree_app, Hl. exact H'. }
      destruct (filter (in_scope S) (lpaths (true :: p) r)) as [|y ys] eqn:Er.
      * destruct (SH false u) as [u' E]. exists u'. simpl. rewrite <- E. constructor. exact Hleaf.
      * destruct (IHr _ Hr RL) as [u2 Hu].
        { assert (In y (filter (in_scope S) (lpaths (true :: p) r))) as Hy by (rewrite Er; left; auto).
          apply filter_In in Hy as [Hy1 Hy2]. exists (snd y). split; [|apply NmemB_In; exact Hy2].
          rewrite <- (lpaths_leaves r (true :: p)). apply in_map, Hy1. }
        rewrite Er in Hu. exists []. simpl. econstructor; eauto.
Qed.
Lemma spine_subtree root L q : spine root L q -> Forall (fun x => subtree root (fst x) = Some (Leaf (snd x))) L.
Proof. induction 1; constructor; auto. Qed.
Lemma spine_node root u w a v L : subtree root (u ++ false :: a) = Some (Leaf v) -> spine root L (w ++ true :: a) ->
  exists l r, subtree root a = Some (VNode l r).
Proof.
  intros H _. rewrite subtree_app in H. simpl in H. destruct (subtree root a) as [t|]; [|discriminate].
  destruct t as [z|l r]; [discriminate|]. eauto.
Qed.
