(** Property theorems C94 (independent parts of a network in the vtrees made for it).
    Wherever the left child of a vertex is an inner vertex, all variables of a factor below that vertex lie on the same side. *)
From Verif Require Import Base Vtree VtreeProofs PgmLayout VtreeGen VtreeGenProofs JointreeProofs HyperProofs MinFillProofs TogetherProofs Props_VtreeGen.

Theorem C94_minfill : forall begin ordering n scopes t,
  (forall p g, g <> [] -> In (begin p g) (map fst g)) -> Permutation ordering (range n) -> n <> 0 -> Forall (fun S => incl S (range n)) scopes ->
  MinFillVtree begin ordering n scopes = Ok t -> forall S a b r, In S scopes -> subvtree (VNode (VNode a b) r) t ->
  (forall v, In v S -> ~ In v (leaves (VNode a b))) \/ (forall v, In v S -> ~ In v (leaves r)).
Proof.
  intros begin ordering n scopes t H1 H2 H3 H4 H5 S a b r HS Hs. pose proof (minfill_together begin ordering n scopes t H1 H2 H3 H4 H5) as K.
  rewrite Forall_forall in K. destruct (K S HS a b r Hs) as [C|C]; [left|right]; intros v A B; exact (C v B A).
Qed.
Print Assumptions C94_minfill.
Theorem C94_jointree : forall n scopes d t, n <> 0 ->
  (forall p bag, bag_at d p = Some bag -> NoDup bag) ->
  (forall v, In v (range n) <-> exists p bag, bag_at d p = Some bag /\ In v bag) ->
  Forall (fun S => exists p bag, bag_at d p = Some bag /\ incl S bag) scopes ->
  (forall v p q, (exists bag, bag_at d p = Some bag /\ In v bag) -> (exists bag, bag_at d q = Some bag /\ In v bag) -> walk d v p q) ->
  JointreeVtree d = Ok t -> forall S a b r, In S scopes -> subvtree (VNode (VNode a b) r) t ->
  (forall v, In v S -> ~ In v (leaves (VNode a b))) \/ (forall v, In v S -> ~ In v (leaves r)).
Proof.
  intros n scopes d t N0 H1 H2 H3 H4 H5 S a b r HS Hs. destruct (jointree_together n scopes d) as (t' & E & _ & K); auto; [split; auto|].
  rewrite H5 in E. injection E as <-. rewrite Forall_forall in K. destruct (K S HS a b r Hs) as [C|C]; [left|right]; intros v A B; exact (C v B A).
Qed.
Print Assumptions C94_jointree.
Theorem C94_hypergraph : forall ords part scopes fuel t, (forall p k l, Permutation (ords p k l) l) -> concat scopes <> [] ->
  HypergraphVtree fuel ords part scopes = Ok t -> forall S a b r, In S scopes -> subvtree (VNode (VNode a b) r) t ->
  (forall v, In v S -> ~ In v (leaves (VNode a b))) \/ (forall v, In v S -> ~ In v (leaves r)).
Proof.
  intros ords part scopes fuel t H1 H2 H3 S a b r HS Hs. destruct (hyper_together ords part scopes fuel H1 H2) as (K & _).
  destruct (K t H3) as [_ K']. rewrite Forall_forall in K'. destruct (K' S HS a b r Hs) as [C|C]; [left|right]; intros v A B; exact (C v B A).
Qed.
Print Assumptions C94_hypergraph.

(** Two chains of factors that meet in the variable 1; all three methods condition on 1 and put 2 3 and 4 5 apart *)
Definition star_scopes : list (list N) := [[1; 2]; [2; 3]; [1; 4]; [4; 5]]%N.
Definition star_dtree : dtree := DT [1]%N [DT [1; 2]%N [DT [2; 3]%N []]; DT [1; 4]%N [DT [4; 5]%N []]].
Lemma star_bags p bag : bag_at star_dtree p = Some bag ->
  (p, bag) = ([], [1]%N) \/ (p, bag) = ([0], [1; 2]%N) \/ (p, bag) = ([0; 0], [2; 3]%N) \/ (p, bag) = ([1], [1; 4]%N) \/ (p, bag) = ([1; 0], [4; 5]%N).
Proof.
  destruct p as [|[|[|i]] p]; simpl; intros H; [injection H as <-; auto| | |destruct i; discriminate].
  - destruct p as [|[|j] p]; simpl in H; [injection H as <-; auto| |destruct j; discriminate].
    destruct p as [|k p]; [injection H as <-; auto|destruct k; discriminate].
  - destruct p as [|[|j] p]; simpl in H; [injection H as <-; auto| |destruct j; discriminate].
    destruct p as [|k p]; [injection H as <-; auto 6|destruct k; discriminate].
Qed.
Lemma star_decomposition : tree_decomposition 5 star_scopes star_dtree.
Proof.
  assert (forall v p q i, holds star_dtree v p -> holds star_dtree v q -> q = p ++ [i] -> walk star_dtree v p q) as ST.
  { intros v p q i H1 H2 E. eapply walk_step; [eauto| |constructor; auto]. eauto. }
  assert (forall v p q i, holds star_dtree v p -> holds star_dtree v q -> q = p ++ [i] -> walk star_dtree v q p) as TS.
  { intros v p q i H1 H2 E. apply walk_sym. eauto. }
  split.
  - intros p bag H. apply star_bags in H as [H|[H|[H|[H|H]]]]; inversion H; repeat constructor; simpl; intuition discriminate.
  - intros v. split.
    + intros H. simpl in H. destruct H as [<-|[<-|[<-|[<-|[<-|[]]]]]]; [exists [], [1]%N|exists [0], [1; 2]%N|exists [0; 0], [2; 3]%N|exists [1], [1; 4]%N|exists [1; 0], [4; 5]%N]; simpl; auto.
    + intros (p & bag & H & I). apply star_bags in H as [H|[H|[H|[H|H]]]]; inversion H; subst; simpl in *; intuition.
  - unfold star_scopes. repeat apply Forall_cons; [exists [0], [1; 2]%N|exists [0; 0], [2; 3]%N|exists [1], [1; 4]%N|exists [1; 0], [4; 5]%N|apply Forall_nil];
      (split; [reflexivity|apply incl_refl]).
  - intros v p q (b1 & H1 & I1) (b2 & H2 & I2).
    assert (holds star_dtree v p) as HP by (exists b1; auto). assert (holds star_dtree v q) as HQ by (exists b2; auto).
    apply star_bags in H1 as [H1|[H1|[H1|[H1|H1]]]]; apply star_bags in H2 as [H2|[H2|[H2|[H2|H2]]]]; inversion H1; inversion H2; subst; try (constructor; assumption);
      try (exfalso; simpl in *; intuition congruence);
      try (apply (ST _ _ _ 0); auto; fail); try (apply (TS _ _ _ 0); auto; fail); try (apply (ST _ _ _ 1); auto; fail); try (apply (TS _ _ _ 1); auto; fail);
      assert (holds star_dtree v []) as H0 by (exists [1]%N; simpl in *; intuition congruence).
    + eapply walk_trans; [apply (TS v [] [0] 0); auto|apply (ST v [] [1] 1); auto].
    + eapply walk_trans; [apply (TS v [] [1] 1); auto|apply (ST v [] [0] 0); auto].
Qed.
Example C94_nonvacuous :
  Permutation [3; 5; 2; 4; 1]%N (range 5) /\ Forall (fun S => incl S (range 5)) star_scopes /\
  MinFillVtree gen_begin [3; 5; 2; 4; 1]%N 5 star_scopes = Ok (VNode (Leaf 1) (VNode (VNode (Leaf 2) (Leaf 3)) (VNode (Leaf 4) (Leaf 5))))%N /\
  tree_decomposition 5 star_scopes star_dtree /\
  JointreeVtree star_dtree = Ok (VNode (Leaf 1) (VNode (VNode (Leaf 4) (Leaf 5)) (VNode (Leaf 2) (Leaf 3))))%N /\
  (forall p k l, Permutation (gen_ords p k l) l) /\
  HypergraphVtree 5 gen_ords (fun _ _ i => Nat.ltb i 2) star_scopes = Ok (VNode (Leaf 1) (VNode (VNode (Leaf 3) (Leaf 2)) (VNode (Leaf 5) (Leaf 4))))%N.
Proof.
  split. { apply NoDup_Permutation; [repeat constructor; simpl; intuition discriminate|apply range_nodup|]. intros x. simpl. intuition. }
  split. { unfold star_scopes. apply Forall_forall. intros S H. vm_compute in H. vm_compute. intros x. intuition; subst; simpl in *; intuition. }
  split; [vm_compute; reflexivity|]. split; [exact star_decomposition|]. split; [vm_compute; reflexivity|]. split; [intros; apply Permutation_refl|vm_compute; reflexivity].
Qed.
