(** Property theorems C42, C43, C44 (vtrees made for a network).
    [range n]: the variables 1..n; [right_linear S t]: the variables S lie in the vtree t one below the other to the right, which is what compiling
    a factor with scope S needs (C39).  [begin], [ords]: iteration orders of hash containers.  [ordering], [d], [part]: what the libraries return. *)
From Verif Require Import Base Vtree VtreeProofs PgmLayout VtreeGen VtreeGenProofs JointreeProofs HyperProofs.

(** A concrete network: a cycle of four variables, and a fifth variable with one factor *)
Definition gen_scopes : list (list N) := [[1; 2]; [2; 3]; [3; 4]; [4; 1]; [5]]%N.
Definition gen_begin (p : path) (g : graph) : N := match g with (v, _) :: _ => v | [] => 0%N end.

(** C42: for every elimination order and every iteration order the construction succeeds; each variable of the network is a leaf exactly
    once (also those in no factor), and every factor is laid out as it must be *)
Theorem C42_minfill : forall begin ordering n scopes,
  (forall p g, g <> [] -> In (begin p g) (map fst g)) -> Permutation ordering (range n) -> n <> 0 -> Forall (fun S => incl S (range n)) scopes ->
  exists t, MinFillVtree begin ordering n scopes = Ok t /\ Permutation (leaves t) (range n) /\ Forall (fun S => right_linear S t) scopes.
Proof. exact minfill_full. Qed.
Print Assumptions C42_minfill.
Example C42_minfill_nonvacuous : (forall p g, g <> [] -> In (gen_begin p g) (map fst g)) /\ Permutation [5; 2; 4; 3; 1]%N (range 5) /\
  Forall (fun S => incl S (range 5)) gen_scopes /\
  MinFillVtree gen_begin [5; 2; 4; 3; 1]%N 5 gen_scopes =
    Ok (VNode (VNode (Leaf 1) (VNode (Leaf 3) (VNode (Leaf 2) (Leaf 4)))) (Leaf 5))%N.
Proof.
  split; [intros p [|[v l] g] H; [contradiction|left; auto]|]. split.
  { apply NoDup_Permutation; [repeat constructor; simpl; intuition discriminate|apply range_nodup|]. intros x. simpl. intuition. }
  split; [|vm_compute; reflexivity]. unfold gen_scopes. apply Forall_forall. intros S H. vm_compute in H. vm_compute. intros x. intuition; subst; simpl in *; intuition.
Qed.
(** a network without variables makes the program abort *)
Theorem C42_no_variables : forall begin, MinFillVtree begin [] 0 [] = Abort.
Proof. exact minfill_empty. Qed.
Print Assumptions C42_no_variables.

(** C43: for every tree decomposition (bags without repetition that hold exactly the variables 1..n, a bag for every factor, and for each
    variable connected vertices) the construction succeeds, each variable is a leaf exactly once, and every factor is laid out as it must be *)
Theorem C43_jointree : forall n scopes d, n <> 0 ->
  (forall p bag, bag_at d p = Some bag -> NoDup bag) ->
  (forall v, In v (range n) <-> exists p bag, bag_at d p = Some bag /\ In v bag) ->
  Forall (fun S => exists p bag, bag_at d p = Some bag /\ incl S bag) scopes ->
  (forall v p q, (exists bag, bag_at d p = Some bag /\ In v bag) -> (exists bag, bag_at d q = Some bag /\ In v bag) -> walk d v p q) ->
  exists t, JointreeVtree d = Ok t /\ Permutation (leaves t) (range n) /\ Forall (fun S => right_linear S t) scopes.
Proof. intros n scopes d N0 H1 H2 H3 H4. apply jointree_full; auto. split; auto. Qed.
Print Assumptions C43_jointree.
(** The decomposition of the network above into the bags 1 3 2, 1 3 4 and 5 *)
Definition gen_dtree : dtree := DT [1; 3; 2]%N [DT [1; 3; 4]%N []; DT [5]%N []].
Lemma gen_bags p bag : bag_at gen_dtree p = Some bag -> (p, bag) = ([], [1; 3; 2]%N) \/ (p, bag) = ([0], [1; 3; 4]%N) \/ (p, bag) = ([1], [5]%N).
Proof.
  destruct p as [|[|[|i]] p]; simpl; intros H.
  - injection H as <-. auto.
  - destruct p as [|j p]; [injection H as <-; auto|]. destruct j; discriminate.
  - destruct p as [|j p]; [injection H as <-; auto|]. destruct j; discriminate.
  - destruct i; discriminate.
Qed.
Lemma gen_decomposition : tree_decomposition 5 gen_scopes gen_dtree.
Proof.
  split.
  - intros p bag H. apply gen_bags in H as [H|[H|H]]; inversion H; repeat constructor; simpl; intuition discriminate.
  - intros v. split.
    + intros H. simpl in H. destruct H as [<-|[<-|[<-|[<-|[<-|[]]]]]].
      * exists [], [1; 3; 2]%N. simpl. auto.
      * exists [], [1; 3; 2]%N. simpl. auto.
      * exists [], [1; 3; 2]%N. simpl. auto.
      * exists [0], [1; 3; 4]%N. simpl. auto.
      * exists [1], [5]%N. simpl. auto.
    + intros (p & bag & H & I). apply gen_bags in H as [H|[H|H]]; inversion H; subst; simpl in *; intuition.
  - unfold gen_scopes. repeat apply Forall_cons; [| | | | |apply Forall_nil].
    + exists [], [1; 3; 2]%N. split; auto. intros x; simpl; intuition.
    + exists [], [1; 3; 2]%N. split; auto. intros x; simpl; intuition.
    + exists [0], [1; 3; 4]%N. split; auto. intros x; simpl; intuition.
    + exists [0], [1; 3; 4]%N. split; auto. intros x; simpl; intuition.
    + exists [1], [5]%N. split; auto. intros x; simpl; intuition.
  - assert (forall v p q i, holds gen_dtree v p -> holds gen_dtree v q -> q = p ++ [i] -> walk gen_dtree v p q /\ walk gen_dtree v q p) as ST.
    { intros v p q i H1 H2 E. split; (eapply walk_step; [eauto| |constructor; auto]); eauto. }
    intros v p q (b1 & H1 & I1) (b2 & H2 & I2).
    assert (holds gen_dtree v p) as HP by (exists b1; auto). assert (holds gen_dtree v q) as HQ by (exists b2; auto).
    apply gen_bags in H1 as [H1|[H1|H1]]; apply gen_bags in H2 as [H2|[H2|H2]]; inversion H1; inversion H2; subst; try (constructor; assumption).
    + apply (ST v [] [0] 0); auto.
    + exfalso. simpl in *. intuition congruence.
    + apply (ST v [] [0] 0); auto.
    + exfalso. simpl in *. intuition congruence.
    + exfalso. simpl in *. intuition congruence.
    + exfalso. simpl in *. intuition congruence.
Qed.
Example C43_jointree_nonvacuous : tree_decomposition 5 gen_scopes gen_dtree /\
  JointreeVtree gen_dtree = Ok (VNode (Leaf 2) (VNode (Leaf 3) (VNode (Leaf 1) (VNode (Leaf 5) (Leaf 4)))))%N.
Proof. split; [exact gen_decomposition|vm_compute; reflexivity]. Qed.
(** without variables the program aborts *)
Theorem C43_no_variables : forall d, (forall v p bag, bag_at d p = Some bag -> ~ In v bag) -> JointreeVtree d = Abort.
Proof. intros d H. apply jointree_empty. intros v (p & bag & E & I). exact (H v p bag E I). Qed.
Print Assumptions C43_no_variables.
Example C43_no_variables_nonvacuous : JointreeVtree (DT [] [DT [] []]) = Abort.
Proof. reflexivity. Qed.

(** C44, first part: whatever the partitioner answers, a vtree that is returned has each variable that occurs in a factor exactly once and no
    other, and lays out every factor as it must be; the program neither aborts nor runs into undefined behaviour; if each answer puts factors
    on both sides, it terminates after at most as many nested calls as there are factors.  (Missing: termination in general, see below.) *)
Theorem C44_hypergraph_partial : forall ords part scopes fuel, (forall p k l, Permutation (ords p k l) l) -> concat scopes <> [] ->
  (forall t, HypergraphVtree fuel ords part scopes = Ok t ->
    NoDup (leaves t) /\ (forall v, In v (leaves t) <-> exists S, In S scopes /\ In v S) /\ Forall (fun S => right_linear S t) scopes) /\
  HypergraphVtree fuel ords part scopes <> Abort /\ HypergraphVtree fuel ords part scopes <> UB /\
  ((forall p fs, 3 < length fs -> exists i j, i < length fs /\ j < length fs /\ part p fs i = true /\ part p fs j = false) -> length scopes <= fuel ->
   exists t, HypergraphVtree fuel ords part scopes = Ok t).
Proof.
  intros ords part scopes fuel O N0. destruct (hyper_full ords part scopes fuel O N0) as (A & B & C & D). split; [|auto].
  intros t E. specialize (A t E). split; [|split; [|apply A]].
  - apply (Permutation_NoDup (Permutation_sym (proj1 A))). apply NoDup_nodup.
  - intros v. rewrite (good_In _ _ v A). rewrite in_concat. tauto.
Qed.
Print Assumptions C44_hypergraph_partial.
Definition gen_ords (p : path) (k : nat) (l : list N) : list N := l.
Definition gen_part (p : path) (fs : list (list N)) (i : nat) : bool := Nat.even i.
Example C44_hypergraph_nonvacuous : (forall p k l, Permutation (gen_ords p k l) l) /\ concat gen_scopes <> [] /\
  (forall p fs, 3 < length fs -> exists i j, i < length fs /\ j < length fs /\ gen_part p fs i = true /\ gen_part p fs j = false) /\
  HypergraphVtree 5 gen_ords gen_part gen_scopes = Ok (VNode (Leaf 1) (VNode (Leaf 4) (VNode (Leaf 3) (VNode (Leaf 2) (Leaf 5)))))%N.
Proof.
  split; [intros p k l; apply Permutation_refl|]. split; [discriminate|]. split; [|vm_compute; reflexivity].
  intros p fs H. exists 0, 1. repeat split; auto; lia.
Qed.
(** Termination is false: if the partitioner puts all factors on one side (nothing in the program rules this out), the program calls
    itself with the same factors for ever *)
Theorem C44_terminates_refuted : forall ords part scopes, (forall p k l, Permutation (ords p k l) l) -> (forall p fs i, part p fs i = true) ->
  Forall (fun S => S <> []) scopes -> 3 < length scopes -> (exists a b, In a (concat scopes) /\ In b (concat scopes) /\ a <> b) ->
  forall fuel, HypergraphVtree fuel ords part scopes = NoFuel.
Proof. exact hyper_loops. Qed.
Print Assumptions C44_terminates_refuted.
Example C44_terminates_witness : forall fuel, HypergraphVtree fuel gen_ords (fun _ _ _ => true) gen_scopes = NoFuel.
Proof.
  apply C44_terminates_refuted; auto.
  - unfold gen_scopes. repeat apply Forall_cons; try discriminate. apply Forall_nil.
  - simpl. lia.
  - exists 1%N, 2%N. split; [simpl; auto|]. split; [simpl; auto|discriminate].
Qed.
(** A variable of the network in no factor is not in the vtree: no assignment to it can be asked for later *)
Theorem C44_isolated_refuted : forall ords part scopes fuel t v, (forall p k l, Permutation (ords p k l) l) -> concat scopes <> [] ->
  HypergraphVtree fuel ords part scopes = Ok t -> (forall S, In S scopes -> ~ In v S) -> ~ In v (leaves t).
Proof.
  intros ords part scopes fuel t v O N0 E H I. destruct (C44_hypergraph_partial ords part scopes fuel O N0) as (A & _).
  destruct (A t E) as (_ & L & _). apply L in I as (S & HS & HI). exact (H S HS HI).
Qed.
Print Assumptions C44_isolated_refuted.
Example C44_isolated_witness : HypergraphVtree 3 gen_ords gen_part [[1; 2]]%N = Ok (VNode (Leaf 2) (Leaf 1))%N.
Proof. reflexivity. Qed.
(** factors without variables, or no factors, make the program abort *)
Theorem C44_no_variables : forall ords part scopes fuel, (forall p k l, Permutation (ords p k l) l) -> concat scopes = [] -> HypergraphVtree fuel ords part scopes = Abort.
Proof. intros ords part scopes fuel O E. unfold HypergraphVtree. rewrite (base_empty (ords [] 1) scopes (O [] 1) E). reflexivity. Qed.
Print Assumptions C44_no_variables.
Example C44_no_variables_nonvacuous : HypergraphVtree 3 gen_ords gen_part [] = Abort.
Proof. reflexivity. Qed.
