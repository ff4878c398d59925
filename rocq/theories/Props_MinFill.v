(** Property theorems C93 (how a min-fill vtree splits the variables of a network).
    [linked scopes L u v]: one can get from u to v through variables of L, each sharing a factor with the next; [all_linked scopes L]: any two variables of L
    are linked; [before o a b]: a stands before b in o; [subvtree s t]: s is t or lies below it. *)
From Coq Require Import Relations.
From Verif Require Import Base Vtree VtreeProofs PgmLayout VtreeGen VtreeGenProofs MinFillProofs Props_VtreeGen.

(** At every inner vertex: either its variables are linked, and the left child is the leaf of the one eliminated last; or the variables on the left are
    linked, and no factor reaches from the left to the right *)
Theorem C93_splits : forall begin ordering n scopes t,
  (forall p g, g <> [] -> In (begin p g) (map fst g)) -> Permutation ordering (range n) -> n <> 0 -> Forall (fun S => incl S (range n)) scopes ->
  MinFillVtree begin ordering n scopes = Ok t -> forall l r, subvtree (VNode l r) t ->
  (all_linked scopes (leaves (VNode l r)) /\ exists v, l = Leaf v /\ forall w, In w (leaves r) -> before ordering w v) \/
  (all_linked scopes (leaves l) /\ forall S u w, In S scopes -> In u S -> In w S -> In u (leaves l) -> ~ In w (leaves r)).
Proof. intros begin ordering n scopes t H1 H2 H3 H4 H5. exact (minfill_splits scopes begin ordering n H1 H2 H3 H4 t H5). Qed.
Print Assumptions C93_splits.
(** Below every vertex each connected part of what is left of the network has a vertex of its own (for the root: each connected part of the network) *)
Theorem C93_components : forall begin ordering n scopes t,
  (forall p g, g <> [] -> In (begin p g) (map fst g)) -> Permutation ordering (range n) -> n <> 0 -> Forall (fun S => incl S (range n)) scopes ->
  MinFillVtree begin ordering n scopes = Ok t -> forall s u, subvtree s t -> In u (leaves s) ->
  exists c, subvtree c s /\ forall v, In v (leaves c) <-> In v (leaves s) /\ linked scopes (leaves s) u v.
Proof. intros begin ordering n scopes t H1 H2 H3 H4 H5. exact (minfill_components scopes begin ordering n H1 H2 H3 H4 t H5). Qed.
Print Assumptions C93_components.
(** The network of C42_minfill_nonvacuous and its vtree: 5 is apart from the cycle 1 2 3 4, in which 1 is eliminated last; without 1 and 3 the variables 2
    and 4 are apart *)
Example C93_nonvacuous : (forall p g, g <> [] -> In (gen_begin p g) (map fst g)) /\ Permutation [5; 2; 4; 3; 1]%N (range 5) /\
  Forall (fun S => incl S (range 5)) gen_scopes /\
  MinFillVtree gen_begin [5; 2; 4; 3; 1]%N 5 gen_scopes = Ok (VNode (VNode (Leaf 1) (VNode (Leaf 3) (VNode (Leaf 2) (Leaf 4)))) (Leaf 5))%N /\
  linked gen_scopes [1; 3; 2; 4; 5]%N 1 3 /\ ~ linked gen_scopes [1; 3; 2; 4; 5]%N 1 5 /\ ~ linked gen_scopes [2; 4]%N 2 4.
Proof.
  destruct C42_minfill_nonvacuous as (H1 & H2 & H3 & H4). repeat (split; auto).
  - apply (rt_trans _ _ _ 2%N); apply rt_step; (split; [simpl; auto|split; [simpl; auto|]]).
    + exists [1; 2]%N. simpl. auto.
    + exists [2; 3]%N. simpl. auto.
  - intros H. apply linked_conn in H. apply (conn_closed _ _ (fun k => N.eqb k 5)) in H; [discriminate|].
    intros x y (_ & _ & S & HS & Hx & Hy & _). simpl in HS. intuition; subst; simpl in *; intuition; subst; auto.
  - intros H. apply linked_conn in H. apply (conn_closed _ _ (fun k => N.eqb k 2)) in H; [discriminate|].
    intros x y (Hx' & Hy' & S & HS & Hx & Hy & _). simpl in HS, Hx', Hy'. intuition; subst; simpl in *; intuition; subst; auto; try discriminate.
Qed.
