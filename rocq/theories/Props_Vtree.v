(** Property theorems C04-C08 (vtree_util in psdd_node.cpp). *)
From Verif Require Import Base Vtree VtreeProofs.

Definition ex_vtree := VNode (VNode (Leaf 1) (Leaf 2)) (VNode (Leaf 3) (Leaf 4)).

Theorem C04_serialize_vtree : forall p t, exists L, SerializeVtree p t = Ok L /\
  Permutation L (nodes p t) /\ NoDup (map fst L) /\
  (exists L', L = (p, t) :: L') /\
  (forall L1 x L2, L = L1 ++ x :: L2 -> forall c, In c (kids x) -> In c L2).
Proof. exact serialize_vtree_full. Qed.
Print Assumptions C04_serialize_vtree.
(** [nodes] lists exactly the pointers into the tree *)
Theorem C04_nodes_are_all_pointers : forall root q s, In (q, s) (nodes [] root) <-> subtree root q = Some s.
Proof. exact nodes_root. Qed.
Print Assumptions C04_nodes_are_all_pointers.
Example C04_nonvacuous : exists L, SerializeVtree [] ex_vtree = Ok L /\ length L = 7.
Proof. eexists; split; vm_compute; reflexivity. Qed.

Theorem C05_copy_vtree : forall rename d p t, (forall v, In v (leaves t) -> rename v <> None) ->
  exists t' d', CopyVtreeMap rename d p t = Ok (t', d') /\
    rename_vtree rename t = Some t' /\
    forall q, d' q = if existsb (path_eqb q) (map fst (nodes p t)) then None else d q.
Proof. exact copy_vtree_spec. Qed.
Print Assumptions C05_copy_vtree.
Theorem C05_copy_vtree_identical : forall d p t, exists d', CopyVtree d p t = Ok (t, d') /\
  (forall q, In q (map fst (nodes p t)) -> d' q = None) /\
  (forall q, ~ In q (map fst (nodes p t)) -> d' q = d q).
Proof. exact copy_vtree_identical. Qed.
Print Assumptions C05_copy_vtree_identical.
Theorem C05_unmapped_variable_aborts : forall rename d p t v, In v (leaves t) -> rename v = None ->
  CopyVtreeMap rename d p t = Abort.
Proof. exact copy_vtree_aborts. Qed.
Print Assumptions C05_unmapped_variable_aborts.
Example C05_nonvacuous : exists d', CopyVtreeMap (fun v => Some (v + 10)%N) (fun _ => None) [] ex_vtree =
  Ok (VNode (VNode (Leaf 11) (Leaf 12)) (VNode (Leaf 13) (Leaf 14)), d').
Proof. eexists. vm_compute. reflexivity. Qed.

Theorem C06_project_vtree : forall S d p t, (exists v, In v (leaves t) /\ In v S) ->
  exists t' d', ProjectVtree S d p t = Ok (t', d') /\
    leaves t' = filter (fun v => NmemB v S) (leaves t) /\
    (forall c, c <> [] -> ((exists s', is_subtree t' s' /\ leaves s' = c) <->
                           (exists s, is_subtree t s /\ filter (fun v => NmemB v S) (leaves s) = c))) /\
    (forall q, d' q = if existsb (path_eqb q) (map fst (nodes p t)) then None else d q).
Proof. exact project_vtree_full. Qed.
Print Assumptions C06_project_vtree.
(** precondition the code relies on *)
Theorem C06_no_kept_variable_is_ub : forall S d p t, (forall v, In v (leaves t) -> ~ In v S) ->
  ProjectVtree S d p t = UB.
Proof. exact project_vtree_ub. Qed.
Print Assumptions C06_no_kept_variable_is_ub.
Example C06_nonvacuous : exists d', ProjectVtree [1; 4; 3; 9]%N (fun _ => None) [] ex_vtree =
  Ok (VNode (Leaf 1) (VNode (Leaf 3) (Leaf 4)), d').
Proof. eexists. vm_compute. reflexivity. Qed.

Theorem C07_subvtree_by_variables : forall p t S, NoDup (leaves t) -> NoDup S -> S <> [] ->
  match SubVtreeByVariables p t S with
  | Some (q, s) => In (q, s) (nodes p t) /\ forall v, In v (leaves s) <-> In v S
  | None => forall q s, In (q, s) (nodes p t) -> ~ (forall v, In v (leaves s) <-> In v S)
  end.
Proof. exact subvtree_spec. Qed.
Print Assumptions C07_subvtree_by_variables.
Example C07_nonvacuous :
  SubVtreeByVariables [] ex_vtree [4; 3]%N = Some ([true], VNode (Leaf 3) (Leaf 4)) /\
  SubVtreeByVariables [] ex_vtree [1; 2; 3]%N = None.
Proof. vm_compute. auto. Qed.

Theorem C08_variable_listings : forall p t, exists L, VariablesUnderVtree p t = Ok L /\
  LeftToRightLeafTraverse t = leaves t /\ Permutation L (LeftToRightLeafTraverse t).
Proof. exact variable_listings. Qed.
Print Assumptions C08_variable_listings.
Example C08_nonvacuous : VariablesUnderVtree [] (VNode (Leaf 5) (VNode (Leaf 2) (Leaf 9))) = Ok [5; 2; 9]%N.
Proof. reflexivity. Qed.
