(** Model of the constructions of a vtree for a network: src/minfill_vtree.cpp, src/jointree_vtree.cpp and
    src/hypergraph_decomposition_vtree.cpp.
    The external libraries are oracles: libhtd's elimination order and tree decomposition, KaHyPar's partition.  Iteration orders of
    unordered containers are oracles too.  The recursive calls of one run are told apart by a [path] (innermost step first), so that an
    oracle may answer differently each time it is asked.  set_vtree_properties only fills in what [vtree] computes (positions, counts). *)
From Verif Require Import Base Vtree.

(** ** Min-fill, minfill_vtree.cpp *)
(** AdjacencyMatrix, lines 14-15: a map from vertices to sets of neighbours *)
Definition graph := list (N * list N).
Definition keys (g : graph) : list N := map fst g.

(** The body of the loop of ConnectedGraph over the neighbours, lines 28-33; state: explored_nodes, nodes_to_explore *)
Definition dfs_push (st : list N * list N) (v : N) : list N * list N :=
  if NmemB v (fst st) then st else (v :: fst st, v :: snd st).
(** The loop of ConnectedGraph, lines 24-34 *)
Fixpoint dfs (fuel : nat) (g : graph) (explored stack : list N) : res (list N) :=
  match stack with
  | [] => Ok explored
  | c :: stack' =>
      match fuel with
      | O => NoFuel
      | S f =>
          do nbrs <- get (Nlookup c g) ;;
          let st := fold_left dfs_push nbrs (explored, stack') in
          dfs f g (fst st) (snd st)
      end
  end.
(** ConnectedGraph, lines 17-50; [b] is graph_adj.begin()->first *)
Definition ConnectedGraph (g : graph) (b : N) : res (graph * graph) :=
  do _ <- assert (negb (Nat.eqb (length g) 0)) ;;
  do ex <- dfs (length g) g [b] [b] ;;
  if Nat.eqb (length ex) (length g) then Ok (g, [])
  else Ok (filter (fun e => NmemB (fst e) ex) g, filter (fun e => negb (NmemB (fst e) ex)) g).

(** nbr_nbrs.erase(...), lines 56-58: graph_adj[nbr] of a missing vertex would be empty, so the assertion fails.  (With an edge from the
    node to itself the set would be changed while it is iterated over.) *)
Definition rm_nbr (v : N) (g : graph) (nbr : N) : res graph :=
  if N.eqb nbr v then UB
  else match Nlookup nbr g with
       | None => Abort
       | Some nn =>
           do _ <- assert (NmemB v nn) ;;
           Ok (map (fun e => if N.eqb (fst e) nbr then (fst e, filter (fun x => negb (N.eqb x v)) (snd e)) else e) g)
       end.
(** RemoveNode, lines 52-62 *)
Definition RemoveNode (g : graph) (v : N) : res graph :=
  do _ <- assert (NmemB v (keys g)) ;;
  do nbrs <- get (Nlookup v g) ;;
  do g1 <- foldM (rm_nbr v) nbrs g ;;
  Ok (filter (fun e => negb (N.eqb (fst e) v)) g1).

(** VtreeFromGraph, lines 64-96; [begin p g] is the first key in the iteration order of the graph passed to ConnectedGraph.
    var_order.front() of an empty list is undefined. *)
Fixpoint VtreeFromGraph (fuel : nat) (begin : path -> graph -> N) (p : path) (g : graph) (order : list N) : res vtree :=
  match order with
  | [v] => Ok (Leaf v)
  | _ =>
      match fuel with
      | O => NoFuel
      | S f =>
          do (g1, g2) <- ConnectedGraph g (begin p g) ;;
          match g2 with
          | [] =>
              match order with
              | [] => UB
              | cond_var :: order' =>
                  do r <- RemoveNode g1 cond_var ;;
                  do t <- VtreeFromGraph f begin (true :: p) r order' ;;
                  Ok (VNode (Leaf cond_var) t)
              end
          | _ =>
              do l <- VtreeFromGraph f begin (false :: p) g1 (filter (fun v => NmemB v (keys g1)) order) ;;
              do r <- VtreeFromGraph f begin (true :: p) g2 (filter (fun v => negb (NmemB v (keys g1))) order) ;;
              Ok (VNode l r)
          end
      end
  end.

(** graph[vi] followed by insertions, lines 129-136 *)
Definition add_nbrs (scope : list N) (vi : N) (nbrs : list N) : list N :=
  fold_left (fun nb vj => if N.eqb vj vi then nb else if NmemB vj nb then nb else vj :: nb) scope nbrs.
Definition add_vertex (scope : list N) (g : graph) (vi : N) : graph :=
  match Nlookup vi g with
  | Some _ => map (fun e => if N.eqb (fst e) vi then (fst e, add_nbrs scope vi (snd e)) else e) g
  | None => (vi, add_nbrs scope vi []) :: g
  end.
Definition range (n : nat) : list N := map N.of_nat (seq 1 n).
(** lines 123-137 *)
Definition network_graph (n : nat) (scopes : list (list N)) : graph :=
  fold_left (fun g scope => fold_left (add_vertex scope) scope g) scopes (map (fun v => (v, [])) (range n)).
(** MinFillVtree::ConstructVtree, lines 102-141; [ordering] is the sequence computed by libhtd (reversed by push_front, lines 118-121) *)
Definition MinFillVtree (begin : path -> graph -> N) (ordering : list N) (n : nat) (scopes : list (list N)) : res vtree :=
  VtreeFromGraph (S (length ordering)) begin [] (network_graph n scopes) (rev ordering).

(** ** Join tree, jointree_vtree.cpp *)
(** htd::ITreeDecomposition: a rooted tree of bags.  (Vertex numbers are not modelled: the tree of the data structure is used instead;
    they are positive, so that 0 is the parent of the root only.) *)
Inductive dtree := DT (bag : list N) (children : list dtree).
(** lines 201-207 and 210-217: a vtree put on top of what there is *)
Definition on_top (rc : option vtree) (v : vtree) : option vtree :=
  match rc with None => Some v | Some r => Some (VNode v r) end.
Definition opt_list {A} (l : list (option A)) : list A :=
  flat_map (fun o => match o with Some a => [a] | None => [] end) l.
(** The callback of the post-order traversal, lines 182-226.  The result is what the vertex adds to cache[parent]; cache[vertex] holds
    what its children added, in the order in which they were visited. *)
Fixpoint jt_vertex (parent_bag : list N) (d : dtree) : option vtree :=
  match d with
  | DT bag children =>
      let cached := opt_list (map (jt_vertex bag) children) in
      let var_to_add := filter (fun v => negb (NmemB v parent_bag)) bag in
      fold_left on_top (map Leaf var_to_add) (fold_left on_top cached None)
  end.
(** GetMinFillVtree, lines 178-233 *)
Definition JointreeVtree (d : dtree) : res vtree :=
  match jt_vertex [] d with Some t => Ok t | None => Abort end.

(** ** Hypergraph partitioning, hypergraph_decomposition_vtree.cpp *)
Definition chain (vars : list N) (t : vtree) : vtree := fold_left (fun v x => VNode (Leaf x) v) vars t.
(** The elements of an unordered_set filled from a list, in the order of the set *)
Definition distinct (l : list N) : list N := nodup N.eq_dec l.
(** BaseCase, lines 88-110; [ord] is the iteration order of the set of variables *)
Definition BaseCase (ord : list N -> list N) (scopes : list (list N)) : res (option vtree) :=
  match ord (distinct (concat scopes)) with
  | [] => Abort
  | [v] => Ok (Some (Leaf v))
  | v :: vs => if Nat.leb (length scopes) 3 then Ok (Some (chain vs (Leaf v))) else Ok None
  end.
(** The scopes of one block of the partition: [block i] tells whether partition[i] == 0 *)
Definition block_scopes (block : nat -> bool) (b : bool) (scopes : list (list N)) : list (list N) :=
  map snd (filter (fun x => Bool.eqb (block (fst x)) b) (combine (seq 0 (length scopes)) scopes)).
(** PartitionGraph, lines 128-213: left factors, right factors, context variables.  The call of kahypar_partition is the oracle
    [block]; the hypergraph passed to it (lines 131-159) is in Kahypar.v. *)
Definition PartitionGraph (ord : list N -> list N) (block : nat -> bool) (scopes : list (list N)) :
    list (list N) * list (list N) * list N :=
  let vars_left := distinct (concat (block_scopes block true scopes)) in
  let vars_right := distinct (concat (block_scopes block false scopes)) in
  let context := filter (fun v => NmemB v vars_left) (ord vars_right) in
  let cut := map (filter (fun v => negb (NmemB v context))) scopes in
  let is_left sc := match sc with v :: _ => NmemB v vars_left | [] => false end in
  let is_right sc := match sc with v :: _ => negb (NmemB v vars_left) | [] => false end in
  (filter is_left cut, filter is_right cut, context).
(** lines 229-251 *)
Definition put_together (l r : option vtree) (context : list N) : res vtree :=
  let child_v := match l, r with
                 | None, _ => r
                 | _, None => l
                 | Some l, Some r => Some (VNode l r)
                 end in
  match child_v with
  | None => match context with
            | [] => Abort
            | c :: cs => Ok (chain cs (Leaf c))
            end
  | Some t => Ok (chain context t)
  end.
(** FactorGraphToVtree, lines 215-252.  [ords p k] are the iteration orders of the sets of the call at [p], [part p] the partitions. *)
Fixpoint FactorGraphToVtree (fuel : nat) (ords : path -> nat -> list N -> list N) (part : path -> list (list N) -> nat -> bool)
    (p : path) (scopes : list (list N)) : res vtree :=
  match fuel with
  | O => NoFuel
  | S f =>
      let '(lf, rf, context) := PartitionGraph (ords p 0) (part p scopes) scopes in
      let side (b : bool) fs :=
        match fs with
        | [] => Ok None
        | _ =>
            do o <- BaseCase (ords (b :: p) 1) fs ;;
            match o with
            | Some t => Ok (Some t)
            | None => do t <- FactorGraphToVtree f ords part (b :: p) fs ;; Ok (Some t)
            end
        end in
      do l <- side false lf ;;
      do r <- side true rf ;;
      put_together l r context
  end.
(** HypergraphDecompositionVtree::ConstructVtree, lines 255-279 *)
Definition HypergraphVtree (fuel : nat) (ords : path -> nat -> list N -> list N) (part : path -> list (list N) -> nat -> bool)
    (scopes : list (list N)) : res vtree :=
  do o <- BaseCase (ords [] 1) scopes ;;
  match o with
  | Some t => Ok t
  | None => FactorGraphToVtree fuel ords part [] scopes
  end.
