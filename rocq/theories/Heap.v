(** Model of PSDD nodes (src/psdd_node.cpp 723-1030), the unique table
    (src/psdd_unique_table.cpp) and node serialization (src/psdd_node.cpp 252-328). *)
From Verif Require Import Base Param Vtree.

Section Heap.
Context {P : pops}.

(** An element of a decision node: primes_[i], subs_[i], parameters_[i].  A PsddNode* is the node's
    index (see [mgr]). *)
Record elem := MkE { e_prime : nat; e_sub : nat; e_param : P }.

(** PsddLiteralNode / PsddTopNode (true and false parameter) / PsddDecisionNode, psdd_node.h *)
Inductive body :=
| BLit (l : Z)
| BTop (v : N) (pt pf : P)
| BDec (es : list elem).
Record node := MkN { n_vt : path; n_flag : N; n_body : body }.
Definition heap := list node.

(** A PsddManager: vtree_, the nodes ever interned, and the nodes now in the unique table.
    Node indexes are handed out consecutively from node_index_ (psdd_manager.cpp 263-266,
    psdd_unique_table.cpp 121-123) and an interned node is never freed (erasing from the table does
    not delete it), so the index is the position in [m_heap] and node_index_ is its length.
    (Wrap-around of the 64-bit index is not modelled.) *)
Record mgr := MkM { m_vt : vtree; m_heap : heap; m_live : list nat }.

(** PsddManager constructor, psdd_manager.cpp 263-274 *)
Definition new_mgr (t : vtree) : mgr := MkM t [] [].

(** leaf_vtree_map_, psdd_manager.cpp 268-273.  (The variables of a vtree are distinct; with
    duplicates the map would hold the last leaf in breadth-first order.) *)
Fixpoint leaf_path_from (p : path) (t : vtree) (v : N) : option path :=
  match t with
  | Leaf w => if N.eqb v w then Some p else None
  | VNode l r =>
      match leaf_path_from (false :: p) l v with
      | Some q => Some q
      | None => leaf_path_from (true :: p) r v
      end
  end.
Definition leaf_path (root : vtree) (v : N) : option path := leaf_path_from [] root v.

(** PsddLiteralNode::sign and variable_index, psdd_node.cpp 791-796 *)
Definition lit_sign (l : Z) : bool := Z.ltb 0 l.
Definition lit_var (l : Z) : N := Z.abs_N l.

(** ** The comparator PsddUniqueTableSetFunctional, psdd_unique_table.cpp 12-69 *)
Fixpoint elems_less (a b : list elem) : bool :=
  match a, b with
  | [], [] => false
  | [], _ :: _ => true
  | _ :: _, [] => false
  | x :: a', y :: b' =>
      if negb (Nat.eqb (e_prime x) (e_prime y)) then Nat.ltb (e_prime x) (e_prime y)
      else if negb (Nat.eqb (e_sub x) (e_sub y)) then Nat.ltb (e_sub x) (e_sub y)
      else if negb (peq (e_param x) (e_param y)) then plt (e_param x) (e_param y)
      else elems_less a' b'
  end.
Definition node_less (a b : node) : bool :=
  if negb (N.eqb (n_flag a) (n_flag b)) then N.ltb (n_flag a) (n_flag b)
  else match n_body a, n_body b with
       | BLit la, BLit lb => Z.ltb la lb
       | BLit _, _ => true
       | BTop _ _ _, BLit _ => false
       | BTop _ _ _, BDec _ => true
       | BTop va ta _, BTop vb tb _ =>
           if negb (N.eqb va vb) then N.ltb va vb else plt ta tb
       | BDec ea, BDec eb => elems_less ea eb
       | BDec _, _ => false
       end.

(** operator== of the node classes, psdd_node.cpp 775-777, 867-887, 983-987 *)
Fixpoint elems_eq (a b : list elem) : bool :=
  match a, b with
  | [], [] => true
  | x :: a', y :: b' =>
      Nat.eqb (e_prime x) (e_prime y) && Nat.eqb (e_sub x) (e_sub y)
      && peq (e_param x) (e_param y) && elems_eq a' b'
  | _, _ => false
  end.
Definition node_eq (a b : node) : bool :=
  match n_body a, n_body b with
  | BLit la, BLit lb => Z.eqb la lb && N.eqb (n_flag a) (n_flag b)
  | BTop va ta _, BTop vb tb _ => N.eqb va vb && N.eqb (n_flag a) (n_flag b) && peq ta tb
  | BDec ea, BDec eb => N.eqb (n_flag a) (n_flag b) && elems_eq ea eb
  | _, _ => false
  end.

(** The tables: one std::set per node type and vtree position. *)
Definition same_slot (root : vtree) (a b : node) : bool :=
  Nat.eqb (vpos root (n_vt a)) (vpos root (n_vt b)) &&
  match n_body a, n_body b with
  | BLit _, BLit _ | BTop _ _ _, BTop _ _ _ | BDec _, BDec _ => true
  | _, _ => false
  end.

(** What std::set::find looks for: an entry equivalent to the key under the comparator. *)
Definition equiv (a b : node) : bool := negb (node_less a b) && negb (node_less b a).

(** GetUniqueNode, psdd_unique_table.cpp 109-203 *)
Definition GetUniqueNode (m : mgr) (nd : node) : nat * mgr :=
  match find (fun i => match nth_error (m_heap m) i with
                       | Some b => same_slot (m_vt m) nd b && equiv nd b
                       | None => false
                       end) (m_live m) with
  | Some i => (i, m)
  | None => (length (m_heap m),
             MkM (m_vt m) (m_heap m ++ [nd]) (m_live m ++ [length (m_heap m)]))
  end.

(** ** PsddDecisionNode constructor, psdd_node.cpp 816-844 *)
(** parameters[i]: all zero when the vector is empty, out of range access otherwise UB *)
Definition param_at (params : list P) (i : nat) : res P :=
  match params with [] => Ok pzero | _ => get (nth_error params i) end.
(** The elements in the order given. (A longer parameter vector is accepted.) *)
Fixpoint mk_elems (params : list P) (i : nat) (primes subs : list nat) : res (list elem) :=
  match primes, subs with
  | p :: primes', s :: subs' =>
      do w <- param_at params i ;;
      do es <- mk_elems params (S i) primes' subs' ;;
      Ok (MkE p s w :: es)
  | [], [] => Ok []
  | _, _ => Abort (* assert(partition_size == subs.size()) *)
  end.
(** std::sort by prime index.  (std::sort leaves the order of equal primes open; the model is stable.) *)
Fixpoint insert_elem (e : elem) (l : list elem) : list elem :=
  match l with
  | [] => [e]
  | x :: l' => if Nat.leb (e_prime e) (e_prime x) then e :: l else x :: insert_elem e l'
  end.
Definition sort_elems (l : list elem) : list elem := fold_right insert_elem [] l.

(** new PsddDecisionNode(...) followed by GetUniqueNode *)
Definition new_dec (m : mgr) (vt : path) (flag : N) (primes subs : list nat) (params : list P)
  : res (nat * mgr) :=
  do es <- mk_elems params 0 primes subs ;;
  Ok (GetUniqueNode m (MkN vt flag (BDec (sort_elems es)))).

(** ** Serialization, psdd_node.cpp 252-292.  node_explored holds exactly the indexes in [result]. *)
Definition children (nd : node) : list nat :=
  match n_body nd with
  | BDec es => map e_prime es ++ map e_sub es
  | _ => []
  end.
Definition push_new (r : list nat) (c : nat) : list nat := if memb c r then r else r ++ [c].
Fixpoint ser_loop (fuel : nat) (h : heap) (k : nat) (r : list nat) : res (list nat) :=
  match nth_error r k with
  | None => Ok r
  | Some i =>
      match fuel with
      | O => NoFuel
      | S f =>
          do nd <- get (nth_error h i) ;;
          ser_loop f h (S k) (fold_left push_new (children nd) r)
      end
  end.
Definition SerializePsddNodes (h : heap) (roots : list nat) : res (list nat) :=
  ser_loop (S (length h)) h 0 (fold_left push_new roots []).

(** GetCoveredPsddNodes, psdd_node.cpp 294-328: the map's keys in order of insertion. *)
Definition cover_push (qc : list nat * list nat) (c : nat) : list nat * list nat :=
  let '(q, cov) := qc in if memb c cov then (q, cov) else (q ++ [c], cov ++ [c]).
Fixpoint cover_loop (fuel : nat) (h : heap) (q cov : list nat) : res (list nat) :=
  match q with
  | [] => Ok cov
  | i :: q' =>
      match fuel with
      | O => NoFuel
      | S f =>
          do nd <- get (nth_error h i) ;;
          let '(q2, cov2) := fold_left cover_push (children nd) (q', cov) in
          cover_loop f h q2 cov2
      end
  end.
Definition GetCoveredPsddNodes (h : heap) (roots : list nat) : res (list nat) :=
  let '(q, cov) := fold_left cover_push roots ([], []) in
  cover_loop (S (length h)) h q cov.

(** DeleteUnusedPsddNodes, psdd_unique_table.cpp 260-317: entries that are not covered are erased
    from the three tables (the nodes are not freed). *)
Definition DeleteUnusedPsddNodes (m : mgr) (used : list nat) : res mgr :=
  do cov <- GetCoveredPsddNodes (m_heap m) used ;;
  Ok (MkM (m_vt m) (m_heap m) (filter (fun i => memb i cov) (m_live m))).

(** DeletePsddNodesWithoutFlagIndexes, psdd_unique_table.cpp 204-257 *)
Definition DeletePsddNodesWithoutFlagIndexes (m : mgr) (flags : list N) : mgr :=
  MkM (m_vt m) (m_heap m)
      (filter (fun i => match nth_error (m_heap m) i with
                        | Some nd => NmemB (n_flag nd) flags
                        | None => false
                        end) (m_live m)).

(** GetPsddSize, psdd_node.cpp 708-720 (uintmax_t subtraction of 1 from a vector size: an empty decision node
    would wrap around, [UB] marks that case) *)
Definition size_step (h : heap) (acc : nat) (i : nat) : res nat :=
  do nd <- get (nth_error h i) ;;
  match n_body nd with
  | BDec [] => UB
  | BDec es => Ok (acc + (length es - 1))
  | BTop _ _ _ => Ok (acc + 1)
  | BLit _ => Ok acc
  end.
Definition GetPsddSize (h : heap) (root : nat) : res nat :=
  do ser <- SerializePsddNodes h [root] ;;
  foldM (size_step h) ser 0.

End Heap.
Arguments elem : clear implicits.
Arguments body : clear implicits.
Arguments node : clear implicits.
Arguments heap : clear implicits.
Arguments mgr : clear implicits.
