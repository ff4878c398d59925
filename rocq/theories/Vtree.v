(** Model of the vtree utilities, src/psdd_node.cpp 17-202 (namespace vtree_util).
    Vtrees themselves live in libsdd (binary, external); the accessors
    sdd_vtree_{is_leaf,var,left,right,parent,lca,position,var_count,data,set_data} and
    new_{leaf,internal}_vtree are modelled by their documented meaning. *)
From Verif Require Import Base.

Inductive vtree := Leaf (v : N) | VNode (l r : vtree).

(** A Vtree* into a given tree: the path from the root, innermost step first
    ([false] = left).  So sdd_vtree_parent is [tl], sdd_vtree_left is [cons false]. *)
Definition path := list bool.

Definition child (b : bool) (t : vtree) : option vtree :=
  match t with Leaf _ => None | VNode l r => Some (if b then r else l) end.
Fixpoint subtree (root : vtree) (p : path) : option vtree :=
  match p with
  | [] => Some root
  | b :: p' => match subtree root p' with Some t => child b t | None => None end
  end.
Fixpoint leaves (t : vtree) : list N :=
  match t with Leaf v => [v] | VNode l r => leaves l ++ leaves r end.
Fixpoint vsize (t : vtree) : nat :=
  match t with Leaf _ => 1 | VNode l r => vsize l + 1 + vsize r end.

Definition path_eqb : path -> path -> bool := fun p q => if list_eq_dec bool_dec p q then true else false.

(** sdd_vtree_parent *)
Definition vparent (p : path) : option path := match p with [] => None | _ :: p' => Some p' end.

(** sdd_vtree_lca: the longest common suffix of the two paths. *)
Fixpoint common_prefix (p q : list bool) : list bool :=
  match p, q with
  | a :: p', b :: q' => if Bool.eqb a b then a :: common_prefix p' q' else []
  | _, _ => []
  end.
Definition vlca (p q : path) : path := rev (common_prefix (rev p) (rev q)).

(** sdd_vtree_position: in-order position. *)
Fixpoint pos_down (t : vtree) (rp : list bool) : nat :=
  match rp, t with
  | [], Leaf _ => 0
  | [], VNode l _ => vsize l
  | false :: rp', VNode l _ => pos_down l rp'
  | true :: rp', VNode l r => vsize l + 1 + pos_down r rp'
  | _ :: _, Leaf _ => 0
  end.
Definition vpos (root : vtree) (p : path) : nat := pos_down root (rev p).

(** All (pointer, subtree) pairs below a node. *)
Fixpoint nodes (p : path) (t : vtree) : list (path * vtree) :=
  (p, t) :: match t with
            | Leaf _ => []
            | VNode l r => nodes (false :: p) l ++ nodes (true :: p) r
            end.

(** The children pushed on the queue: psdd_node.cpp 70-73 *)
Definition kids (pt : path * vtree) : list (path * vtree) :=
  match snd pt with
  | Leaf _ => []
  | VNode l r => [(false :: fst pt, l); (true :: fst pt, r)]
  end.

(** SerializeVtree, psdd_node.cpp 62-76.  A queue entry carries the pointer and what it points to. *)
Fixpoint bfs (fuel : nat) (q : list (path * vtree)) : res (list (path * vtree)) :=
  match q with
  | [] => Ok []
  | x :: q' =>
      match fuel with
      | O => NoFuel
      | S f => do rest <- bfs f (q' ++ kids x) ;; Ok (x :: rest)
      end
  end.
Definition SerializeVtree (p : path) (t : vtree) : res (list (path * vtree)) := bfs (vsize t) [(p, t)].

(** VariablesUnderVtree, psdd_node.cpp 100-109 *)
Definition VariablesUnderVtree (p : path) (t : vtree) : res (list N) :=
  do ser <- SerializeVtree p t ;;
  Ok (flat_map (fun x => match snd x with Leaf v => [v] | _ => [] end) ser).

(** LeftToRightLeafTraverse(Helper), psdd_node.cpp 50-58, 197-201: an accumulating traversal. *)
Fixpoint ltr_helper (acc : list N) (t : vtree) : list N :=
  match t with
  | Leaf v => acc ++ [v]
  | VNode l r => ltr_helper (ltr_helper acc l) r
  end.
Definition LeftToRightLeafTraverse (t : vtree) : list N := ltr_helper [] t.

(** The data pointers of a vtree (sdd_vtree_data / sdd_vtree_set_data): here they hold newly built vtrees;
    [None] is nullptr. *)
Definition vdata := path -> option vtree.
Definition set_data (d : vdata) (p : path) (x : option vtree) : vdata :=
  fun q => if path_eqb q p then x else d q.

(** One iteration of the loop of CopyVtree, psdd_node.cpp 80-94 (and 157-175 with the variable map,
    [rename]; an unmapped variable fails the assertion at 161-162).  new_internal_vtree on nullptr is UB. *)
Definition copy_step (rename : N -> option N) (d : vdata) (x : path * vtree) : res vdata :=
  let '(p, t) := x in
  match t with
  | Leaf v =>
      match rename v with
      | None => Abort
      | Some v' => Ok (set_data d p (Some (Leaf v')))
      end
  | VNode _ _ =>
      do l <- get (d (false :: p)) ;;
      do r <- get (d (true :: p)) ;;
      let d1 := set_data d (false :: p) None in
      let d2 := set_data d1 (true :: p) None in
      Ok (set_data d2 p (Some (VNode l r)))
  end.
(** CopyVtree, psdd_node.cpp 77-99 and 153-180; also returns the final data pointers. *)
Definition CopyVtreeMap (rename : N -> option N) (d : vdata) (p : path) (t : vtree) : res (vtree * vdata) :=
  do ser <- SerializeVtree p t ;;
  do d' <- foldM (copy_step rename) (rev ser) d ;;
  do new_vtree <- get (d' p) ;;
  Ok (new_vtree, set_data d' p None).
Definition CopyVtree := CopyVtreeMap Some.

(** One iteration of the loop of ProjectVtree, psdd_node.cpp 117-146 *)
Definition project_step (S : list N) (d : vdata) (x : path * vtree) : vdata :=
  let '(p, t) := x in
  match t with
  | Leaf v => if NmemB v S then set_data d p (Some (Leaf v)) else set_data d p None
  | VNode _ _ =>
      let l := d (false :: p) in
      let d1 := set_data d (false :: p) None in
      let r := d1 (true :: p) in
      let d2 := set_data d1 (true :: p) None in
      match l, r with
      | Some l', Some r' => set_data d2 p (Some (VNode l' r'))
      | Some l', None => set_data d2 p (Some l')
      | None, Some r' => set_data d2 p (Some r')
      | None, None => set_data d2 p None
      end
  end.
(** ProjectVtree, psdd_node.cpp 110-152; set_vtree_properties(nullptr) is UB. *)
Definition ProjectVtree (S : list N) (d : vdata) (p : path) (t : vtree) : res (vtree * vdata) :=
  do ser <- SerializeVtree p t ;;
  let d' := fold_left (project_step S) (rev ser) d in
  do new_root <- get (d' p) ;;
  Ok (new_root, set_data d' p None).

(** SubVtreeByVariablesHelper, psdd_node.cpp 18-48; pointer equality is path equality. *)
Fixpoint subvtree_helper (p : path) (t : vtree) (S : list N) : option (path * vtree) :=
  match t with
  | Leaf v => if NmemB v S then Some (p, t) else None
  | VNode l r =>
      match subvtree_helper (false :: p) l S, subvtree_helper (true :: p) r S with
      | None, rr => rr
      | Some x, None => Some x
      | Some x, Some y =>
          if path_eqb (fst x) (false :: p) && path_eqb (fst y) (true :: p) then Some (p, t) else None
      end
  end.
(** SubVtreeByVariables, psdd_node.cpp 182-196.  [S] is the list of the set's elements
    (no duplicates), so its length is variables.size(). *)
Definition SubVtreeByVariables (p : path) (t : vtree) (S : list N) : option (path * vtree) :=
  match subvtree_helper p t S with
  | None => None
  | Some (q, s) => if Nat.eqb (length (leaves s)) (length S) then Some (q, s) else None
  end.
