(** Model of the queries of src/psdd_node.cpp.
    A std::bitset<MAX_VAR> is a function [N -> bool]; the bounds of bitsets are in BitQuery.v.
    Hash maps that are only looked up and assigned are functions with the default value. *)
From Verif Require Import Base Param Vtree Heap Manager.

Section Query.
Context {P : pops}.

(** Lookup of the node object behind a pointer *)
Definition node_of (h : heap P) (i : nat) : res (node P) := get (nth_error h i).
Definition set_at {A} (c : nat -> A) (i : nat) (a : A) : nat -> A := fun j => if Nat.eqb j i then a else c j.
Definition vset {A} (c : N -> A) (v : N) (a : A) : N -> A := fun w => if N.eqb w v then a else c w.
(** serialized_nodes[0] *)
Definition front (L : list nat) : res nat := match L with [] => UB | i :: _ => Ok i end.

(** ** Evaluate, psdd_node.cpp 486-529; the cache is an unordered_map with default zero *)
Definition eval_node (mask x : N -> bool) (c : nat -> P) (nd : node P) : P :=
  match n_body nd with
  | BLit l =>
      if mask (lit_var l) then (if Bool.eqb (x (lit_var l)) (lit_sign l) then pone else pzero) else pone
  | BTop v pt pf => if mask v then (if x v then pt else pf) else pone
  | BDec es =>
      fold_left (fun acc e => padd acc (pmul (pmul (c (e_prime e)) (c (e_sub e))) (e_param e))) es pzero
  end.
Definition eval_step (h : heap P) (mask x : N -> bool) (c : nat -> P) (i : nat) : res (nat -> P) :=
  do nd <- node_of h i ;; Ok (set_at c i (eval_node mask x c nd)).
Definition EvaluateNodes (h : heap P) (mask x : N -> bool) (L : list nat) : res P :=
  do c <- foldM (eval_step h mask x) (rev L) (fun _ => pzero) ;;
  do r <- front L ;; Ok (c r).
(** Evaluate on a root, psdd_node.cpp 575-580 *)
Definition Evaluate (h : heap P) (mask x : N -> bool) (root : nat) : res P :=
  do L <- SerializePsddNodes h [root] ;; EvaluateNodes h mask x L.

(** ** SetActivationFlag, psdd_node.cpp 329-359.  The flags are the nodes' activation_flag_ fields. *)
Definition flag_node (e : N -> bool) (f : nat -> bool) (nd : node P) : bool :=
  match n_body nd with
  | BLit l => Bool.eqb (e (lit_var l)) (lit_sign l)
  | BTop _ _ _ => true
  | BDec es => existsb (fun e => f (e_prime e) && f (e_sub e)) es
  end.
Definition flag_step (h : heap P) (e : N -> bool) (f : nat -> bool) (i : nat) : res (nat -> bool) :=
  do nd <- node_of h i ;; Ok (if flag_node e f nd then set_at f i true else f).
Definition SetActivationFlag (h : heap P) (e : N -> bool) (L : list nat) (f : nat -> bool) : res (nat -> bool) :=
  foldM (flag_step h e) (rev L) f.

(** ** IsConsistent on a serialization, psdd_node.cpp 540-574 *)
Definition cons_node (mask e : N -> bool) (f : nat -> bool) (nd : node P) : bool :=
  match n_body nd with
  | BLit l => if mask (lit_var l) then Bool.eqb (e (lit_var l)) (lit_sign l) else true
  | BTop _ _ _ => true
  | BDec es => existsb (fun e => f (e_prime e) && f (e_sub e)) es
  end.
Definition cons_step (h : heap P) (mask e : N -> bool) (f : nat -> bool) (i : nat) : res (nat -> bool) :=
  do nd <- node_of h i ;; Ok (if cons_node mask e f nd then set_at f i true else f).
Definition IsConsistentNodes (h : heap P) (mask e : N -> bool) (L : list nat) (f : nat -> bool) : res (bool * (nat -> bool)) :=
  do f1 <- foldM (cons_step h mask e) (rev L) f ;;
  do r <- front L ;;
  Ok (f1 r, fold_left (fun f i => set_at f i false) L f1).
(** IsConsistent on a root, psdd_node.cpp 535-539 *)
Definition IsConsistent (h : heap P) (mask e : N -> bool) (root : nat) (f : nat -> bool) : res (bool * (nat -> bool)) :=
  do L <- SerializePsddNodes h [root] ;; IsConsistentNodes h mask e L f.

(** The recursive methods, psdd_node.cpp 781-789, 891-903, 991-994.  The evidence map is a partial
    function; the recursion is on fuel (node depth). *)
Definition evidence := N -> option bool.
Fixpoint node_consistent (fuel : nat) (h : heap P) (ev : evidence) (i : nat) : res bool :=
  match fuel with
  | O => NoFuel
  | S fuel' =>
      do nd <- node_of h i ;;
      match n_body nd with
      | BLit l => Ok (match ev (lit_var l) with Some b => Bool.eqb b (lit_sign l) | None => true end)
      | BTop _ _ _ => Ok true
      | BDec es =>
          (fix go (es : list (elem P)) : res bool :=
             match es with
             | [] => Ok false
             | e :: es' =>
                 do a <- node_consistent fuel' h ev (e_prime e) ;;
                 if (a : bool) then
                   do b <- node_consistent fuel' h ev (e_sub e) ;;
                   if (b : bool) then Ok true else go es'
                 else go es'
             end) es
      end
  end.
(** PsddNode::IsConsistent(bitset, variable_size), psdd_node.cpp 747-754: variables 1..n are observed *)
Definition full_evidence (x : N -> bool) (n : N) : evidence :=
  fun v => if N.leb 1 v && N.leb v n then Some (x v) else None.

(** ** ModelCount, psdd_node.cpp 455-485; mpz_class is [N] *)
Definition count_node (c : nat -> N) (nd : node P) : N :=
  match n_body nd with
  | BLit _ => 1%N
  | BTop _ _ _ => 2%N
  | BDec es => fold_left (fun acc e => (acc + c (e_prime e) * c (e_sub e))%N) es 0%N
  end.
Definition count_step (h : heap P) (c : nat -> N) (i : nat) : res (nat -> N) :=
  do nd <- node_of h i ;; Ok (set_at c i (count_node c nd)).
Definition ModelCount (h : heap P) (L : list nat) : res N :=
  do c <- foldM (count_step h) (rev L) (fun _ => 0%N) ;;
  do r <- front L ;; Ok (c r).

(** ** GetMPESolution, psdd_node.cpp 361-447.  user_data_ holds a pointer to a pair (value, index)
    or null; a missing pair is a null dereference.  The state of the loop is max_product, max_index, i. *)
Definition mpe_elem (c : nat -> option (P * nat)) (st : P * nat * nat) (e : elem P) : res (P * nat * nat) :=
  let '(best, idx, k) := st in
  do a <- get (c (e_prime e)) ;;
  do b <- get (c (e_sub e)) ;;
  let v := pmul (pmul (fst a) (fst b)) (e_param e) in
  Ok (if pgt v best then (v, k, S k) else (best, idx, S k)).
Definition mpe_best (c : nat -> option (P * nat)) (es : list (elem P)) : res (P * nat) :=
  do r <- foldM (mpe_elem c) es (pzero, 0, 0) ;; Ok (fst r).
Definition mpe_node (c : nat -> option (P * nat)) (nd : node P) : res (P * nat) :=
  match n_body nd with
  | BLit _ => Ok (pone, 0)
  | BTop _ pt pf => Ok (if pgt pt pf then (pt, 1) else (pf, 0))
  | BDec es => mpe_best c es
  end.
Definition mpe_step (h : heap P) (c : nat -> option (P * nat)) (i : nat) : res (nat -> option (P * nat)) :=
  do nd <- node_of h i ;; do r <- mpe_node c nd ;; Ok (set_ud c i (Some r)).
(** the queue, lines 412-441; [fuel] bounds the number of pops *)
Fixpoint mpe_queue (fuel : nat) (h : heap P) (c : nat -> option (P * nat)) (queue : list nat) (x : N -> bool) : res (N -> bool) :=
  match queue with
  | [] => Ok x
  | i :: queue' =>
      match fuel with
      | O => NoFuel
      | S fuel' =>
          do nd <- node_of h i ;;
          match n_body nd with
          | BLit l => mpe_queue fuel' h c queue' (if lit_sign l then vset x (lit_var l) true else x)
          | BDec es =>
              do r <- get (c i) ;;
              do e <- get (nth_error es (snd r)) ;;
              mpe_queue fuel' h c (queue' ++ [e_prime e; e_sub e]) x
          | BTop v _ _ =>
              do r <- get (c i) ;;
              mpe_queue fuel' h c queue' (if Nat.eqb (snd r) 0 then x else vset x v true)
          end
      end
  end.
Definition GetMPESolution (fuel : nat) (h : heap P) (L : list nat) (ud : nat -> option (P * nat))
  : res ((N -> bool) * P * (nat -> option (P * nat))) :=
  do c <- foldM (mpe_step h) (rev L) ud ;;
  do r <- front L ;;
  do p <- get (c r) ;;
  do x <- mpe_queue fuel h c [r] (fun _ => false) ;;
  Ok (x, fst p, clear_ud L c).

(** ** GetMarginals, psdd_node.cpp 638-707.  [ud] holds the positions in the serialization, the
    derivatives are indexed by position (a vector of the length of the serialization), the marginals
    are (false, true) per variable, [None] when the variable is absent. *)
Definition marg_find (mg : N -> option (P * P)) (v : N) : P * P :=
  match mg v with Some p => p | None => (pzero, pzero) end.
Definition marg_index (L : list nat) : nat -> option nat :=
  fst (fold_left (fun st i => (set_ud (fst st) i (Some (snd st)), S (snd st))) L (fun _ => None, 0)).
Definition upd_nth {A} (l : list A) (k : nat) (a : A) : list A := firstn k l ++ a :: skipn (S k) l.
Definition marg_push (ud : nat -> option nat) (d : P) (w : P) (ds : list P) (c : nat) : res (list P) :=
  do k <- get (ud c) ;;
  do old <- get (nth_error ds k) ;;
  Ok (upd_nth ds k (padd old (pmul d w))).
Definition marg_step (h : heap P) (ud : nat -> option nat) (st : list P * (N -> option (P * P))) (i : nat)
  : res (list P * (N -> option (P * P))) :=
  let '(ds, mg) := st in
  do nd <- node_of h i ;;
  do k <- get (ud i) ;;
  do d <- get (nth_error ds k) ;;
  match n_body nd with
  | BLit l =>
      let p := marg_find mg (lit_var l) in
      Ok (ds, vset mg (lit_var l)
                (Some (if lit_sign l then (fst p, padd (snd p) d) else (padd (fst p) d, snd p))))
  | BTop v pt pf =>
      let p := marg_find mg v in
      Ok (ds, vset mg v (Some (padd (fst p) (pmul d pf), padd (snd p) (pmul d pt))))
  | BDec es =>
      do ds' <- foldM (fun ds e =>
                  do ds1 <- marg_push ud d (e_param e) ds (e_prime e) ;;
                  marg_push ud d (e_param e) ds1 (e_sub e)) es ds ;;
      Ok (ds', mg)
  end.
(** user_data_ is reset to 0 for every listed node; position 0 is also the value 0, so a node outside
    the list (whose user data is 0 by the library's convention) is read as position 0.  The model keeps
    only the listed nodes' positions: a serialization lists all children. *)
Definition GetMarginals (h : heap P) (L : list nat) : res (N -> option (P * P)) :=
  match L with
  | [] => UB
  | _ :: L' =>
      do st <- foldM (marg_step h (marg_index L)) L (pone :: map (fun _ => pzero) L', fun _ => None) ;;
      Ok (fun v => match snd st v with
                   | Some (f, t) => let z := padd f t in Some (pdiv f z, pdiv t z)
                   | None => None
                   end)
  end.

(** ** DirectSample, psdd_node.cpp 808-814, 937-956, 1020-1028.  The draws
    CreateFromDecimal((g - min)/(max - min)) come from a list. *)
Definition stream := list P.
Definition draw (s : stream) : res (P * stream) := match s with [] => NoFuel | u :: s' => Ok (u, s') end.
(** the element selected by a draw *)
Fixpoint pick (u acc : P) (es : list (elem P)) : res (elem P) :=
  match es with
  | [] => Abort
  | e :: es' => let acc' := padd acc (e_param e) in if plt u acc' then Ok e else pick u acc' es'
  end.
Fixpoint DirectSample (fuel : nat) (h : heap P) (i : nat) (x : N -> bool) (s : stream) : res ((N -> bool) * stream) :=
  match fuel with
  | O => NoFuel
  | S fuel' =>
      do nd <- node_of h i ;;
      match n_body nd with
      | BLit l => Ok (if Z.ltb 0 l then vset x (lit_var l) true else x, s)
      | BTop v pt _ =>
          do us <- draw s ;;
          Ok (if plt (fst us) pt then vset x v true else x, snd us)
      | BDec es =>
          do us <- draw s ;;
          do e <- pick (fst us) pzero es ;;
          do xs <- DirectSample fuel' h (e_prime e) x (snd us) ;;
          DirectSample fuel' h (e_sub e) (fst xs) (snd xs)
      end
  end.
End Query.
