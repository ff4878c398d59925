(** Model of src/pgm_compiler.cpp: compilation of the factors of a network and of their product.
    Not modelled: progress output (except that SerializePsddNodes dereferences the nodes whose sizes are printed). *)
From Verif Require Import Base Param Vtree Heap Manager.

Section Pgm.
Context {P : pops}.

(** One entry of UaiNetwork::factor_scopes() and params().  A network is a list of factors: the three sizes of UaiNetwork agree, as
    read_file makes them. *)
Record factor := MkF { f_scope : list N; f_table : list P }.
Definition network := list factor.

(** ** compile_factor, pgm_compiler.cpp 37-181 *)
(** leaf_v_nodes, lines 44-52: a leaf pointer with its variable *)
Definition leaf_v_nodes (ser : list (path * vtree)) (scope : list N) : list (path * N) :=
  flat_map (fun v => flat_map (fun x => match snd x with
                                        | Leaf w => if N.eqb w v then [(fst x, w)] else []
                                        | VNode _ _ => []
                                        end) ser) scope.
(** std::sort by decreasing position, lines 53-56.  (Equal positions are equal pointers.) *)
Fixpoint insert_pos (root : vtree) (x : path * N) (l : list (path * N)) : list (path * N) :=
  match l with
  | [] => [x]
  | y :: l' => if Nat.ltb (vpos root (fst x)) (vpos root (fst y)) then y :: insert_pos root x l' else x :: l
  end.
Definition sort_pos (root : vtree) (l : list (path * N)) : list (path * N) := fold_right (insert_pos root) [] l.
(** var_location_in_cluster, lines 57-67 *)
Fixpoint index_of (v : N) (l : list N) : option nat :=
  match l with
  | [] => None
  | w :: l' => if N.eqb w v then Some 0 else option_map S (index_of v l')
  end.
(** 1 << loc of type int: out of range of int from 31 on (31 itself gives INT_MIN, which makes the index below wrong) *)
Definition loc_bit (loc : nat) : res N := if Nat.ltb loc 31 then Ok (N.of_nat loc) else UB.

(** context_node_cache, context_norm_cache: newest binding first *)
Definition ncache := list (N * option nat).
Definition zcache := list (N * P).
Definition at_ {V} (k : N) (c : list (N * V)) : res V := match Nlookup k c with Some v => Ok v | None => Abort end.

(** lines 84-108: the node of a context over the terminal variable [v] and its normalizer *)
Definition term_node (v : N) (pos neg : P) (m : mgr P) : res (option nat * P * mgr P) :=
  let norm := padd pos neg in
  if peq norm pzero then Ok (None, pzero, m)
  else if peq pos pzero then do (i, m1) <- GetPsddLiteralNode m (- Z.of_N v) 0 ;; Ok (Some i, norm, m1)
  else if peq neg pzero then do (i, m1) <- GetPsddLiteralNode m (Z.of_N v) 0 ;; Ok (Some i, norm, m1)
  else do (i, m1) <- GetPsddTopNode m v 0 (pdiv pos norm) (pdiv neg norm) ;; Ok (Some i, norm, m1).
(** lines 76-110 *)
Definition term_step (table : list P) (v loc : N) (st : ncache * zcache * mgr P) (k : nat) : res (ncache * zcache * mgr P) :=
  let '(nc, zc, m) := st in
  let context := N.clearbit (N.of_nat k) loc in
  match Nlookup context nc with
  | Some _ => Ok st
  | None =>
      do neg <- get (nth_error table (N.to_nat context)) ;;
      do pos <- get (nth_error table (N.to_nat (N.setbit context loc))) ;;
      do (x, m1) <- term_node v pos neg m ;;
      Ok ((context, fst x) :: nc, (context, snd x) :: zc, m1)
  end.
(** lines 131-163: the node of a context over the next variable [v]; sp, sn are the nodes of the two values *)
Definition cond_node (v : N) (pos neg : P) (sp sn : option nat) (m : mgr P) : res (option nat * P * mgr P) :=
  let norm := padd pos neg in
  if peq norm pzero then Ok (None, pzero, m)
  else if peq pos pzero then
    do (ln, m1) <- GetPsddLiteralNode m (- Z.of_N v) 0 ;;
    do s <- get sn ;;
    do (i, m2) <- GetConformedPsddDecisionNode m1 [ln] [s] [pone] 0 ;;
    Ok (Some i, neg, m2)
  else if peq neg pzero then
    do (lp, m1) <- GetPsddLiteralNode m (Z.of_N v) 0 ;;
    do s <- get sp ;;
    do (i, m2) <- GetConformedPsddDecisionNode m1 [lp] [s] [pone] 0 ;;
    Ok (Some i, pos, m2)
  else
    do (lp, m1) <- GetPsddLiteralNode m (Z.of_N v) 0 ;;
    do (ln, m2) <- GetPsddLiteralNode m1 (- Z.of_N v) 0 ;;
    do s1 <- get sp ;;
    do s2 <- get sn ;;
    do (i, m3) <- GetConformedPsddDecisionNode m2 [lp; ln] [s1; s2] [pdiv pos norm; pdiv neg norm] 0 ;;
    Ok (Some i, norm, m3).
(** lines 119-164, one context of the last level *)
Definition cond_step (nc : ncache) (zc : zcache) (v loc : N) (st : ncache * zcache * mgr P) (last : N) : res (ncache * zcache * mgr P) :=
  let '(nc', zc', m) := st in
  let next := N.clearbit last loc in
  match Nlookup next nc' with
  | Some _ => Ok st
  | None =>
      do neg <- at_ next zc ;;
      do pos <- at_ (N.setbit next loc) zc ;;
      do sn <- at_ next nc ;;
      do sp <- at_ (N.setbit next loc) nc ;;
      do (x, m1) <- cond_node v pos neg sp sn m ;;
      Ok ((next, fst x) :: nc', (next, snd x) :: zc', m1)
  end.
(** lines 111-169, one more variable; [ord k] is the order in which the hash map of level k is iterated *)
Definition level_step (ord : nat -> list N -> list N) (st : nat * ncache * zcache * mgr P) (x : N * nat) : res (nat * ncache * zcache * mgr P) :=
  let '(k, nc, zc, m) := st in
  do loc <- loc_bit (snd x) ;;
  do (c, m1) <- foldM (cond_step nc zc (fst x) loc) (ord k (map fst nc)) ([], [], m) ;;
  Ok (S k, fst c, snd c, m1).
(** compile_factor, pgm_compiler.cpp 37-181; NormalizePsddNode dereferences its argument *)
Definition compile_factor (ord : nat -> list N -> list N) (F : factor) (m : mgr P) : res (nat * P * mgr P) :=
  let scope := rev (f_scope F) in
  do ser <- SerializeVtree [] (m_vt m) ;;
  let leafs := sort_pos (m_vt m) (leaf_v_nodes ser scope) in
  let locs := flat_map (fun x => match index_of (snd x) scope with Some j => [j] | None => [] end) leafs in
  do _ <- assert (Nat.eqb (length locs) (length scope)) ;;
  match combine (map snd leafs) locs with
  | [] => UB (* var_location_in_cluster[0] *)
  | (v, l) :: rest =>
      do loc <- loc_bit l ;;
      do (c, m1) <- foldM (term_step (f_table F) v loc) (seq 0 (length (f_table F))) ([], [], m) ;;
      do (x, m2) <- foldM (level_step ord) rest (0, fst c, snd c, m1) ;;
      let '(_, nc, zc) := x in
      do _ <- assert (Nat.eqb (length nc) 1) ;;
      do r <- at_ 0%N nc ;;
      do z <- at_ 0%N zc ;;
      do i <- get r ;;
      do (j, m3) <- NormalizePsddNode (Some []) i 0 m2 ;;
      Ok (j, z, m3)
  end.

(** ** The products *)
(** Loading the factors: lines 196-202, 291-297, 352-358.  [ords i] are the iteration orders met while compiling factor i. *)
Fixpoint load_factors (ords : nat -> nat -> list N -> list N) (k : nat) (fs : network) (z : P) (m : mgr P) : res (list nat * P * mgr P) :=
  match fs with
  | [] => Ok ([], z, m)
  | F :: fs' =>
      do (x, m1) <- compile_factor (ords k) F m ;;
      do (y, m2) <- load_factors ords (S k) fs' (pmul z (snd x)) m1 ;;
      Ok (fst x :: fst y, snd y, m2)
  end.
(** factor_orders, lines 299-304 and 360-365: the smallest position of a variable of the factor; var_to_vtree[j] of an absent variable is null *)
Definition factor_order (root : vtree) (n : nat) (F : factor) : res nat :=
  foldM (fun a v => do p <- get (leaf_path root v) ;; Ok (Nat.min a (vpos root p))) (f_scope F) n.
(** compilation_order, lines 307-314 and 368-375.  [srt key l] is what std::sort leaves of l when compared by decreasing key *)
Definition compilation_order (srt : (nat -> nat) -> list nat -> list nat) (m : mgr P) (fs : network) (nodes : list nat) : res (list nat) :=
  do ser <- SerializeVtree [] (m_vt m) ;;
  do os <- mapM (factor_order (m_vt m) (length ser)) fs ;;
  mapM (fun k => get (nth_error nodes k)) (srt (fun k => nth k os 0) (seq 0 (length nodes))).

(** compile_network, lines 279-338: final_result is null at the start and after a product that is zero *)
Definition seq_step (st : option nat * P * mgr P) (cur : nat) : res (option nat * P * mgr P) :=
  let '(fin, z, m) := st in
  match fin with
  | None => Ok (Some cur, z, m)
  | Some a => do (r, m1) <- Multiply m a cur 0 ;; Ok (fst r, pmul z (snd r), m1)
  end.
Definition compile_network (ords : nat -> nat -> list N -> list N) (srt : (nat -> nat) -> list nat -> list nat) (fs : network) (m : mgr P)
  : res (option nat * P * mgr P) :=
  do (x, m1) <- load_factors ords 0 fs pone m ;;
  do order <- compilation_order srt m1 fs (fst x) ;;
  foldM seq_step order (None, snd x, m1).

(** The queue of compile_network_dc, lines 390-415, and compile_network_with_vtree, lines 254-275.  proc_nodes % gc_freq with gc_freq = 0 is UB;
    GetCoveredPsddNodes dereferences the nodes in the queue. *)
Fixpoint queue_loop (fuel : nat) (gc : N) (queue : list (option nat)) (proc : N) (z : P) (m : mgr P) : res (list (option nat) * P * mgr P) :=
  match queue with
  | a :: b :: queue' =>
      match fuel with
      | O => NoFuel
      | S f =>
          do a' <- get a ;;
          do b' <- get b ;;
          let proc1 := (proc + 1)%N in
          do (r, m1) <- Multiply m a' b' 0 ;;
          let queue2 := queue' ++ [fst r] in
          do _ <- (if N.eqb gc 0 then UB else Ok tt) ;;
          do m2 <- (if N.eqb (proc1 mod gc) 0 then do used <- mapM get queue2 ;; DeleteUnusedPsddNodes m1 used else Ok m1) ;;
          queue_loop f gc queue2 proc1 (pmul z (snd r)) m2
      end
  | _ => Ok (queue, z, m)
  end.
(** compile_network_dc, lines 340-418; front() of an empty deque is UB *)
Definition compile_network_dc (ords : nat -> nat -> list N -> list N) (srt : (nat -> nat) -> list nat -> list nat) (gc : N) (fs : network) (m : mgr P)
  : res (option nat * P * mgr P) :=
  do (x, m1) <- load_factors ords 0 fs pone m ;;
  do order <- compilation_order srt m1 fs (fst x) ;;
  do (y, m2) <- queue_loop (length order) gc (map Some order) 0 (snd x) m1 ;;
  do r <- get (hd_error (fst y)) ;;
  Ok (r, snd y, m2).

(** attached_vnode, lines 203-213: the position of the leftmost variable of the factor; with an empty scope a null pointer is dereferenced *)
Definition attach (root : vtree) (F : factor) : res nat :=
  do ps <- mapM (fun v => do p <- get (leaf_path root v) ;; Ok (vpos root p)) (f_scope F) ;;
  match ps with
  | [] => UB
  | p :: ps' => Ok (fold_left (fun a p => if Nat.ltb p a then p else a) ps' p)
  end.
(** One vtree node, lines 226-253: the product of the factors attached to it, and how many multiplications *)
Fixpoint bucket_loop (nodes : list nat) (total : option nat) (proc : N) (z : P) (m : mgr P) : res (option nat * N * P * mgr P) :=
  match nodes with
  | [] => Ok (total, proc, z, m)
  | cur :: nodes' =>
      match total with
      | None => bucket_loop nodes' (Some cur) proc z m
      | Some a => do (r, m1) <- Multiply m a cur 0 ;; bucket_loop nodes' (fst r) (proc + 1)%N (pmul z (snd r)) m1
      end
  end.
Definition bucket_step (root : vtree) (at_pos : list (nat * nat)) (st : list (option nat) * N * P * mgr P) (v : path * vtree)
  : res (list (option nat) * N * P * mgr P) :=
  let '(out, proc, z, m) := st in
  match map snd (filter (fun x => Nat.eqb (fst x) (vpos root (fst v))) at_pos) with
  | [] => Ok st
  | nodes =>
      do (x, m1) <- bucket_loop nodes None proc z m ;;
      let '(total, proc1, z1) := x in
      do t <- (match total with Some t => Ok t | None => Abort end) ;;
      Ok (out ++ [Some t], proc1, z1, m1)
  end.
(** compile_network_with_vtree, lines 182-277 *)
Definition compile_network_with_vtree (ords : nat -> nat -> list N -> list N) (gc : N) (fs : network) (m : mgr P) : res (option nat * P * mgr P) :=
  do ser <- SerializeVtree [] (m_vt m) ;;
  do (x, m1) <- load_factors ords 0 fs pone m ;;
  do ps <- mapM (attach (m_vt m)) fs ;;
  do (y, m2) <- foldM (bucket_step (m_vt m) (combine ps (fst x))) (rev ser) ([], 0%N, snd x, m1) ;;
  let '(out, proc, z) := y in
  do (w, m3) <- queue_loop (length out) gc out proc z m2 ;;
  do r <- get (hd_error (fst w)) ;;
  Ok (r, snd w, m3).
End Pgm.
Arguments factor : clear implicits.
Arguments network : clear implicits.
