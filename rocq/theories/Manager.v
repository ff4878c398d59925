(** Model of src/psdd_manager.cpp: node construction, true nodes, normalization, loading and Multiply. *)
From Verif Require Import Base Param Vtree Heap.

Section Manager.
Context {P : pops}.

(** GetPsddTopNode, psdd_manager.cpp 465-478 *)
Definition GetPsddTopNode (m : mgr P) (v : N) (flag : N) (pt pf : P) : res (nat * mgr P) :=
  match leaf_path (m_vt m) v with
  | None => Abort
  | Some p => Ok (GetUniqueNode m (MkN p flag (BTop v pt pf)))
  end.
(** GetPsddLiteralNode, psdd_manager.cpp 479-489 *)
Definition GetPsddLiteralNode (m : mgr P) (l : Z) (flag : N) : res (nat * mgr P) :=
  match leaf_path (m_vt m) (Z.abs_N l) with
  | None => Abort
  | Some p => Ok (GetUniqueNode m (MkN p flag (BLit l)))
  end.

(** sdd_vtree_left / sdd_vtree_right of a pointer (null for leaves) *)
Definition vkid (root : vtree) (p : path) (b : bool) : option path :=
  match subtree root p with Some (VNode _ _) => Some (b :: p) | _ => None end.
Definition opath_eqb (p : path) (q : option path) : bool :=
  match q with Some q' => path_eqb p q' | None => false end.

(** std::unordered_map<SddLiteral, PsddNode*> true_node_map; insert keeps an existing binding *)
Definition tmap := list (nat * nat).
Definition tinsert (tm : tmap) (k v : nat) : tmap :=
  match nlookup k tm with Some _ => tm | None => (k, v) :: tm end.

(** GetTrueNode, NormalizePsddNode and GetConformedPsddDecisionNode call each other; the recursion is
    tied below with fuel. *)
Definition gt_type := path -> N -> tmap -> mgr P -> res (nat * tmap * mgr P).

(** NormalizePsddNode, psdd_manager.cpp 430-458 (while loop on fuel: one step per vtree level) *)
Fixpoint norm_loop (gt : gt_type) (fuel : nat) (target : option path) (flag : N) (cur : nat)
  (tm : tmap) (m : mgr P) : res (nat * tmap * mgr P) :=
  match fuel with
  | O => NoFuel
  | S f =>
      do nd <- get (nth_error (m_heap m) cur) ;;
      if opath_eqb (n_vt nd) target then Ok (cur, tm, m)
      else match n_vt nd with
           | [] => Abort (* no parent: assert(cur_vtree_parent_node != nullptr) *)
           | false :: parent =>
               do (x, m2) <- gt (true :: parent) flag tm m ;;
               let '(t, tm2) := x in
               do (next, m3) <- new_dec m2 parent flag [cur] [t] [pone] ;;
               norm_loop gt f target flag next tm2 m3
           | true :: parent =>
               do (x, m2) <- gt (false :: parent) flag tm m ;;
               let '(t, tm2) := x in
               do (next, m3) <- new_dec m2 parent flag [t] [cur] [pone] ;;
               norm_loop gt f target flag next tm2 m3
           end
  end.
Definition vt_of (h : heap P) (i : nat) : option path := option_map n_vt (nth_error h i).
Definition normalize_with (gt : gt_type) (target : option path) (flag : N) (cur : nat)
  (tm : tmap) (m : mgr P) : res (nat * tmap * mgr P) :=
  do vt <- get (vt_of (m_heap m) cur) ;;
  norm_loop gt (S (length vt)) target flag cur tm m.

(** The loop of GetConformedPsddDecisionNode, psdd_manager.cpp 502-511 *)
Fixpoint conform_loop (gt : gt_type) (left right : option path) (flag : N) (primes subs : list nat)
  (tm : tmap) (m : mgr P) : res (list nat * list nat * mgr P) :=
  match primes with
  | [] => Ok ([], [], m)
  | p :: primes' =>
      match subs with
      | [] => UB (* subs[i] out of range *)
      | s :: subs' =>
          do (x, m1) <- normalize_with gt left flag p tm m ;;
          let '(p', tm1) := x in
          do (y, m2) <- normalize_with gt right flag s tm1 m1 ;;
          let '(s', tm2) := y in
          do (z, m3) <- conform_loop gt left right flag primes' subs' tm2 m2 ;;
          let '(ps, ss) := z in
          Ok (p' :: ps, s' :: ss, m3)
      end
  end.
(** GetConformedPsddDecisionNode, psdd_manager.cpp 490-517 *)
Definition conformed_with (gt : gt_type) (m : mgr P) (primes subs : list nat) (params : list P) (flag : N)
  : res (nat * mgr P) :=
  do p0 <- get (hd_error primes) ;;
  do s0 <- get (hd_error subs) ;;
  do vp <- get (vt_of (m_heap m) p0) ;;
  do vs <- get (vt_of (m_heap m) s0) ;;
  let lca := vlca vp vs in
  let left := vkid (m_vt m) lca false in
  let right := vkid (m_vt m) lca true in
  do (x, m1) <- conform_loop gt left right flag primes subs [] m ;;
  let '(ps, ss) := x in
  new_dec m1 lca flag ps ss params.

(** Loop body of GetTrueNode, psdd_manager.cpp 391-422 *)
Definition true_step (gt : gt_type) (flag : N) (st : tmap * mgr P) (x : path * vtree) : res (tmap * mgr P) :=
  let '(tm, m) := st in
  let '(p, t) := x in
  match t with
  | Leaf v =>
      do (i, m1) <- GetPsddTopNode m v flag pone pone ;;
      Ok (tinsert tm (vpos (m_vt m) p) i, m1)
  | VNode _ _ =>
      match nlookup (vpos (m_vt m) (false :: p)) tm, nlookup (vpos (m_vt m) (true :: p)) tm with
      | Some l, Some r =>
          do (i, m1) <- conformed_with gt m [l] [r] [pone] flag ;;
          Ok (tinsert tm (vpos (m_vt m) p) i, m1)
      | _, _ => Abort
      end
  end.
(** GetTrueNode, psdd_manager.cpp 382-428 *)
Fixpoint get_true (fuel : nat) (target : path) (flag : N) (tm : tmap) (m : mgr P)
  : res (nat * tmap * mgr P) :=
  match fuel with
  | O => NoFuel
  | S f =>
      match nlookup (vpos (m_vt m) target) tm with
      | Some i => Ok (i, tm, m)
      | None =>
          do t <- get (subtree (m_vt m) target) ;;
          do ser <- SerializeVtree target t ;;
          do (tm1, m1) <- foldM (true_step (get_true f) flag) (rev ser) (tm, m) ;;
          match nlookup (vpos (m_vt m) target) tm1 with
          | Some i => Ok (i, tm1, m1)
          | None => Abort
          end
      end
  end.
(** Depth of the recursion GetTrueNode -> GetConformed -> Normalize -> GetTrueNode.
    (The inner Normalize never needs a true node, so 1 would do.) *)
Definition gt_fuel := 2.
Definition GetTrueNode (target : path) (flag : N) (m : mgr P) : res (nat * mgr P) :=
  do (x, m1) <- get_true gt_fuel target flag [] m ;;
  Ok (fst x, m1).
Definition NormalizePsddNode (target : option path) (cur : nat) (flag : N) (m : mgr P) : res (nat * mgr P) :=
  do (x, m1) <- normalize_with (get_true gt_fuel) target flag cur [] m ;;
  Ok (fst x, m1).
Definition GetConformedPsddDecisionNode (m : mgr P) (primes subs : list nat) (params : list P) (flag : N)
  : res (nat * mgr P) :=
  conformed_with (get_true gt_fuel) m primes subs params flag.

(** LoadPsddNode, psdd_manager.cpp 520-564: loop body.  [hs] is the heap of the source manager (which
    may be [m_heap m] as it was before the call); [ud] its user_data fields. *)
Definition udata := nat -> option nat.
Definition set_ud {A} (ud : nat -> option A) (i : nat) (x : option A) : nat -> option A :=
  fun j => if Nat.eqb j i then x else ud j.
Definition load_step (hs : heap P) (flag : N) (st : udata * mgr P) (i : nat) : res (udata * mgr P) :=
  let '(ud, m) := st in
  do nd <- get (nth_error hs i) ;;
  match n_body nd with
  | BLit l =>
      do (j, m1) <- GetPsddLiteralNode m l flag ;;
      Ok (set_ud ud i (Some j), m1)
  | BTop v pt pf =>
      do (j, m1) <- GetPsddTopNode m v flag pt pf ;;
      Ok (set_ud ud i (Some j), m1)
  | BDec es =>
      do ps <- mapM (fun e => get (ud (e_prime e))) es ;;
      do ss <- mapM (fun e => get (ud (e_sub e))) es ;;
      do (j, m1) <- GetConformedPsddDecisionNode m ps ss (map e_param es) flag ;;
      Ok (set_ud ud i (Some j), m1)
  end.
(** Clearing of user data at the end of a pass. *)
Definition clear_ud {A} (ser : list nat) (ud : nat -> option A) : nat -> option A :=
  fold_left (fun ud i => set_ud ud i None) ser ud.
Definition LoadPsddNode (hs : heap P) (ud : udata) (target : option path) (root : nat) (flag : N) (m : mgr P)
  : res (nat * udata * mgr P) :=
  do ser <- SerializePsddNodes hs [root] ;;
  do (ud1, m1) <- foldM (load_step hs flag) (rev ser) (ud, m) ;;
  do r <- get (ud1 root) ;;
  do (j, m2) <- NormalizePsddNode target r flag m1 ;;
  Ok (j, clear_ud ser ud1, m2).

(** ** Multiply *)
(** ComputationCache, psdd_manager.cpp 41-74: a vector (one slot per vtree position, size 2n-1) of maps keyed by
    node pairs. *)
Definition mres : Type := (option nat * P)%type.
Definition mcache := list ((nat * nat * nat) * mres).
Definition key_eqb (a b : nat * nat * nat) : bool :=
  let '(a1, a2, a3) := a in let '(b1, b2, b3) := b in
  Nat.eqb a1 b1 && Nat.eqb a2 b2 && Nat.eqb a3 b3.
Definition cache_size (root : vtree) : nat := 2 * length (leaves root) - 1.
Definition cache_pos (m : mgr P) (first : nat) : res nat :=
  do vt <- get (vt_of (m_heap m) first) ;;
  let pos := vpos (m_vt m) vt in
  do _ <- assert (Nat.ltb pos (cache_size (m_vt m))) ;;
  Ok pos.
Definition cache_update (m : mgr P) (c : mcache) (a b : nat) (r : mres) : res mcache :=
  do pos <- cache_pos m a ;; Ok (((pos, a, b), r) :: c).

(** Inner loops of MultiplyWithCache, psdd_manager.cpp 100-129, over all pairs of elements in order *)
Definition mul_pair (rec : nat -> nat -> mgr P * mcache -> res (mres * (mgr P * mcache)))
  (st : list (elem P) * P * (mgr P * mcache)) (ab : elem P * elem P)
  : res (list (elem P) * P * (mgr P * mcache)) :=
  let '(acc, part, s) := st in
  let '(a, b) := ab in
  do (pr, s1) <- rec (e_prime a) (e_prime b) s ;;
  match fst pr with
  | None => Ok (acc, part, s1)
  | Some pi =>
      do (sr, s2) <- rec (e_sub a) (e_sub b) s1 ;;
      match fst sr with
      | None => Ok (acc, part, s2)
      | Some si =>
          let w := pmul (pmul (pmul (e_param b) (e_param a)) (snd pr)) (snd sr) in
          Ok (acc ++ [MkE pi si w], padd part w, s2)
      end
  end.
(** MultiplyWithCache, psdd_manager.cpp 76-225.  Recursion on fuel: the children of a node have smaller
    indexes.  Lookup (line 47-60) and Update (61-67) assert that the position is inside the cache. *)
Fixpoint multiply_with_cache (fuel : nat) (flag : N) (first second : nat) (s : mgr P * mcache)
  : res (mres * (mgr P * mcache)) :=
  match fuel with
  | O => NoFuel
  | S f =>
      let '(m, c) := s in
      do pos <- cache_pos m first ;;
      match alookup key_eqb (pos, first, second) c with
      | Some r => Ok (r, s)
      | None =>
          do na <- get (nth_error (m_heap m) first) ;;
          do nb <- get (nth_error (m_heap m) second) ;;
          do _ <- assert (Nat.eqb (vpos (m_vt m) (n_vt na)) (vpos (m_vt m) (n_vt nb))) ;;
          match n_body na, n_body nb with
          | BDec ea, BDec eb =>
              do (x, s1) <- foldM (mul_pair (multiply_with_cache f flag)) (list_prod ea eb) ([], pzero, s) ;;
              let '(acc, part) := x in
              let '(m1, c1) := s1 in
              match acc with
              | [] =>
                  let r := (None, pzero) in
                  do c2 <- cache_update m1 c1 first second r ;;
                  Ok (r, (m1, c2))
              | _ =>
                  let params := map (fun e => pdiv (e_param e) part) acc in
                  do _ <- assert (forallb (fun w => negb (peq w pzero)) params) ;;
                  do (i, m2) <- GetConformedPsddDecisionNode m1 (map e_prime acc) (map e_sub acc) params flag ;;
                  let r := (Some i, part) in
                  do c2 <- cache_update m2 c1 first second r ;;
                  Ok (r, (m2, c2))
              end
          | BLit la, BLit lb =>
              do _ <- assert (N.eqb (lit_var la) (lit_var lb)) ;;
              if Z.eqb la lb then
                do (i, m1) <- GetPsddLiteralNode m la flag ;;
                let r := (Some i, pone) in
                do c1 <- cache_update m1 c first second r ;;
                Ok (r, (m1, c1))
              else
                let r := (None, pzero) in
                do c1 <- cache_update m c first second r ;;
                Ok (r, (m, c1))
          | BLit l, BTop v pt pf | BTop v pt pf, BLit l =>
              do _ <- assert (N.eqb (lit_var l) v) ;;
              do (i, m1) <- GetPsddLiteralNode m l flag ;;
              let r := (Some i, if lit_sign l then pt else pf) in
              do c1 <- cache_update m1 c first second r ;;
              Ok (r, (m1, c1))
          | BTop va ta fa, BTop vb tb fb =>
              do _ <- assert (N.eqb va vb) ;;
              let pos_weight := pmul ta tb in
              let neg_weight := pmul fa fb in
              let part := padd pos_weight neg_weight in
              do (i, m1) <- GetPsddTopNode m va flag (pdiv pos_weight part) (pdiv neg_weight part) ;;
              do nd <- get (nth_error (m_heap m1) i) ;;
              match n_body nd with
              | BTop _ t' f' =>
                  do _ <- assert (negb (peq t' pzero)) ;;
                  do _ <- assert (negb (peq f' pzero)) ;;
                  let r := (Some i, part) in
                  do c1 <- cache_update m1 c first second r ;;
                  Ok (r, (m1, c1))
              | _ => UB (* psdd_top_node() of another kind is nullptr *)
              end
          | _, _ => Abort
          end
      end
  end.
(** PsddManager::Multiply, psdd_manager.cpp 573-577 *)
Definition Multiply (m : mgr P) (a b : nat) (flag : N) : res (mres * mgr P) :=
  do (r, s) <- multiply_with_cache (S a) flag a b (m, []) ;;
  Ok (r, fst s).

End Manager.
