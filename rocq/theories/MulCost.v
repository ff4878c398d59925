(** How many calls the recursive functions make (C90).  These are the functions of Manager.v and Query.v with a counter: every call of the
    function adds one to it when it starts.  That the counter changes nothing else is proved in CostProofs.v. *)
From Verif Require Import Base Param Vtree Heap Manager Query.

Section Cost.
Context {P : pops}.
Notation mcache := (@mcache P). Notation mres := (@mres P).

(** The body of the two nested loops of MultiplyWithCache, psdd_manager.cpp 100-125 *)
Definition count_pair (rec : nat -> nat -> mgr P * mcache -> nat -> res (mres * (mgr P * mcache) * nat))
  (st : list (elem P) * P * (mgr P * mcache) * nat) (ab : elem P * elem P) : res (list (elem P) * P * (mgr P * mcache) * nat) :=
  let '(acc, part, s, k) := st in
  let '(a, b) := ab in
  do (x, k1) <- rec (e_prime a) (e_prime b) s k ;;
  let '(pr, s1) := x in
  match fst pr with
  | None => Ok (acc, part, s1, k1)
  | Some pi =>
      do (y, k2) <- rec (e_sub a) (e_sub b) s1 k1 ;;
      let '(sr, s2) := y in
      match fst sr with
      | None => Ok (acc, part, s2, k2)
      | Some si =>
          let w := pmul (pmul (pmul (e_param b) (e_param a)) (snd pr)) (snd sr) in
          Ok (acc ++ [MkE pi si w], padd part w, s2, k2)
      end
  end.
(** MultiplyWithCache, psdd_manager.cpp 76-225, with the number of calls made so far.  Where the arguments are not both decision nodes the
    function makes no further call, and its effect is taken from Manager.v. *)
Fixpoint mul_calls (fuel : nat) (flag : N) (first second : nat) (s : mgr P * mcache) (k : nat) : res (mres * (mgr P * mcache) * nat) :=
  match fuel with
  | O => NoFuel
  | S f =>
      let '(m, c) := s in
      do pos <- cache_pos m first ;;
      match alookup key_eqb (pos, first, second) c with
      | Some r => Ok (r, s, S k)
      | None =>
          do na <- get (nth_error (m_heap m) first) ;;
          do nb <- get (nth_error (m_heap m) second) ;;
          do _ <- assert (Nat.eqb (vpos (m_vt m) (n_vt na)) (vpos (m_vt m) (n_vt nb))) ;;
          match n_body na, n_body nb with
          | BDec ea, BDec eb =>
              do (x, k1) <- foldM (count_pair (mul_calls f flag)) (list_prod ea eb) ([], pzero, s, S k) ;;
              let '(acc, part, s1) := x in
              let '(m1, c1) := s1 in
              match acc with
              | [] =>
                  let r := (None, pzero) in
                  do c2 <- cache_update m1 c1 first second r ;;
                  Ok (r, (m1, c2), k1)
              | _ =>
                  let params := map (fun e => pdiv (e_param e) part) acc in
                  do _ <- assert (forallb (fun w => negb (peq w pzero)) params) ;;
                  do (i, m2) <- GetConformedPsddDecisionNode m1 (map e_prime acc) (map e_sub acc) params flag ;;
                  let r := (Some i, part) in
                  do c2 <- cache_update m2 c1 first second r ;;
                  Ok (r, (m2, c2), k1)
              end
          | _, _ => do x <- multiply_with_cache 1 flag first second s ;; Ok (x, S k)
          end
      end
  end.
(** PsddManager::Multiply, psdd_manager.cpp 573-577, with the number of calls of MultiplyWithCache it makes *)
Definition MultiplyCalls (m : mgr P) (a b : nat) (flag : N) : res (mres * mgr P * nat) :=
  do (x, k) <- mul_calls (S a) flag a b (m, []) 0 ;;
  let '(r, s) := x in Ok (r, fst s, k).

(** The recursive methods IsConsistent, psdd_node.cpp 781-789, 891-903, 991-994, with the number of their calls *)
Fixpoint consistent_calls (fuel : nat) (h : heap P) (ev : evidence) (i : nat) : res (bool * nat) :=
  match fuel with
  | O => NoFuel
  | S fuel' =>
      do nd <- node_of h i ;;
      match n_body nd with
      | BLit l => Ok (match ev (lit_var l) with Some b => Bool.eqb b (lit_sign l) | None => true end, 1)
      | BTop _ _ _ => Ok (true, 1)
      | BDec es =>
          (fix go (es : list (elem P)) (k : nat) : res (bool * nat) :=
             match es with
             | [] => Ok (false, k)
             | e :: es' =>
                 do (a, k1) <- consistent_calls fuel' h ev (e_prime e) ;;
                 if (a : bool) then
                   do (b, k2) <- consistent_calls fuel' h ev (e_sub e) ;;
                   if (b : bool) then Ok (true, k + k1 + k2) else go es' (k + k1 + k2)
                 else go es' (k + k1)
             end) es 1
      end
  end.
(** PsddNode::IsConsistent(bitset, variable_size), psdd_node.cpp 747-754, with the calls of the method it leads to *)
Definition NodeIsConsistentCalls (fuel : nat) (h : heap P) (x : N -> bool) (n : N) (i : nat) : res (bool * nat) :=
  consistent_calls fuel h (full_evidence x n) i.
(** DirectSample, psdd_node.cpp 808-814, 937-956, 1020-1028, with the number of its calls *)
Fixpoint sample_calls (fuel : nat) (h : heap P) (i : nat) (x : N -> bool) (s : @stream P) (k : nat) : res ((N -> bool) * @stream P * nat) :=
  match fuel with
  | O => NoFuel
  | S fuel' =>
      do nd <- node_of h i ;;
      match n_body nd with
      | BLit l => Ok (if Z.ltb 0 l then vset x (lit_var l) true else x, s, S k)
      | BTop v pt _ =>
          do us <- draw s ;;
          Ok (if plt (fst us) pt then vset x v true else x, snd us, S k)
      | BDec es =>
          do us <- draw s ;;
          do e <- pick (fst us) pzero es ;;
          do (xs, k1) <- sample_calls fuel' h (e_prime e) x (snd us) (S k) ;;
          sample_calls fuel' h (e_sub e) (fst xs) (snd xs) k1
      end
  end.
End Cost.

(** Height of a vtree: the length of its longest branch *)
Fixpoint vheight (t : vtree) : nat :=
  match t with Leaf _ => 0 | VNode l r => S (Nat.max (vheight l) (vheight r)) end.
(** Number of its nodes *)
Fixpoint vnodes (t : vtree) : nat :=
  match t with Leaf _ => 1 | VNode l r => S (vnodes l + vnodes r) end.
