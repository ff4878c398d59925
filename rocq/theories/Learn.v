(** Model of parameter sampling and parameter learning, src/psdd_manager.cpp 664-729 and 837-995. *)
From Verif Require Import Base Param Vtree Heap Manager Query.

(** Operations on the doubles of a random number generator *)
Record dops (P : pops) := { dcar : Type; d_dec : dcar -> P; d_sum : dcar -> dcar -> dcar; d_ratio : dcar -> dcar -> P }.
Arguments dcar {P}. Arguments d_dec {P}. Arguments d_sum {P}. Arguments d_ratio {P}.

Section Learn.
Context {P : pops}.

(** Creation of the copy of node [i] with the parameters [ws] (true and false parameter of a top node, one per element of a
    decision node): psdd_manager.cpp 673-675, 684-687, 702-711 and 940-943, 956-960, 977-985.  A null user_data of a
    child is dereferenced in GetConformedPsddDecisionNode. *)
Definition relab_step (hs : heap P) (flag : N) (st : udata * mgr P) (i : nat) (ws : list P) : res (udata * mgr P) :=
  let '(ud, m) := st in
  do nd <- node_of hs i ;;
  match n_body nd with
  | BLit l =>
      do (j, m1) <- GetPsddLiteralNode m l flag ;;
      Ok (set_ud ud i (Some j), m1)
  | BTop v _ _ =>
      match ws with
      | [a; b] => do (j, m1) <- GetPsddTopNode m v flag a b ;; Ok (set_ud ud i (Some j), m1)
      | _ => UB
      end
  | BDec es =>
      do ps <- mapM (fun e => get (ud (e_prime e))) es ;;
      do ss <- mapM (fun e => get (ud (e_sub e))) es ;;
      do (j, m1) <- GetConformedPsddDecisionNode m ps ss ws flag ;;
      Ok (set_ud ud i (Some j), m1)
  end.

(** ** SampleParametersForMultiplePsdds, psdd_manager.cpp 664-723.  generator->generate() are the draws of a list.
    The doubles that are drawn: [d_dec] is CreateFromDecimal (line 700), [d_sum] their addition (line 679), [d_ratio]
    CreateFromDecimal of a quotient (lines 680, 681).  [near1 p] is std::abs(p.parameter()) <= 0.0001 (line 683). *)
Section Sample.
Context (G : dops P) (near1 : P -> bool).
Definition next (s : list (dcar G)) : res (dcar G * list (dcar G)) := match s with [] => NoFuel | u :: s' => Ok (u, s') end.
Fixpoint draws (k : nat) (s : list (dcar G)) : res (list (dcar G) * list (dcar G)) :=
  match k with
  | O => Ok ([], s)
  | S k' => do (u, s1) <- next s ;; do (us, s2) <- draws k' s1 ;; Ok (u :: us, s2)
  end.
Definition sample_params (nd : node P) (s : list (dcar G)) : res (list P * list (dcar G)) :=
  match n_body nd with
  | BLit _ => Ok ([], s)
  | BTop _ _ _ =>
      do (a, s1) <- next s ;;
      do (b, s2) <- next s1 ;;
      let sum := d_sum G a b in
      let t := d_ratio G a sum in
      let f := d_ratio G b sum in
      do _ <- assert (near1 (padd t f)) ;;
      Ok ([t; f], s2)
  | BDec es =>
      do (us, s1) <- draws (length es) s ;;
      let ws := map (d_dec G) us in
      let sum := fold_left padd ws pzero in
      Ok (map (fun w => pdiv w sum) ws, s1)
  end.
Definition sample_step (hs : heap P) (flag : N) (st : list (dcar G) * (udata * mgr P)) (i : nat) : res (list (dcar G) * (udata * mgr P)) :=
  do nd <- node_of hs i ;;
  do (ws, s1) <- sample_params nd (fst st) ;;
  do um <- relab_step hs flag (snd st) i ws ;;
  Ok (s1, um).
Definition SampleParametersForMultiplePsdds (hs : heap P) (ud : udata) (roots : list nat) (flag : N) (s : list (dcar G)) (m : mgr P)
  : res (list nat * list (dcar G) * udata * mgr P) :=
  do ser <- SerializePsddNodes hs roots ;;
  do (s1, um) <- foldM (sample_step hs flag) (rev ser) (s, (ud, m)) ;;
  do rs <- mapM (fun r => get (fst um r)) roots ;;
  Ok (rs, s1, clear_ud ser (fst um), snd um).
(** SampleParameters, psdd_manager.cpp 724-729 *)
Definition SampleParameters (hs : heap P) (ud : udata) (root : nat) (flag : N) (s : list (dcar G)) (m : mgr P)
  : res (nat * list (dcar G) * udata * mgr P) :=
  do (x, m1) <- SampleParametersForMultiplePsdds hs ud [root] flag s m ;;
  let '(rs, s1, ud1) := x in
  do r <- get (hd_error rs) ;;
  Ok (r, s1, ud1, m1).
End Sample.

(** ** LearnPsddParameters, psdd_manager.cpp 837-995.
    A BatchedPsddValue is a vector of one bool per record; [vals] and [ctxs] are the nodes' batched_psdd_value_ and
    batched_psdd_context_value_, [dc] the data counts (one per element; true and false for top nodes). *)
Definition batch := list bool.
Definition examples := N -> option batch.
Definition batches := nat -> batch.
Definition counts := nat -> list N.

(** lines 875-888: acc[j] := acc[j] or (prime[j] and sub[j]) *)
Fixpoint or_and (acc p s : batch) : res batch :=
  match acc, p, s with
  | [], _, _ => Ok []
  | a :: acc', b :: p', c :: s' => do r <- or_and acc' p' s' ;; Ok ((a || (b && c)) :: r)
  | _, _, _ => UB
  end.
Definition value_node (ex : examples) (n : nat) (vals : batches) (nd : node P) : res batch :=
  match n_body nd with
  | BLit l =>
      match ex (lit_var l) with
      | None => Abort
      | Some b =>
          do _ <- assert (Nat.eqb (length b) n) ;;
          Ok (if lit_sign l then b else map negb b)
      end
  | BTop _ _ _ => Ok (repeat true n)
  | BDec es => foldM (fun acc e => or_and acc (vals (e_prime e)) (vals (e_sub e))) es (repeat false n)
  end.
(** first pass, lines 844-891 *)
Definition value_step (h : heap P) (ex : examples) (n : nat) (st : batches * batches) (i : nat) : res (batches * batches) :=
  let '(vals, ctxs) := st in
  do nd <- node_of h i ;;
  do v <- value_node ex n vals nd ;;
  Ok (set_at vals i v, set_at ctxs i (repeat false n)).

(** lines 901-913: counts of the records in the context with value true / false *)
Fixpoint count_top (ctx ex : batch) : res (N * N) :=
  match ctx with
  | [] => Ok (0%N, 0%N)
  | c :: ctx' =>
      match ex with
      | [] => if c then UB else count_top ctx' []
      | x :: ex' =>
          do (a, b) <- count_top ctx' ex' ;;
          Ok (if c then (if x then (N.succ a, b) else (a, N.succ b)) else (a, b))
      end
  end.
(** the condition of line 923 for every record.  (The code would read the shorter vectors out of range.) *)
Fixpoint hit_list (ctx p s : batch) : res batch :=
  match ctx, p, s with
  | [], _, _ => Ok []
  | a :: ctx', b :: p', c :: s' => do r <- hit_list ctx' p' s' ;; Ok ((a && b && c) :: r)
  | _, _, _ => UB
  end.
(** lines 925-926: at(j) = true; at throws when out of range *)
Fixpoint mark (b hit : batch) : res batch :=
  match hit with
  | [] => Ok b
  | x :: hit' =>
      match b with
      | [] => if x then Abort else mark [] hit'
      | y :: b' => do r <- mark b' hit' ;; Ok ((y || x) :: r)
      end
  end.
Definition trues (b : batch) : N := N.of_nat (length (filter (fun x => x) b)).
Definition add_count (dc : counts) (i k : nat) (n : N) : res counts :=
  do old <- get (nth_error (dc i) k) ;;
  Ok (set_at dc i (upd_nth (dc i) k (old + n)%N)).
(** the loop over the elements, lines 915-929 *)
Definition elem_step (i : nat) (vals : batches) (st : nat * batches * counts) (e : elem P) : res (nat * batches * counts) :=
  let '(k, ctxs, dc) := st in
  do hit <- hit_list (ctxs i) (vals (e_prime e)) (vals (e_sub e)) ;;
  do dc1 <- (if N.eqb (trues hit) 0 then Ok dc else add_count dc i k (trues hit)) ;;
  do cp <- mark (ctxs (e_prime e)) hit ;;
  let ctxs1 := set_at ctxs (e_prime e) cp in
  do cs <- mark (ctxs1 (e_sub e)) hit ;;
  Ok (S k, set_at ctxs1 (e_sub e) cs, dc1).
(** second pass, lines 892-933 *)
Definition context_step (h : heap P) (ex : examples) (st : batches * batches * counts) (i : nat) : res (batches * batches * counts) :=
  let '(vals, ctxs, dc) := st in
  do nd <- node_of h i ;;
  do (ctxs1, dc1) <-
     match n_body nd with
     | BTop v _ _ =>
         match ex v with
         | None => Abort
         | Some b =>
             do (a, c) <- count_top (ctxs i) b ;;
             do dc1 <- add_count dc i 0 a ;;
             do dc2 <- add_count dc1 i 1 c ;;
             Ok (ctxs, dc2)
         end
     | BDec es =>
         do (x, dc1) <- foldM (elem_step i vals) es (0, ctxs, dc) ;;
         Ok (snd x, dc1)
     | BLit _ => Ok (ctxs, dc)
     end ;;
  Ok (set_at vals i [], set_at ctxs1 i [], dc1).

(** smoothed relative frequencies, lines 946-959 and 964-982 *)
Definition smooth (alpha : P) (ns : list N) : list P :=
  let ws := map (fun n => padd (pnat n) alpha) ns in
  let total := fold_left padd ws pzero in
  map (fun w => pdiv w total) ws.
(** [total_data_count] of a top node is true + false, without the initial zero *)
Definition learn_params (dc : counts) (alpha : P) (i : nat) (nd : node P) : res (list P) :=
  match n_body nd with
  | BLit _ => Ok []
  | BTop _ _ _ =>
      do a <- get (nth_error (dc i) 0) ;;
      do b <- get (nth_error (dc i) 1) ;;
      let t := padd (pnat a) alpha in
      let f := padd (pnat b) alpha in
      Ok [pdiv t (padd t f); pdiv f (padd t f)]
  | BDec es =>
      do ns <- mapM (fun k => get (nth_error (dc i) k)) (seq 0 (length es)) ;;
      Ok (smooth alpha ns)
  end.
Definition learn_step (hs : heap P) (dc : counts) (alpha : P) (flag : N) (st : udata * mgr P) (i : nat) : res (udata * mgr P) :=
  do nd <- node_of hs i ;;
  do ws <- learn_params dc alpha i nd ;;
  relab_step hs flag st i ws.
(** ResetDataCount, psdd_node.cpp 806, 930-935, 1013-1016 *)
Definition reset_counts (ser : list nat) (dc : counts) : counts :=
  fold_left (fun dc i => set_at dc i (map (fun _ => 0%N) (dc i))) ser dc.
(** [hs] is the heap before the call (the target's manager). *)
Definition LearnPsddParameters (hs : heap P) (ud : udata) (dc : counts) (root : nat) (ex : examples) (n : nat) (alpha : P) (flag : N) (m : mgr P)
  : res (nat * udata * counts * mgr P) :=
  do ser <- SerializePsddNodes hs [root] ;;
  do dc1 <-
     (if Nat.eqb n 0 then Ok dc
      else
        do (vals, ctxs) <- foldM (value_step hs ex n) (rev ser) (fun _ => [], fun _ => []) ;;
        do (_, dc1) <- foldM (context_step hs ex) ser (vals, set_at ctxs root (map negb (ctxs root)), dc) ;;
        Ok dc1) ;;
  do (ud1, m1) <- foldM (learn_step hs dc1 alpha flag) (rev ser) (ud, m) ;;
  do r <- get (ud1 root) ;;
  Ok (r, clear_ud ser ud1, reset_counts ser dc1, m1).
End Learn.
