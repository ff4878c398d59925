(** The unit tests of the repository (/repo/test), run on the model: evidence that the model computes what the code computes.
    Parameters are exact rationals.  SDDs are those that libsdd would build (up to elements with a false sub, which FromSdd skips).
    Differences to the tests are noted at each of them. *)
From Coq Require Import Reals Lra.
From Verif Require Import Base Param ParamProofs Vtree VtreeProofs Spec Heap Manager HeapProofs HeapExamples Query Sdd SddProofs SddExamples RefLib Learn LearnProofs LearnExamples.

Local Open Scope nat_scope.

(** sdd_vtree_new(n, "right") and sdd_vtree_new(n, "balanced") *)
Fixpoint right_vt (v : N) (k : nat) : vtree := match k with O => Leaf v | S k' => VNode (Leaf v) (right_vt (N.succ v) k') end.
Fixpoint balanced_vt (d : nat) (v : N) : vtree := match d with O => Leaf v | S d' => VNode (balanced_vt d' v) (balanced_vt d' (v + 2 ^ N.of_nat d')) end.

(** CardinalityK: exactly k of the variables *)
Fixpoint card (t : vtree) (p : path) (k : nat) : stree :=
  match t with
  | Leaf v => match k with O => XL p (- Z.of_N v)%Z | S O => XL p (Z.of_N v) | _ => XF end
  | VNode a b =>
      let m := length (leaves a) in
      if Nat.ltb (length (leaves t)) k then XF
      else XD p (map (fun i => (card a (false :: p) i, if Nat.leb i k then card b (true :: p) (k - i) else XF)) (seq 0 (S m)))
  end.
(** GenerateParitySDD: an even number of variables *)
Fixpoint parity (t : vtree) (p : path) (odd : bool) : stree :=
  match t with
  | Leaf v => XL p (if odd then Z.of_N v else - Z.of_N v)%Z
  | VNode a b => XD p [(parity a (false :: p) true, parity b (true :: p) (negb odd)); (parity a (false :: p) false, parity b (true :: p) odd)]
  end.
Definition sdd_of (st : stree) : sdd * list nat * nat := let '(r, s) := put st s_new in (nodes_of s, post (S r) s r, r).
Definition from_sdd (st : stree) (svt : vtree) (fl : N) (target : option path) (m : mgr Qex) : res (nat * mgr Qex) :=
  let '(sd, order, r) := sdd_of st in
  do (x, m1) <- FromSdd sd order r svt fl target (fun _ => None) m ;; do i <- get (fst x) ;; Ok (i, m1).
Definition count (m : mgr Qex) (i : nat) : res N := do L <- SerializePsddNodes (m_heap m) [i] ;; ModelCount (m_heap m) L.
Definition bits (n : N) : N -> bool := N.testbit n.
Definition consistent (m : mgr Qex) (mask x : N -> bool) (i : nat) : res bool := do r <- IsConsistent (m_heap m) mask x i (fun _ => false) ;; Ok (fst r).


(** psdd_manager_test.cpp 73-94, MODEL_COUNT_TEST: 252 models *)
Example model_count_test : (do (i, m) <- from_sdd (card (right_vt 1 9) [] 5) (right_vt 1 9) 0 (Some []) (new_mgr (right_vt 1 9)) ;; count m i) = Ok 252%N.
Proof. vm_compute. reflexivity. Qed.
(** psdd_manager_test.cpp 96-132, VARIABLE_MAP_TEST *)
Definition variable_map_test : res (bool * bool * list (bool * bool)) :=
  do m <- GetPsddManagerFromSddVtree (right_vt 1 9) (fun v => Some (v + 10)%N) ;;
  do (i, m1) <- from_sdd (XL [false] 1) (right_vt 1 9) 0 (Some []) m ;;
  do a <- consistent m1 (N.eqb 11) (fun _ => false) i ;; do b <- consistent m1 (N.eqb 11) (N.eqb 11) i ;;
  do l <- mapM (fun v => do a <- consistent m1 (N.eqb v) (fun _ => false) i ;; do b <- consistent m1 (N.eqb v) (N.eqb v) i ;; Ok (a, b)) [12; 13; 14; 15; 16; 17; 18; 19; 20]%N ;;
  Ok (a, b, l).
Example variable_map_test_passes : variable_map_test = Ok (false, true, repeat (true, true) 9).
Proof. vm_compute. reflexivity. Qed.
(** psdd_manager_test.cpp 134-164, GET_TOP_NODE: the second request returns the first node, other parameters or flags another one *)
Definition get_top_node_test : res (list nat) :=
  do (a, m) <- GetPsddTopNode (new_mgr (right_vt 1 9)) 1 0 (q 1 10) (q 9 10) ;; do (b, m) <- GetPsddTopNode m 1 0 (q 1 10) (q 9 10) ;;
  do (c, m) <- GetPsddTopNode m 1 0 (q 9 10) (q 1 10) ;; do (d, m) <- GetPsddTopNode m 1 1 (q 1 10) (q 9 10) ;;
  do _ <- assert (match nth_error (m_heap m) a, nth_error (m_heap m) c with
                  | Some (MkN _ 0 (BTop 1 pt pf)), Some (MkN _ 0 (BTop 1 pt' pf')) => peq pt (q 1 10) && peq pf (q 9 10) && peq pt' (q 9 10) && peq pf' (q 1 10) | _, _ => false end) ;;
  Ok [a; b; c; d].
Example get_top_node_test_passes : get_top_node_test = Ok [0; 0; 1; 2].
Proof. vm_compute. reflexivity. Qed.
(** psdd_manager_test.cpp 166-185, GET_LIERAL_NODE *)
Definition get_literal_node_test : res (list nat * list (option (body Qex))) :=
  do (a, m) <- GetPsddLiteralNode (new_mgr (right_vt 1 9)) (-1) 0 ;; do (b, m) <- GetPsddLiteralNode m (-1) 0 ;;
  do (c, m) <- GetPsddLiteralNode m 1 0 ;; do (d, m) <- GetPsddLiteralNode m (-1) 1 ;; Ok ([a; b; c; d], map (fun i => option_map n_body (nth_error (m_heap m) i)) [a; b; c; d]).
Example get_literal_node_test_passes : get_literal_node_test = Ok ([0; 0; 1; 2], map Some [BLit (-1); BLit (-1); BLit 1; BLit (-1)]).
Proof. vm_compute. reflexivity. Qed.
(** psdd_manager_test.cpp 187-246, GET_CONFORMED_DECISION_NODE: elements in another order give the same node, exchanged subs or another flag another
    one; probability 0.72 for both instantiations, 2^10 models *)
Definition get_decision_node_test : res (bool * bool * bool * list Qex * N) :=
  do (n1, m) <- GetPsddLiteralNode (new_mgr (right_vt 1 9)) (-1) 0 ;; do (t, m) <- GetPsddTopNode m 10 0 (q 9 10) (q 1 10) ;;
  do (p1, m) <- GetPsddLiteralNode m 1 0 ;; do (t2, m) <- GetPsddTopNode m 10 0 (q 1 10) (q 9 10) ;;
  do (d, m) <- GetConformedPsddDecisionNode m [p1; n1] [t; t2] [q 8 10; q 2 10] 0 ;;
  do (d2, m) <- GetConformedPsddDecisionNode m [n1; p1] [t2; t] [q 2 10; q 8 10] 0 ;;
  do a <- Evaluate (m_heap m) (fun v => N.leb 1 v && N.leb v 10) (fun v => N.leb 1 v && N.leb v 10) d ;;
  do b <- Evaluate (m_heap m) (fun v => N.leb 1 v && N.leb v 10) (fun v => N.eqb v 1 || N.eqb v 10) d ;;
  do c <- count m d ;;
  do (d3, m) <- GetConformedPsddDecisionNode m [n1; p1] [t; t2] [q 2 10; q 8 10] 0 ;;
  do (d4, m) <- GetConformedPsddDecisionNode m [p1; n1] [t; t2] [q 8 10; q 2 10] 1 ;;
  Ok (Nat.eqb d d2, Nat.eqb d d3, Nat.eqb d d4, [a; b], c).
Example get_decision_node_test_passes : exists a b, get_decision_node_test = Ok (true, false, false, [a; b], 1024%N) /\ qval a = (72 / 100)%R /\ qval b = (72 / 100)%R.
Proof. do 2 eexists. split; [vm_compute; reflexivity|]. unfold qval. simpl. lra. Qed.
(** psdd_manager_test.cpp 248-283, FROM_SDD_TEST: 70 models over variables 1-8 and over 9-16, 70 * 2^8 after NormalizePsddNode *)
Definition from_sdd_test : res (list N) :=
  let svt := balanced_vt 3 1 in
  let '(sd, order, r) := sdd_of (card svt [] 4) in
  do (x, m) <- FromSddVariables sd order r svt 0 [1; 2; 3; 4; 5; 6; 7; 8]%N (fun _ => None) (@new_mgr Qex (balanced_vt 4 1)) ;; do i <- get (fst x) ;;
  do a <- count m i ;;
  do (x, m) <- FromSddVariables sd order r svt 0 [9; 10; 11; 12; 13; 14; 15; 16]%N (fun _ => None) m ;; do j <- get (fst x) ;;
  do b <- count m j ;;
  do (k, m) <- NormalizePsddNode (Some []) i 0 m ;;
  do c <- count m k ;; Ok [a; b; c].
Example from_sdd_test_passes : from_sdd_test = Ok [70; 70; 70 * 2 ^ 8]%N.
Proof. vm_compute. reflexivity. Qed.
(** psdd_manager_test.cpp 285-352, LOAD_PSDD_TEST.  In the test the vtree of the second manager has the variables 6, 7
    and 8 twice (the odd leaves are renamed to 6-13); the model is about distinct variables, so here they are renamed to 9-16. *)
Definition load_map (i : N) : N := if N.even i then (i / 2)%N else ((i + 1) / 2 + 8)%N.
Definition load_psdd_test : res (bool * bool * bool * bool * N * N) :=
  let svt := balanced_vt 3 1 in let mask := bits 511 in
  do (i, m) <- from_sdd (card svt [] 4) svt 0 (Some []) (new_mgr svt) ;;
  do (x, m) <- LoadPsddNode (m_heap m) no_ud (Some []) i 0 m ;; let same := Nat.eqb (fst x) i in
  do (x, m) <- LoadPsddNode (m_heap m) no_ud (Some []) i 1 m ;; let j := fst x in
  do l <- mapM (fun n => do a <- consistent m mask (bits (N.of_nat n)) i ;; do b <- consistent m mask (bits (N.of_nat n)) j ;; Ok (Bool.eqb a b)) (seq 0 512) ;;
  do m2 <- GetPsddManagerFromSddVtree (balanced_vt 4 1) (fun v => Some (load_map v)) ;;
  do (x, m2) <- LoadPsddNode (m_heap m) no_ud (Some []) i 0 m2 ;; let k := fst x in
  do l2 <- mapM (fun n => do a <- consistent m mask (bits (N.of_nat n)) i ;; do b <- consistent m2 mask (bits (N.of_nat n)) k ;; Ok (Bool.eqb a b)) (seq 1 16) ;;
  do a <- count m2 k ;; do b <- count m i ;;
  Ok (same, Nat.eqb i j, forallb (fun b => b) l, forallb (fun b => b) l2, a, b).
Example load_psdd_test_passes : load_psdd_test = Ok (true, false, true, true, 70 * 2 ^ 8, 70)%N.
Proof. vm_compute. reflexivity. Qed.
(** psdd_manager_test.cpp 354-379, MULTIPLY_TEST with 4 variables instead of 16 *)
Definition multiply_test : res (list Qex * Qex * option nat * Qex) :=
  do (t, m) <- GetTrueNode [] 0 (new_mgr (balanced_vt 2 1)) ;;
  do (r, m) <- Multiply m t t 0 ;; do i <- get (fst r) ;;
  do l <- mapM (fun n => Evaluate (m_heap m) (bits 31) (bits (N.of_nat n)) i) (seq 0 32) ;;
  do (a, m) <- GetPsddLiteralNode m 1 0 ;; do (a, m) <- NormalizePsddNode (Some []) a 0 m ;;
  do (b, m) <- GetPsddLiteralNode m (-1) 0 ;; do (b, m) <- NormalizePsddNode (Some []) b 0 m ;;
  do (r2, m) <- Multiply m a b 0 ;; Ok (l, snd r, fst r2, snd r2).
Example multiply_test_passes : exists l z z2, multiply_test = Ok (l, z, None, z2) /\ forallb (q_eq (q 1 16)) l = true /\ length l = 32 /\ q_eq z (q 16 1) = true /\ q_eq z2 (q 0 1) = true.
Proof. do 3 eexists. split; [vm_compute; reflexivity|]. vm_compute. auto. Qed.
(** psdd_manager_test.cpp 381-490, MULTIPLY_TEST2 to MULTIPLY_TEST4: for every instantiation the product times the constant is the product.
    (The generator is a list of draws; in the last two tests the PSDDs get random parameters.) *)
Definition agrees (m : mgr Qex) (a b : nat) : res bool :=
  do (r, m1) <- Multiply m a b 3 ;; do i <- get (fst r) ;;
  do l <- mapM (fun n => let x := bits (N.of_nat n) in
     do u <- Evaluate (m_heap m1) (bits 511) x a ;; do v <- Evaluate (m_heap m1) (bits 511) x b ;; do w <- Evaluate (m_heap m1) (bits 511) x i ;;
     Ok (q_eq (@pmul Qex u v) (@pmul Qex w (snd r)))) (seq 0 512) ;;
  Ok (forallb (fun b => b) l).
Definition draws (n : nat) : list Qex := map (fun i => q (N.of_nat (1 + (i * 7) mod 11)) (BinNums.xI (BinNums.xO BinNums.xH))) (seq 0 n).
Definition multiply_test2 : res bool :=
  let vt := right_vt 1 7 in
  do (a, m) <- from_sdd (card vt [] 4) vt 0 (Some []) (new_mgr vt) ;; do (b, m) <- from_sdd (card vt [] 4) vt 1 (Some []) m ;; agrees m a b.
Definition sampled (m : mgr Qex) (a b : nat) : res bool :=
  do (x, m) <- SampleParameters (Dself Qex) near1_q (m_heap m) no_ud a 0 (draws 400) m ;;
  do (y, m) <- SampleParameters (Dself Qex) near1_q (m_heap m) no_ud b 0 (snd (fst x)) m ;; agrees m (fst (fst x)) (fst (fst y)).
Definition multiply_test3 : res bool :=
  let vt := right_vt 1 7 in
  do (a, m) <- from_sdd (card vt [] 4) vt 0 (Some []) (new_mgr vt) ;;
  do (b, m) <- GetPsddLiteralNode m 1 1 ;; do (b, m) <- NormalizePsddNode (Some []) b 1 m ;; sampled m a b.
(** the number of variables that are true satisfies f *)
Fixpoint card_set (t : vtree) (p : path) (f : nat -> bool) : stree :=
  match t with
  | Leaf v => match f 1, f 0 with true, true => XT | true, false => XL p (Z.of_N v) | false, true => XL p (- Z.of_N v)%Z | false, false => XF end
  | VNode a b =>
      let n := length (leaves b) in
      XD p (map (fun i => (card a (false :: p) i, let g j := f (i + j) in
        if forallb g (seq 0 (S n)) then XT else if forallb (fun j => negb (g j)) (seq 0 (S n)) then XF else card_set b (true :: p) g)) (seq 0 (S (length (leaves a)))))
  end.
Definition multiply_test4 : res bool :=
  let vt := right_vt 1 7 in
  do (a, m) <- from_sdd (card_set vt [] (fun n => Nat.ltb n 6)) vt 0 (Some []) (new_mgr vt) ;;
  do (b, m) <- from_sdd (card_set vt [] (fun n => Nat.leb 3 n)) vt 1 (Some []) m ;; sampled m a b.
Example multiply_test2_passes : multiply_test2 = Ok true.
Proof. vm_compute. reflexivity. Qed.
Example multiply_test3_passes : multiply_test3 = Ok true.
Proof. vm_compute. reflexivity. Qed.
Example multiply_test4_passes : multiply_test4 = Ok true.
Proof. vm_compute. reflexivity. Qed.

(** psdd_learning_test.cpp 42-120 and 122-204: parity of four variables, learnt from no record and from the record 1111 with pseudo count 1;
    the variable written first in the comments of the test is variable 4 *)
Definition no_counts (m : mgr Qex) : counts := fun i => match nth_error (m_heap m) i with Some nd => repeat 0%N (match n_body nd with BLit _ => 0 | BTop _ _ _ => 2 | BDec es => length es end) | None => [] end.
Definition parity_test (ex : examples) (n : nat) : res (list Qex) :=
  let vt := right_vt 1 3 in
  do (i, m) <- from_sdd (parity vt [] false) vt 1 (Some []) (new_mgr vt) ;;
  do (x, m) <- LearnPsddParameters (m_heap m) no_ud (no_counts m) i ex n (q 1 1) 1 m ;;
  mapM (fun x' => Evaluate (m_heap m) (fun _ => true) (fun v => existsb (N.eqb v) x') (fst (fst x))) [[]; [1; 2]; [1; 3]; [2; 3]; [1; 4]; [2; 4]; [3; 4]; [1; 2; 3; 4]]%N.
Example learning_with_zero_data_passes : exists l, parity_test (fun _ => None) 0 = Ok l /\ forallb (fun x => q_eq x (q 1 8)) l = true /\ length l = 8.
Proof. eexists. split; [vm_compute; reflexivity|]. vm_compute. auto. Qed.
Definition one_record : examples := fun v => if N.leb 1 v && N.leb v 4 then Some [true] else None.
Example parity_learning_example_passes : exists l, parity_test one_record 1 = Ok l /\
  map (fun xy => q_eq (fst xy) (snd xy)) (combine l [q 1 18; q 4 27; q 1 9; q 1 12; q 1 9; q 1 12; q 1 9; q 8 27]) = repeat true 8.
Proof. eexists. split; [vm_compute; reflexivity|]. vm_compute. auto. Qed.

(** psdd_mpe_test.cpp 83-126, CardinalityTest with 8 variables and 4 of them true instead of 20 and 10 *)
Definition mpe_test (n : nat) : res (list bool) :=
  let vt := balanced_vt 3 1 in
  do (i, m) <- from_sdd (card vt [] 4) vt 1 (Some []) (new_mgr vt) ;;
  do (x, m) <- LearnPsddParameters (m_heap m) no_ud (no_counts m) i (fun v => Some (repeat (N.odd v) n)) n (q 1 1) 1 m ;;
  do L <- SerializePsddNodes (m_heap m) [fst (fst x)] ;;
  do (y, _) <- GetMPESolution 100 (m_heap m) L (fun _ => None) ;; Ok (map (fst y) [1; 2; 3; 4; 5; 6; 7; 8]%N).
Example mpe_test_passes : mpe_test 100 = Ok [true; false; true; false; true; false; true; false].
Proof. vm_compute. reflexivity. Qed.

(** vtree_test.cpp *)
Example vtree_projection_test : (do (t, _) <- ProjectVtree [1; 2; 3; 4; 5; 6; 7; 8; 9; 10]%N (fun _ => None) [] (right_vt 1 9) ;; VariablesUnderVtree [] t) = Ok [1; 2; 3; 4; 5; 6; 7; 8; 9; 10]%N /\
  (do (t, _) <- ProjectVtree [1; 3; 5; 7; 9]%N (fun _ => None) [] (right_vt 1 9) ;; VariablesUnderVtree [] t) = Ok [1; 3; 5; 7; 9]%N.
Proof. vm_compute. auto. Qed.
Example sub_vtree_from_var_test : let vt := right_vt 1 9 in
  map (fun vs => option_map fst (SubVtreeByVariables [] vt vs)) [[1]; [1; 2; 3; 4; 5; 6; 7; 8; 9; 10]; [2; 3; 4; 5; 6; 7; 8; 9; 10]; [1; 2; 3; 4; 11]; [2; 3; 9; 10]]%N =
  [Some [false]; Some []; Some [true]; None; None].
Proof. vm_compute. reflexivity. Qed.
