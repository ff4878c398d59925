(** The queries of src/psdd_node.cpp once more, with the bounds of std::bitset<MAX_VAR> (include/psdd/binary_data.h 13: 65536).
    In Query.v a bitset has a bit for every number. *)
From Verif Require Import Base Param Vtree Heap Manager Query Data.

(** bitset::operator[]: undefined for positions that are not below the size *)
Definition bit_test (x : N -> bool) (v : N) : res bool := if N.ltb v max_var then Ok (x v) else UB.
(** bitset::set: throws std::out_of_range, which nobody catches *)
Definition bit_set (x : N -> bool) (v : N) : res (N -> bool) := if N.ltb v max_var then Ok (vset x v true) else Abort.

Section BitQuery.
Context {P : pops}.

(** ** Evaluate, psdd_node.cpp 486-529 and 575-580 *)
Definition beval_node (mask x : N -> bool) (c : nat -> P) (nd : node P) : res P :=
  match n_body nd with
  | BLit l =>
      do a <- bit_test mask (lit_var l) ;;
      if (a : bool) then do b <- bit_test x (lit_var l) ;; Ok (if Bool.eqb b (lit_sign l) then pone else pzero) else Ok pone
  | BTop v pt pf =>
      do a <- bit_test mask v ;;
      if (a : bool) then do b <- bit_test x v ;; Ok (if (b : bool) then pt else pf) else Ok pone
  | BDec es =>
      Ok (fold_left (fun acc e => padd acc (pmul (pmul (c (e_prime e)) (c (e_sub e))) (e_param e))) es pzero)
  end.
Definition beval_step (h : heap P) (mask x : N -> bool) (c : nat -> P) (i : nat) : res (nat -> P) :=
  do nd <- node_of h i ;; do v <- beval_node mask x c nd ;; Ok (set_at c i v).
Definition BEvaluateNodes (h : heap P) (mask x : N -> bool) (L : list nat) : res P :=
  do c <- foldM (beval_step h mask x) (rev L) (fun _ => pzero) ;;
  do r <- front L ;; Ok (c r).
Definition BEvaluate (h : heap P) (mask x : N -> bool) (root : nat) : res P :=
  do L <- SerializePsddNodes h [root] ;; BEvaluateNodes h mask x L.

(** ** SetActivationFlag, psdd_node.cpp 329-359 *)
Definition bflag_node (e : N -> bool) (f : nat -> bool) (nd : node P) : res bool :=
  match n_body nd with
  | BLit l => do b <- bit_test e (lit_var l) ;; Ok (Bool.eqb b (lit_sign l))
  | BTop _ _ _ => Ok true
  | BDec es => Ok (existsb (fun e => f (e_prime e) && f (e_sub e)) es)
  end.
Definition bflag_step (h : heap P) (e : N -> bool) (f : nat -> bool) (i : nat) : res (nat -> bool) :=
  do nd <- node_of h i ;; do b <- bflag_node e f nd ;; Ok (if (b : bool) then set_at f i true else f).
Definition BSetActivationFlag (h : heap P) (e : N -> bool) (L : list nat) (f : nat -> bool) : res (nat -> bool) :=
  foldM (bflag_step h e) (rev L) f.

(** ** IsConsistent, psdd_node.cpp 535-574 *)
Definition bcons_node (mask e : N -> bool) (f : nat -> bool) (nd : node P) : res bool :=
  match n_body nd with
  | BLit l =>
      do a <- bit_test mask (lit_var l) ;;
      if (a : bool) then do b <- bit_test e (lit_var l) ;; Ok (Bool.eqb b (lit_sign l)) else Ok true
  | BTop _ _ _ => Ok true
  | BDec es => Ok (existsb (fun e => f (e_prime e) && f (e_sub e)) es)
  end.
Definition bcons_step (h : heap P) (mask e : N -> bool) (f : nat -> bool) (i : nat) : res (nat -> bool) :=
  do nd <- node_of h i ;; do b <- bcons_node mask e f nd ;; Ok (if (b : bool) then set_at f i true else f).
Definition BIsConsistentNodes (h : heap P) (mask e : N -> bool) (L : list nat) (f : nat -> bool) : res (bool * (nat -> bool)) :=
  do f1 <- foldM (bcons_step h mask e) (rev L) f ;;
  do r <- front L ;;
  Ok (f1 r, fold_left (fun f i => set_at f i false) L f1).
Definition BIsConsistent (h : heap P) (mask e : N -> bool) (root : nat) (f : nat -> bool) : res (bool * (nat -> bool)) :=
  do L <- SerializePsddNodes h [root] ;; BIsConsistentNodes h mask e L f.
(** The map that PsddNode::IsConsistent(bitset, variable_size) fills, psdd_node.cpp 750-753; [k]: the variables still to do *)
Fixpoint observe (x : N -> bool) (i : N) (k : nat) (ev : evidence) : res evidence :=
  match k with
  | O => Ok ev
  | S k' => do b <- bit_test x i ;; observe x (i + 1) k' (vset ev i (Some b))
  end.
Definition BNodeIsConsistent (fuel : nat) (h : heap P) (x : N -> bool) (n : N) (i : nat) : res bool :=
  do ev <- observe x 1 (N.to_nat n) (fun _ => None) ;; node_consistent fuel h ev i.

(** ** GetMPESolution, psdd_node.cpp 361-447; only the queue (lines 412-441) touches a bitset *)
Fixpoint bmpe_queue (fuel : nat) (h : heap P) (c : nat -> option (P * nat)) (queue : list nat) (x : N -> bool) : res (N -> bool) :=
  match queue with
  | [] => Ok x
  | i :: queue' =>
      match fuel with
      | O => NoFuel
      | S fuel' =>
          do nd <- node_of h i ;;
          match n_body nd with
          | BLit l => do x1 <- (if lit_sign l then bit_set x (lit_var l) else Ok x) ;; bmpe_queue fuel' h c queue' x1
          | BDec es =>
              do r <- get (c i) ;;
              do e <- get (nth_error es (snd r)) ;;
              bmpe_queue fuel' h c (queue' ++ [e_prime e; e_sub e]) x
          | BTop v _ _ =>
              do r <- get (c i) ;;
              do x1 <- (if Nat.eqb (snd r) 0 then Ok x else bit_set x v) ;;
              bmpe_queue fuel' h c queue' x1
          end
      end
  end.
Definition BGetMPESolution (fuel : nat) (h : heap P) (L : list nat) (ud : nat -> option (P * nat))
  : res ((N -> bool) * P * (nat -> option (P * nat))) :=
  do c <- foldM (mpe_step h) (rev L) ud ;;
  do r <- front L ;;
  do p <- get (c r) ;;
  do x <- bmpe_queue fuel h c [r] (fun _ => false) ;;
  Ok (x, fst p, clear_ud L c).

(** ** DirectSample, psdd_node.cpp 808-814, 937-956, 1020-1028 *)
Fixpoint BDirectSample (fuel : nat) (h : heap P) (i : nat) (x : N -> bool) (s : stream) : res ((N -> bool) * stream) :=
  match fuel with
  | O => NoFuel
  | S fuel' =>
      do nd <- node_of h i ;;
      match n_body nd with
      | BLit l => do x1 <- (if Z.ltb 0 l then bit_set x (lit_var l) else Ok x) ;; Ok (x1, s)
      | BTop v pt _ =>
          do us <- draw s ;;
          do x1 <- (if plt (fst us) pt then bit_set x v else Ok x) ;; Ok (x1, snd us)
      | BDec es =>
          do us <- draw s ;;
          do e <- pick (fst us) pzero es ;;
          do xs <- BDirectSample fuel' h (e_prime e) x (snd us) ;;
          BDirectSample fuel' h (e_sub e) (fst xs) (snd xs)
      end
  end.
End BitQuery.
