(** Threads that request nodes from one manager at the same time (C95).  A request is the construction of a node followed by GetUniqueNode; here it is a
    program of single accesses to what the threads share (node_index_ and the unique table), so that runs can be interleaved between two accesses.
    (Accesses are atomic and sequentially consistent; in C++ a data race is already undefined behaviour.)  Other than in Heap.v a pointer to a node and its
    node_index_ are kept apart, because they need not agree any more. *)
From Verif Require Import Base Param Vtree Heap.

Section Race.
Context {P : pops} (root : vtree).
Notation node := (node P).

(** A node in memory, psdd_node.h: node_index_ and the rest; primes_ and subs_ are pointers, i.e. positions in [s_mem] *)
Record obj := MkO { o_index : nat; o_node : node }.
(** What the threads share: the nodes in memory, those in the unique table, PsddManager::node_index_, and a lock that callers may put around requests (the
    code has none) *)
Record shared := MkS { s_mem : list obj; s_table : list nat; s_next : nat; s_lock : bool }.
(** node_index() of the node a pointer points to (a pointer to no node, which is undefined in the code, counts as its own number) *)
Definition index_of (st : shared) (p : nat) : nat := match nth_error (s_mem st) p with Some o => o_index o | None => p end.
(** The node as the comparisons see it (psdd_unique_table.cpp 47-55): children by their node_index() *)
Definition seen (st : shared) (nd : node) : node :=
  match n_body nd with
  | BDec es => MkN (n_vt nd) (n_flag nd) (BDec (map (fun e => MkE (index_of st (e_prime e)) (index_of st (e_sub e)) (e_param e)) es))
  | _ => nd
  end.
(** The constructor of a decision node sorts by the node_index() of the primes, psdd_node.cpp 816-844 *)
Fixpoint insert_by (f : nat -> nat) (e : elem P) (l : list (elem P)) : list (elem P) :=
  match l with
  | [] => [e]
  | x :: l' => if Nat.leb (f (e_prime e)) (f (e_prime x)) then e :: l else x :: insert_by f e l'
  end.
Definition build (st : shared) (nd : node) : node :=
  match n_body nd with
  | BDec es => MkN (n_vt nd) (n_flag nd) (BDec (fold_right (insert_by (index_of st)) [] es))
  | _ => nd
  end.
Definition at_slot (st : shared) (nd : node) (p : nat) : bool := match nth_error (s_mem st) p with Some o => same_slot root nd (o_node o) | None => false end.
Definition matches (st : shared) (nd : node) (p : nat) : bool :=
  match nth_error (s_mem st) p with Some o => same_slot root nd (o_node o) && equiv (seen st nd) (seen st (o_node o)) | None => false end.
(** Storing the node, psdd_unique_table.cpp 120 and 131-133: if there was no set for the position when it was looked up, a new set replaces whatever is there
    now; otherwise std::set::insert adds the node unless an equivalent one is there.  (Empty sets are not told from missing ones.) *)
Definition store (st : shared) (missing : bool) (ix : nat) (nd : node) : shared :=
  let p := length (s_mem st) in
  let table := if missing then filter (fun q => negb (at_slot st nd q)) (s_table st) ++ [p]
               else if existsb (matches st nd) (s_table st) then s_table st else s_table st ++ [p] in
  MkS (s_mem st ++ [MkO ix nd]) table (s_next st) (s_lock st).

(** Programs: each [Step] is one access; [Acquire] waits for the lock *)
Inductive prog (A : Type) := Ret (a : A) | Step (f : shared -> shared * prog A) | Acquire (p : prog A).
Arguments Ret {A}. Arguments Step {A}. Arguments Acquire {A}.
Definition set_next (st : shared) (n : nat) : shared := MkS (s_mem st) (s_table st) n (s_lock st).
Definition set_lock (st : shared) (b : bool) : shared := MkS (s_mem st) (s_table st) (s_next st) b.
(** A request: psdd_manager.cpp 472-476, 484-487, 512-515 (new node with node_index_), then GetUniqueNode, psdd_unique_table.cpp 109-203
    (lookup, store, *node_index += 1, which reads and writes) *)
Definition request {A} (nd : node) (k : nat -> prog A) : prog A :=
  Step (fun st => (st, let ix := s_next st in let nd' := build st nd in
  Step (fun st => (st,
    match find (matches st nd') (s_table st) with
    | Some p => k p
    | None =>
        let missing := negb (existsb (at_slot st nd') (s_table st)) in
        Step (fun st => let p := length (s_mem st) in (store st missing ix nd',
        Step (fun st => (st, let n := s_next st in
        Step (fun st => (set_next st (S n), k p))))))
    end)))).

(** What a thread does: requests that depend on the answers to earlier ones *)
Inductive client (A : Type) := Done (a : A) | Ask (nd : node) (k : nat -> client A).
Arguments Done {A}. Arguments Ask {A}.
Fixpoint free {A} (c : client A) : prog A := match c with Done a => Ret a | Ask nd k => request nd (fun p => free (k p)) end.
(** With a lock around each request *)
Fixpoint locked {A} (c : client A) : prog A :=
  match c with
  | Done a => Ret a
  | Ask nd k => Acquire (request nd (fun p => Step (fun st => (set_lock st false, locked (k p)))))
  end.
Fixpoint upd {B} (l : list B) (t : nat) (b : B) : list B :=
  match l, t with [], _ => [] | _ :: l', O => b :: l' | x :: l', S t' => x :: upd l' t' b end.
(** Thread [t] makes one access; if it waits for a lock that is taken, nothing happens *)
Definition move {A} (x : shared * list (prog A)) (t : nat) : shared * list (prog A) :=
  match nth_error (snd x) t with
  | Some (Step f) => let y := f (fst x) in (fst y, upd (snd x) t (snd y))
  | Some (Acquire p) => if s_lock (fst x) then x else (set_lock (fst x) true, upd (snd x) t p)
  | _ => x
  end.
Definition exec {A} (sch : list nat) (x : shared * list (prog A)) : shared * list (prog A) := fold_left move sch x.
Definition nothing : shared := MkS [] [] 0 false.

(** One request at a time, with GetUniqueNode of Heap.v *)
Definition sorted (nd : node) : node := match n_body nd with BDec es => MkN (n_vt nd) (n_flag nd) (BDec (sort_elems es)) | _ => nd end.
Definition ask {A} (x : mgr P * list (client A)) (t : nat) : mgr P * list (client A) :=
  match nth_error (snd x) t with
  | Some (Ask nd k) => let y := GetUniqueNode (fst x) (sorted nd) in (snd y, upd (snd x) t (k (fst y)))
  | _ => x
  end.
Definition one_by_one {A} (sch : list nat) (x : mgr P * list (client A)) : mgr P * list (client A) := fold_left ask sch x.
End Race.
Arguments Ret {P A}. Arguments Step {P A}. Arguments Acquire {P A}. Arguments Done {P A}. Arguments Ask {P A}.
