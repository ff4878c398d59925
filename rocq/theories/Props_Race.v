(** Property theorems C95 (threads that request nodes from one manager at the same time).
    [free]: the threads as the code runs them; [locked]: with a lock around each request; [exec sch]: the accesses in the order [sch] gives the turns;
    [one_by_one s]: whole requests (GetUniqueNode of the model of the other claims) in the order [s]. *)
From Verif Require Import Base Param Vtree Heap HeapExamples Race RaceProofs.

(** With a lock around each request, for all threads and every schedule there is an order of whole requests that gives every thread that has ended the same
    answer; no two nodes of one position in the table are equivalent; when nobody holds the lock, memory and table are those of that order, and each node's
    number is its position, hence unique *)
Theorem C95_locked : forall (P : pops) root A (cs : list (@client P A)) sch,
  exists s, let x := exec sch (nothing, map (locked root) cs) in let y := one_by_one s (new_mgr root, cs) in
  (forall t a, nth_error (snd x) t = Some (Ret a) -> nth_error (snd y) t = Some (Done a)) /\
  (forall i j a b, In i (m_live (fst y)) -> In j (m_live (fst y)) -> nth_error (m_heap (fst y)) i = Some a -> nth_error (m_heap (fst y)) j = Some b ->
     same_slot root a b = true -> equiv a b = true -> i = j) /\
  (s_lock (fst x) = false -> (forall p, nth_error (s_mem (fst x)) p = option_map (MkO p) (nth_error (m_heap (fst y)) p)) /\ s_table (fst x) = m_live (fst y)).
Proof.
  intros P root A cs sch. destruct (locked_full root cs sch) as (s & H1 & (_ & _ & H2) & H3). exists s. auto.
Qed.
Print Assumptions C95_locked.
(** and the threads do not block each other: if not all have ended, the next access of one of them is possible *)
Theorem C95_no_deadlock : forall (P : pops) root A (cs : list (@client P A)) sch, let x := exec sch (nothing, map (locked root) cs) in
  (forall t q, nth_error (snd x) t = Some q -> exists a, q = Ret a) \/
  exists t, (exists f, nth_error (snd x) t = Some (Step f)) \/ (s_lock (fst x) = false /\ exists q, nth_error (snd x) t = Some (Acquire q)).
Proof. intros P root A cs sch. exact (locked_goes_on root cs sch). Qed.
Print Assumptions C95_no_deadlock.

(** One thread asks for the PSDD of x1 and x2, the other for that of not x1 and x2 *)
Definition race_vt : vtree := VNode (Leaf 1) (Leaf 2).
Definition lit (l : Z) : node Qex := MkN [Z.eqb (Z.abs l) 2] 0 (BLit l).
Definition both (l : Z) : @client Qex nat := Ask (lit l) (fun p => Ask (lit 2) (fun q => Ask (MkN [] 0 (BDec [MkE p q pone])) (fun d => Done d))).
Definition times (n t : nat) : list nat := repeat t n.
Definition outcome (x : @shared Qex * list (@prog Qex nat)) : list (option nat) := map (fun p => match p with Ret a => Some a | _ => None end) (snd x).
Definition literal_at (st : @shared Qex) (p : nat) : option Z := match nth_error (s_mem st) p with Some (MkO _ (MkN _ _ (BLit l))) => Some l | _ => None end.
Definition primes_at (st : @shared Qex) (p : nat) : list (option Z) :=
  match nth_error (s_mem st) p with Some (MkO _ (MkN _ _ (BDec es))) => map (fun e => literal_at st (e_prime e)) es | _ => [] end.
Example C95_nonvacuous : let x := exec (times 3 0 ++ times 2 1 ++ times 30 0 ++ times 30 1) (nothing, map (locked race_vt) [both 1; both (-1)]) in
  outcome x = [Some 2; Some 4] /\ primes_at (fst x) 2 = [Some 1%Z] /\ primes_at (fst x) 4 = [Some (-1)%Z] /\ s_lock (fst x) = false.
Proof. vm_compute. auto. Qed.
(** Without a lock: the second thread is handed the PSDD of x1 and x2 although it asked for not x1 and x2.  Both literals have been given the same number, and
    the unique table compares children by number.  (Run one after the other the threads get what they asked for.) *)
Theorem C95_race_refuted : exists sch, let x := exec sch (nothing, map (free race_vt) [both 1; both (-1)]) in
  outcome x = [Some 2; Some 2] /\ primes_at (fst x) 2 = [Some 1%Z] /\
  exists p q, p <> q /\ literal_at (fst x) p = Some 1%Z /\ literal_at (fst x) q = Some (-1)%Z /\ index_of (fst x) p = index_of (fst x) q.
Proof.
  exists (times 1 0 ++ times 1 1 ++ times 30 0 ++ times 30 1). vm_compute. split; auto. split; auto. exists 0, 3. split; [discriminate|auto].
Qed.
Print Assumptions C95_race_refuted.
Example C95_race_sequential : let x := exec (times 30 0 ++ times 30 1) (nothing, map (free race_vt) [both 1; both (-1)]) in
  outcome x = [Some 2; Some 4] /\ primes_at (fst x) 2 = [Some 1%Z] /\ primes_at (fst x) 4 = [Some (-1)%Z].
Proof. vm_compute. auto. Qed.
(** Without a lock two requests for the same literal can return two nodes *)
Theorem C95_twice_refuted : exists sch, let x := exec sch (nothing, map (free race_vt) [Ask (lit 1) Done; Ask (lit 1) Done]) in
  outcome x = [Some 0; Some 1] /\ literal_at (fst x) 0 = Some 1%Z /\ literal_at (fst x) 1 = Some 1%Z.
Proof. exists (times 2 0 ++ times 2 1 ++ times 3 0 ++ times 3 1). vm_compute. auto. Qed.
Print Assumptions C95_twice_refuted.
