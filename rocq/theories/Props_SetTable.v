(** Property C81: the sets of the unique table answer as the list of Heap.v does. *)
From Coq Require Import Reals Lra.
From Verif Require Import Base Param Vtree Heap Manager Learn OrderProofs HeapExamples ManagerExamples LearnExamples SetTable SetTableExamples.

(** C81: exact parameters, every history *)
Theorem C81_every_history : forall P val, pexact P val -> forall t ops (m : mgr P), runs (new_mgr t) ops = Ok m ->
  exists rs, trace (new_mgr t) rs m /\ (exists T, ttrace (tnew t) rs T) /\
    forall T, ttrace (tnew t) rs T ->
      t_vt T = m_vt m /\ t_heap T = m_heap m /\
      (forall s i, In i (inorder (t_sets T s)) <-> In i (m_live m) /\ exists nd, nth_error (m_heap m) i = Some nd /\ slot (m_vt m) nd = s) /\
      forall nd bal, True -> balances bal -> fst (tget bal T nd) = fst (GetUniqueNode m nd).
Proof. exact (fun P val HP t ops m => runs_holds_exact val t ops m HP). Qed.
Print Assumptions C81_every_history.
Example C81_nonvacuous : runs (new_mgr ex_vt) ex_ops = Ok ex_m /\ length (m_live ex_m) = 10%nat.
Proof. split; [exact ex_runs|reflexivity]. Qed.

(** C81: parameters of the code without NaN and cut-off hashes, histories without products *)
Theorem C81_code_history_partial : forall t ops (m : mgr Lcode), Forall code_op ops -> runs (new_mgr t) ops = Ok m ->
  exists rs, trace (new_mgr t) rs m /\ (exists T, ttrace (tnew t) rs T) /\
    forall T, ttrace (tnew t) rs T ->
      t_vt T = m_vt m /\ t_heap T = m_heap m /\
      (forall s i, In i (inorder (t_sets T s)) <-> In i (m_live m) /\ exists nd, nth_error (m_heap m) i = Some nd /\ slot (m_vt m) nd = s) /\
      forall nd bal, node_good cgood nd -> balances bal -> fst (tget bal T nd) = fst (GetUniqueNode m nd).
Proof. exact (fun t ops m => runs_holds_code t ops m good_one good_neginf). Qed.
Print Assumptions C81_code_history_partial.
(** with products: if no request has such a parameter *)
Theorem C81_code_requests_partial : forall t ops (m : mgr Lcode), runs (new_mgr t) ops = Ok m ->
  exists rs, trace (new_mgr t) rs m /\
    (good_requests cgood rs -> (exists T, ttrace (tnew t) rs T) /\
      forall T, ttrace (tnew t) rs T ->
      t_vt T = m_vt m /\ t_heap T = m_heap m /\
      (forall s i, In i (inorder (t_sets T s)) <-> In i (m_live m) /\ exists nd, nth_error (m_heap m) i = Some nd /\ slot (m_vt m) nd = s) /\
      forall nd bal, node_good cgood nd -> balances bal -> fst (tget bal T nd) = fst (GetUniqueNode m nd)).
Proof.
  exact (fun t ops m E => match runs_trace t ops m E with ex_intro _ rs H => ex_intro _ rs (conj H (fun G => history_holds cgood pord_code t m rs H G)) end).
Qed.
Print Assumptions C81_code_requests_partial.
Example C81_code_nonvacuous : let ops : list (@op Lcode) := [OLit 1 0; OLit (-1) 0; OLit 2 0; OLit (-2) 0; ODec [0; 1]%nat [2; 2]%nat [pone; pzero] 0; OGcFlags [0%N]] in
  Forall code_op ops /\ match runs (new_mgr nan_vt) ops with Ok m => length (m_live m) = 5%nat | _ => False end.
Proof.
  split; [|reflexivity]. repeat (apply Forall_cons; [first [exact I | exact (Forall_cons _ good_one (Forall_cons _ good_neginf (Forall_nil _)))]|]). apply Forall_nil.
Qed.

(** C81: with NaN, which learning without smoothing produces (C31), what a set answers depends on how its tree is balanced: one search tree finds
    a node with NaN parameters for a request without NaN, the other does not find it. *)
Theorem C81_nan_refuted : exists ops m rs T1 T2 c,
  runs (P := Lcode) (new_mgr (VNode (Leaf 1) (Leaf 2))) ops = Ok m /\ trace (new_mgr (VNode (Leaf 1) (Leaf 2))) rs m /\
  ttrace (tnew (VNode (Leaf 1) (Leaf 2))) rs T1 /\ ttrace (tnew (VNode (Leaf 1) (Leaf 2))) rs T2 /\
  n_body c = BDec [MkE 0 2 pone; MkE 1 3 pzero] /\
  forall bal, fst (tget bal T1 c) = 4%nat /\ fst (tget bal T2 c) = 6%nat /\
    nth_error (m_heap m) 4 = Some (MkN [] 0 (BDec [MkE 0 2 (lc NaN); MkE 1 2 (lc NaN)])) /\ length (m_heap m) = 6%nat.
Proof. exact nan_depends. Qed.
Print Assumptions C81_nan_refuted.

(** C11: after learning a parameter NaN for a variable, every request for a top node of that variable and flag returns the learned node *)
Theorem C11_nan_refuted : forall a b : Lcode, exists r ud dc m',
  GetPsddTopNode (new_mgr (Leaf 1)) 1 0 a b = Ok (0%nat, one_top a b) /\
  LearnPsddParameters (m_heap (one_top a b)) no_ud (fun _ => [0; 0]%N) 0 (fun _ => Some []) 0 p_default 7 (one_top a b) = Ok (r, ud, dc, m') /\
  forall pt pf : Lcode, GetPsddTopNode m' 1 7 pt pf = Ok (r, m') /\ nth_error (m_heap m') r = Some (MkN [] 7 (BTop 1 (lc NaN) (lc NaN))).
Proof. exact nan_found. Qed.
Print Assumptions C11_nan_refuted.
