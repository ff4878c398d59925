(** Property theorems C09-C16 (psdd_unique_table.cpp, node construction and serialization). *)
From Coq Require Import Reals Lra.
From Verif Require Import Base Param ParamProofs Vtree VtreeProofs Spec SpecProofs Heap Manager HeapProofs SerProofs
  RepProofs OrderProofs CanonProofs HeapExamples ContentProofs.

(** C09, for the code's parameters (operator==, operator< of psdd_parameter.cpp) *)
Theorem C09_comparator_strict_weak_order : forall a b c : node Lcode, node_good cgood a -> node_good cgood b -> node_good cgood c ->
  node_less a a = false /\ (node_less a b = true -> node_less b a = false) /\
  (node_less a b = true -> node_less b c = true -> node_less a c = true) /\
  (equiv a b = true -> equiv b c = true -> equiv a c = true) /\
  (equiv a b = true <-> node_eq a b = true).
Proof. exact (comparator_swo cgood pord_code). Qed.
Print Assumptions C09_comparator_strict_weak_order.
Example C09_nonvacuous : node_good cgood (MkN (P := Lcode) [] 3 (BDec [MkE 1 2 (lc (Fin 0)); MkE 4 2 (lc NegInf)])).
Proof. exact ex_node_good. Qed.
(** and for exact parameters, without any condition *)
Theorem C09_comparator_exact : forall P val, pexact P val -> forall a b c : node P,
  node_less a a = false /\ (node_less a b = true -> node_less b a = false) /\
  (node_less a b = true -> node_less b c = true -> node_less a c = true) /\
  (equiv a b = true -> equiv b c = true -> equiv a c = true) /\
  (equiv a b = true <-> node_eq a b = true).
Proof. exact comparator_swo_exact. Qed.
Print Assumptions C09_comparator_exact.

(** C10, for every history of operations on a manager with the code's parameters *)
Theorem C10_canonicity : forall t ops (m : mgr Lcode), NoDup (leaves t) -> runs (new_mgr t) ops = Ok m ->
  NoDup (m_live m) /\
  (forall i, In i (m_live m) -> i < length (m_heap m)) /\
  (forall i j a b, In i (m_live m) -> In j (m_live m) ->
    nth_error (m_heap m) i = Some a -> nth_error (m_heap m) j = Some b ->
    n_vt a = n_vt b -> node_eq a b = true -> i = j).
Proof. exact history_canonical_code. Qed.
Print Assumptions C10_canonicity.
Theorem C10_asking_again : forall t ops0 (m : mgr Lcode) ops m1 m2 i, NoDup (leaves t) -> runs (new_mgr t) ops0 = Ok m ->
  runs m1 ops = Ok m2 -> In i (m_live m2) ->
  (forall l fl, GetPsddLiteralNode m l fl = Ok (i, m1) -> GetPsddLiteralNode m2 l fl = Ok (i, m2)) /\
  (live_good cgood m2 ->
   (forall v fl pt pf, cgood pt -> GetPsddTopNode m v fl pt pf = Ok (i, m1) -> GetPsddTopNode m2 v fl pt pf = Ok (i, m2)) /\
   (forall p es fl, (exists l r, subtree t p = Some (VNode l r)) -> es <> [] -> direct m p es ->
      Forall (fun e => cgood (e_param e)) es ->
      GetConformedPsddDecisionNode m (map e_prime es) (map e_sub es) (map e_param es) fl = Ok (i, m1) ->
      GetConformedPsddDecisionNode m2 (map e_prime es) (map e_sub es) (map e_param es) fl = Ok (i, m2))).
Proof. exact asking_again_code. Qed.
Print Assumptions C10_asking_again.
Example C10_nonvacuous : exists m, runs (P := Qex) (new_mgr ex_vt) ex_ops = Ok m /\ length (m_live m) = 10 /\ length (m_heap m) = 15.
Proof. eexists; split; [vm_compute; reflexivity|split; vm_compute; reflexivity]. Qed.

(** C11 *)
Theorem C11_literal_content : forall (m : mgr Lcode) l fl i m', Wf m -> GetPsddLiteralNode m l fl = Ok (i, m') ->
  exists nd, nth_error (m_heap m') i = Some nd /\ n_flag nd = fl /\ n_body nd = BLit l /\
    subtree (m_vt m) (n_vt nd) = Some (Leaf (lit_var l)).
Proof. exact literal_content_code. Qed.
Print Assumptions C11_literal_content.
Theorem C11_decision_content : forall P val, pexact P val -> forall (m : mgr P) p l r es fl, Wf m ->
  subtree (m_vt m) p = Some (VNode l r) -> es <> [] -> direct m p es ->
  exists i m' nd es', GetConformedPsddDecisionNode m (map e_prime es) (map e_sub es) (map e_param es) fl = Ok (i, m') /\
    nth_error (m_heap m') i = Some nd /\ n_flag nd = fl /\ n_vt nd = p /\ n_body nd = BDec es' /\
    exists es2, Permutation es es2 /\ Forall2 (elem_same val) es2 es'.
Proof. exact decision_content. Qed.
Print Assumptions C11_decision_content.
(** With the comparison of the code: a decision node that is new, or one that was there with the same children and parameters that differ by
    less than the tolerance ([code_near]: both zero, or logarithms less than 2e-7 apart); a top node has the variable and, up to the
    tolerance, the true parameter asked for *)
Theorem C11_decision_content_code : forall (m : mgr Lcode) p l r es fl, Wf m -> live_good cgood m -> subtree (m_vt m) p = Some (VNode l r) -> es <> [] ->
  direct m p es -> Forall (fun e => cgood (e_param e)) es ->
  exists i m' nd es' es2, GetConformedPsddDecisionNode m (map e_prime es) (map e_sub es) (map e_param es) fl = Ok (i, m') /\ live_good cgood m' /\
    nth_error (m_heap m') i = Some nd /\ n_flag nd = fl /\ n_vt nd = p /\ n_body nd = BDec es' /\
    Permutation es es2 /\ Forall2 code_elem es2 es' /\ found_or_new m m' i (MkN p fl (BDec es2)).
Proof. exact decision_content_code. Qed.
Print Assumptions C11_decision_content_code.
Theorem C11_top_content_code_partial : forall (m : mgr Lcode) fl v pt pf p, Wf m -> live_good cgood m -> subtree (m_vt m) p = Some (Leaf v) -> cgood pt ->
  exists i m' nd pt' pf', GetPsddTopNode m v fl pt pf = Ok (i, m') /\ live_good cgood m' /\
    nth_error (m_heap m') i = Some nd /\ n_flag nd = fl /\ n_vt nd = p /\ n_body nd = BTop v pt' pf' /\ code_near pt pt' /\
    found_or_new m m' i (MkN p fl (BTop v pt pf)).
Proof. exact top_content_code. Qed.
Print Assumptions C11_top_content_code_partial.
Example C11_code_nonvacuous : Wf lits_m /\ live_good cgood lits_m /\ direct lits_m [] lits_es /\ Forall (fun e => cgood (e_param e)) lits_es /\
  subtree (m_vt lits_m) [] = Some lits_vt.
Proof. exact lits_ok. Qed.
(** Top nodes: false in general, because the false parameter is not part of the key. *)
Theorem C11_top_content_refuted : exists (m m1 : mgr Qex) i j, 
  GetPsddTopNode (new_mgr ex_vt) 1 0 (q 1 1) (q 1 1) = Ok (i, m) /\
  GetPsddTopNode m 1 0 (q 1 1) (q 0 1) = Ok (j, m1) /\
  exists nd, nth_error (m_heap m1) j = Some nd /\ n_body nd = BTop 1 (q 1 1) (q 1 1).
Proof. exact top_content_false. Qed.
Print Assumptions C11_top_content_refuted.
(** It holds as long as top nodes of that flag are either (1,1) or normalized with a positive false parameter. *)
Theorem C11_top_content_partial : forall P val, pexact P val -> forall (m : mgr P) fl v pt pf p, Wf m -> tops_ok val m fl ->
  subtree (m_vt m) p = Some (Leaf v) -> top_ok (val pt) (val pf) ->
  exists i m' nd pt' pf', GetPsddTopNode m v fl pt pf = Ok (i, m') /\ tops_ok val m' fl /\
    nth_error (m_heap m') i = Some nd /\ n_flag nd = fl /\ n_vt nd = p /\ n_body nd = BTop v pt' pf' /\
    val pt' = val pt /\ val pf' = val pf.
Proof. exact top_content. Qed.
Print Assumptions C11_top_content_partial.
Example C11_top_nonvacuous : exists m, runs (P := Qex) (new_mgr ex_vt) ex_ops = Ok m /\ @tops_ok Qex qval m 0 /\ top_ok (qval (q 1 3)) (qval (q 2 3)).
Proof. exact ex_tops_ok. Qed.

(** C12 *)
Theorem C12_immutable : forall (m : mgr Lcode) ops m', Wf m -> runs m ops = Ok m' ->
  (forall i nd, nth_error (m_heap m) i = Some nd -> nth_error (m_heap m') i = Some nd) /\
  (forall val i t, Rep val (m_heap m) i t -> Rep val (m_heap m') i t).
Proof. exact immutable_code. Qed.
Print Assumptions C12_immutable.

(** C13 *)
Theorem C13_garbage_collection : forall (m : mgr Lcode) used, Wf m -> (forall u, In u used -> u < length (m_heap m)) ->
  exists m', DeleteUnusedPsddNodes m used = Ok m' /\ m_vt m' = m_vt m /\ m_heap m' = m_heap m /\
    (forall i, In i (m_live m') <-> In i (m_live m) /\ exists u, In u used /\ reach (m_heap m) u i) /\
    (live_closed m -> live_closed m').
Proof. exact gc_full. Qed.
Print Assumptions C13_garbage_collection.
Example C13_nonvacuous : exists m m', runs (P := Qex) (new_mgr ex_vt) ex_ops = Ok m /\ 
  DeleteUnusedPsddNodes m [4] = Ok m' /\ m_live m' = [0; 1; 2; 3; 4] /\ length (m_live m) = 10.
Proof. eexists; eexists; split; [vm_compute; reflexivity|]. vm_compute. auto. Qed.

(** C14 *)
Theorem C14_element_order : forall (m : mgr Lcode) p l r es es' fl, subtree (m_vt m) p = Some (VNode l r) -> es <> [] ->
  direct m p es -> NoDup (map e_prime es) -> Permutation es es' ->
  GetConformedPsddDecisionNode m (map e_prime es) (map e_sub es) (map e_param es) fl =
  GetConformedPsddDecisionNode m (map e_prime es') (map e_sub es') (map e_param es') fl.
Proof. exact (@conformed_order Lcode). Qed.
Print Assumptions C14_element_order.

(** C15 *)
Theorem C15_serialization : forall (m : mgr Lcode) root, Wf m -> root < length (m_heap m) ->
  exists L, SerializePsddNodes (m_heap m) [root] = Ok L /\ NoDup L /\ (forall j, In j L <-> reach (m_heap m) root j) /\
    (exists L', L = root :: L') /\
    (forall L1 i L2 nd c, L = L1 ++ i :: L2 -> nth_error (m_heap m) i = Some nd -> In c (children nd) -> In c L2) /\
    GetPsddSize (m_heap m) root = Ok (list_sum (map (size_at (m_heap m)) L)).
Proof. exact serialization_full. Qed.
Print Assumptions C15_serialization.
Example C15_nonvacuous : exists m L, runs (P := Qex) (new_mgr ex_vt) ex_ops = Ok m /\ SerializePsddNodes (m_heap m) [8] = Ok L /\
  length L = 9 /\ GetPsddSize (m_heap m) 8 = Ok 3.
Proof. eexists; eexists; split; [vm_compute; reflexivity|]. split; [vm_compute; reflexivity|]. vm_compute. auto. Qed.

(** C16: parent-first fails when the roots are at different depths *)
Theorem C16_multi_root_refuted : exists (m : mgr Qex) L i j nd, runs (new_mgr ex_vt) ex_ops = Ok m /\
  SerializePsddNodes (m_heap m) [4; 8] = Ok L /\ nth_error (m_heap m) i = Some nd /\ In j (children nd) /\
  exists L1 L2 L3, L = L1 ++ j :: L2 ++ i :: L3.
Proof. exact multi_root_false. Qed.
Print Assumptions C16_multi_root_refuted.
Theorem C16_multi_root_partial : forall (m : mgr Lcode) roots, Wf m -> (forall r, In r roots -> r < length (m_heap m)) ->
  exists L, SerializePsddNodes (m_heap m) roots = Ok L /\ NoDup L /\
    (forall j, In j L <-> exists r, In r roots /\ reach (m_heap m) r j) /\
    (forall d, (forall r, In r roots -> depth (m_heap m) r = d) ->
      forall L1 i L2 nd c, L = L1 ++ i :: L2 -> nth_error (m_heap m) i = Some nd -> In c (children nd) -> In c L2).
Proof. exact multi_root_partial. Qed.
Print Assumptions C16_multi_root_partial.

(** C54 *)
Theorem C54_drop_by_flag_partial : forall (m : mgr Lcode) flags, let m' := DeletePsddNodesWithoutFlagIndexes m flags in
  m_vt m' = m_vt m /\ m_heap m' = m_heap m /\ (Wf m -> Wf m') /\
  (forall i, In i (m_live m') <->
     In i (m_live m) /\ exists nd, nth_error (m_heap m) i = Some nd /\ In (n_flag nd) flags) /\
  (live_closed m ->
   (forall i nd c nc, In i (m_live m) -> nth_error (m_heap m) i = Some nd -> In (n_flag nd) flags ->
      In c (children nd) -> nth_error (m_heap m) c = Some nc -> In (n_flag nc) flags) ->
   Wf m -> live_closed m').
Proof. exact (@flags_spec Lcode). Qed.
Print Assumptions C54_drop_by_flag_partial.
Example C54_nonvacuous : exists m : mgr Qex, runs (new_mgr ex_vt) ex_ops = Ok m /\ Wf m /\
  m_live (DeletePsddNodesWithoutFlagIndexes m [0]%N) = m_live m /\
  m_live (DeletePsddNodesWithoutFlagIndexes m [3]%N) = [] /\ length (m_live m) = 10.
Proof. destruct ex_wf as (m & R & W). exists m. split; [exact R|]. split; [exact W|]. rewrite ex_runs in R. injection R as <-. vm_compute. auto. Qed.
(** A kept node's children need not be kept, and canonicity of the distributions is then lost *)
Theorem C54_drop_by_flag_refuted : exists m m' : mgr Qex,
  runs (new_mgr ex_vt) flag_ops = Ok m /\ live_closed m /\
  ~ live_closed (DeletePsddNodesWithoutFlagIndexes m [5]%N) /\
  runs (new_mgr ex_vt) flag_ops' = Ok m' /\ In 4 (m_live m') /\ In 9 (m_live m') /\
  exists t, @Rep Qex qval (m_heap m') 4 t /\ @Rep Qex qval (m_heap m') 9 t.
Proof. exact flags_false. Qed.
Print Assumptions C54_drop_by_flag_refuted.
