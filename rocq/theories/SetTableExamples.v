(** Search trees with NaN parameters (C81, C11) *)
From Coq Require Import Reals Lra.
From Verif Require Import Base Param Vtree Heap Manager Query Learn OrderProofs HeapExamples LearnExamples SetTable.
Lemma nan_depends : exists ops m rs T1 T2 c,
  runs (P := Lcode) (new_mgr (VNode (Leaf 1) (Leaf 2))) ops = Ok m /\ trace (new_mgr (VNode (Leaf 1) (Leaf 2))) rs m /\
  ttrace (tnew (VNode (Leaf 1) (Leaf 2))) rs T1 /\ ttrace (tnew (VNode (Leaf 1) (Leaf 2))) rs T2 /\
  n_body c = BDec [MkE 0 2 pone; MkE 1 3 pzero] /\
  forall bal, fst (tget bal T1 c) = 4%nat /\ fst (tget bal T2 c) = 6%nat /\
    nth_error (m_heap m) 4 = Some (MkN [] 0 (BDec [MkE 0 2 (lc NaN); MkE 1 2 (lc NaN)])) /\ length (m_heap m) = 6%nat.
Proof.
  exists nan_ops, nan_m, nan_rs, (nan_T (fun t => t)), (nan_T rotate), nan_c.
  split; [exact nan_runs|]. split; [exact nan_trace|]. split; [apply nan_ttrace; auto|]. split; [apply nan_ttrace; auto|].
  split; [unfold nan_c; cbn [n_body]; rewrite onep_one; reflexivity|]. intros bal. destruct (nan_answers bal) as [A B]. split; [exact A|]. split; [exact B|]. split; reflexivity.
Qed.
Lemma nan_equiv (pt pf : Lcode) : equiv (MkN [] 7 (BTop 1 pt pf)) (MkN (P := Lcode) [] 7 (BTop 1 nan_param nan_param)) = true.
Proof.
  unfold equiv, node_less. cbn [n_flag n_body]. change (N.eqb 7 7) with true. change (N.eqb 1 1) with true. cbn [negb]. cbn [plt Lcode]. unfold p_lt.
  destruct (p_eq pt nan_param), (p_eq nan_param pt); destruct pt as [[]]; reflexivity.
Qed.
Lemma nan_found : forall a b : Lcode, exists r ud dc m',
  GetPsddTopNode (new_mgr (Leaf 1)) 1 0 a b = Ok (0%nat, one_top a b) /\
  LearnPsddParameters (m_heap (one_top a b)) no_ud (fun _ => [0; 0]%N) 0 (fun _ => Some []) 0 p_default 7 (one_top a b) = Ok (r, ud, dc, m') /\
  forall pt pf : Lcode, GetPsddTopNode m' 1 7 pt pf = Ok (r, m') /\ nth_error (m_heap m') r = Some (MkN [] 7 (BTop 1 (lc NaN) (lc NaN))).
Proof.
  intros a b.
  assert (@pnat Lcode 0 = p_default) as Z by (cbn [pnat Lcode]; unfold p_of_decimal; simpl Z.of_N; rewrite log_zero; reflexivity).
  do 4 eexists. split; [reflexivity|]. split.
  - unfold LearnPsddParameters. cbn [one_top m_heap].
    change (SerializePsddNodes [MkN [] 0 (BTop 1 a b)] [0%nat]) with (Ok [0%nat]). cbn [bind Nat.eqb rev app foldM].
    unfold learn_step, node_of. cbn [nth_error get bind learn_params n_body]. rewrite Z. cbn [relab_step node_of nth_error get bind n_body].
    reflexivity.
  - intros pt pf. split; [|reflexivity].
    match goal with |- GetPsddTopNode ?m _ _ _ _ = _ => change m with (MkM (Leaf 1) [MkN [] 0 (BTop 1 a b); MkN [] 7 (BTop 1 nan_param nan_param)] [0; 1]%nat) end.
    unfold GetPsddTopNode. cbn [m_vt leaf_path leaf_path_from]. change (N.eqb 1 1) with true. cbv iota. unfold GetUniqueNode. cbn [m_live m_heap find nth_error].
    assert (equiv (MkN [] 7 (BTop 1 pt pf)) (MkN (P := Lcode) [] 0 (BTop 1 a b)) = false) as -> by reflexivity. rewrite nan_equiv, andb_false_r. reflexivity.
Qed.
