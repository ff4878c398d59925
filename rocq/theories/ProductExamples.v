(** Three PSDDs over two variables and their products (C69). *)
From Coq Require Import Reals Lra.
From Verif Require Import Base Param ParamProofs Vtree VtreeProofs Spec SpecProofs Heap Manager HeapProofs SerProofs
  RepProofs OrderProofs CanonProofs HeapExamples LoadProofs MulProofs ReplayProofs ManagerExamples Query ProductTrees ProductNodes ProductProofs.
Local Open Scope R_scope.

Definition pr_vt := VNode (Leaf 1) (Leaf 2).
Definition pr_ops : list (@op Qex) :=
  [OLit 1 0; OLit (-1) 0; OLit 2 0; OLit (-2) 0; OTop 2 0 (q 1 3) (q 2 3); OTop 2 0 (q 1 2) (q 1 2);
   ODec [0; 1]%nat [4; 5]%nat [q 1 4; q 3 4] 0; OTop 1 0 (q 1 2) (q 1 2); ODec [7]%nat [4]%nat [q 1 1] 0; ODec [0; 1]%nat [2; 3]%nat [q 1 2; q 1 2] 0].
Definition pr_m : mgr Qex := Eval vm_compute in match runs (new_mgr pr_vt) pr_ops with Ok m => m | _ => new_mgr pr_vt end.
Definition pr_a : ptree := TDec [(TLit 1, TTop 2 (1/3) (2/3), 1/4); (TLit (-1), TTop 2 (1/2) (1/2), 3/4)].
Definition pr_b : ptree := TDec [(TTop 1 (1/2) (1/2), TTop 2 (1/3) (2/3), 1)].
Definition pr_c : ptree := TDec [(TLit 1, TLit 2, 1/2); (TLit (-1), TLit (-2), 1/2)].
Lemma pr_runs : runs (new_mgr pr_vt) pr_ops = Ok pr_m.
Proof. vm_compute. reflexivity. Qed.
Lemma pr_tidy : @tidy Qex qval 0 pr_m.
Proof.
  apply (@tidy_runs Qex qval 0 pr_ops (new_mgr pr_vt)); [|  |apply pr_runs].
  - constructor. vm_compute. repeat constructor; simpl; intuition congruence.
  - unfold pr_ops. repeat (constructor; [simpl; first [exact Logic.I | discriminate | intros _; right; unfold qval; simpl; lra]|]). constructor.
Qed.
Ltac rep_top := match goal with |- Rep _ _ _ (TTop ?v ?a ?b) => idtac end;
  first [replace (1/3) with (qval (q 1 3)) by qv; replace (2/3) with (qval (q 2 3)) by qv; eapply Rep_top; reflexivity
        |replace (1/2) with (qval (q 1 2)) by qv; eapply Rep_top; reflexivity].
Lemma pr_operands : Forall2 (@operand Qex qval pr_m []) [6; 8; 9]%nat [pr_a; pr_b; pr_c].
Proof.
  constructor; [|constructor; [|constructor; [|constructor]]]; (split; [split; [reflexivity|]|split]).
  - unfold pr_a. eapply Rep_dec; [reflexivity..|]. repeat constructor; unfold tp, ts, tw; simpl; try rep_lit; try rep_top; qv.
  - unfold positive, pr_a. repeat split; repeat constructor; unfold tw; simpl; try lra; auto.
  - apply all_nodes_dec. split; [|repeat constructor; simpl; auto]. repeat constructor. intros x. apply (lits_excl 1).
  - unfold pr_b. eapply Rep_dec; [reflexivity..|]. repeat constructor; unfold tp, ts, tw; simpl; try rep_lit; try rep_top; qv.
  - unfold positive, pr_b. repeat split; repeat constructor; unfold tw; simpl; try lra; auto.
  - apply all_nodes_dec. split; [repeat constructor|]. repeat constructor; simpl; auto.
  - unfold pr_c. eapply Rep_dec; [reflexivity..|]. repeat constructor; unfold tp, ts, tw; simpl; try rep_lit; qv.
  - unfold positive, pr_c. repeat split; repeat constructor; unfold tw; simpl; try lra; auto.
  - apply all_nodes_dec. split; [|repeat constructor; simpl; auto]. repeat constructor. intros x. apply (lits_excl 1).
Qed.
Lemma pr_normalized : normalized pr_a.
Proof. unfold normalized, pr_a. repeat split; repeat constructor; unfold tw; simpl; try lra; auto. Qed.
Lemma pr_indicator x : weight pr_c x = if Bool.eqb (x 1%N) (x 2%N) then 1/2 else 0.
Proof. simpl. unfold lit_sat. simpl. destruct (x 1%N), (x 2%N); simpl; lra. Qed.
(** (a b) c and (c a) b create different intermediate nodes and end in the same node, which is not one of the operands *)
Lemma pr_orders : exists z z' m1 m2, mrun 0 (MMul (MMul (MNode 6) (MNode 8)) (MNode 9)) pr_m = Ok ((Some 12%nat, z), m1) /\
  mrun 0 (MMul (MMul (MNode 9) (MNode 6)) (MNode 8)) m1 = Ok ((Some 12%nat, z'), m2) /\ length (m_heap m1) = 13%nat /\ length (m_heap m2) = 14%nat /\ qval z = qval z' /\ qval z = 5 / 72.
Proof. do 4 eexists. do 4 (split; [vm_compute; reflexivity|]). split; unfold qval; simpl; lra. Qed.
