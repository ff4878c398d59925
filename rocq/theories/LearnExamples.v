(** Concrete cases and witnesses for parameter sampling and learning (C30, C32). *)
From Coq Require Import Reals Lra.
From Verif Require Import Base Param ParamProofs Vtree VtreeProofs Spec SpecProofs Heap Manager HeapProofs SerProofs RepProofs
  OrderProofs CanonProofs HeapExamples LoadProofs MulProofs ReplayProofs ManagerExamples TreeProofs Query QueryProofs MpeProofs SampleProofs
  QueryExamples Learn LearnProofs CountProofs.
Local Open Scope R_scope.

Definition near1_q (p : Qex) : bool := q_eq p (MkQ 1 1).
Lemma near1_q_one : forall p : Qex, qval p = 1 -> near1_q p = true.
Proof. intros p H. apply (val_eq Qex_exact). rewrite H. unfold qval. simpl. lra. Qed.
Definition ex_draws : list Qex := [q 1 2; q 1 3; q 2 5; q 5 6; q 1 7; q 3 4; q 1 9; q 8 9].
Lemma ex_draws_pos : Forall (fun u => 0 < qval u) ex_draws.
Proof. repeat constructor; unfold qval; simpl; lra. Qed.
Definition no_ud : udata := fun _ => None.

(** Roots of different depth: node 4 (in the queue before its parent 8) is also a child of 8, and its children are serialized before it is processed as a parent *)
Lemma multi_depth_ub : SampleParametersForMultiplePsdds (Dself Qex) near1_q (m_heap ex_m) no_ud [4; 8]%nat 0 ex_draws ex_m = UB.
Proof. vm_compute. reflexivity. Qed.
Lemma multi_depth_ok : exists r, SampleParametersForMultiplePsdds (Dself Qex) near1_q (m_heap ex_m) no_ud [4; 9]%nat 0 ex_draws ex_m = Ok r.
Proof. eexists. vm_compute. reflexivity. Qed.

(** ** Learning *)
Definition rec1 : inst := fun _ => true.
Definition rec2 : inst := fun v => negb (N.eqb v 3).
Definition rec3 : inst := fun v => N.ltb 2 v.
Definition rec4 : inst := fun v => N.eqb v 1.  (* does not satisfy the base *)
Definition ex_recs : list inst := [rec1; rec2; rec3; rec4; rec1].
Definition ex_examples : examples := fun v => Some (map (fun x : inst => x v) ex_recs).
Definition ex_dc : counts := fun i => match nth_error (m_heap ex_m) i with Some nd => repeat 0%N (arity nd) | None => [] end.
Lemma ex_dc_zero : forall i nd, reach (m_heap ex_m) 8 i -> nth_error (m_heap ex_m) i = Some nd -> ex_dc i = repeat 0%N (arity nd).
Proof. intros i nd _ E. unfold ex_dc. rewrite E. reflexivity. Qed.
(** x1, x2 agree in 4 of the 5 records; among these x1 holds in 3 and x3 in 3 of 4 *)
Definition ex_learned := LearnPsddParameters (m_heap ex_m) no_ud ex_dc 8 ex_examples 5 (q 1 2) 7 ex_m.
Lemma ex_learned_params : exists r ud dc m', ex_learned = Ok (r, ud, dc, m') /\
  exists x y nd, nth_error (m_heap m') r = Some (MkN [] 7 (BDec [MkE x y (q 1 1)])) /\ nth_error (m_heap m') x = Some nd /\
    map e_param (match n_body nd with BDec es => es | _ => [] end) = [q 3 10; q 7 10].
Proof. do 4 eexists. split; [vm_compute; reflexivity|]. do 3 eexists. split; [vm_compute; reflexivity|]. split; vm_compute; reflexivity. Qed.

(** alpha = 0 and a node without records: log 0 - log 0 *)
Definition one_top (a b : Lcode) : mgr Lcode := MkM (Leaf 1) [MkN [] 0 (BTop 1 a b)] [0%nat].
Lemma log_zero : xlog (Fin 0) = NegInf.
Proof. unfold xlog. destruct (Rlt_dec 0 0); [lra|]. destruct (Req_EM_T 0 0); [auto|lra]. Qed.
Definition nan_param : Lcode := MkParam NaN (2 ^ 63)%Z.
Lemma alpha_zero_nan (a b : Lcode) : GetPsddTopNode (new_mgr (Leaf 1)) 1 0 a b = Ok (0%nat, one_top a b) /\
  exists r ud dc m', LearnPsddParameters (m_heap (one_top a b)) no_ud (fun _ => [0; 0]%N) 0 (fun _ => Some []) 0 p_default 7 (one_top a b) = Ok (r, ud, dc, m') /\
    nth_error (m_heap m') r = Some (MkN [] 7 (BTop 1 nan_param nan_param)).
Proof.
  split; [reflexivity|].
  assert (@pnat Lcode 0 = p_default) as Z by (cbn [pnat Lcode]; unfold p_of_decimal; simpl Z.of_N; rewrite log_zero; reflexivity).
  do 4 eexists. split.
  - unfold LearnPsddParameters. cbn [one_top m_heap]. 
    change (SerializePsddNodes [MkN [] 0 (BTop 1 a b)] [0%nat]) with (Ok [0%nat]). cbn [bind Nat.eqb rev app foldM].
    unfold learn_step, node_of. cbn [nth_error get bind learn_params n_body]. rewrite Z. cbn [relab_step node_of nth_error get bind n_body].
    reflexivity.
  - cbn. reflexivity.
Qed.
