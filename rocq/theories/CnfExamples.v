(** Examples for CNF files, their compilation and psdd_inference. *)
From Coq Require Import Ascii String Reals Lra.
From Verif Require Import Base Param ParamProofs Vtree VtreeProofs Spec SpecProofs Heap Manager HeapProofs SerProofs RepProofs OrderProofs CanonProofs
  HeapExamples LoadProofs MulProofs ReplayProofs ManagerExamples TreeProofs Query QueryProofs SampleProofs QueryExamples Sdd SddProofs Text IO Cnf CnfProofs
  RefLib InferProofs.
Local Open Scope R_scope.

(** A file with a comment, the problem line and two clauses, one of them without the final 0 *)
Definition two_lines := [str "c a comment"; str "p cnf 4 2"; str " 1 -2  0 more"; str "3"]%string.
Lemma two_lines_dimacs : Forall2 dimacs_line two_lines [[]; []; [[1; -2]%Z]; [[3]%Z]].
Proof.
  assert (forall s : string, forallb (fun c => negb (Ascii.eqb c nl)) (str s) = true -> no_nl (str s)) as K.
  { intros s H Z. rewrite forallb_forall in H. specialize (H _ Z). rewrite Ascii.eqb_refl in H. discriminate. }
  unfold two_lines. apply Forall2_cons; [apply (dl_comment (str " a comment")), K; reflexivity|].
  apply Forall2_cons; [apply (dl_problem (str " cnf 4 2")), K; reflexivity|].
  apply Forall2_cons.
  { apply dl_clause; [apply K; reflexivity|]. apply (ct_lit [" "%char] 1 (str " -2  0 more")); [repeat constructor|lia|lia|reflexivity|].
    apply (ct_lit [" "%char] (-2) (str "  0 more")); [repeat constructor|lia|lia|reflexivity|].
    apply (ct_zero [" "%char; " "%char] (str " more")); [repeat constructor|reflexivity]. }
  apply Forall2_cons; [|apply Forall2_nil]. apply dl_clause; [apply K; reflexivity|]. apply (ct_lit [] 3 []); [constructor|lia|lia|exact I|].
  apply (ct_end []). constructor.
Qed.
(** DIMACS allows clauses over several lines and blank lines; the reader takes every line for a clause. *)
Definition split_clause := unlines [str "p cnf 2 1"; str "1"; str "2 0"]%string.
Definition blank_line := unlines [str "p cnf 2 1"; str "1 2 0"; str ""]%string.
Lemma split_clause_read : ReadCnf split_clause = Ok [[1]; [2]]%Z.
Proof. reflexivity. Qed.
Lemma blank_line_read : ReadCnf blank_line = Ok [[1; 2]; []]%Z.
Proof. reflexivity. Qed.

(** A PSDD file (parameters in percent): x1 <-> x2, with x3 and x4 independent *)
Definition rd_pct (s : text) : option Qex := option_map (fun n => q n 100) (dec_of 0 s).
Definition inf_file := unlines [str "c example"; str "psdd 9"; str "L 0 0 1"; str "L 1 0 -1"; str "L 2 2 2"; str "L 3 2 -2";
  str "D 4 1 2 0 2 25 1 3 75"; str "T 5 4 3 60 40"; str "T 6 6 4 50 50"; str "D 7 5 1 5 6 100"; str "D 8 3 1 4 7 100"]%string.
Definition inf_ops : list (@op Qex) :=
  [OLit 1 0; OLit (-1) 0; OLit 2 0; OLit (-2) 0; ODec [0; 1]%nat [2; 3]%nat [q 25 100; q 75 100] 0;
   OTop 3 0 (q 40 100) (q 60 100); OTop 4 0 (q 50 100) (q 50 100); ODec [5]%nat [6]%nat [q 100 100] 0; ODec [4]%nat [7]%nat [q 100 100] 0].
Definition inf_m : mgr Qex := Eval vm_compute in match runs (new_mgr ex_vt) inf_ops with Ok m => m | _ => new_mgr ex_vt end.
Definition inf_t4 : ptree := TDec [(TLit 1, TLit 2, 25/100); (TLit (-1), TLit (-2), 75/100)].
Definition inf_t7 : ptree := TDec [(TTop 3 (40/100) (60/100), TTop 4 (50/100) (50/100), 100/100)].
Definition inf_t : ptree := TDec [(inf_t4, inf_t7, 100/100)].
Lemma inf_tidy : @tidy Qex qval 0 inf_m.
Proof.
  apply (@tidy_runs Qex qval 0 inf_ops (new_mgr ex_vt)); [| |vm_compute; reflexivity].
  - constructor. vm_compute. repeat constructor; simpl; intuition congruence.
  - unfold inf_ops. repeat (constructor; [simpl; first [exact Logic.I | discriminate | intros _; right; unfold qval; simpl; lra]|]). constructor.
Qed.
Lemma inf_rep : @Rep Qex qval (m_heap inf_m) 8 inf_t.
Proof.
  unfold inf_t. eapply Rep_dec; [reflexivity..|]. repeat constructor; unfold tp, ts, tw; simpl.
  - unfold inf_t4. eapply Rep_dec; [reflexivity..|]. repeat constructor; unfold tp, ts, tw; simpl; rep_lit.
  - unfold inf_t7. eapply Rep_dec; [reflexivity..|]. repeat constructor; unfold tp, ts, tw; simpl.
    + replace (40/100) with (qval (q 40 100)) by qv. replace (60/100) with (qval (q 60 100)) by qv. eapply Rep_top; reflexivity.
    + replace (50/100) with (qval (q 50 100)) by qv. eapply Rep_top; reflexivity.
Qed.
Lemma inf_holds : @file_holds Qex qval rd_pct (q 1 1) inf_file ex_vt inf_t.
Proof.
  exists 8%nat, inf_m. split; [vm_compute; reflexivity|]. split; [reflexivity|]. split; [apply (@tidy_inv Qex qval Qex_exact), inf_tidy|].
  split; [reflexivity|exact inf_rep].
Qed.
Lemma inf_good : positive inf_t /\ normalized inf_t /\ deterministic inf_t.
Proof.
  split; [unfold positive, inf_t, inf_t4, inf_t7; repeat split; repeat constructor; unfold tw; simpl; try lra; auto|].
  split; [unfold normalized, inf_t, inf_t4, inf_t7; repeat split; repeat constructor; unfold tw; simpl; try lra; auto|].
  apply all_nodes_dec. split; [repeat constructor|]. constructor; [|constructor]. split.
  - apply all_nodes_dec. split; [|repeat constructor; simpl; auto]. repeat constructor. intros x. apply (lits_excl 1).
  - apply all_nodes_dec. split; [repeat constructor|]. constructor; [|constructor]. simpl. auto.
Qed.
(** evidence "x1 or x3", evidence contradicting the PSDD, evidence contradicting itself *)
Definition ev_or := unlines [str "p cnf 4 1"; str "1 3 0"]%string.
Definition ev_clash := unlines [str "p cnf 4 2"; str "1 0"; str "-2 0"]%string.
Definition ev_false := unlines [str "p cnf 4 2"; str "1 0"; str "-1 0"]%string.
Definition infer cnf := @Inference Qex rd_pct (q 1 1) ref_lib true true (q 0 1, q 0 1) inf_file cnf ex_vt.
Lemma infer_clash : exists m, infer (Some ev_clash) = Ok (Unsatisfied, m).
Proof. eexists. vm_compute. reflexivity. Qed.
Lemma infer_false : infer (Some ev_false) = UB.
Proof. vm_compute. reflexivity. Qed.
Lemma infer_or : exists m, infer (Some ev_or) = Ok (Answer
  (Some ([(1, false); (2, false); (3, true); (4, false)]%N, q 3 11))
  (Some [(1, (q 6 11, q 5 11)); (2, (q 6 11, q 5 11)); (3, (q 3 11, q 8 11)); (4, (q 1 2, q 1 2))]%N), m).
Proof. eexists. vm_compute. reflexivity. Qed.
