(** Property theorems C36-C37 (CNF formulas and psdd_inference).  [cnf_sat cs x]: x satisfies every clause; [in_vtree t cs]: the clauses
    use variables of t only; [libs_ok libs]: libsdd's operations mean what its interface says, on every vtree over distinct positive
    variables (RefLib.v has a library for which this is proved); [dimacs_line l cs]: line l is a comment, the problem line or one clause. *)
From Coq Require Import Ascii String Reals Lra.
From Verif Require Import Base Param ParamProofs Vtree VtreeProofs Spec SpecProofs Heap Manager HeapProofs SerProofs RepProofs OrderProofs CanonProofs
  HeapExamples LoadProofs MulProofs ReplayProofs ManagerExamples TreeProofs Query QueryProofs SampleProofs QueryExamples Sdd SddProofs Text IO Cnf CnfProofs
  RefLib InferProofs CnfExamples.
Local Open Scope R_scope.

(** C36 *)
Theorem C36_compile : forall P val, pexact P val -> forall libs cs fl (m : mgr P), libs_ok libs -> Inv val fl m ->
  (forall v, In v (leaves (m_vt m)) -> v <> 0%N) -> in_vtree (m_vt m) cs ->
  ((forall x, cnf_sat cs x = false) -> Compile libs cs fl m = Ok (None, m)) /\
  ((exists x, cnf_sat cs x = true) -> exists i m' t, Compile libs cs fl m = Ok (Some i, m') /\ Inv val fl m' /\ mext fl m m' /\
     vt_of (m_heap m') i = Some [] /\ Rep val (m_heap m') i t /\ In i (m_live m') /\ conforms (m_vt m) t /\ deterministic t /\ positive t /\
     (forall x, base t x = cnf_sat cs x) /\ (forall x, weight t x = if cnf_sat cs x then 1 else 0) /\
     forall L x0, SerializePsddNodes (m_heap m') [i] = Ok L -> ModelCount (m_heap m') L = Ok (count_over (leaves (m_vt m)) (cnf_sat cs) x0)).
Proof. exact @compile_full. Qed.
Print Assumptions C36_compile.
Example C36_nonvacuous : libs_ok ref_lib /\ @Inv Qex qval 0 (new_mgr ex_vt) /\ (forall v, In v (leaves ex_vt) -> v <> 0%N) /\
  in_vtree ex_vt [[1; -2]; [3]]%Z /\ (exists x, cnf_sat [[1; -2]; [3]]%Z x = true) /\ (forall x, cnf_sat [[1]; [-1]]%Z x = false) /\
  (do p <- Compile ref_lib [[1; -2]; [3]]%Z 0 (new_mgr (P := Qex) ex_vt) ;;
   match fst p with
   | Some i => do L <- SerializePsddNodes (m_heap (snd p)) [i] ;; ModelCount (m_heap (snd p)) L
   | None => UB
   end) = Ok 6%N /\
  exists m, Compile ref_lib [[1]; [-1]]%Z 0 (new_mgr (P := Qex) ex_vt) = Ok (None, m).
Proof.
  split; [exact ref_libs_ok|]. split.
  { apply (@tidy_inv Qex qval Qex_exact 0). constructor. vm_compute. repeat constructor; simpl; intuition congruence. }
  split; [intros v Hv; vm_compute in Hv; intuition (subst; discriminate)|]. split.
  { intros c l Hc Hl. simpl in Hc. destruct Hc as [<-|[<-|[]]]; simpl in Hl; intuition (subst; simpl; auto; discriminate). }
  split; [exists (fun _ => true); reflexivity|]. split; [intros x; unfold cnf_sat, clause_sat, lit_sat; simpl; destruct (x 1%N); reflexivity|].
  split; [vm_compute; reflexivity|]. eexists. vm_compute. reflexivity.
Qed.
(** a variable that is not in the vtree *)
Theorem C36_unknown_variable : forall P val libs cs fl (m : mgr P) c l, libs_ok libs -> Inv val fl m ->
  (forall c l, In c cs -> In l c -> l <> 0%Z) -> In c cs -> In l c -> ~ In (Z.abs_N l) (leaves (m_vt m)) -> Compile libs cs fl m = UB.
Proof. exact @compile_unknown. Qed.
Print Assumptions C36_unknown_variable.
Example C36_unknown_nonvacuous : ~ In (Z.abs_N 9) (leaves ex_vt) /\ Compile ref_lib [[1; 9]]%Z 0 (new_mgr (P := Qex) ex_vt) = UB.
Proof. split; [vm_compute; intuition discriminate|vm_compute; reflexivity]. Qed.
(** files with one clause per line, with or without a newline after the last one; no file makes the reader fail or run forever *)
Theorem C36_read_partial : forall ls css content, Forall2 dimacs_line ls css -> content = unlines ls \/ content ++ [nl] = unlines ls /\ last ls [] <> [] ->
  ReadCnf content = Ok (concat css).
Proof. exact read_cnf_spec. Qed.
Print Assumptions C36_read_partial.
Theorem C36_read_total : forall content, exists cs, ReadCnf content = Ok cs.
Proof. exact read_cnf_total. Qed.
Print Assumptions C36_read_total.
Example C36_read_nonvacuous : Forall2 dimacs_line two_lines [[]; []; [[1; -2]%Z]; [[3]%Z]] /\ ReadCnf (unlines two_lines) = Ok [[1; -2]; [3]]%Z /\
  removelast (unlines two_lines) ++ [nl] = unlines two_lines /\ last two_lines [] <> [] /\ ReadCnf (removelast (unlines two_lines)) = Ok [[1; -2]; [3]]%Z.
Proof. split; [exact two_lines_dimacs|]. split; [reflexivity|]. split; [reflexivity|]. split; [discriminate|reflexivity]. Qed.
(** the one clause (1 or 2) on two lines is read as two clauses, and a blank line as the empty clause *)
Theorem C36_dimacs_refuted : ReadCnf split_clause = Ok [[1]; [2]]%Z /\ ReadCnf blank_line = Ok [[1; 2]; []]%Z /\
  cnf_sat [[1; 2]]%Z (fun v => N.eqb v 1) = true /\ cnf_sat [[1]; [2]]%Z (fun v => N.eqb v 1) = false /\ forall x, cnf_sat [[1; 2]; []]%Z x = false.
Proof.
  split; [exact split_clause_read|]. split; [exact blank_line_read|]. split; [reflexivity|]. split; [reflexivity|].
  intros x. unfold cnf_sat, clause_sat. simpl. apply andb_false_r.
Qed.
Print Assumptions C36_dimacs_refuted.

(** C37.  [file_holds psdd vt t]: reading the file gives a node at the root of the vtree that represents t; [answers_for vt g z]: the
    answers for the distribution g / z. *)
Theorem C37_unsatisfied_partial : forall P val, pexact P val -> forall rd log0 libs, libs_ok libs -> forall (dflt : P * P) psdd vt t mpe mar cnf cs,
  file_holds val rd log0 psdd vt t -> positive t -> normalized t -> deterministic t ->
  (forall v, In v (leaves vt) -> v <> 0%N) -> ReadCnf cnf = Ok cs -> in_vtree vt cs ->
  let g x := if cnf_sat cs x then weight t x else 0 in
  ((exists x, cnf_sat cs x = true) -> (forall x, g x = 0) -> exists m', Inference rd log0 libs mpe mar dflt psdd (Some cnf) vt = Ok (Unsatisfied, m')) /\
  ((exists x, 0 < g x) -> exists a m' z, Inference rd log0 libs mpe mar dflt psdd (Some cnf) vt = Ok (a, m') /\
     0 < z /\ (forall x0, z = sum_over (leaves vt) g x0) /\ answers_for val vt g z mpe mar a) /\
  ((forall x, cnf_sat cs x = false) -> Inference rd log0 libs mpe mar dflt psdd (Some cnf) vt = UB).
Proof. exact @inference_evidence. Qed.
Print Assumptions C37_unsatisfied_partial.
Theorem C37_no_evidence : forall P val, pexact P val -> forall rd log0 libs (dflt : P * P) psdd vt t mpe mar,
  file_holds val rd log0 psdd vt t -> positive t -> normalized t -> deterministic t ->
  exists a m', Inference rd log0 libs mpe mar dflt psdd None vt = Ok (a, m') /\ answers_for val vt (weight t) 1 mpe mar a.
Proof. exact @inference_no_evidence. Qed.
Print Assumptions C37_no_evidence.
Example C37_nonvacuous : @file_holds Qex qval rd_pct (q 1 1) inf_file ex_vt inf_t /\ positive inf_t /\ normalized inf_t /\ deterministic inf_t /\
  (forall v, In v (leaves ex_vt) -> v <> 0%N) /\ ReadCnf ev_or = Ok [[1; 3]]%Z /\ in_vtree ex_vt [[1; 3]]%Z /\
  (exists m, infer (Some ev_clash) = Ok (Unsatisfied, m)) /\
  (exists m, infer (Some ev_or) = Ok (Answer
    (Some ([(1, false); (2, false); (3, true); (4, false)]%N, q 3 11))
    (Some [(1, (q 6 11, q 5 11)); (2, (q 6 11, q 5 11)); (3, (q 3 11, q 8 11)); (4, (q 1 2, q 1 2))]%N), m)).
Proof.
  split; [exact inf_holds|]. split; [apply inf_good|]. split; [apply inf_good|]. split; [apply inf_good|].
  split; [intros v Hv; vm_compute in Hv; intuition (subst; discriminate)|]. split; [reflexivity|]. split.
  { intros c l Hc Hl. simpl in Hc. destruct Hc as [<-|[]]; simpl in Hl; intuition (subst; simpl; auto; discriminate). }
  split; [exact infer_clash|exact infer_or].
Qed.
(** evidence that is unsatisfiable by itself (here x1 and not x1) makes the program dereference a null pointer *)
Theorem C37_crash_refuted : exists psdd vt t cnf cs, @file_holds Qex qval rd_pct (q 1 1) psdd vt t /\
  positive t /\ normalized t /\ deterministic t /\ ReadCnf cnf = Ok cs /\ in_vtree vt cs /\ (forall x, cnf_sat cs x = false) /\
  @Inference Qex rd_pct (q 1 1) ref_lib true true (q 0 1, q 0 1) psdd (Some cnf) vt = UB.
Proof.
  exists inf_file, ex_vt, inf_t, ev_false, [[1]; [-1]]%Z. split; [exact inf_holds|]. split; [apply inf_good|]. split; [apply inf_good|]. split; [apply inf_good|].
  split; [reflexivity|]. split.
  { intros c l Hc Hl. simpl in Hc. destruct Hc as [<-|[<-|[]]]; simpl in Hl; intuition (subst; simpl; auto; discriminate). }
  split; [intros x; unfold cnf_sat, clause_sat, lit_sat; simpl; destruct (x 1%N); reflexivity|exact infer_false].
Qed.
Print Assumptions C37_crash_refuted.
