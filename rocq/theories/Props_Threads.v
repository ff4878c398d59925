(** C82: queries that run at the same time *)
From Verif Require Import Base Param ParamProofs Vtree VtreeProofs Spec Heap Manager HeapProofs SerProofs RepProofs OrderProofs CanonProofs OneNode Query HeapExamples Threads ThreadsProofs ThreadsExamples.

(** C82.  Any number of threads, each executing one query, with the accesses to the nodes interleaved in any way: if no two threads use the
    same field of the same node, a thread that has ended returned what its query returns alone, when all have ended the answers are those of
    the queries alone and, if they all succeed, flags and user data are as before. *)
Theorem C82_isolated (P : pops) (m : mgr P) (qs : list query) (c : @cells P) :
  Wf m -> (forall q, In q qs -> qroot q < length (m_heap m)) ->
  (forall j k q q', j <> k -> nth_error qs j = Some q -> nth_error qs k = Some q' -> apart (m_heap m) q q') -> clean c ->
  forall s, tsteps (c, map (qprog (m_heap m)) qs) s ->
    (forall k q r, nth_error qs k = Some q -> nth_error (snd s) k = Some (Ret r) -> r = qalone (m_heap m) q) /\
    (finished s -> snd s = map (fun q => Ret (qalone (m_heap m) q)) qs /\ ((forall q, In q qs -> exists a, qalone (m_heap m) q = Ok a) -> clean (fst s))).
Proof.
  exact (fun W RO AP CC s T => conj (fun k q r Q E => thread_answer m qs c W RO AP CC s k q r T Q E)
    (fun FN => conj (all_answers m qs c W RO AP CC s T FN) (clean_after m qs c W RO AP CC s T FN))).
Qed.
Print Assumptions C82_isolated.
Example C82_isolated_nonvacuous : Wf th_m /\ (forall q, In q th_qs -> qroot q < length (m_heap th_m)) /\
  (forall j k q q', j <> k -> nth_error th_qs j = Some q -> nth_error th_qs k = Some q' -> apart (m_heap th_m) q q') /\ clean (@cells0 Qex) /\
  (forall q, In q th_qs -> exists a, qalone (m_heap th_m) q = Ok a) /\
  exists sch, finished (exec sch (@cells0 Qex) (map (qprog (m_heap th_m)) th_qs)).
Proof.
  split; [exact th_wf|]. split; [exact (proj1 th_apart)|]. split; [exact (proj2 th_apart)|]. split; [intros i; split; reflexivity|]. split; [exact th_oks|].
  exists (concat (repeat [0; 1; 2; 3; 4; 5] 60)). vm_compute. repeat constructor; eexists; reflexivity.
Qed.

(** C82: whatever is scheduled, the threads end, and as long as one has not ended one can go on *)
Theorem C82_all_end (P : pops) :
  well_founded (fun s' s => @tstep P s s') /\ forall c (ts : list (@prog P (@answer P))), ~ finished (c, ts) -> exists s, tstep (c, ts) s.
Proof. exact (conj schedules_end unfinished_moves). Qed.
Print Assumptions C82_all_end.

(** C82: which queries may run together.  PSDDs whose nodes were made under different flags share no node; Evaluate and ModelCount use no
    field; IsConsistent uses other fields than the rest. *)
Theorem C82_flags (P : pops) (m : mgr P) fl fl' q q' : fl <> fl' -> held fl m (qroot q) -> held fl' m (qroot q') -> apart (m_heap m) q q'.
Proof. exact (flags_apart m fl fl' q q'). Qed.
Print Assumptions C82_flags.
Example C82_flags_nonvacuous : 0%N <> 1%N /\ held 0 th_m (qroot (QGetMarginals 4)) /\ held 1 th_m (qroot (QGetMarginals 9)).
Proof. split; [discriminate|]. split; [exact th_held0|exact th_held1]. Qed.
Theorem C82_kinds (P : pops) (h : heap P) q q' :
  field_free q \/ field_free q' \/ (flag_query q <-> ~ flag_query q') -> apart h q q'.
Proof. exact (kinds_apart h q q'). Qed.
Print Assumptions C82_kinds.
Example C82_kinds_nonvacuous : field_free (QModelCount 4) /\ (flag_query (QIsConsistent ones ones 4) <-> ~ flag_query (QGetMarginals 4)).
Proof. simpl. tauto. Qed.

(** C82 without that hypothesis is false.  Two consistency queries on two PSDDs of one manager that share literals *)
Theorem C82_consistent_refuted : exists (m : mgr Qex) q q' sch,
  runs (new_mgr th_vt) th_ops = Ok m /\ Wf m /\ qroot q <> qroot q' /\
  map (qalone (m_heap m)) [q; q'] = [Ok (ABool true); Ok (ABool false)] /\
  snd (exec sch cells0 (map (qprog (m_heap m)) [q; q'])) = [Ret (Ok (ABool true)); Ret (Ok (ABool true))].
Proof.
  exists th_m, (QIsConsistent all_vars zeros 4), (QIsConsistent all_vars ones 10), bad_sched. split; [exact th_runs|]. split; [exact th_wf|]. split; [discriminate|].
  split; [exact (proj2 bad_consistent)|exact (proj1 bad_consistent)].
Qed.
Print Assumptions C82_consistent_refuted.
(** Two threads asking for the marginals of one PSDD *)
Theorem C82_marginals_refuted : exists (m : mgr Qex) root sch mg mg' mg0,
  Wf m /\ qalone (m_heap m) (QGetMarginals root) = Ok (AMarginals mg0) /\
  snd (exec sch cells0 (map (qprog (m_heap m)) [QGetMarginals root; QGetMarginals root])) = [Ret (Ok (AMarginals mg)); Ret (Ok (AMarginals mg'))] /\
  mg 1%N <> mg0 1%N.
Proof.
  destruct bad_marginals as (mg & mg' & mg0 & A & B & C & D). exists th_m, 4, (times 6 0 ++ times 60 1 ++ times 60 0), mg, mg', mg0.
  split; [exact th_wf|]. split; [exact B|]. split; [exact A|]. rewrite C, D. discriminate.
Qed.
Print Assumptions C82_marginals_refuted.
(** Two threads asking for the most probable explanation of one PSDD *)
Theorem C82_mpe_refuted : exists (m : mgr Qex) root sch a,
  Wf m /\ qalone (m_heap m) (QGetMPESolution 20 root) = Ok a /\
  nth_error (snd (exec sch cells0 (map (qprog (m_heap m)) [QGetMPESolution 20 root; QGetMPESolution 20 root]))) 0 = Some (Ret UB).
Proof.
  destruct bad_mpe as (a & A & _ & C). exists th_m, 4, (times 6 0 ++ times 60 1 ++ times 60 0), a. split; [exact th_wf|]. split; [exact C|exact A].
Qed.
Print Assumptions C82_mpe_refuted.
(** One thread asking for the marginals and one for the most probable explanation of one PSDD *)
Theorem C82_mixed_refuted : exists (m : mgr Qex) root sch a b,
  Wf m /\ qalone (m_heap m) (QGetMarginals root) = Ok a /\ qalone (m_heap m) (QGetMPESolution 20 root) = Ok b /\
  nth_error (snd (exec sch cells0 (map (qprog (m_heap m)) [QGetMarginals root; QGetMPESolution 20 root]))) 0 = Some (Ret UB).
Proof.
  destruct bad_mixed as (a & b & A & B & C). exists th_m, 4, (times 6 0 ++ times 9 1 ++ times 60 0), a, b. auto using th_wf.
Qed.
Print Assumptions C82_mixed_refuted.
