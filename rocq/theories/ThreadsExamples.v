(** Concrete threads: two PSDDs under different flags, and schedules under which queries on shared nodes go wrong (C82). *)
From Verif Require Import Base Param ParamProofs Vtree VtreeProofs Spec Heap Manager HeapProofs SerProofs RepProofs OrderProofs CanonProofs OneNode Query HeapExamples Threads ThreadsProofs.

Section Flags.
Context {P : pops}.
(** PSDDs whose nodes carry different flags share no node *)
Theorem flags_apart (m : mgr P) fl fl' q q' : fl <> fl' -> held fl m (qroot q) -> held fl' m (qroot q') -> apart (m_heap m) q q'.
Proof.
  intros NE H1 H2 i. assert (~ (reach (m_heap m) (qroot q) i /\ reach (m_heap m) (qroot q') i)) as N.
  { intros [R1 R2]. apply NE. destruct (H1 i R1) as [_ F1], (H2 i R2) as [_ F2]. congruence. }
  destruct q, q'; simpl in *; tauto.
Qed.
Definition field_free (q : query) : Prop := match q with QEvaluate _ _ _ | QModelCount _ => True | _ => False end.
Definition flag_query (q : query) : Prop := match q with QIsConsistent _ _ _ => True | _ => False end.
Theorem kinds_apart (h : heap P) q q' : field_free q \/ field_free q' \/ (flag_query q <-> ~ flag_query q') -> apart h q q'.
Proof. intros H i. destruct q, q'; simpl in *; tauto. Qed.
End Flags.

(** x1 <-> x2 under flag 0 (node 4) and under flag 1 (node 9); x1 xor x2 under flag 0 (node 10) *)
Definition th_vt := VNode (Leaf 1) (Leaf 2).
Definition th_ops : list (@op Qex) :=
  [OLit 1 0; OLit (-1) 0; OLit 2 0; OLit (-2) 0; ODec [0; 1] [2; 3] [q 1 4; q 3 4] 0;
   OLit 1 1; OLit (-1) 1; OLit 2 1; OLit (-2) 1; ODec [5; 6] [7; 8] [q 2 3; q 1 3] 1;
   ODec [0; 1] [3; 2] [q 1 2; q 1 2] 0].
Definition th_m : mgr Qex := Eval vm_compute in match runs (new_mgr th_vt) th_ops with Ok m => m | _ => new_mgr th_vt end.
Lemma th_runs : runs (new_mgr th_vt) th_ops = Ok th_m.
Proof. vm_compute. reflexivity. Qed.
Lemma th_wf : Wf th_m.
Proof.
  apply (@runs_wf Qex (@val_peq_refl Qex qval Qex_exact) (@val_plt_irrefl Qex qval Qex_exact) th_ops (new_mgr th_vt) th_m).
  - apply wf_new. vm_compute. repeat constructor; simpl; intuition congruence.
  - apply th_runs.
Qed.
Lemma th_reach r l i : SerializePsddNodes (m_heap th_m) [r] = Ok l -> r < length (m_heap th_m) -> reach (m_heap th_m) r i -> In i l.
Proof. intros E HR R. destruct (serialize_root _ _ r (wf_heap _ th_wf) HR) as (L & S). rewrite (so_eq _ _ _ S) in E. injection E as <-. apply (so_in _ _ _ S). auto. Qed.
Lemma th_held0 : held 0 th_m 4.
Proof.
  intros k R. eapply (th_reach 4 _ k) in R; [|vm_compute; reflexivity|vm_compute; lia]. simpl in R.
  repeat destruct R as [<-|R]; try contradiction; (split; [vm_compute; tauto|vm_compute; reflexivity]).
Qed.
Lemma th_held1 : held 1 th_m 9.
Proof.
  intros k R. eapply (th_reach 9 _ k) in R; [|vm_compute; reflexivity|vm_compute; lia]. simpl in R.
  repeat destruct R as [<-|R]; try contradiction; (split; [vm_compute; tauto|vm_compute; reflexivity]).
Qed.
Notation th_h := (m_heap th_m).
Definition all_vars (_ : N) : bool := true.
Definition ones (_ : N) : bool := true.
Definition zeros (_ : N) : bool := false.
(** alone: (1,1) is consistent with node 4 and not with node 10 *)
Definition th_qs : list query :=
  [QIsConsistent all_vars ones 4; QIsConsistent all_vars (fun v => N.eqb v 1) 9; QGetMarginals 4; QGetMPESolution 20 9; QEvaluate all_vars ones 10; QModelCount 4].
Lemma th_apart : (forall q, In q th_qs -> qroot q < length th_h) /\
  forall j k q q', j <> k -> nth_error th_qs j = Some q -> nth_error th_qs k = Some q' -> apart th_h q q'.
Proof.
  split.
  - intros x H. simpl in H. repeat destruct H as [<-|H]; try contradiction; vm_compute; lia.
  - intros j k x y NE E1 E2.
    assert (forall a b : query, (qroot a = 4 /\ qroot b = 9) \/ (qroot a = 9 /\ qroot b = 4) -> apart th_h a b) as FL.
    { intros a b [[A B]|[A B]]; [apply (flags_apart th_m 0%N 1%N)|apply (flags_apart th_m 1%N 0%N)]; try discriminate; rewrite ?A, ?B; auto using th_held0, th_held1. }
    do 6 (destruct j as [|j]; [do 6 (destruct k as [|k]; [simpl in E1, E2; injection E1 as <-; injection E2 as <-;
      first [congruence|apply FL; simpl; tauto|apply kinds_apart; simpl; tauto]|]); destruct k; discriminate|]). destruct j; discriminate.
Qed.
Lemma th_oks : forall q, In q th_qs -> exists a, qalone th_h q = Ok a.
Proof. intros x H. simpl in H. repeat destruct H as [<-|H]; try contradiction; eexists; vm_compute; reflexivity. Qed.

(** ** Shared nodes *)
Definition times (n k : nat) : list nat := repeat k n.
Definition bad_qs : list query := [QIsConsistent all_vars zeros 4; QIsConsistent all_vars ones 10].
Definition bad_sched : list nat := times 7 0 ++ times 30 1 ++ times 30 0.
Definition bools (s : @cells Qex * list (@prog Qex (@answer Qex))) : list (option bool) := map (fun p => match p with Ret (Ok (ABool b)) => Some b | _ => None end) (snd s).
Definition ubs (s : @cells Qex * list (@prog Qex (@answer Qex))) : list bool := map (fun p => match p with Ret UB => true | _ => false end) (snd s).
Definition margs (v : N) (s : @cells Qex * list (@prog Qex (@answer Qex))) := map (fun p => match p with Ret (Ok (AMarginals mg)) => mg v | _ => None end) (snd s).
(** two consistency queries on different PSDDs that share literals: evidence that is not consistent is reported consistent *)
Lemma bad_consistent : let s := exec bad_sched cells0 (map (qprog th_h) bad_qs) in
  snd s = [Ret (Ok (ABool true)); Ret (Ok (ABool true))] /\ map (qalone th_h) bad_qs = [Ok (ABool true); Ok (ABool false)].
Proof. vm_compute. split; reflexivity. Qed.
(** two threads asking for the marginals of one PSDD *)
Lemma bad_marginals : let s := exec (times 6 0 ++ times 60 1 ++ times 60 0) cells0 (map (qprog th_h) [QGetMarginals 4; QGetMarginals 4]) in
  exists mg mg' mg0, snd s = [Ret (Ok (AMarginals mg)); Ret (Ok (AMarginals mg'))] /\ qalone th_h (QGetMarginals 4) = Ok (AMarginals mg0) /\
    mg 1%N = Some (q 1 2, q 1 2) /\ mg0 1%N = Some (q 3 4, q 1 4).
Proof. do 3 eexists. split; [vm_compute; reflexivity|]. split; [vm_compute; reflexivity|]. vm_compute. split; reflexivity. Qed.
(** two threads asking for the most probable explanation of one PSDD: one follows the null pointer the other left *)
Lemma bad_mpe : let s := exec (times 6 0 ++ times 60 1 ++ times 60 0) cells0 (map (qprog th_h) [QGetMPESolution 20 4; QGetMPESolution 20 4]) in
  exists a, nth_error (snd s) 0 = Some (Ret UB) /\ nth_error (snd s) 1 = Some (Ret (Ok a)) /\ qalone th_h (QGetMPESolution 20 4) = Ok a.
Proof. eexists. split; [vm_compute; reflexivity|]. split; [vm_compute; reflexivity|]. vm_compute. reflexivity. Qed.
(** a marginal query reads the record that a query for the most probable explanation has stored in the same field *)
Lemma bad_mixed : let s := exec (times 6 0 ++ times 9 1 ++ times 60 0) cells0 (map (qprog th_h) [QGetMarginals 4; QGetMPESolution 20 4]) in
  exists a b, nth_error (snd s) 0 = Some (Ret UB) /\ qalone th_h (QGetMarginals 4) = Ok a /\ qalone th_h (QGetMPESolution 20 4) = Ok b.
Proof. do 2 eexists. split; [vm_compute; reflexivity|]. split; vm_compute; reflexivity. Qed.
