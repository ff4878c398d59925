(** Witnesses for C70. *)
From Coq Require Import Reals Lra Permutation Ascii String.
From Verif Require Import Base Param ParamProofs Vtree VtreeProofs Spec SpecProofs Heap Manager HeapProofs SerProofs
  RepProofs OrderProofs CanonProofs HeapExamples LoadProofs MulProofs ReplayProofs ManagerExamples Query ProductTrees ProductNodes ProductProofs ProductExamples
  Text IO IOProofs Data Uai NumProofs FileProofs FileExamples OneNode OneFile.
Local Open Scope R_scope.

(** Another manager with the first PSDD of C69, built in another order *)
Definition on_ops : list (@op Qex) := [OLit (-1) 5; OTop 2 5 (q 1 2) (q 1 2); OLit 1 5; OTop 2 5 (q 1 3) (q 2 3); ODec [2; 0]%nat [3; 1]%nat [q 1 4; q 3 4] 5].
Definition on_m : mgr Qex := Eval vm_compute in match runs (new_mgr pr_vt) on_ops with Ok m => m | _ => new_mgr pr_vt end.
Definition on_t : ptree := TDec [(TLit (-1), TTop 2 (1/2) (1/2), 3/4); (TLit 1, TTop 2 (1/3) (2/3), 1/4)].
Lemma on_runs : runs (new_mgr pr_vt) on_ops = Ok on_m.
Proof. vm_compute. reflexivity. Qed.
Lemma pr_nodup : NoDup (leaves pr_vt).
Proof. vm_compute. repeat constructor; simpl; intuition congruence. Qed.
Lemma on_ok : heap_ok pr_vt (m_heap on_m).
Proof.
  pose proof (runs_wf (@val_peq_refl Qex qval Qex_exact) (@val_plt_irrefl Qex qval Qex_exact) on_ops (new_mgr pr_vt) on_m (wf_new _ pr_nodup) on_runs) as (W & V & _).
  pose proof (wf_heap _ W) as H. rewrite V in H. exact H.
Qed.
Lemma on_rep : @Rep Qex qval (m_heap on_m) 4 on_t.
Proof. unfold on_t. eapply Rep_dec; [reflexivity..|]. repeat constructor; unfold tp, ts, tw; simpl; try rep_lit; try rep_top; qv. Qed.
Lemma on_det : deterministic on_t.
Proof. apply all_nodes_dec. split; [|repeat constructor; simpl; auto]. repeat constructor. intros x. unfold tp; simpl. unfold lit_sat. simpl. destruct (x 1%N); reflexivity. Qed.
Lemma on_shuffled : shuffled on_t pr_a.
Proof.
  unfold on_t, pr_a. eapply sh_dec; [|apply perm_swap]. repeat constructor.
Qed.
Lemma pr_held : held 0 pr_m 6.
Proof.
  assert (forall k, reach (m_heap pr_m) 6 k -> In k [6; 0; 1; 4; 5]%nat) as R.
  { intros k H. inversion H as [|? nd c ? E C H1]; subst; [left; auto|]. right. vm_compute in E. injection E as <-. cbn in C.
    repeat (destruct C as [<-|C]; [inversion H1 as [|? nd1 c1 ? E1 C1 H2]; subst; [cbn; auto 8|vm_compute in E1; injection E1 as <-; destruct C1]|]). destruct C. }
  intros k H. apply R in H. repeat (destruct H as [<-|H]; [split; [vm_compute; auto 15|reflexivity]|]). destruct H.
Qed.
(** A manager that holds the PSDD of the file of C68 *)
Section File.
Context {P : pops} (val : P -> R) (w : P).
Definition of_ops : list (@op P) := [OLit 2 7; OLit (-1) 7; OLit 1 7; ODec [2]%nat [0]%nat [w] 7].
Definition of_m : mgr P := MkM fx_vt [MkN [true] 7 (BLit 2); MkN [false] 7 (BLit (-1)); MkN [false] 7 (BLit 1); MkN [] 7 (BDec [MkE 2 0 w])] [0; 1; 2; 3]%nat.
Lemma of_runs : runs (new_mgr fx_vt) of_ops = Ok of_m.
Proof. reflexivity. Qed.
Definition of_t := TDec [(TLit 1, TLit 2, val w)].
Lemma of_at : node_at val of_m 3 [] of_t.
Proof. split; [reflexivity|]. unfold of_t. eapply Rep_dec; [reflexivity..|]. repeat constructor; unfold tp, ts, tw; simpl; auto; eapply Rep_lit; reflexivity. Qed.
Lemma of_det : deterministic of_t.
Proof. unfold of_t. apply all_nodes_dec. split; repeat constructor. Qed.
Lemma of_reach k j : reach (m_heap of_m) k j -> (k = 3 -> In j [3; 2; 0])%nat /\ (k = 2 \/ k = 0 -> j = k)%nat.
Proof.
  intros H. induction H as [i|i nd c j E C H [IH1 IH2]]; [split; [intros ->; left; auto|auto]|]. split.
  - intros ->. vm_compute in E. injection E as <-. simpl in C. destruct C as [<-|[<-|[]]]; rewrite IH2 by auto; simpl; auto.
  - intros [-> | ->]; vm_compute in E; injection E as <-; destruct C.
Qed.
Lemma of_held : held 7 of_m 3.
Proof. intros k H. apply of_reach in H as [H _]. specialize (H eq_refl). repeat (destruct H as [<-|H]; [split; [simpl; auto|reflexivity]|]). destruct H. Qed.
Lemma of_held_below : held 7 of_m 2 /\ held 7 of_m 0.
Proof. split; intros k H; apply of_reach in H as [_ H]; rewrite H by auto; (split; [simpl; auto|reflexivity]). Qed.
Lemma of_inv T : InvT val T 7 of_m <-> Wf of_m.
Proof.
  split; [intros [W _]; exact W|]. intros W. split; auto. intros i nd v pt pf L E _ B. simpl in L. repeat (destruct L as [<-|L]; [vm_compute in E; injection E as <-; discriminate B|]). destruct L.
Qed.
End File.
