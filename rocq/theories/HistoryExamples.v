(** Witnesses for C73, C74 and C75. *)
From Coq Require Import Reals Lra Permutation.
From Verif Require Import Base Param ParamProofs Vtree VtreeProofs Spec SpecProofs Heap Manager HeapProofs SerProofs
  RepProofs OrderProofs CanonProofs HeapExamples LoadProofs MulProofs ReplayProofs ManagerExamples TreeProofs Query QueryProofs MpeProofs SampleProofs Learn LearnProofs CountProofs LearnExamples
  ProductTrees ProductNodes ProductProofs ProductExamples Text IO IOProofs OneNode OneExamples Elsewhere SameShape.
Local Open Scope R_scope.

(** The counters of the nodes of a manager before they are used *)
Definition hi_dc {P : pops} (m : mgr P) : counts := fun i => match nth_error (m_heap m) i with Some nd => repeat 0%N (arity nd) | None => [] end.
Lemma hi_zero {P : pops} (m : mgr P) r : forall i nd, reach (m_heap m) r i -> nth_error (m_heap m) i = Some nd -> hi_dc m i = repeat 0%N (arity nd).
Proof. intros i nd _ E. unfold hi_dc. rewrite E. reflexivity. Qed.
Definition hi_ex (recs : list inst) : examples := fun v => Some (map (fun x : inst => x v) recs).
Definition hi_learn {P : pops} (m : mgr P) i recs alpha fl := LearnPsddParameters (m_heap m) no_ud (hi_dc m) i (hi_ex recs) (length recs) alpha fl m.
(** both variables hold in one record, none in the other *)
Definition hi_recs : list inst := [fun _ => true; fun _ => false].
(** Learning with no records makes the two subs of node 6 of pr_m equal: they become one node, and from then on have one pair of parameters *)
Lemma hi_tied : exists i1 u1 d1 m1 i2 u2 d2 m2 i3 u3 d3 m3, hi_learn pr_m 6 [] (q 1 1) 0 = Ok (i1, u1, d1, m1) /\ hi_learn m1 i1 hi_recs (q 1 1) 0 = Ok (i2, u2, d2, m2) /\
  hi_learn pr_m 6 hi_recs (q 1 1) 0 = Ok (i3, u3, d3, m3) /\
  Evaluate (m_heap m2) (fun _ => true) (fun _ => true) i2 = Ok (q 1 4) /\ Evaluate (m_heap m3) (fun _ => true) (fun _ => true) i3 = Ok (q 1 3).
Proof. do 12 eexists. do 3 (split; [vm_compute; reflexivity|]). split; vm_compute; reflexivity. Qed.
(** The same PSDD: with one flag, the equal subs are one node; with two flags they are two *)
Definition hi_one : list (@op Qex) := [OLit 1 0; OLit (-1) 0; OTop 2 0 (q 1 2) (q 1 2); OTop 2 0 (q 1 2) (q 1 2); ODec [0; 1]%nat [2; 2]%nat [q 1 2; q 1 2] 0].
Definition hi_two : list (@op Qex) := [OLit 1 0; OLit (-1) 0; OTop 2 0 (q 1 2) (q 1 2); OTop 2 1 (q 1 2) (q 1 2); ODec [0; 1]%nat [2; 3]%nat [q 1 2; q 1 2] 0].
Definition hi_t : ptree := TDec [(TLit 1, TTop 2 (1/2) (1/2), 1/2); (TLit (-1), TTop 2 (1/2) (1/2), 1/2)].
Definition hi_m1 : mgr Qex := Eval vm_compute in match runs (new_mgr pr_vt) hi_one with Ok m => m | _ => new_mgr pr_vt end.
Definition hi_m2 : mgr Qex := Eval vm_compute in match runs (new_mgr pr_vt) hi_two with Ok m => m | _ => new_mgr pr_vt end.
Lemma hi_runs : runs (new_mgr pr_vt) hi_one = Ok hi_m1 /\ runs (new_mgr pr_vt) hi_two = Ok hi_m2.
Proof. split; vm_compute; reflexivity. Qed.
Lemma hi_reps : @Rep Qex qval (m_heap hi_m1) 3 hi_t /\ @Rep Qex qval (m_heap hi_m2) 4 hi_t.
Proof. split; unfold hi_t; (eapply Rep_dec; [reflexivity..|]); repeat constructor; unfold tp, ts, tw; simpl; try rep_lit; try rep_top; qv. Qed.
Lemma hi_flags : exists i1 u1 d1 m1 i2 u2 d2 m2, hi_learn hi_m1 3 hi_recs (q 1 1) 0 = Ok (i1, u1, d1, m1) /\ hi_learn hi_m2 4 hi_recs (q 1 1) 0 = Ok (i2, u2, d2, m2) /\
  Evaluate (m_heap m1) (fun _ => true) (fun _ => true) i1 = Ok (q 1 4) /\ Evaluate (m_heap m2) (fun _ => true) (fun _ => true) i2 = Ok (q 1 3).
Proof. do 8 eexists. do 2 (split; [vm_compute; reflexivity|]). split; vm_compute; reflexivity. Qed.
Lemma on_held : held 5 on_m 4.
Proof.
  assert (forall k, reach (m_heap on_m) 4 k -> In k [4; 0; 1; 2; 3]%nat) as R.
  { intros k H. inversion H as [|? nd c ? E C H1]; subst; [left; auto|]. right. vm_compute in E. injection E as <-. cbn in C.
    repeat (destruct C as [<-|C]; [inversion H1 as [|? nd1 c1 ? E1 C1 H2]; subst; [cbn; auto 8|vm_compute in E1; injection E1 as <-; destruct C1]|]). destruct C. }
  intros k H. apply R in H. repeat (destruct H as [<-|H]; [split; [vm_compute; auto 15|reflexivity]|]). destruct H.
Qed.
(** *** Sampling *)
Definition hi_us : list Qex := [q 1 1; q 2 1; q 3 1; q 4 1; q 5 1; q 6 1; q 7 1].
Lemma hi_us_pos : Forall (fun u => 0 < qval u) hi_us.
Proof. repeat constructor; unfold qval; simpl; lra. Qed.
Definition hi_draws : list Qex := [q 1 8; q 2 5].
Lemma hi_sampled : exists x us x' us', DirectSample 9 (m_heap pr_m) 6 (fun _ => false) hi_draws = Ok (x, us) /\ DirectSample 9 (m_heap on_m) 4 (fun _ => false) hi_draws = Ok (x', us') /\
  x 1%N = true /\ x 2%N = false /\ x' 1%N = false /\ x' 2%N = true.
Proof. do 4 eexists. do 2 (split; [vm_compute; reflexivity|]). repeat split; vm_compute; reflexivity. Qed.
Lemma hi_params : exists i us u m1 i' us' u' m1', SampleParameters (Dself Qex) near1_q (m_heap pr_m) no_ud 6 0 hi_us pr_m = Ok (i, us, u, m1) /\
  SampleParameters (Dself Qex) near1_q (m_heap on_m) no_ud 4 5 hi_us on_m = Ok (i', us', u', m1') /\
  Evaluate (m_heap m1) (fun _ => true) (fun _ => true) i = Ok (q 15 77) /\ Evaluate (m_heap m1') (fun _ => true) (fun _ => true) i' = Ok (q 2 11).
Proof. do 8 eexists. do 2 (split; [vm_compute; reflexivity|]). split; vm_compute; reflexivity. Qed.
(** A third manager with the PSDD of the first, its elements in the same order, and other nodes in between *)
Definition so_ops : list (@op Qex) := [OLit 2 0; OLit 1 0; OTop 2 0 (q 1 2) (q 1 2); OLit (-1) 0; OTop 1 0 (q 1 7) (q 6 7); OTop 2 0 (q 1 3) (q 2 3); ODec [1; 3]%nat [5; 2]%nat [q 1 4; q 3 4] 0].
Definition so_m : mgr Qex := Eval vm_compute in match runs (new_mgr pr_vt) so_ops with Ok m => m | _ => new_mgr pr_vt end.
Lemma so_runs : runs (new_mgr pr_vt) so_ops = Ok so_m.
Proof. vm_compute. reflexivity. Qed.
Lemma so_tidy : @tidy Qex qval 0 so_m.
Proof.
  apply (@tidy_runs Qex qval 0 so_ops (new_mgr pr_vt)); [constructor; exact pr_nodup| |apply so_runs].
  unfold so_ops. repeat (constructor; [simpl; first [exact Logic.I | discriminate | intros _; right; unfold qval; simpl; lra]|]). constructor.
Qed.
Lemma so_rep : @Rep Qex qval (m_heap so_m) 6 pr_a.
Proof. unfold pr_a. eapply Rep_dec; [reflexivity..|]. repeat constructor; unfold tp, ts, tw; simpl; try rep_lit; try rep_top; qv. Qed.
Lemma so_at : @psdd_at Qex qval so_m 6 pr_vt pr_a.
Proof. split; [apply (@tidy_inv Qex qval Qex_exact _ _ so_tidy)|]. split; [exact so_rep|]. exists []. split; reflexivity. Qed.
Definition so_f (i : nat) : nat := match i with 6 => 6 | 0 => 1 | 1 => 3 | 4 => 5 | 5 => 2 | _ => 0 end%nat.
Lemma pr_reach k : reach (m_heap pr_m) 6 k -> In k [6; 0; 1; 4; 5]%nat.
Proof.
  intros H. inversion H as [|? nd c ? E C H1]; subst; [left; auto|]. right. vm_compute in E. injection E as <-. cbn in C.
  repeat (destruct C as [<-|C]; [inversion H1 as [|? nd1 c1 ? E1 C1 H2]; subst; [cbn; auto 8|vm_compute in E1; injection E1 as <-; destruct C1]|]). destruct C.
Qed.
Lemma so_same : same_order (m_heap pr_m) (m_heap so_m) 6 6 so_f.
Proof.
  constructor; [reflexivity| |].
  - intros i j Hi Hj. apply pr_reach in Hi. apply pr_reach in Hj. cbn in Hi, Hj. intuition (subst; cbn in *; congruence).
  - intros i nd Hi E. apply pr_reach in Hi. repeat (destruct Hi as [<-|Hi]; [vm_compute in E; injection E as <-; eexists; split; [vm_compute; reflexivity|vm_compute; reflexivity]|]). destruct Hi.
Qed.
Lemma so_sampler : same_sampler (m_heap pr_m) (m_heap so_m) 6 6.
Proof.
  eapply ss_dec; [reflexivity..|]. repeat constructor; try (eapply ss_lit; reflexivity); eapply ss_top; reflexivity.
Qed.
(** *** Memory *)
Section Memory.
Context {P : pops}.
(** [n] times: create a node and collect everything *)
Definition gm_ops (v fl : N) (a b : P) (n : nat) : list (@op P) := concat (repeat [OTop v fl a b; OGc []] n).
Lemma runs_app (m : mgr P) a b : runs m (a ++ b) = (do m1 <- runs m a ;; runs m1 b).
Proof. apply foldM_app. Qed.
Lemma gm_runs (v fl : N) (a b : P) n : forall h, runs (MkM (Leaf v) h []) (gm_ops v fl a b n) = Ok (MkM (Leaf v) (h ++ repeat (MkN [] fl (BTop v a b)) n) []).
Proof.
  induction n as [|n IH]; intros h; [unfold gm_ops; simpl; rewrite app_nil_r; auto|]. change (gm_ops v fl a b (S n)) with ([OTop v fl a b; OGc []] ++ gm_ops v fl a b n).
  rewrite runs_app. unfold runs at 1. cbn [step foldM]. unfold GetPsddTopNode, leaf_path. cbn [m_vt leaf_path_from]. rewrite N.eqb_refl. cbn.
  rewrite IH, <- app_assoc. reflexivity.
Qed.
End Memory.
