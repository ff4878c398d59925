(** Property theorems C71 (psdd_node.cpp, psdd_manager.cpp: the queries of one PSDD agree with each other).
    [psdd_at val m i s t]: node [i] of the well-formed manager [m] sits at a vtree node with subtree [s] and represents the
    tree [t].  [also mask v] observes [v] besides the variables of [mask].  Every statement relates results of calls of the
    library to each other. *)
From Coq Require Import Reals Lra.
From Verif Require Import Base Param ParamProofs Vtree VtreeProofs Spec SpecProofs Heap Manager HeapProofs SerProofs
  RepProofs OrderProofs CanonProofs HeapExamples LoadProofs MulProofs ReplayProofs ManagerExamples TreeProofs Query QueryProofs MpeProofs SampleProofs QueryExamples
  ProductTrees ProductNodes ProductProofs ProductExamples AgreeProofs.
Local Open Scope R_scope.

(** The law of total probability: an unobserved variable is true or false. *)
Theorem C71_total : forall P val, parith P val -> forall (m : mgr P) i s t mask x v, psdd_at val m i s t -> tops_one t -> In v (leaves s) -> mask v = false ->
  exists e e1 e0, Evaluate (m_heap m) mask x i = Ok e /\ Evaluate (m_heap m) (also mask v) (upd x v true) i = Ok e1 /\
    Evaluate (m_heap m) (also mask v) (upd x v false) i = Ok e0 /\ val e = val e1 + val e0.
Proof. exact @total_probability. Qed.
Print Assumptions C71_total.
Theorem C71_more_evidence : forall P val, parith P val -> forall (m : mgr P) i s t mask x mask' x', psdd_at val m i s t -> tops_one t -> nonneg t ->
  (forall v, In v (leaves s) -> mask v = true -> mask' v = true /\ x' v = x v) ->
  exists e e', Evaluate (m_heap m) mask x i = Ok e /\ Evaluate (m_heap m) mask' x' i = Ok e' /\ 0 <= val e' <= val e.
Proof. exact @more_evidence. Qed.
Print Assumptions C71_more_evidence.
Theorem C71_consistent : forall P val, parith P val -> forall (m : mgr P) i s t mask x f, psdd_at val m i s t -> tops_one t -> positive t ->
  (forall j, reach (m_heap m) i j -> f j = false) ->
  exists e b f', Evaluate (m_heap m) mask x i = Ok e /\ IsConsistent (m_heap m) mask x i f = Ok (b, f') /\ (b = true <-> 0 < val e) /\ (b = false <-> val e = 0).
Proof. exact @consistent_positive. Qed.
Print Assumptions C71_consistent.
(** The MPE value is the probability of the returned instantiation, bounds every complete evidence from above, is a lower bound
    of every evidence the returned instantiation extends, and is at least the average over the models that ModelCount counts. *)
Theorem C71_mpe : forall P val, pexact P val -> forall (m : mgr P) i s t L ud fuel, psdd_at val m i s t -> nonneg t -> deterministic t -> normalized t ->
  SerializePsddNodes (m_heap m) [i] = Ok L -> (vsize s <= fuel)%nat ->
  exists x v ud' n, GetMPESolution fuel (m_heap m) L ud = Ok (x, v, ud') /\ ModelCount (m_heap m) L = Ok n /\
    (exists e, Evaluate (m_heap m) (fun _ => true) x i = Ok e /\ val e = val v) /\
    (forall mask y e, (forall w, In w (leaves s) -> mask w = true) -> Evaluate (m_heap m) mask y i = Ok e -> val e <= val v) /\
    (forall mask e, Evaluate (m_heap m) mask x i = Ok e -> val v <= val e) /\
    1 <= IZR (Z.of_N n) * val v.
Proof. exact @mpe_agrees. Qed.
Print Assumptions C71_mpe.
Theorem C71_sample : forall P val, pexact P val -> forall (m : mgr P) i s t fuel us mask, psdd_at val m i s t -> nonneg t -> normalized t ->
  (i < fuel)%nat -> (vsize s <= length us)%nat -> (forall u, In u us -> val u < 1) ->
  exists x us' e, DirectSample fuel (m_heap m) i (fun _ => false) us = Ok (x, us') /\ Evaluate (m_heap m) mask x i = Ok e /\ 0 < val e.
Proof. exact @sample_agrees. Qed.
Print Assumptions C71_sample.
Theorem C71_marginals : forall P val, parith P val -> forall (m : mgr P) i s t L v, psdd_at val m i s t -> normalized t -> SerializePsddNodes (m_heap m) [i] = Ok L ->
  In v (leaves s) -> exists mg pf pt, GetMarginals (m_heap m) L = Ok mg /\ mg v = Some (pf, pt) /\ val pf + val pt = 1.
Proof. exact @marginals_agree. Qed.
Print Assumptions C71_marginals.
(** Bayes: node [b] has the weight [c] on the evidence and zero elsewhere.  The constant of the product is [c] times the
    probability of the evidence, and evaluating the product gives the conditional probability. *)
Theorem C71_bayes : forall P val, pexact P val -> forall fl (m : mgr P) a b p s ta tb mask y c, tidy val fl m -> subtree (m_vt m) p = Some s ->
  node_at val m a p ta -> node_at val m b p tb -> positive ta -> positive tb -> normalized ta ->
  (forall x, weight tb x = if agreesb (leaves s) mask y x then c else 0) ->
  exists r z m' e, Multiply m a b fl = Ok ((r, z), m') /\ Evaluate (m_heap m) mask y a = Ok e /\ val z = c * val e /\
    (r = None -> val e = 0) /\
    forall i, r = Some i -> forall mask2, exists e2 e12, Evaluate (m_heap m') mask2 y i = Ok e2 /\
      Evaluate (m_heap m) (fun w => mask2 w || mask w) y a = Ok e12 /\ val e2 * val e = val e12.
Proof. exact @bayes. Qed.
Print Assumptions C71_bayes.

Definition ex_L8 : list nat := Eval vm_compute in match SerializePsddNodes (m_heap ex_m) [8%nat] with Ok L => L | _ => [] end.
Example C71_nonvacuous : parith Qex qval /\ @psdd_at Qex qval ex_m 8 ex_vt ex_t8 /\ tops_one ex_t8 /\ positive ex_t8 /\ In 3%N (leaves ex_vt) /\
  Evaluate (m_heap ex_m) (N.eqb 1) (fun _ => true) 8 = Ok (q 1 4) /\
  Evaluate (m_heap ex_m) (also (N.eqb 1) 3) (upd (fun _ => true) 3 true) 8 = Ok (q 1 12) /\
  Evaluate (m_heap ex_m) (also (N.eqb 1) 3) (upd (fun _ => true) 3 false) 8 = Ok (q 1 6).
Proof.
  split; [exact Qex_exact|]. split; [exact ex_at8|]. split; [apply normalized_tops_one, ex_normalized|]. split; [apply ex_positive|].
  split; [vm_compute; auto 6|]. repeat split; vm_compute; reflexivity.
Qed.
Example C71_mpe_nonvacuous : pexact Qex qval /\ @psdd_at Qex qval ex_m 8 ex_vt ex_t8 /\ nonneg ex_t8 /\ deterministic ex_t8 /\ normalized ex_t8 /\
  SerializePsddNodes (m_heap ex_m) [8%nat] = Ok ex_L8 /\ (exists x ud', GetMPESolution (vsize ex_vt) (m_heap ex_m) ex_L8 (fun _ => None) = Ok (x, q 1 4, ud')) /\
  ModelCount (m_heap ex_m) ex_L8 = Ok 8%N.
Proof.
  split; [exact Qex_exact|]. split; [exact ex_at8|]. split; [exact ex_nonneg|]. split; [apply ex_deterministic|]. split; [apply ex_normalized|].
  split; [vm_compute; reflexivity|]. split; [do 2 eexists|]; vm_compute; reflexivity.
Qed.
(** Node 10 is the indicator of "variable 1 is true" with weight 1/2; node 6 gives this 1/4. *)
Definition ag_ops : list (@op Qex) := pr_ops ++ [ODec [0]%nat [5]%nat [q 1 1] 0].
Definition ag_m : mgr Qex := Eval vm_compute in match runs (new_mgr pr_vt) ag_ops with Ok m => m | _ => new_mgr pr_vt end.
Definition ag_e : ptree := TDec [(TLit 1, TTop 2 (1/2) (1/2), 1)].
Example C71_bayes_nonvacuous : @tidy Qex qval 0 ag_m /\ subtree (m_vt ag_m) [] = Some pr_vt /\ @node_at Qex qval ag_m 6 [] pr_a /\ @node_at Qex qval ag_m 10 [] ag_e /\
  positive pr_a /\ positive ag_e /\ normalized pr_a /\ (forall x, weight ag_e x = if agreesb (leaves pr_vt) (N.eqb 1) (fun _ => true) x then 1 / 2 else 0) /\
  Evaluate (m_heap ag_m) (N.eqb 1) (fun _ => true) 6 = Ok (q 1 4) /\
  exists m', Multiply ag_m 6 10 0 = Ok ((Some 11%nat, q 1 8), m') /\ Evaluate (m_heap m') (N.eqb 2) (fun _ => true) 11 = Ok (q 1 3).
Proof.
  split.
  { apply (@tidy_runs Qex qval 0 ag_ops (new_mgr pr_vt)); [| |vm_compute; reflexivity].
    - constructor. vm_compute. repeat constructor; simpl; intuition congruence.
    - unfold ag_ops, pr_ops. cbn [app]. repeat (constructor; [simpl; first [exact Logic.I | discriminate | intros _; right; unfold qval; simpl; lra]|]). constructor. }
  split; [reflexivity|]. split.
  { split; [reflexivity|]. unfold pr_a. eapply Rep_dec; [reflexivity..|]. repeat constructor; unfold tp, ts, tw; simpl; try rep_lit; try rep_top; qv. }
  split. { split; [reflexivity|]. unfold ag_e. eapply Rep_dec; [reflexivity..|]. repeat constructor; unfold tp, ts, tw; simpl; try rep_lit; try rep_top; qv. }
  split. { unfold positive, pr_a. repeat split; repeat constructor; unfold tw; simpl; try lra; auto. }
  split. { unfold positive, ag_e. repeat split; repeat constructor; unfold tw; simpl; try lra; auto. }
  split; [exact pr_normalized|]. split.
  { intros x. vm_compute (agreesb (leaves pr_vt)). simpl. unfold lit_sat. simpl. destruct (x 1%N), (x 2%N); simpl; lra. }
  split; [vm_compute; reflexivity|]. eexists. split; vm_compute; reflexivity.
Qed.
