(** Property theorems C73 (what is learnt depends on the structure and the records), C74 (sampling with the same random numbers) and
    C75 (what collections give back).
    [same_graph h h' r r' f]: [f] maps the nodes below [r] one to one to the nodes below [r'], with the same literals and variables and, up
    to their order, the same elements; parameters are not compared.  [same_order] asks in addition for the same order of the elements, and
    [same_sampler] for the same parameters as well. *)
From Coq Require Import Reals Lra Permutation.
From Verif Require Import Base Param ParamProofs Vtree VtreeProofs Spec SpecProofs Heap Manager HeapProofs SerProofs
  RepProofs OrderProofs CanonProofs HeapExamples LoadProofs MulProofs ReplayProofs ManagerExamples TreeProofs Query QueryProofs MpeProofs SampleProofs Learn LearnProofs CountProofs LearnExamples BoxProofs
  ProductTrees ProductNodes ProductProofs ProductExamples Text IO IOProofs OneNode OneExamples Elsewhere Props_Elsewhere SameShape HistoryExamples.
Local Open Scope R_scope.

(** C73.  Two PSDDs with the same graph, in any managers, with any parameters, flags and node numbers: the same records give the same PSDD. *)
Theorem C73_learn : forall P val, pexact P val -> forall (m m' : mgr P) fl fl' root root' s t t' f ud ud' (dc dc' : counts) (recs : list inst) (ex ex' : examples) alpha alpha',
  tidy val fl m -> tidy val fl' m' -> psdd_at val m root s t -> psdd_at val m' root' s t' -> same_graph (m_heap m) (m_heap m') root root' f ->
  (forall v, In v (leaves s) -> ex v = Some (map (fun x => x v) recs)) -> (forall v, In v (leaves s) -> ex' v = Some (map (fun x => x v) recs)) ->
  (forall i nd, reach (m_heap m) root i -> nth_error (m_heap m) i = Some nd -> dc i = repeat 0%N (arity nd)) ->
  (forall i nd, reach (m_heap m') root' i -> nth_error (m_heap m') i = Some nd -> dc' i = repeat 0%N (arity nd)) -> 0 < val alpha -> val alpha = val alpha' ->
  exists i ud1 dc1 m1 t1 i' ud1' dc1' m1' t1',
    LearnPsddParameters (m_heap m) ud dc root ex (length recs) alpha fl m = Ok (i, ud1, dc1, m1) /\ psdd_at val m1 i s t1 /\
    LearnPsddParameters (m_heap m') ud' dc' root' ex' (length recs) alpha' fl' m' = Ok (i', ud1', dc1', m1') /\ psdd_at val m1' i' s t1' /\ shuffled t1 t1'.
Proof. exact @learn_same. Qed.
Print Assumptions C73_learn.
(** A PSDD that two managers hold, each with one flag: they learn the same PSDD from the same records. *)
Theorem C73_learn_elsewhere : forall P val, pexact P val -> forall (m m' : mgr P) fl fl' root root' p p' s t t' ud ud' (dc dc' : counts) (recs : list inst) (ex ex' : examples) alpha alpha',
  tidy val fl m -> tidy val fl' m' -> node_at val m root p t -> node_at val m' root' p' t' -> subtree (m_vt m) p = Some s -> subtree (m_vt m') p' = Some s ->
  held fl m root -> held fl' m' root' -> shuffled t t' -> deterministic t ->
  (forall v, In v (leaves s) -> ex v = Some (map (fun x => x v) recs)) -> (forall v, In v (leaves s) -> ex' v = Some (map (fun x => x v) recs)) ->
  (forall i nd, reach (m_heap m) root i -> nth_error (m_heap m) i = Some nd -> dc i = repeat 0%N (arity nd)) ->
  (forall i nd, reach (m_heap m') root' i -> nth_error (m_heap m') i = Some nd -> dc' i = repeat 0%N (arity nd)) -> 0 < val alpha -> val alpha = val alpha' ->
  exists i ud1 dc1 m1 t1 i' ud1' dc1' m1' t1',
    LearnPsddParameters (m_heap m) ud dc root ex (length recs) alpha fl m = Ok (i, ud1, dc1, m1) /\ psdd_at val m1 i s t1 /\
    LearnPsddParameters (m_heap m') ud' dc' root' ex' (length recs) alpha' fl' m' = Ok (i', ud1', dc1', m1') /\ psdd_at val m1' i' s t1' /\ shuffled t1 t1'.
Proof.
  intros P val HP m m' fl fl' root root' p p' s t t' ud ud' dc dc' recs ex ex' alpha alpha' T T' A A' S S' H H' SH D X X' Z Z' PA EA.
  pose proof (tidy_inv val HP _ _ T) as I. pose proof (tidy_inv val HP _ _ T') as I'.
  destruct (held_graph val HP m m' fl fl' (proj1 I) (proj1 I') (tidy_sorted val _ _ T) (tidy_sorted val _ _ T') root root' p p' t t' A A' H H' SH D) as [f SG].
  apply (learn_same val HP m m' fl fl' root root' s t t' f); auto.
  - split; [apply I|]. split; [apply A|]. exists p. split; [apply A|exact S].
  - split; [apply I'|]. split; [apply A'|]. exists p'. split; [apply A'|exact S'].
Qed.
Print Assumptions C73_learn_elsewhere.
(** the PSDD of C70 in two managers, with the elements in opposite orders *)
Example C73_nonvacuous : pexact Qex qval /\ @tidy Qex qval 0 pr_m /\ @tidy Qex qval 5 on_m /\ @node_at Qex qval pr_m 6 [] pr_a /\ @node_at Qex qval on_m 4 [] on_t /\
  held 0 pr_m 6 /\ held 5 on_m 4 /\ shuffled pr_a on_t /\ deterministic pr_a /\
  (exists i u d m i' u' d' m', hi_learn pr_m 6 hi_recs (q 1 1) 0 = Ok (i, u, d, m) /\ hi_learn on_m 4 hi_recs (q 1 1) 5 = Ok (i', u', d', m') /\
     Evaluate (m_heap m) (fun _ => true) (fun _ => true) i = Ok (q 1 3) /\ Evaluate (m_heap m') (fun _ => true) (fun _ => true) i' = Ok (q 1 3)).
Proof.
  split; [exact Qex_exact|]. split; [exact pr_tidy|]. split; [exact on_tidy|]. split; [apply pr_a_at|]. split; [apply on_operand|]. split; [exact pr_held|].
  split; [exact on_held|]. split; [apply shuffled_sym, on_shuffled|]. split; [apply pr_a_at|]. do 8 eexists. do 2 (split; [vm_compute; reflexivity|]). split; vm_compute; reflexivity.
Qed.
(** What is learnt does depend on what was learnt before: nodes that come out equal are shared from then on.  Learning from no records and
    then from two records gives another distribution than learning from the two records. *)
Theorem C73_learn_twice_refuted : exists (m : mgr Qex) root t recs alpha i1 u1 d1 m1 i2 u2 d2 m2 i3 u3 d3 m3 x e e',
  @tidy Qex qval 0 m /\ @node_at Qex qval m root [] t /\ held 0 m root /\ deterministic t /\ 0 < qval alpha /\
  hi_learn m root [] alpha 0 = Ok (i1, u1, d1, m1) /\ hi_learn m1 i1 recs alpha 0 = Ok (i2, u2, d2, m2) /\ hi_learn m root recs alpha 0 = Ok (i3, u3, d3, m3) /\
  Evaluate (m_heap m2) (fun _ => true) x i2 = Ok e /\ Evaluate (m_heap m3) (fun _ => true) x i3 = Ok e' /\ qval e <> qval e'.
Proof.
  destruct hi_tied as (i1 & u1 & d1 & m1 & i2 & u2 & d2 & m2 & i3 & u3 & d3 & m3 & E1 & E2 & E3 & V1 & V2).
  exists pr_m, 6%nat, pr_a, hi_recs, (q 1 1), i1, u1, d1, m1, i2, u2, d2, m2, i3, u3, d3, m3, (fun _ => true), (q 1 4), (q 1 3).
  split; [exact pr_tidy|]. split; [apply pr_a_at|]. split; [exact pr_held|]. split; [apply pr_a_at|]. split; [unfold qval; simpl; lra|].
  do 5 (split; [assumption|]). unfold qval; simpl; lra.
Qed.
Print Assumptions C73_learn_twice_refuted.
(** Nor is it enough that the PSDDs are equal: equal parts with different flags are different nodes with parameters of their own. *)
Theorem C73_flags_refuted : exists ops ops' (m m' : mgr Qex) i i' t recs alpha i1 u1 d1 m1 i2 u2 d2 m2 x e e',
  runs (new_mgr pr_vt) ops = Ok m /\ runs (new_mgr pr_vt) ops' = Ok m' /\ @Rep Qex qval (m_heap m) i t /\ @Rep Qex qval (m_heap m') i' t /\ 0 < qval alpha /\
  hi_learn m i recs alpha 0 = Ok (i1, u1, d1, m1) /\ hi_learn m' i' recs alpha 0 = Ok (i2, u2, d2, m2) /\
  Evaluate (m_heap m1) (fun _ => true) x i1 = Ok e /\ Evaluate (m_heap m2) (fun _ => true) x i2 = Ok e' /\ qval e <> qval e'.
Proof.
  destruct hi_flags as (i1 & u1 & d1 & m1 & i2 & u2 & d2 & m2 & E1 & E2 & V1 & V2).
  exists hi_one, hi_two, hi_m1, hi_m2, 3%nat, 4%nat, hi_t, hi_recs, (q 1 1), i1, u1, d1, m1, i2, u2, d2, m2, (fun _ => true), (q 1 4), (q 1 3).
  split; [apply hi_runs|]. split; [apply hi_runs|]. split; [apply hi_reps|]. split; [apply hi_reps|]. split; [unfold qval; simpl; lra|].
  do 4 (split; [assumption|]). unfold qval; simpl; lra.
Qed.
Print Assumptions C73_flags_refuted.

(** C74.  The same PSDD in two managers: DirectSample returns every instantiation with the same probability (the boxes of draws of C57) ... *)
Theorem C74_same_distribution : forall P val, pexact P val -> forall (m m' : mgr P) i i' s t t' fuel fuel', psdd_at val m i s t -> psdd_at val m' i' s t' -> shuffled t t' ->
  nonneg t -> normalized t -> (i < fuel)%nat -> (i' < fuel')%nat ->
  exists Bs Bs' : list (box * inst),
    (forall us, (vsize s <= length us)%nat -> (forall u, In u us -> val u < 1) ->
       (exists b x d us', In (b, x) Bs /\ us = d ++ us' /\ inside b (map val d) /\ DirectSample fuel (m_heap m) i (fun _ => false) us = Ok (x, us')) /\
       (exists b x d us', In (b, x) Bs' /\ us = d ++ us' /\ inside b (map val d) /\ DirectSample fuel' (m_heap m') i' (fun _ => false) us = Ok (x, us'))) /\
    (forall x, rsum (fun B => if same_on (leaves s) x (snd B) then volume (fst B) else 0) Bs = rsum (fun B => if same_on (leaves s) x (snd B) then volume (fst B) else 0) Bs').
Proof.
  intros P val HP m m' i i' s t t' fuel fuel' A A' SH NN NM F F'. pose proof (shuffled_normalized _ _ SH NM) as NM'.
  destruct (sample_boxes val HP m i s t fuel A NN NM F) as (Bs & D1 & _ & W1). pose proof (shuffled_like _ _ SH) as LK.
  destruct (sample_boxes val HP m' i' s t' fuel' A' (lk_nonneg _ _ LK NN) NM' F') as (Bs' & D2 & _ & W2).
  exists Bs, Bs'. split; [|intros x; rewrite W1, W2; symmetry; apply (lk_weight _ _ LK)].
  intros us L U. split.
  - destruct (D1 us L U) as (k & b & x & d & us' & N & E & I & S & _). exists b, x, d, us'. split; auto. eapply nth_error_In; eauto.
  - destruct (D2 us L U) as (k & b & x & d & us' & N & E & I & S & _). exists b, x, d, us'. split; auto. eapply nth_error_In; eauto.
Qed.
Print Assumptions C74_same_distribution.
(** ... and the same instantiation, whatever the draws, if the elements are in the same order. *)
Theorem C74_same_order : forall P (h h' : heap P) fuel i i' x us, same_sampler h h' i i' -> DirectSample fuel h i x us = DirectSample fuel h' i' x us.
Proof. exact @direct_sample_same. Qed.
Print Assumptions C74_same_order.
(** SampleParameters: PSDDs with the same graph and the same order of elements get the same parameters from the same draws, whatever their parameters were. *)
Theorem C74_parameters_same_order : forall P val, pexact P val -> forall (G : dops P) dv, dexact G val dv -> forall near1 : P -> bool, (forall p, val p = 1 -> near1 p = true) ->
  forall (m m' : mgr P) fl fl' root root' s t t' f ud ud' us, tidy val fl m -> tidy val fl' m' -> psdd_at val m root s t -> psdd_at val m' root' s t' ->
  same_order (m_heap m) (m_heap m') root root' f -> Forall (fun u => 0 < dv u) us ->
  (exists L, SerializePsddNodes (m_heap m) [root] = Ok L /\ (need (m_heap m) L <= length us)%nat) ->
  exists r us' ud1 m1 t1 r' ud1' m1' t1', SampleParameters G near1 (m_heap m) ud root fl us m = Ok (r, us', ud1, m1) /\ psdd_at val m1 r s t1 /\
    SampleParameters G near1 (m_heap m') ud' root' fl' us m' = Ok (r', us', ud1', m1') /\ psdd_at val m1' r' s t1' /\ shuffled t1 t1'.
Proof. exact @sample_same. Qed.
Print Assumptions C74_parameters_same_order.
Example C74_nonvacuous : @psdd_at Qex qval pr_m 6 pr_vt pr_a /\ @psdd_at Qex qval so_m 6 pr_vt pr_a /\ @tidy Qex qval 0 pr_m /\ @tidy Qex qval 0 so_m /\ shuffled pr_a pr_a /\ nonneg pr_a /\ normalized pr_a /\
  same_sampler (m_heap pr_m) (m_heap so_m) 6 6 /\ same_order (m_heap pr_m) (m_heap so_m) 6 6 so_f /\ so_f 4 = 5%nat /\ dexact (Dself Qex) qval qval /\ (forall p, qval p = 1 -> near1_q p = true) /\
  Forall (fun u => 0 < qval u) hi_us /\ (exists L, SerializePsddNodes (m_heap pr_m) [6%nat] = Ok L /\ (need (m_heap pr_m) L <= length hi_us)%nat).
Proof.
  split; [apply C72_queries_nonvacuous|]. split; [exact so_at|]. split; [exact pr_tidy|]. split; [exact so_tidy|]. split; [apply shuffled_refl|].
  split; [apply positive_nonneg, pr_a_at|]. split; [exact pr_normalized|]. split; [exact so_sampler|]. split; [exact so_same|]. split; [reflexivity|].
  split; [apply dself_exact, Qex_exact|]. split; [exact near1_q_one|]. split; [exact hi_us_pos|]. eexists. split; [vm_compute; reflexivity|]. cbv. lia.
Qed.
(** In general the same draws give different results: the order of the elements is that of the node numbers, which is a matter of history. *)
Theorem C74_same_sample_refuted : exists (m m' : mgr Qex) i i' t t' us x us1 x' us1', @tidy Qex qval 0 m /\ @tidy Qex qval 5 m' /\ @psdd_at Qex qval m i pr_vt t /\ @psdd_at Qex qval m' i' pr_vt t' /\
  shuffled t t' /\ normalized t /\ (forall u, In u us -> 0 <= qval u < 1) /\
  DirectSample 9 (m_heap m) i (fun _ => false) us = Ok (x, us1) /\ DirectSample 9 (m_heap m') i' (fun _ => false) us = Ok (x', us1') /\ x 1%N <> x' 1%N.
Proof.
  destruct hi_sampled as (x & us & x' & us' & E & E' & X1 & _ & X1' & _). destruct C72_queries_nonvacuous as (A & A' & SH & NM & _).
  exists pr_m, on_m, 6%nat, 4%nat, pr_a, on_t, hi_draws, x, us, x', us'. split; [exact pr_tidy|]. split; [exact on_tidy|]. do 4 (split; [assumption|]).
  split. { intros u [<-|[<-|[]]]; unfold qval; simpl; lra. } split; [exact E|]. split; [exact E'|]. congruence.
Qed.
Print Assumptions C74_same_sample_refuted.
Theorem C74_same_parameters_refuted : exists (m m' : mgr Qex) i i' t t' us r us1 ud1 m1 r' us1' ud1' m1' x e e', @tidy Qex qval 0 m /\ @tidy Qex qval 5 m' /\ @psdd_at Qex qval m i pr_vt t /\ @psdd_at Qex qval m' i' pr_vt t' /\
  shuffled t t' /\ normalized t /\ Forall (fun u => 0 < qval u) us /\
  SampleParameters (Dself Qex) near1_q (m_heap m) no_ud i 0 us m = Ok (r, us1, ud1, m1) /\ SampleParameters (Dself Qex) near1_q (m_heap m') no_ud i' 5 us m' = Ok (r', us1', ud1', m1') /\
  Evaluate (m_heap m1) (fun _ => true) x r = Ok e /\ Evaluate (m_heap m1') (fun _ => true) x r' = Ok e' /\ qval e <> qval e'.
Proof.
  destruct hi_params as (i & us & u & m1 & i' & us' & u' & m1' & E & E' & V & V'). destruct C72_queries_nonvacuous as (A & A' & SH & NM & _).
  exists pr_m, on_m, 6%nat, 4%nat, pr_a, on_t, hi_us, i, us, u, m1, i', us', u', m1', (fun _ => true), (q 15 77), (q 2 11). split; [exact pr_tidy|]. split; [exact on_tidy|]. do 4 (split; [assumption|]).
  split; [exact hi_us_pos|]. do 4 (split; [assumption|]). unfold qval; simpl; lra.
Qed.
Print Assumptions C74_same_parameters_refuted.

(** C75.  After a collection the tables hold at most the nodes reachable from the nodes that are in use ... *)
Theorem C75_tables_bounded : forall P (m : mgr P) used L, Wf m -> (forall u, In u used -> (u < length (m_heap m))%nat) -> SerializePsddNodes (m_heap m) used = Ok L ->
  exists m', DeleteUnusedPsddNodes m used = Ok m' /\ (length (m_live m') <= length L)%nat /\ (length (m_live m') <= length (m_live m))%nat.
Proof.
  intros P m used L W U E. unfold DeleteUnusedPsddNodes. rewrite covered_is_serialized, E. cbn [bind]. eexists. split; [reflexivity|]. cbn [m_live].
  split; [|clear; induction (m_live m) as [|i l IH]; simpl; [lia|destruct (memb i L); simpl; lia]].
  apply NoDup_incl_length; [apply NoDup_filter, (wf_nodup _ W)|]. intros i I. apply filter_In in I as [_ I]. apply memb_In; auto.
Qed.
Print Assumptions C75_tables_bounded.
Example C75_tables_bounded_nonvacuous : Wf pr_m /\ (forall u, In u [8%nat] -> (u < length (m_heap pr_m))%nat) /\ length (m_live pr_m) = 10%nat /\ exists m', SerializePsddNodes (m_heap pr_m) [8%nat] = Ok [8; 7; 4]%nat /\
  DeleteUnusedPsddNodes pr_m [8%nat] = Ok m' /\ length (m_live m') = 3%nat.
Proof.
  split; [apply (@tidy_inv Qex qval Qex_exact _ _ pr_tidy)|]. split; [intros u [<-|[]]; vm_compute; lia|]. split; [reflexivity|]. eexists. split; [vm_compute; reflexivity|]. split; vm_compute; reflexivity.
Qed.
(** ... but the nodes themselves are never freed: a program that creates one node and collects everything, n times, has n nodes in memory and none in the tables. *)
Theorem C75_memory_refuted : forall (P : pops) (v fl : N) (a b : P) n, exists m, runs (new_mgr (Leaf v)) (concat (repeat [OTop v fl a b; OGc []] n)) = Ok m /\ m_live m = [] /\ length (m_heap m) = n.
Proof.
  intros P v fl a b n. exists (MkM (Leaf v) (repeat (MkN [] fl (BTop v a b)) n) []). split; [exact (gm_runs v fl a b n [])|]. split; [reflexivity|]. apply repeat_length.
Qed.
Print Assumptions C75_memory_refuted.
