(** Property theorems C30 and C32 (psdd_manager.cpp: SampleParameters, LearnPsddParameters). *)
From Coq Require Import Reals Lra.
From Verif Require Import Base Param ParamProofs Vtree VtreeProofs Spec SpecProofs Heap Manager HeapProofs SerProofs RepProofs
  HeapExamples LoadProofs MulProofs ReplayProofs ManagerExamples Query SampleProofs QueryExamples Learn LearnProofs CountProofs LearnExamples.
Local Open Scope R_scope.

(** C30.  [need h L]: the number of draws for the nodes [L].  [D i]: the draws for node [i], taken from the last node of the list to the first; the
    parameters of node [i] are [shares (map dv (D i))], the draws divided by their sum.
    [G], [dv]: the doubles drawn and their values. *)
Theorem C30_sample_parameters : forall (P : pops) (val : P -> R), pexact P val -> forall (G : dops P) dv, dexact G val dv -> forall near1 : P -> bool, (forall p, val p = 1 -> near1 p = true) ->
  forall (m : mgr P) fl root s t ud us, tidy val fl m -> psdd_at val m root s t -> Forall (fun u => 0 < dv u) us ->
  exists L, SerializePsddNodes (m_heap m) [root] = Ok L /\ ((need (m_heap m) L <= length us)%nat ->
  exists r us' ud' m' t', SampleParameters G near1 (m_heap m) ud root fl us m = Ok (r, us', ud', m') /\ mext fl m m' /\
    psdd_at val m' r s t' /\ flag_of (m_heap m') r = Some fl /\ In r (m_live m') /\
    (forall x, base t' x = base t x) /\ positive t' /\ normalized t' /\ (deterministic t -> deterministic t') /\
    (exists D, us = concat (map D (rev L)) ++ us' /\ (forall i, In i L -> length (D i) = need_at (m_heap m) i) /\
       relab (fun i => shares (map dv (D i))) (m_heap m) root t') /\
    (forall i, In i L -> ud' i = None) /\ (forall i, ~ In i L -> ud' i = ud i)).
Proof. exact @sample_params_full. Qed.
Print Assumptions C30_sample_parameters.
Example C30_nonvacuous : dexact (Dself Qex) qval qval /\ (forall p : Qex, qval p = 1 -> near1_q p = true) /\ @tidy Qex qval 0 ex_m /\ @psdd_at Qex qval ex_m 8 ex_vt ex_t8 /\
  Forall (fun u : Qex => 0 < qval u) ex_draws /\ exists L, SerializePsddNodes (m_heap ex_m) [8%nat] = Ok L /\ (need (m_heap ex_m) L <= length ex_draws)%nat.
Proof.
  split; [exact (dself_exact _ _ Qex_exact)|]. split; [exact near1_q_one|]. split; [exact ex_tidy|]. split; [exact ex_at8|]. split; [exact ex_draws_pos|].
  eexists. split; [vm_compute; reflexivity|vm_compute; repeat constructor].
Qed.
(** Several roots: fine when they have the same depth, undefined behaviour (null dereference) otherwise. *)
Theorem C30_several_roots_same_depth : forall (P : pops) (val : P -> R), pexact P val -> forall (G : dops P) dv, dexact G val dv -> forall near1 : P -> bool, (forall p, val p = 1 -> near1 p = true) ->
  forall (hs : heap P) ud roots fl s (m : mgr P) dp, heap_ok (m_vt m) hs -> Inv val fl m ->
  (forall r, In r roots -> (r < length hs)%nat /\ depth hs r = dp) -> Forall (fun u => 0 < dv u) s ->
  exists L, SerializePsddNodes hs roots = Ok L /\ ((need hs L <= length s)%nat ->
  exists rs D s' ud' m', let f := fun i => shares (map dv (D i)) in SampleParametersForMultiplePsdds G near1 hs ud roots fl s m = Ok (rs, s', ud', m') /\
    s = concat (map D (rev L)) ++ s' /\ (forall i, In i L -> length (D i) = need_at hs i) /\
    Inv val fl m' /\ mext fl m m' /\
    Forall2 (fun r r' => exists p t', vt_of hs r = Some p /\ node_at val m' r' p t' /\ relab f hs r t' /\ dists f hs r /\ flag_of (m_heap m') r' = Some fl /\ In r' (m_live m')) roots rs /\
    (forall i, In i L -> ud' i = None) /\ (forall i, ~ In i L -> ud' i = ud i)).
Proof. exact @sample_spec_multi. Qed.
Print Assumptions C30_several_roots_same_depth.
Theorem C30_several_roots_refuted : exists (m : mgr Qex) roots us, @tidy Qex qval 0 m /\ Forall (fun u : Qex => 0 < qval u) us /\
  (forall r, In r roots -> exists s t, @psdd_at Qex qval m r s t) /\
  SampleParametersForMultiplePsdds (Dself Qex) near1_q (m_heap m) no_ud roots 0 us m = UB.
Proof.
  exists ex_m, [4; 8]%nat, ex_draws. split; [exact ex_tidy|]. split; [exact ex_draws_pos|]. split; [|exact multi_depth_ub].
  intros r [<-|[<-|[]]]; do 2 eexists; [exact ex_at4|exact ex_at8].
Qed.
Print Assumptions C30_several_roots_refuted.

(** C32.  [hits], [node_counts], [freqs]: the specification at the head of CountProofs.v; [relab f h root t']: [t'] is the PSDD of
    [root] with the parameters [f i] at node [i].  The examples are given by the records [recs], the counts are zero before. *)
Theorem C32_learn : forall P val, pexact P val -> forall (m : mgr P) fl root s t ud (dc : counts) (recs : list inst) (ex : examples) alpha,
  tidy val fl m -> psdd_at val m root s t ->
  (forall v, In v (leaves s) -> ex v = Some (map (fun x => x v) recs)) ->
  (forall i nd, reach (m_heap m) root i -> nth_error (m_heap m) i = Some nd -> dc i = repeat 0%N (arity nd)) -> 0 < val alpha ->
  exists r ud' dc' m' t' f, LearnPsddParameters (m_heap m) ud dc root ex (length recs) alpha fl m = Ok (r, ud', dc', m') /\ mext fl m m' /\
    psdd_at val m' r s t' /\ flag_of (m_heap m') r = Some fl /\ In r (m_live m') /\
    relab f (m_heap m) root t' /\
    (forall i nd, reach (m_heap m) root i -> nth_error (m_heap m) i = Some nd ->
       exists ns, node_counts val (m_heap m) root recs i nd ns /\ f i = freqs (val alpha) ns) /\
    (forall x, base t' x = base t x) /\ positive t' /\ normalized t' /\ (deterministic t -> deterministic t') /\
    (forall i, dc' i = dc i) /\
    (forall i, reach (m_heap m) root i -> ud' i = None) /\ (forall i, ~ reach (m_heap m) root i -> ud' i = ud i).
Proof. exact @learn_full. Qed.
Print Assumptions C32_learn.
Example C32_nonvacuous : @tidy Qex qval 0 ex_m /\ @psdd_at Qex qval ex_m 8 ex_vt ex_t8 /\
  (forall v, In v (leaves ex_vt) -> ex_examples v = Some (map (fun x : inst => x v) ex_recs)) /\
  (forall i nd, reach (m_heap ex_m) 8 i -> nth_error (m_heap ex_m) i = Some nd -> ex_dc i = repeat 0%N (arity nd)) /\ 0 < qval (q 1 2) /\
  exists r ud dc m', ex_learned = Ok (r, ud, dc, m') /\
  exists x y nd, nth_error (m_heap m') r = Some (MkN [] 7 (BDec [MkE x y (q 1 1)])) /\ nth_error (m_heap m') x = Some nd /\
    map e_param (match n_body nd with BDec es => es | _ => [] end) = [q 3 10; q 7 10].
Proof.
  split; [exact ex_tidy|]. split; [exact ex_at8|]. split; [reflexivity|]. split; [exact ex_dc_zero|]. split; [unfold qval; simpl; lra|]. exact ex_learned_params.
Qed.
(** Without smoothing it holds when every parameter is supported by a record ... *)
Theorem C32_learn_supported : forall P val, pexact P val -> forall (m : mgr P) fl root s t ud (dc : counts) (recs : list inst) (ex : examples) alpha,
  tidy val fl m -> psdd_at val m root s t ->
  (forall v, In v (leaves s) -> ex v = Some (map (fun x => x v) recs)) ->
  (forall i nd, reach (m_heap m) root i -> nth_error (m_heap m) i = Some nd -> dc i = repeat 0%N (arity nd)) ->
  (forall i nd ns, reach (m_heap m) root i -> nth_error (m_heap m) i = Some nd -> node_counts val (m_heap m) root recs i nd ns -> Forall (fun n => 0 < rn n + val alpha) ns) ->
  exists r ud' dc' m' t' f, LearnPsddParameters (m_heap m) ud dc root ex (length recs) alpha fl m = Ok (r, ud', dc', m') /\ mext fl m m' /\
    psdd_at val m' r s t' /\ flag_of (m_heap m') r = Some fl /\ In r (m_live m') /\
    relab f (m_heap m) root t' /\
    (forall i nd, reach (m_heap m) root i -> nth_error (m_heap m) i = Some nd ->
       exists ns, node_counts val (m_heap m) root recs i nd ns /\ f i = freqs (val alpha) ns) /\
    (forall x, base t' x = base t x) /\ positive t' /\ normalized t' /\ (deterministic t -> deterministic t') /\
    (forall i, dc' i = dc i) /\
    (forall i, reach (m_heap m) root i -> ud' i = None) /\ (forall i, ~ reach (m_heap m) root i -> ud' i = ud i).
Proof. exact @learn_gen. Qed.
Print Assumptions C32_learn_supported.
(** ... and otherwise the code creates parameters that are not numbers. *)
Theorem C32_alpha_zero_refuted : forall a b : Lcode, GetPsddTopNode (new_mgr (Leaf 1)) 1 0 a b = Ok (0%nat, one_top a b) /\
  exists r ud dc m', LearnPsddParameters (m_heap (one_top a b)) no_ud (fun _ => [0; 0]%N) 0 (fun _ => Some []) 0 (@pzero Lcode) 7 (one_top a b) = Ok (r, ud, dc, m') /\
    nth_error (m_heap m') r = Some (MkN [] 7 (BTop 1 nan_param nan_param)).
Proof. exact alpha_zero_nan. Qed.
Print Assumptions C32_alpha_zero_refuted.
