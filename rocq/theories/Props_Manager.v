(** Property theorems C24-C29 and C51 (psdd_manager.cpp: true nodes, normalization, loading, multiplication).
    [tidy val fl m]: the manager [m] was reached from a fresh manager by any sequence of operations in which the top
    nodes requested with flag [fl] have parameters (1,1) or summing to one with a non-zero false part (C12 shows why
    this is needed). *)
From Coq Require Import Reals Lra.
From Verif Require Import Base Param ParamProofs Vtree VtreeProofs Spec SpecProofs Heap Manager HeapProofs SerProofs
  RepProofs OrderProofs CanonProofs HeapExamples LoadProofs MulProofs ReplayProofs ManagerExamples.
Local Open Scope R_scope.

(** C24 *)
Theorem C24_true_node : forall P val, pexact P val -> forall fl (m : mgr P) p s, tidy val fl m -> subtree (m_vt m) p = Some s ->
  exists i m' t, GetTrueNode p fl m = Ok (i, m') /\ vt_of (m_heap m') i = Some p /\ In i (m_live m') /\
    Rep val (m_heap m') i t /\ conforms s t /\ (forall x, weight t x = 1) /\ mext fl m m' /\
    (forall m2, Wf m2 -> grow m' m2 -> GetTrueNode p fl m2 = Ok (i, m2)).
Proof. exact @true_node_full. Qed.
Print Assumptions C24_true_node.
Example C24_nonvacuous : @tidy Qex qval 0 ex_m /\ subtree (m_vt ex_m) [] = Some ex_vt.
Proof. split; [exact ex_tidy|reflexivity]. Qed.
(** the second call, for the code's parameters *)
Theorem C24_same_node_code : forall p fl (m : mgr Lcode) i m1 m2, GetTrueNode p fl m = Ok (i, m1) ->
  Wf m2 -> live_good cgood m2 -> grow m1 m2 -> GetTrueNode p fl m2 = Ok (i, m2).
Proof. exact true_again_code. Qed.
Print Assumptions C24_same_node_code.

(** C25 *)
Theorem C25_normalize : forall P val, pexact P val -> forall fl (m : mgr P) i q t,
  tidy val fl m -> vt_of (m_heap m) i = Some q -> Rep val (m_heap m) i t ->
  (forall u p, q = u ++ p -> exists j m' t', NormalizePsddNode (Some p) i fl m = Ok (j, m') /\ mext fl m m' /\
      vt_of (m_heap m') j = Some p /\ Rep val (m_heap m') j t' /\ (exists s, subtree (m_vt m) p = Some s /\ conforms s t') /\
      (forall x, weight t' x = weight t x) /\ (forall x, base t' x = base t x) /\
      (u <> [] -> flag_of (m_heap m') j = Some fl /\ In j (m_live m'))) /\
  (forall target, (forall u p, q = u ++ p -> target <> Some p) -> NormalizePsddNode target i fl m = Abort).
Proof. exact @normalize_full. Qed.
Print Assumptions C25_normalize.
Example C25_nonvacuous : @tidy Qex qval 0 ex_m /\ vt_of (m_heap ex_m) 4 = Some ([false] ++ []) /\ @Rep Qex qval (m_heap ex_m) 4 ex_t4 /\
  exists j m', NormalizePsddNode (Some []) 4 0 ex_m = Ok (j, m') /\ NormalizePsddNode (Some [true]) 4 0 ex_m = Abort.
Proof.
  split; [exact ex_tidy|]. split; [reflexivity|]. split; [exact ex_r4|]. do 2 eexists. split; vm_compute; reflexivity.
Qed.

(** C26.  The source [root] lives in the heap [hs] of any manager (with vtree [sroot]); [emb (m_vt m) s q]: the source
    vtree [s] occurs in the target manager's vtree at [q], possibly with more variables in between. *)
Theorem C26_load : forall P val, pexact P val -> forall sroot (hs : heap P) root fl (m : mgr P) ud q s p u t,
  heap_ok sroot hs -> vt_of hs root = Some q -> subtree sroot q = Some s -> Rep val hs root t -> tops_fine t ->
  tidy val fl m -> emb (m_vt m) s (u ++ p) ->
  exists j ud' m' t', LoadPsddNode hs ud (Some p) root fl m = Ok (j, ud', m') /\ mext fl m m' /\
    vt_of (m_heap m') j = Some p /\ flag_of (m_heap m') j = Some fl /\ In j (m_live m') /\ Rep val (m_heap m') j t' /\
    (exists s', subtree (m_vt m) p = Some s' /\ conforms s' t') /\
    (forall x, weight t' x = weight t x) /\ (forall x, base t' x = base t x) /\
    (positive t -> positive t') /\ (deterministic t -> deterministic t') /\
    (subtree (m_vt m) p = Some s -> normalized t -> normalized t') /\
    (forall i, reach hs root i -> ud' i = None) /\ (forall i, ~ reach hs root i -> ud' i = ud i).
Proof. exact @load_full. Qed.
Print Assumptions C26_load.
Example C26_nonvacuous : heap_ok ex_vt (m_heap ex_m) /\ vt_of (m_heap ex_m) 8 = Some [] /\ subtree ex_vt [] = Some ex_vt /\
  @Rep Qex qval (m_heap ex_m) 8 ex_t8 /\ tops_fine ex_t8 /\ @tidy Qex qval 5 (new_mgr big_vt) /\ emb (m_vt (new_mgr (P := Qex) big_vt)) ex_vt ([true] ++ []).
Proof.
  split; [exact ex_heap_ok|]. split; [reflexivity|]. split; [reflexivity|]. split; [exact ex_r8|]. split; [exact ex_tops_fine|].
  split; [exact big_tidy|exact big_emb].
Qed.

(** C27 *)
Theorem C27_multiply : forall P val, pexact P val -> forall fl (m : mgr P) a b p ta tb, tidy val fl m ->
  vt_of (m_heap m) a = Some p -> vt_of (m_heap m) b = Some p -> Rep val (m_heap m) a ta -> Rep val (m_heap m) b tb ->
  positive ta -> positive tb ->
  exists r z m', Multiply m a b fl = Ok ((r, z), m') /\ mext fl m m' /\
    (r = None <-> forall x, weight ta x * weight tb x = 0) /\
    match r with
    | None => val z = 0
    | Some i => 0 < val z /\ exists t, Rep val (m_heap m') i t /\ forall x, weight t x * val z = weight ta x * weight tb x
    end.
Proof. exact @multiply_full. Qed.
Print Assumptions C27_multiply.
(** both outcomes occur: nodes 4 and 9 are contradictory, node 4 times itself is not *)
Example C27_nonvacuous : @tidy Qex qval 0 ex_m /\ vt_of (m_heap ex_m) 4 = Some [false] /\ vt_of (m_heap ex_m) 9 = Some [false] /\
  @Rep Qex qval (m_heap ex_m) 4 ex_t4 /\ @Rep Qex qval (m_heap ex_m) 9 ex_t9 /\ positive ex_t4 /\ positive ex_t9 /\
  (exists z m', Multiply ex_m 4 9 0 = Ok ((None, z), m')) /\ (exists i z m', Multiply ex_m 4 4 0 = Ok ((Some i, z), m')).
Proof.
  split; [exact ex_tidy|]. split; [reflexivity|]. split; [reflexivity|]. split; [exact ex_r4|]. split; [exact ex_r9|].
  split; [apply ex_positive|]. split; [apply ex_positive|]. split; repeat eexists; vm_compute; reflexivity.
Qed.

(** C28 *)
Theorem C28_multiply_shape : forall P val, pexact P val -> forall fl (m : mgr P) a b p ta tb i z m', tidy val fl m ->
  vt_of (m_heap m) a = Some p -> vt_of (m_heap m) b = Some p -> Rep val (m_heap m) a ta -> Rep val (m_heap m) b tb ->
  positive ta -> positive tb -> Multiply m a b fl = Ok ((Some i, z), m') ->
  vt_of (m_heap m') i = Some p /\ flag_of (m_heap m') i = Some fl /\ In i (m_live m') /\
  exists s t, subtree (m_vt m) p = Some s /\ Rep val (m_heap m') i t /\ conforms s t /\ positive t /\ normalized t /\
    (forall x, base t x = base ta x && base tb x) /\ (deterministic ta -> deterministic tb -> deterministic t).
Proof. exact @multiply_shape. Qed.
Print Assumptions C28_multiply_shape.
Example C28_nonvacuous : deterministic ex_t8 /\ positive ex_t8 /\ @Rep Qex qval (m_heap ex_m) 8 ex_t8 /\ vt_of (m_heap ex_m) 8 = Some [] /\
  exists i z m', Multiply ex_m 8 8 0 = Ok ((Some i, z), m').
Proof. split; [apply ex_deterministic|]. split; [apply ex_positive|]. split; [exact ex_r8|]. split; [reflexivity|]. repeat eexists; vm_compute; reflexivity. Qed.

(** C29 is false of the code: a normalized top or decision node with one zero parameter makes Multiply abort, although
    the product is not zero.  (With positive parameters it holds: C27.) *)
Theorem C29_zero_parameters_refuted : exists (m : mgr Qex) a b ta tb, @tidy Qex qval 0 m /\
  @Rep Qex qval (m_heap m) a ta /\ @Rep Qex qval (m_heap m) b tb /\ nonneg ta /\ normalized ta /\ nonneg tb /\ normalized tb /\
  deterministic ta /\ deterministic tb /\ Multiply m a a 0 = Abort /\ Multiply m b b 0 = Abort /\
  (exists x, 0 < weight ta x * weight ta x) /\ (exists x, 0 < weight tb x * weight tb x).
Proof. exact zero_params_false. Qed.
Print Assumptions C29_zero_parameters_refuted.
(** What holds: zero parameters do no harm where they are not combined ([safe]: for two elements whose primes have a common
    instantiation and whose subs have one, both parameters are non-zero; likewise for top nodes).  The product and its shape
    are then as in C27 and C28.  Missing: the cases of the theorem above. *)
Theorem C29_multiply_partial : forall P val, pexact P val -> forall fl (m : mgr P) a b p ta tb, tidy val fl m ->
  vt_of (m_heap m) a = Some p -> vt_of (m_heap m) b = Some p -> Rep val (m_heap m) a ta -> Rep val (m_heap m) b tb ->
  safe ta tb ->
  exists r z m', Multiply m a b fl = Ok ((r, z), m') /\ mext fl m m' /\
    (r = None <-> forall x, weight ta x * weight tb x = 0) /\
    match r with
    | None => val z = 0
    | Some i => 0 < val z /\ vt_of (m_heap m') i = Some p /\ flag_of (m_heap m') i = Some fl /\ In i (m_live m') /\
        exists s t, subtree (m_vt m) p = Some s /\ Rep val (m_heap m') i t /\ conforms s t /\ positive t /\ normalized t /\
          (forall x, weight t x * val z = weight ta x * weight tb x) /\
          (forall x, base t x = base ta x && base tb x) /\ (deterministic ta -> deterministic tb -> deterministic t)
    end.
Proof. exact @multiply_zero_safe. Qed.
Print Assumptions C29_multiply_partial.
(** node 4 has an element with parameter zero, node 5 excludes that element's prime *)
Example C29_nonvacuous : @tidy Qex qval 0 z_m /\ @Rep Qex qval (m_heap z_m) 4 z_dec /\ @Rep Qex qval (m_heap z_m) 5 z_neg /\
  vt_of (m_heap z_m) 4 = Some [] /\ vt_of (m_heap z_m) 5 = Some [] /\
  safe z_dec z_neg /\ ~ positive z_dec /\ exists i z m', Multiply z_m 4 5 0 = Ok ((Some i, z), m').
Proof. split; [exact z_tidy|]. split; [exact z_r4|exact z_safe]. Qed.

(** C51.  [grow m1 m2]: nothing was collected since; then asking again returns the same node and creates nothing. *)
Theorem C51_requests_idempotent : forall P val, pexact P val ->
  (forall p fl, same_again (P := P) (GetTrueNode p fl)) /\ (forall tg i fl, same_again (P := P) (NormalizePsddNode tg i fl)) /\
  (forall ps ss ws fl, same_again (P := P) (fun m => GetConformedPsddDecisionNode m ps ss ws fl)) /\
  (forall hs ud tg r fl, same_again (P := P) (LoadPsddNode hs ud tg r fl)) /\
  (forall a b fl, same_again (P := P) (fun m => Multiply m a b fl)).
Proof. exact @requests_again. Qed.
Print Assumptions C51_requests_idempotent.
Example C51_nonvacuous : exists r m1, Multiply ex_m 8 8 7 = Ok (r, m1) /\ length (m_heap ex_m) <> length (m_heap m1) /\ Multiply m1 8 8 7 = Ok (r, m1).
Proof. do 2 eexists. split; [vm_compute; reflexivity|]. split; [vm_compute; discriminate|vm_compute; reflexivity]. Qed.
