(** Property theorem C76 (sizes of results).  [adds m m' n w]: manager [m'] has the nodes of [m] and at most [n] more, with at most [w]
    elements in all, where a literal or top node counts as one element.  The number of nodes of a PSDD is the length of its serialization;
    GetPsddSize counts the parameters it is free to choose. *)
From Coq Require Import Reals Lra.
From Verif Require Import Base Param ParamProofs Vtree VtreeProofs Spec SpecProofs Heap Manager HeapProofs SerProofs RepProofs OrderProofs CanonProofs HeapExamples LoadProofs MulProofs ReplayProofs ManagerExamples
  TreeProofs Query QueryProofs Learn LearnProofs LearnExamples ProductExamples HistoryExamples SizeProofs.
Local Open Scope nat_scope.

(** The comparison of any parameters that an exact or truncated arithmetic has. *)
Lemma exact_total P val : pexact P val -> @total P.
Proof.
  intros HP. split.
  - intros a b. apply eq_true_iff_eq. rewrite !(val_eq HP). split; auto.
  - intros a b H1 H2. apply (val_eq HP). destruct (Rtotal_order (val a) (val b)) as [L|[L|L]]; auto; apply (val_lt HP) in L; congruence.
Qed.
Lemma approx_total P val d : papprox P val d -> @total P.
Proof. intros HP. split; [apply (approx_sym HP)|apply (approx_tri HP)]. Qed.

(** Two PSDDs over three variables, one that splits on the first variable and one that splits on the second. *)
Definition si_vt := VNode (VNode (Leaf 1) (Leaf 2)) (Leaf 3).
Definition si_ops : list (@op Qex) :=
  [OLit 1 0; OLit (-1) 0; OLit 2 0; OLit (-2) 0; OTop 1 0 (q 1 2) (q 1 2); OTop 2 0 (q 1 2) (q 1 2);
   ODec [0] [5] [q 1 1] 0; ODec [1] [5] [q 1 1] 0; ODec [4] [2] [q 1 1] 0; ODec [4] [3] [q 1 1] 0;
   OTop 3 0 (q 1 3) (q 2 3); OTop 3 0 (q 1 4) (q 3 4); OTop 3 0 (q 1 5) (q 4 5); OTop 3 0 (q 1 6) (q 5 6);
   ODec [6; 7] [10; 11] [q 1 4; q 3 4] 0; ODec [8; 9] [12; 13] [q 2 3; q 1 3] 0].
Definition si_m : mgr Qex := Eval vm_compute in match runs (new_mgr si_vt) si_ops with Ok m => m | _ => new_mgr si_vt end.
Lemma si_wf : Wf si_m.
Proof.
  apply (@runs_wf Qex (@val_peq_refl Qex qval Qex_exact) (@val_plt_irrefl Qex qval Qex_exact) si_ops (new_mgr si_vt) si_m).
  - apply wf_new. vm_compute. repeat constructor; simpl; intuition congruence.
  - vm_compute. reflexivity.
Qed.

(** C76.  Whatever the arguments and the parameters (zeros, infinities and NaN included): Multiply adds at most one node for every pair of a
    node of the first and a node of the second argument, and their elements are at most the product of the elements. *)
Theorem C76_multiply_adds : forall (m : mgr Lcode) a b fl r m' La Lb za zb, Wf m -> a < length (m_heap m) -> b < length (m_heap m) ->
  SerializePsddNodes (m_heap m) [a] = Ok La -> GetPsddSize (m_heap m) a = Ok za ->
  SerializePsddNodes (m_heap m) [b] = Ok Lb -> GetPsddSize (m_heap m) b = Ok zb ->
  Multiply m a b fl = Ok (r, m') ->
  exists l, m_heap m' = m_heap m ++ l /\ length l <= length La * length Lb /\ list_sum (map width l) <= (za + length La) * (zb + length Lb).
Proof. intros m a b fl r m' La Lb za zb W A B SA ZA SB ZB E. apply (multiply_sizes code_refl code_irrefl m a b fl r m' La Lb za zb W A B SA ZA SB ZB E). Qed.
Print Assumptions C76_multiply_adds.
(** The product itself, also where it consists of nodes that were there before. *)
Theorem C76_multiply_size : forall P val d, pexact P val \/ papprox P val d -> forall (m : mgr P) a b fl k w m' La Lb L za zb z, Wf m -> a < length (m_heap m) -> b < length (m_heap m) ->
  SerializePsddNodes (m_heap m) [a] = Ok La -> GetPsddSize (m_heap m) a = Ok za ->
  SerializePsddNodes (m_heap m) [b] = Ok Lb -> GetPsddSize (m_heap m) b = Ok zb ->
  Multiply m a b fl = Ok ((Some k, w), m') -> SerializePsddNodes (m_heap m') [k] = Ok L -> GetPsddSize (m_heap m') k = Ok z ->
  length L <= length La * length Lb /\ z <= (za + length La) * (zb + length Lb).
Proof.
  intros P val d HP m a b fl k w m' La Lb L za zb z W A B SA ZA SB ZB E SK ZK.
  assert (H : (forall x : P, peq x x = true) /\ (forall x : P, plt x x = false) /\ @total P).
  { destruct HP as [HP|HP].
    - split; [apply (val_peq_refl val HP)|]. split; [apply (val_plt_irrefl val HP)|]. apply (exact_total P val HP).
    - split; [apply (approx_refl HP)|]. split; [apply (approx_irrefl HP)|]. apply (approx_total P val d HP). }
  destruct H as (Hr & Hi & T). destruct (multiply_sizes Hr Hi m a b fl _ m' La Lb za zb W A B SA ZA SB ZB E) as [_ Q]. eapply Q; eauto. reflexivity.
Qed.
Print Assumptions C76_multiply_size.
(** PSDDs of 8 nodes and size 4 each, whose product has 13 nodes and size 7 *)
Example C76_multiply_nonvacuous : pexact Qex qval /\ Wf si_m /\ 14 < length (m_heap si_m) /\ 15 < length (m_heap si_m) /\
  exists La Lb L w m', SerializePsddNodes (m_heap si_m) [14] = Ok La /\ GetPsddSize (m_heap si_m) 14 = Ok 4 /\
  SerializePsddNodes (m_heap si_m) [15] = Ok Lb /\ GetPsddSize (m_heap si_m) 15 = Ok 4 /\ length La = 8 /\ length Lb = 8 /\
  Multiply si_m 14 15 0 = Ok ((Some 24, w), m') /\ SerializePsddNodes (m_heap m') [24] = Ok L /\ GetPsddSize (m_heap m') 24 = Ok 7 /\ length L = 13.
Proof.
  split; [exact Qex_exact|]. split; [exact si_wf|]. split; [vm_compute; lia|]. split; [vm_compute; lia|]. do 5 eexists.
  do 6 (split; [vm_compute; reflexivity|]). split; [vm_compute; reflexivity|]. do 2 (split; [vm_compute; reflexivity|]). vm_compute; reflexivity.
Qed.
(** a product of the code's own numbers *)
Example C76_adds_nonvacuous : exists (m : mgr Lcode) r m', Wf m /\ SerializePsddNodes (m_heap m) [0] = Ok [0] /\ SerializePsddNodes (m_heap m) [1] = Ok [1] /\ GetPsddSize (m_heap m) 0 = Ok 0 /\ GetPsddSize (m_heap m) 1 = Ok 1 /\
  Multiply m 0 1 4 = Ok (r, m') /\ length (m_heap m) = 2 /\ length (m_heap m') = 3.
Proof.
  set (ops := [OLit 1 0; OTop 1 0 (lc (Fin 0)) (lc NegInf)] : list (@op Lcode)).
  destruct (runs (new_mgr (Leaf 1)) ops) as [m| | |] eqn:E; [|discriminate..].
  assert (W : Wf m). { apply (@runs_wf Lcode code_refl code_irrefl ops (new_mgr (Leaf 1)) m); auto. apply wf_new. repeat constructor; auto. }
  injection E as <-. do 3 eexists. split; [exact W|]. do 4 (split; [reflexivity|]). split; [reflexivity|]. split; reflexivity.
Qed.
(** C76.  LearnPsddParameters, SampleParameters and LoadPsddNode (to the vtree node where the PSDD was): at most one node per node, whatever
    the parameters. *)
Theorem C76_copies_add : forall (m : mgr Lcode) hs ud root fl L z, Wf m -> heap_ok (m_vt m) hs -> root < length hs ->
  SerializePsddNodes hs [root] = Ok L -> GetPsddSize hs root = Ok z ->
  (forall dc ex n alpha r ud' dc' m', LearnPsddParameters hs ud dc root ex n alpha fl m = Ok (r, ud', dc', m') -> adds m m' (length L) (z + length L)) /\
  (forall (G : dops Lcode) near1 us r us' ud' m', SampleParameters G near1 hs ud root fl us m = Ok (r, us', ud', m') -> adds m m' (length L) (z + length L)) /\
  (forall p r ud' m', vt_of hs root = Some p -> LoadPsddNode hs ud (Some p) root fl m = Ok (r, ud', m') -> adds m m' (length L) (z + length L)).
Proof.
  intros m hs ud root fl L z W HO LR SR ZR. split; [|split].
  - intros dc ex n alpha r ud' dc' m' E. apply (learn_sizes code_refl code_irrefl m hs ud dc root ex n alpha fl r ud' dc' m' L z W HO LR SR ZR E).
  - intros G near1 us r us' ud' m' E. apply (sample_sizes code_refl code_irrefl G near1 m hs ud root fl us r us' ud' m' L z W HO LR SR ZR E).
  - intros p r ud' m' V E. apply (load_sizes code_refl code_irrefl m hs ud root fl r ud' m' L z p W HO V SR ZR E).
Qed.
Print Assumptions C76_copies_add.
(** And what is learnt, drawn or loaded has at most as many nodes and free parameters as the PSDD it is made from. *)
Theorem C76_copies_size : forall P val d, pexact P val \/ papprox P val d -> forall (m : mgr P) hs ud root fl L z, Wf m -> heap_ok (m_vt m) hs -> root < length hs ->
  SerializePsddNodes hs [root] = Ok L -> GetPsddSize hs root = Ok z -> forall r m' L' z',
  ((exists dc ex n alpha ud' dc', LearnPsddParameters hs ud dc root ex n alpha fl m = Ok (r, ud', dc', m')) \/
   (exists (G : dops P) near1 us us' ud', SampleParameters G near1 hs ud root fl us m = Ok (r, us', ud', m')) \/
   (exists p ud', vt_of hs root = Some p /\ LoadPsddNode hs ud (Some p) root fl m = Ok (r, ud', m'))) ->
  SerializePsddNodes (m_heap m') [r] = Ok L' -> GetPsddSize (m_heap m') r = Ok z' -> length L' <= length L /\ z' <= z.
Proof.
  intros P val d HP m hs ud root fl L z W HO LR SR ZR r m' L' z' D SK ZK.
  assert (H : (forall x : P, peq x x = true) /\ (forall x : P, plt x x = false) /\ @total P).
  { destruct HP as [HP|HP].
    - split; [apply (val_peq_refl val HP)|]. split; [apply (val_plt_irrefl val HP)|]. apply (exact_total P val HP).
    - split; [apply (approx_refl HP)|]. split; [apply (approx_irrefl HP)|]. apply (approx_total P val d HP). }
  destruct H as (Hr & Hi & T). destruct D as [(dc & ex & n & alpha & ud' & dc' & E)|[(G & near1 & us & us' & ud' & E)|(p & ud' & V & E)]].
  - destruct (learn_sizes Hr Hi m hs ud dc root ex n alpha fl r ud' dc' m' L z W HO LR SR ZR E) as [_ Q]. auto.
  - destruct (sample_sizes Hr Hi G near1 m hs ud root fl us r us' ud' m' L z W HO LR SR ZR E) as [_ Q]. auto.
  - destruct (load_sizes Hr Hi m hs ud root fl r ud' m' L z p W HO V SR ZR E) as [_ Q]. auto.
Qed.
Print Assumptions C76_copies_size.
(** learning from two records, in the manager of C70 *)
Example C76_copies_nonvacuous : pexact Qex qval /\ Wf pr_m /\ 6 < length (m_heap pr_m) /\ exists L L' r u d m', SerializePsddNodes (m_heap pr_m) [6] = Ok L /\ GetPsddSize (m_heap pr_m) 6 = Ok 3 /\
  hi_learn pr_m 6 hi_recs (q 1 1) 0 = Ok (r, u, d, m') /\ SerializePsddNodes (m_heap m') [r] = Ok L' /\ GetPsddSize (m_heap m') r = Ok 3 /\ length L = 5 /\ length L' = 5.
Proof.
  split; [exact Qex_exact|]. split; [apply (proj1 (@tidy_inv Qex qval Qex_exact 0%N pr_m pr_tidy))|]. split; [vm_compute; lia|]. do 6 eexists. do 6 (split; [vm_compute; reflexivity|]). vm_compute; reflexivity.
Qed.
(** C76.  A true node: one node per vtree node. *)
Theorem C76_true_node : forall (m : mgr Lcode) p s fl i m', Wf m -> subtree (m_vt m) p = Some s -> GetTrueNode p fl m = Ok (i, m') -> adds m m' (vsize s) (vsize s).
Proof. exact (@true_size Lcode code_refl code_irrefl). Qed.
Print Assumptions C76_true_node.
Example C76_true_nonvacuous : Wf (@new_mgr Lcode si_vt) /\ subtree si_vt [] = Some si_vt /\ vsize si_vt = 5 /\ exists i m', GetTrueNode [] 2 (@new_mgr Lcode si_vt) = Ok (i, m').
Proof.
  split; [apply wf_new; repeat constructor; simpl; intuition congruence|]. split; [reflexivity|]. split; [reflexivity|]. do 2 eexists. reflexivity.
Qed.
