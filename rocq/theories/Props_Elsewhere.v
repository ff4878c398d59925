(** Property theorems C72: what is computed depends on the PSDDs, not on the manager that holds them or on its history.
    [tidy val fl m]: m is the result of any sequence of operations on a new manager; [operand val m p i t]: the node [i] of [m]
    at the vtree node [p] is the positive and deterministic PSDD [t]; [shuffled]: equal up to the order of the elements at every
    node; [mrun fl e m] multiplies the nodes of the expression [e]; [held fl m i]: everything reachable from i is in the unique
    table and has the flag fl. *)
From Coq Require Import Reals Lra Permutation.
From Verif Require Import Base Param ParamProofs Vtree VtreeProofs Spec SpecProofs Heap Manager HeapProofs SerProofs
  RepProofs OrderProofs CanonProofs HeapExamples LoadProofs MulProofs ReplayProofs ManagerExamples TreeProofs Query QueryProofs MpeProofs SampleProofs ProductTrees ProductNodes ProductProofs ProductExamples
  Text IO IOProofs OneNode OneExamples Elsewhere.
Local Open Scope R_scope.

(** Products of the same PSDDs in two managers with any histories, flags and orders of multiplication: both are zero or both are
    the same PSDD, with the same constant. *)
Theorem C72_products : forall P val, pexact P val -> forall fl1 fl2 (m1 m2 : mgr P) p1 p2 s e1 e2 l1 l2 l, tidy val fl1 m1 -> tidy val fl2 m2 ->
  subtree (m_vt m1) p1 = Some s -> subtree (m_vt m2) p2 = Some s ->
  Forall2 (operand val m1 p1) (factors e1) l1 -> Forall2 (operand val m2 p2) (factors e2) l2 -> Permutation l1 l -> Forall2 shuffled l l2 ->
  exists r1 z1 n1 r2 z2 n2, mrun fl1 e1 m1 = Ok ((r1, z1), n1) /\ mrun fl2 e2 m2 = Ok ((r2, z2), n2) /\ val z1 = val z2 /\
    match r1, r2 with
    | Some i, Some j => exists t t', node_at val n1 i p1 t /\ node_at val n2 j p2 t' /\ shuffled t t'
    | None, None => True
    | _, _ => False
    end.
Proof.
  intros P val HP fl1 fl2 m1 m2 p1 p2 s e1 e2 l1 l2 l T1 T2 S1 S2 F1 F2 PM SH.
  destruct (products_elsewhere val HP fl1 fl2 m1 m2 p1 p2 s e1 e2 l1 l2 l (tidy_inv val HP _ _ T1) (tidy_inv val HP _ _ T2) S1 S2 F1 F2 PM SH)
    as (r1 & z1 & n1 & r2 & z2 & n2 & E1 & E2 & _ & _ & _ & EZ & M).
  exists r1, z1, n1, r2, z2, n2. do 3 (split; auto). destruct r1, r2; auto. destruct M as (t & t' & A & B & _ & _ & C & _). eauto.
Qed.
Print Assumptions C72_products.
(** Loading into a manager with the same vtree below the node keeps the PSDD up to the order of elements. *)
Theorem C72_load : forall P val, pexact P val -> forall fl (m : mgr P) sroot (hs : heap P) root q s p ud t, heap_ok sroot hs -> vt_of hs root = Some q ->
  subtree sroot q = Some s -> subtree (m_vt m) p = Some s -> Rep val hs root t -> tops_fine t -> tidy val fl m ->
  exists j ud' m' t', LoadPsddNode hs ud (Some p) root fl m = Ok (j, ud', m') /\ node_at val m' j p t' /\ shuffled t t'.
Proof.
  intros P val HP fl m sroot hs root q s p ud t HO V S S' R TF T.
  destruct (load_tree val HP fl m sroot hs root q s p ud t HO V S S' R TF (tidy_inv val HP _ _ T)) as (j & ud' & m' & t' & E & _ & _ & A & B). eauto 8.
Qed.
Print Assumptions C72_load.
(** A PSDD that is loaded into another manager and loaded back is the node it was; the manager is unchanged. *)
Theorem C72_load_back : forall P val, pexact P val -> forall fl fl2 (m m2 : mgr P) i p p2 s t ud ud2, tidy val fl m -> tidy val fl2 m2 ->
  subtree (m_vt m) p = Some s -> subtree (m_vt m2) p2 = Some s -> node_at val m i p t -> held fl m i -> tops_fine t -> deterministic t ->
  exists j ud' m2' ud2', LoadPsddNode (m_heap m) ud (Some p2) i fl2 m2 = Ok (j, ud', m2') /\ LoadPsddNode (m_heap m2') ud2 (Some p) j fl m = Ok (i, ud2', m).
Proof.
  intros P val HP fl fl2 m m2 i p p2 s t ud ud2 T T2 S S2 A H TF D. pose proof (tidy_inv val HP _ _ T) as I.
  apply (load_back val HP fl fl2 m m2 i p p2 s t ud ud2); auto; [apply (tidy_inv val HP); auto|]. apply held_kept; auto; [apply I|eapply tidy_sorted; eauto].
Qed.
Print Assumptions C72_load_back.
(** Loading two PSDDs and multiplying, or multiplying and loading the product: the very same node, and the same constant. *)
Theorem C72_load_multiply : forall P val, pexact P val -> forall fl fl2 (m m2 : mgr P) a b p p2 s ta tb uda udb udk, tidy val fl m -> tidy val fl2 m2 ->
  subtree (m_vt m) p = Some s -> subtree (m_vt m2) p2 = Some s ->
  operand val m p a ta -> operand val m p b tb -> tops_fine ta -> tops_fine tb ->
  exists a' b' uda' udb' m3 m4 r z m' r' z' m5,
    LoadPsddNode (m_heap m) uda (Some p2) a fl2 m2 = Ok (a', uda', m3) /\ LoadPsddNode (m_heap m) udb (Some p2) b fl2 m3 = Ok (b', udb', m4) /\
    Multiply m a b fl = Ok ((r, z), m') /\ Multiply m4 a' b' fl2 = Ok ((r', z'), m5) /\ val z = val z' /\
    match r, r' with
    | Some k, Some k' => exists udk', LoadPsddNode (m_heap m') udk (Some p2) k fl2 m5 = Ok (k', udk', m5)
    | None, None => True
    | _, _ => False
    end.
Proof. intros P val HP fl fl2 m m2 a b p p2 s ta tb uda udb udk T T2. apply (load_multiply val HP fl fl2 m m2 a b p p2 s ta tb uda udb udk); apply (tidy_inv val HP); auto. Qed.
Print Assumptions C72_load_multiply.
(** The queries answer the same for the same PSDD in two managers. *)
Theorem C72_evaluate : forall P val, parith P val -> forall (m m' : mgr P) i j s t t' mask x, psdd_at val m i s t -> psdd_at val m' j s t' -> shuffled t t' -> tops_one t ->
  exists e e', Evaluate (m_heap m) mask x i = Ok e /\ Evaluate (m_heap m') mask x j = Ok e' /\ val e = val e'.
Proof. exact @evaluate_elsewhere. Qed.
Print Assumptions C72_evaluate.
Theorem C72_consistent : forall P val (m m' : mgr P) i j s t t' mask x f f', psdd_at val m i s t -> psdd_at val m' j s t' -> shuffled t t' ->
  (forall k, reach (m_heap m) i k -> f k = false) -> (forall k, reach (m_heap m') j k -> f' k = false) ->
  exists b g g', IsConsistent (m_heap m) mask x i f = Ok (b, g) /\ IsConsistent (m_heap m') mask x j f' = Ok (b, g').
Proof. exact @consistent_elsewhere. Qed.
Print Assumptions C72_consistent.
Theorem C72_count : forall P val (m m' : mgr P) i j s t t' L L', psdd_at val m i s t -> psdd_at val m' j s t' -> shuffled t t' -> deterministic t ->
  SerializePsddNodes (m_heap m) [i] = Ok L -> SerializePsddNodes (m_heap m') [j] = Ok L' -> ModelCount (m_heap m) L = ModelCount (m_heap m') L'.
Proof. exact @count_elsewhere. Qed.
Print Assumptions C72_count.
Theorem C72_mpe : forall P val, pexact P val -> forall (m m' : mgr P) i j s t t' L L' ud ud' fuel, psdd_at val m i s t -> psdd_at val m' j s t' -> shuffled t t' -> nonneg t -> deterministic t ->
  SerializePsddNodes (m_heap m) [i] = Ok L -> SerializePsddNodes (m_heap m') [j] = Ok L' -> (vsize s <= fuel)%nat ->
  exists x v u x' v' u', GetMPESolution fuel (m_heap m) L ud = Ok (x, v, u) /\ GetMPESolution fuel (m_heap m') L' ud' = Ok (x', v', u') /\ val v = val v'.
Proof. exact @mpe_elsewhere. Qed.
Print Assumptions C72_mpe.
Theorem C72_marginals : forall P val, parith P val -> forall (m m' : mgr P) i j s t t' L L' v, psdd_at val m i s t -> psdd_at val m' j s t' -> shuffled t t' -> normalized t ->
  SerializePsddNodes (m_heap m) [i] = Ok L -> SerializePsddNodes (m_heap m') [j] = Ok L' -> In v (leaves s) ->
  exists mg mg' pf pt pf' pt', GetMarginals (m_heap m) L = Ok mg /\ GetMarginals (m_heap m') L' = Ok mg' /\ mg v = Some (pf, pt) /\ mg' v = Some (pf', pt') /\ val pf = val pf' /\ val pt = val pt'.
Proof. exact @marginals_elsewhere. Qed.
Print Assumptions C72_marginals.

Lemma on_tidy : @tidy Qex qval 5 on_m.
Proof.
  apply (@tidy_runs Qex qval 5 on_ops (new_mgr pr_vt)); [|  |apply on_runs].
  - constructor. exact pr_nodup.
  - unfold on_ops. repeat (constructor; [simpl; first [exact Logic.I | discriminate | intros _; right; unfold qval; simpl; lra]|]). constructor.
Qed.
Lemma pr_a_at : @operand Qex qval pr_m [] 6 pr_a /\ @operand Qex qval pr_m [] 8 pr_b.
Proof. pose proof pr_operands as O. inversion O as [|? ? ? ? A O1]; subst. inversion O1; subst. auto. Qed.
Lemma on_operand : @operand Qex qval on_m [] 4 on_t.
Proof. split; [split; [reflexivity|exact on_rep]|]. split; [|exact on_det]. apply (lk_pos _ _ (shuffled_like _ _ (shuffled_sym _ _ on_shuffled))). apply pr_a_at. Qed.
Lemma pr_tops : tops_fine pr_a /\ tops_fine pr_b.
Proof.
  unfold tops_fine, pr_a, pr_b. split; apply all_nodes_dec; (split; [exact Logic.I|]); repeat constructor; simpl; auto; unfold top_ok; lra.
Qed.
(** The square of one PSDD, held by two managers as different nodes with the elements in opposite orders *)
Example C72_products_nonvacuous : pexact Qex qval /\ @tidy Qex qval 0 pr_m /\ @tidy Qex qval 5 on_m /\ subtree (m_vt pr_m) [] = Some pr_vt /\ subtree (m_vt on_m) [] = Some pr_vt /\
  Forall2 (@operand Qex qval pr_m []) (factors (MMul (MNode 6) (MNode 6))) [pr_a; pr_a] /\ Forall2 (@operand Qex qval on_m []) (factors (MMul (MNode 4) (MNode 4))) [on_t; on_t] /\
  Forall2 shuffled [pr_a; pr_a] [on_t; on_t] /\
  exists z z' n n', mrun 0 (MMul (MNode 6) (MNode 6)) pr_m = Ok ((Some 11%nat, z), n) /\ mrun 5 (MMul (MNode 4) (MNode 4)) on_m = Ok ((Some 6%nat, z'), n') /\ qval z = qval z'.
Proof.
  split; [exact Qex_exact|]. split; [exact pr_tidy|]. split; [exact on_tidy|]. do 2 (split; [reflexivity|]). destruct pr_a_at as [A _]. pose proof on_operand as B.
  split; [simpl; auto|]. split; [simpl; auto|]. split; [pose proof (shuffled_sym _ _ on_shuffled); auto|].
  do 4 eexists. do 2 (split; [vm_compute; reflexivity|]). unfold qval; simpl; lra.
Qed.
Example C72_load_nonvacuous : @operand Qex qval pr_m [] 6 pr_a /\ @operand Qex qval pr_m [] 8 pr_b /\ tops_fine pr_a /\ tops_fine pr_b /\ held 0 pr_m 6 /\
  exists ud' m2', @LoadPsddNode Qex (m_heap pr_m) (fun _ => None) (Some []) 6 3 on_m = Ok (9%nat, ud', m2').
Proof.
  split; [apply pr_a_at|]. split; [apply pr_a_at|]. split; [apply pr_tops|]. split; [apply pr_tops|]. split; [exact pr_held|]. do 2 eexists. vm_compute. reflexivity.
Qed.
Example C72_queries_nonvacuous : @psdd_at Qex qval pr_m 6 pr_vt pr_a /\ @psdd_at Qex qval on_m 4 pr_vt on_t /\ shuffled pr_a on_t /\ normalized pr_a /\ positive pr_a /\ deterministic pr_a /\ tops_one pr_a.
Proof.
  destruct pr_a_at as [(A & B & C) _]. destruct on_operand as (A' & _ & _).
  split. { split; [apply (@tidy_inv Qex qval Qex_exact _ _ pr_tidy)|]. split; [apply A|]. exists []. split; [apply A|reflexivity]. }
  split. { split; [apply (@tidy_inv Qex qval Qex_exact _ _ on_tidy)|]. split; [apply A'|]. exists []. split; [apply A'|reflexivity]. }
  split; [apply shuffled_sym, on_shuffled|]. split; [exact pr_normalized|]. split; auto. split; auto. apply normalized_tops_one, pr_normalized.
Qed.
