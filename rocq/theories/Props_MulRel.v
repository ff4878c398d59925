(** Property theorems C89 (psdd_manager.cpp: MultiplyWithCache compiled without assertions). *)
From Coq Require Import Reals Lra.
From Verif Require Import Base Param ParamProofs Vtree VtreeProofs Spec SpecProofs Heap Manager HeapProofs SerProofs RepProofs
  OrderProofs CanonProofs HeapExamples LoadProofs MulProofs ReplayProofs ManagerExamples Query QueryExamples MleProofs MulRel MulRelProofs TransferProofs TransferCode NearCertain MulNan.
Local Open Scope R_scope.

(** C89.  Where the assertions pass, leaving them out changes nothing (any parameters, any manager). *)
Theorem C89_same : forall P (m : mgr P) a b fl r, Multiply m a b fl = Ok r -> MultiplyRel m a b fl = Ok r.
Proof. exact @multiply_same. Qed.
Print Assumptions C89_same.
Example C89_same_nonvacuous : exists i z m', Multiply z_m 4 5 0 = Ok ((Some i, z), m') /\ MultiplyRel z_m 4 5 0 = Ok ((Some i, z), m').
Proof. destruct z_safe as (_ & _ & _ & _ & _ & i & z & m' & E). exists i, z, m'. split; [exact E|]. exact (multiply_same _ _ _ _ _ E). Qed.

(** Zero parameters are harmless if the product needs no division by zero ([live]: wherever the supports of two nodes meet that are multiplied, some
    instantiation has a positive weight in both).  Missing: the products in which it does, see below. *)
Theorem C89_zero_parameters_partial : forall P val, pexact P val -> forall vt ops (m : mgr P) fl a b p ta tb, NoDup (leaves vt) -> runs (new_mgr vt) ops = Ok m ->
  tops_in val sums m fl -> vt_of (m_heap m) a = Some p -> vt_of (m_heap m) b = Some p -> Rep val (m_heap m) a ta -> Rep val (m_heap m) b tb ->
  nonneg ta -> nonneg tb -> live ta tb ->
  exists r z m', MultiplyRel m a b fl = Ok ((r, z), m') /\ mext fl m m' /\ tops_in val sums m' fl /\
    (r = None <-> forall x, base ta x && base tb x = false) /\ ((exists x, 0 < weight ta x * weight tb x) -> 0 < val z) /\
    match r with
    | None => val z = 0
    | Some i => vt_of (m_heap m') i = Some p /\ flag_of (m_heap m') i = Some fl /\ In i (m_live m') /\
        exists s t, subtree (m_vt m) p = Some s /\ Rep val (m_heap m') i t /\ conforms s t /\ nonneg t /\ normalized t /\
          (forall x, weight t x * val z = weight ta x * weight tb x) /\
          (forall x, base t x = base ta x && base tb x) /\ (deterministic ta -> deterministic tb -> deterministic t)
    end.
Proof.
  intros P val HP vt ops m fl a b p ta tb ND ER TI Va Vb Ra Rb Na Nb LV.
  pose proof (proj1 (runs_wf (val_peq_refl val HP) (val_plt_irrefl val HP) ops (new_mgr vt) m (wf_new _ ND) ER)) as W.
  destruct (multiply_rel val HP fl m a b p ta tb (conj W TI) (conj Va Ra) (conj Vb Rb) Na Nb LV) as ([r z] & m' & E & [W' TI'] & X & M).
  exists r, z, m'. split; [exact E|]. split; [exact X|]. split; [exact TI'|]. unfold mul_okR in M. cbn [fst snd] in M. destruct r as [i|].
  - destruct M as (t & [Vi Ri] & PR & FL & LI). destruct (node_at_conforms val m' i p t W' (conj Vi Ri)) as (s & Hs & C).
    split; [|split].
    + split; [discriminate|]. intros H. exfalso. destruct (base_sat s) with (t := t) as [x Hx]; auto.
      { eapply subtree_nodup; [apply W'|exact Hs]. }
      rewrite (pr_base _ _ _ _ PR), H in Hx. discriminate.
    + intros [x Hx]. rewrite <- (pr_weight _ _ _ _ PR x) in Hx. pose proof (pr_z _ _ _ _ PR) as Z.
      destruct (Req_dec (val z) 0) as [Q|Q]; [rewrite Q in Hx; lra|lra].
    + do 3 (split; [assumption|]). exists s, t. rewrite (me_vt _ _ _ X) in Hs. destruct PR. auto 12.
  - destruct M as [M1 M2]. split; [split; [intros _; exact M2|reflexivity]|]. split; [|exact M1].
    intros [x Hx]. specialize (M2 x). exfalso. apply andb_false_iff in M2 as [M2|M2]; rewrite (weight_zero_off_base _ _ M2) in Hx; lra.
Qed.
Print Assumptions C89_zero_parameters_partial.
(** node 4 times itself: with the assertions it stops the program (C29) *)
Example C89_nonvacuous : runs (new_mgr (VNode (Leaf 1) (Leaf 2))) z_ops = Ok z_m /\ NoDup (leaves (VNode (Leaf 1) (Leaf 2))) /\ @tops_in Qex qval sums z_m 7 /\
  @Rep Qex qval (m_heap z_m) 4 z_dec /\ vt_of (m_heap z_m) 4 = Some [] /\ nonneg z_dec /\ live z_dec z_dec /\ Multiply z_m 4 4 7 = Abort /\
  exists i z m', MultiplyRel z_m 4 4 7 = Ok ((Some i, z), m').
Proof.
  split; [exact z_runs|]. split. { repeat constructor; simpl; intuition discriminate. }
  split. { intros i nd v pt pf _ E F _. exfalso. assert (forallb (fun nd => negb (N.eqb (n_flag nd) 7)) (m_heap z_m) = true) as K by (vm_compute; reflexivity).
    rewrite forallb_forall in K. apply nth_error_In in E. apply K in E. rewrite F in E. discriminate. }
  split; [exact z_r4|]. split; [reflexivity|]. split; [unfold nonneg, z_dec; simpl; unfold tw; simpl; repeat constructor; simpl; lra|].
  split.
  { assert (overlap z_dec z_dec) as O. { exists (fun _ => false). unfold z_dec. simpl. unfold lit_sat. simpl. lra. }
    assert (overlap (TTop 2 (1/2) (1/2)) (TTop 2 (1/2) (1/2))) as O2. { exists (fun _ => false). simpl. lra. }
    apply live_dec. split; [intros _; exact O|]. repeat constructor; simpl; auto. }
  split; [vm_compute; reflexivity|]. do 3 eexists. vm_compute. reflexivity.
Qed.

(** With the parameters of the code: the elements of the two PSDDs have the parameter h, two of their subs have the parameters (1, 0) and (0, 1).  The product
    of the PSDDs is not zero, but the result of a build without assertions gives every instantiation the weight NaN.  With assertions the program stops. *)
Theorem C89_nan_refuted : forall h, 0 < h ->
  runs (new_mgr (VNode (Leaf 1) (Leaf 2))) (nan_ops (cr h)) = Ok (nan_in (cr h)) /\
  Rep cval (m_heap (nan_in (cr h))) 4 (nan_a h) /\ Rep cval (m_heap (nan_in (cr h))) 9 (nan_b h) /\
  (exists x, 0 < weight (nan_a h) x * weight (nan_b h) x) /\
  exists m z, MultiplyRel (nan_in (cr h)) 4 9 2 = Ok ((Some 14%nat, z), m) /\
    (forall x, exists q, Evaluate (m_heap m) (fun _ => true) x 14 = Ok q /\ par q = NaN) /\ Multiply (nan_in (cr h)) 4 9 2 = Abort.
Proof.
  intros h H. destruct (nan_reps h H) as [R1 R2]. split; [apply nan_run|]. split; [exact R1|]. split; [exact R2|]. split; [apply nan_overlap; exact H|]. apply product_nan.
Qed.
Print Assumptions C89_nan_refuted.
(** with h = 1/2 both are distributions *)
Example C89_nan_nonvacuous : 0 < / 2 /\ normalized (nan_a (/ 2)) /\ normalized (nan_b (/ 2)) /\ deterministic (nan_a (/ 2)) /\ deterministic (nan_b (/ 2)).
Proof.
  split; [lra|]. split; [unfold normalized, nan_a; simpl; unfold tw; simpl; repeat split; lra|]. split; [unfold normalized, nan_b; simpl; unfold tw; simpl; repeat split; lra|].
  split; unfold deterministic, nan_a, nan_b; apply all_nodes_dec; (split; [|repeat constructor; simpl; auto]);
    (constructor; [|repeat constructor]; constructor; [|constructor]; intros x; simpl; unfold lit_sat; simpl; destruct (x 1%N); reflexivity).
Qed.
