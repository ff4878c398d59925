(** Property theorems C29, continued (psdd_manager.cpp: MultiplyWithCache with zero parameters). *)
From Coq Require Import Reals Lra.
From Verif Require Import Base Param ParamProofs Vtree VtreeProofs Spec SpecProofs Heap Manager HeapProofs SerProofs RepProofs
  OrderProofs CanonProofs HeapExamples LoadProofs MulProofs ReplayProofs ManagerExamples MleProofs MulExact Query QueryExamples TransferProofs TransferCode NearCertain MulTrue.
Local Open Scope R_scope.

(** C29.  Multiply stops the program exactly if a zero parameter is combined ([fine]: MulExact.v), and returns the product otherwise; nothing else happens.
    The leaves of the flag must have parameters that add up to one; zero divided by zero compares equal to zero, as in the code, where it is NaN.
    Missing: the products it stops at, and flags in use for constants (next theorem). *)
Theorem C29_exact_partial : forall P val, pexact P val -> (forall a b : P, val a = 0 -> val b = 0 -> peq (pdiv a b) pzero = true) ->
  forall vt ops (m : mgr P) fl a b p ta tb, NoDup (leaves vt) -> runs (new_mgr vt) ops = Ok m ->
  tops_in val sums m fl -> vt_of (m_heap m) a = Some p -> vt_of (m_heap m) b = Some p -> Rep val (m_heap m) a ta -> Rep val (m_heap m) b tb ->
  (~ fine ta tb -> Multiply m a b fl = Abort) /\
  (fine ta tb -> exists r z m', Multiply m a b fl = Ok ((r, z), m') /\ mext fl m m' /\ tops_in val sums m' fl /\
    (r = None <-> forall x, base ta x && base tb x = false) /\
    match r with
    | None => val z = 0
    | Some i => (0 < val z <-> zpos ta tb) /\ vt_of (m_heap m') i = Some p /\ flag_of (m_heap m') i = Some fl /\ In i (m_live m') /\
        exists s t, subtree (m_vt m) p = Some s /\ Rep val (m_heap m') i t /\ conforms s t /\ positive t /\ normalized t /\
          (forall x, weight t x * val z = weight ta x * weight tb x) /\
          (forall x, base t x = base ta x && base tb x) /\ (deterministic ta -> deterministic tb -> deterministic t)
    end).
Proof.
  intros P val HP D0 vt ops m fl a b p ta tb ND ER TI Va Vb Ra Rb.
  pose proof (proj1 (runs_wf (val_peq_refl val HP) (val_plt_irrefl val HP) ops (new_mgr vt) m (wf_new _ ND) ER)) as W.
  destruct (multiply_exact val HP D0 fl m a b p ta tb (conj W TI) (conj Va Ra) (conj Vb Rb)) as [[E NF]|([r z] & m' & E & [W' TI'] & X & FN & M)].
  { split; [auto|tauto]. }
  split; [tauto|]. intros _. exists r, z, m'. split; [exact E|]. split; [exact X|]. split; [exact TI'|]. cbn [fst snd] in M. destruct r as [i|].
  - destruct M as (t & [Vi Ri] & PR & FL & LI). destruct (node_at_conforms val m' i p t W' (conj Vi Ri)) as (s & Hs & C).
    split.
    + split; [discriminate|]. intros H. exfalso. destruct (base_sat s) with (t := t) as [x Hx]; auto.
      { eapply subtree_nodup; [apply W'|exact Hs]. }
      rewrite (pf_base _ _ _ _ PR), H in Hx. discriminate.
    + split; [symmetry; apply PR|]. do 3 (split; [assumption|]). exists s, t. rewrite (me_vt _ _ _ X) in Hs. destruct PR. auto 12.
  - destruct M as [M1 M2]. split; [|exact M1]. split; [intros _; exact M2|reflexivity].
Qed.
Print Assumptions C29_exact_partial.
Lemma q_div0 (a b : Qex) : qval a = 0 -> qval b = 0 -> peq (pdiv a b) pzero = true.
Proof.
  intros A B. destruct a as [na da], b as [nb db]. unfold qval in A, B. simpl in A, B.
  assert (forall n d, IZR (Z.of_N n) / IZR (Zpos d) = 0 -> n = 0%N) as K.
  { intros n d H. unfold Rdiv in H. apply Rmult_integral in H as [H|H].
    - apply (eq_IZR _ 0) in H. lia.
    - exfalso. revert H. apply Rinv_neq_0_compat. intros H. apply (eq_IZR _ 0) in H. discriminate. }
  apply K in A, B. subst. reflexivity.
Qed.
Lemma l_div0 (a b : Lexact) : lval a = 0 -> lval b = 0 -> peq (pdiv a b) pzero = true.
Proof.
  intros A B. apply (val_eq Lexact_exact).
  assert (a = pzero) as -> by (apply lval_inj; rewrite A; symmetry; apply (val_zero Lexact_exact)).
  assert (b = pzero) as -> by (apply lval_inj; rewrite B; symmetry; apply (val_zero Lexact_exact)). reflexivity.
Qed.
(** Node 4 has a zero parameter: times itself it stops, times node 5, which excludes the element, it does not. *)
Example C29_exact_nonvacuous : (forall a b : Qex, qval a = 0 -> qval b = 0 -> peq (pdiv a b) pzero = true) /\ (forall a b : Lexact, lval a = 0 -> lval b = 0 -> peq (pdiv a b) pzero = true) /\
  runs (new_mgr (VNode (Leaf 1) (Leaf 2))) z_ops = Ok z_m /\ @tops_in Qex qval sums z_m 7 /\
  @Rep Qex qval (m_heap z_m) 4 z_dec /\ @Rep Qex qval (m_heap z_m) 5 z_neg /\ ~ fine z_dec z_dec /\ fine z_dec z_neg.
Proof.
  split; [exact q_div0|]. split; [exact l_div0|]. split; [exact z_runs|].
  split. { intros i nd v pt pf _ E F _. exfalso. assert (forallb (fun nd => negb (N.eqb (n_flag nd) 7)) (m_heap z_m) = true) as K by (vm_compute; reflexivity).
    rewrite forallb_forall in K. apply nth_error_In in E. apply K in E. rewrite F in E. discriminate. }
  split; [exact z_r4|]. destruct z_safe as (R5 & _ & _ & SF & _). split; [exact R5|]. split; [|apply fine_safe; exact SF].
  intros F. apply fine_dec in F. unfold z_dec in F. cbn [list_prod map app] in F. inversion F as [|? ? [_ F2] _]; subst.
  destruct F2 as (_ & Q & _); cbn [fst snd]; unfold tp, ts, tw in *; cbn [fst snd] in *; try lra; exists (fun _ => true); reflexivity.
Qed.

(** Where the flag is in use for a constant, the product of leaves is lost although the program goes on: the leaf (t, f) times itself gives the constant (1, 1),
    for t > 0 and f = 0 with every exact comparison ... *)
Theorem C29_constant_true_refuted : forall P val, pexact P val -> forall t f : P, 0 < val t -> val f = 0 ->
  runs (new_mgr (Leaf 1)) (lost_ops t f) = Ok (lost_in t f) /\ Rep val (m_heap (lost_in t f)) 1 (TTop 1 (val t) (val f)) /\
  exists z, Multiply (lost_in t f) 1 1 1 = Ok ((Some 0%nat, z), lost_in t f) /\ Rep val (m_heap (lost_in t f)) 0 (TTop 1 1 1) /\
    weight (TTop 1 1 1) (fun _ => false) * val z <> weight (TTop 1 (val t) (val f)) (fun _ => false) * weight (TTop 1 (val t) (val f)) (fun _ => false).
Proof.
  intros P val HP t f T F. destruct (lost_reps val t f (val_one HP)) as [R1 R0]. split; [apply lost_run|]. split; [exact R1|].
  eexists. split; [apply (lost_exact P val HP); auto|]. split; [exact R0|]. simpl. rewrite (val_add HP), !(val_mul HP), F.
  assert (0 < val t * val t) by (apply Rmult_lt_0_compat; auto). lra.
Qed.
Print Assumptions C29_constant_true_refuted.
Example C29_constant_true_nonvacuous : 0 < qval (pone : Qex) /\ qval (pzero : Qex) = 0.
Proof. rewrite (val_one Qex_exact), (val_zero Qex_exact). lra. Qed.
(** ... and with the comparison of the code for positive parameters, if the odds are above 3163. *)
Theorem C29_small_parameters_refuted : forall t f, 0 < f -> 0 < t -> f * f * 10000000 < t * t ->
  runs (new_mgr (Leaf 1)) (lost_ops (cr t) (cr f)) = Ok (lost_in (cr t) (cr f)) /\ Rep cval (m_heap (lost_in (cr t) (cr f))) 1 (TTop 1 t f) /\
  exists z, Multiply (lost_in (cr t) (cr f)) 1 1 1 = Ok ((Some 0%nat, z), lost_in (cr t) (cr f)) /\ Rep cval (m_heap (lost_in (cr t) (cr f))) 0 (TTop 1 1 1) /\
    weight (TTop 1 1 1) (fun _ => false) * cval z > 10000000 * (weight (TTop 1 t f) (fun _ => false) * weight (TTop 1 t f) (fun _ => false)).
Proof.
  intros t f F T L. assert (cval (@pone Lcode) = 1) as E1 by (rewrite cr_one; apply cr_val; lra).
  destruct (lost_reps cval (cr t) (cr f) E1) as [R1 R0]. rewrite !cr_val in R1 by auto. split; [apply lost_run|]. split; [exact R1|].
  eexists. split; [apply lost_code; auto|]. split; [exact R0|]. assert (0 < f * f) by (apply Rmult_lt_0_compat; auto). rewrite cr_val by lra. simpl. lra.
Qed.
Print Assumptions C29_small_parameters_refuted.
Example C29_small_parameters_nonvacuous : let t := 9997 / 10000 in let f := 3 / 10000 in 0 < f /\ 0 < t /\ f * f * 10000000 < t * t /\ normalized (TTop 1 t f) /\ positive (TTop 1 t f).
Proof. cbv zeta. unfold normalized, positive. simpl. repeat split; lra. Qed.
