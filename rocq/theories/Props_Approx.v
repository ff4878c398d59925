(** C55, C56: what survives of the exact theorems with the comparison the code uses. *)
From Coq Require Import Reals Lra.
From Verif Require Import Base Param ParamProofs Vtree VtreeProofs Spec SpecProofs Heap Manager HeapProofs SerProofs RepProofs OrderProofs HeapExamples LoadProofs MulProofs
  TreeProofs Query QueryProofs MpeProofs SampleProofs QueryExamples ApproxMpe ApproxRep ApproxMul ApproxExamples.
Local Open Scope R_scope.

(** The comparison of the code: logarithms scaled by 10^7 and truncated.  [Ltrunc] is the class PsddParameter on logarithms below
    2^63 / 10^7 in absolute value, and sees two parameters as equal only if they agree up to the factor exp(2 / 10^7). *)
Theorem C55_comparison_of_the_code : papprox Ltrunc lval (2 / 10000000) /\
  forall a b, in_range (mkp (lx a)) -> in_range (mkp (lx b)) ->
    p_eq (mkp (lx a)) (mkp (lx b)) = t_eq a b /\ p_lt (mkp (lx a)) (mkp (lx b)) = t_lt a b /\ p_gt (mkp (lx a)) (mkp (lx b)) = t_lt b a /\
    p_add (mkp (lx a)) (mkp (lx b)) = mkp (lx (l_add a b)) /\ p_mul (mkp (lx a)) (mkp (lx b)) = mkp (lx (l_mul a b)) /\
    (b <> lz -> p_div (mkp (lx a)) (mkp (lx b)) = mkp (lx (l_div a b))).
Proof. split; [exact Ltrunc_approx|exact trunc_instance]. Qed.
Print Assumptions C55_comparison_of_the_code.

(** Multiply, when every top node of the flag holds a proper distribution: existing nodes stay, the partition value is exact, the
    product is null exactly when it is zero everywhere, the support is exact, and the distribution returned is off by at most
    exp(2 * size * d) - 1 in total. *)
Theorem C55_multiply_tolerance : forall P val d, papprox P val d -> forall fl (m : mgr P) a b p s ta tb,
  Wf m -> tops_in val proper m fl -> subtree (m_vt m) p = Some s -> vt_of (m_heap m) a = Some p -> vt_of (m_heap m) b = Some p ->
  Rep val (m_heap m) a ta -> Rep val (m_heap m) b tb -> positive ta -> positive tb ->
  exists r z m', Multiply m a b fl = Ok ((r, z), m') /\ mext fl m m' /\ Wf m' /\ tops_in val proper m' fl /\
    (forall x0, val z = sum_over (leaves s) (fun x => weight ta x * weight tb x) x0) /\
    (r = None <-> forall x, weight ta x * weight tb x = 0) /\
    forall i, r = Some i -> vt_of (m_heap m') i = Some p /\ flag_of (m_heap m') i = Some fl /\ In i (m_live m') /\
      exists t, Rep val (m_heap m') i t /\ conforms s t /\ positive t /\ (forall x, base t x = base ta x && base tb x) /\
        (deterministic ta -> deterministic tb -> deterministic t) /\
        forall x0, sum_over (leaves s) (fun x => Rabs (weight ta x * weight tb x / val z - weight t x)) x0 <= exp (INR (2 * vsize s) * d) - 1.
Proof. exact @multiply_approx. Qed.
Print Assumptions C55_multiply_tolerance.
Example C55_nonvacuous : papprox Ltrunc lval tol /\ runs (new_mgr ap_vt) (ap_ops half) = Ok (ap_m half) /\ Wf (ap_m half) /\
  @tops_in Ltrunc lval proper (ap_m half) 0 /\ @psdd_at Ltrunc lval (ap_m half) 4 ap_vt ap_t /\ positive ap_t /\ deterministic ap_t /\
  (forall x, x 1%N = false -> x 2%N = true -> weight ap_t x * weight ap_t x = 1/4).
Proof.
  split; [exact Ltrunc_approx|]. split; [apply ap_runs|]. split; [exact ap_wf|]. split; [exact ap_tops|]. split; [exact ap_at|].
  split; [exact ap_positive|]. split; [exact ap_det|]. exact ap_overlap.
Qed.
(** The condition on the top nodes cannot be dropped: where the flag has the constant true, a product that leaves 10^-7 or less to
    the false value is answered by the constant true. *)
Theorem C55_with_true_nodes_refuted : exists a b : Lcode, cval a + cval b = 1 /\ 0 < cval a /\ 0 < cval b /\ exists m1 m2 z,
  GetTrueNode [] 0 (new_mgr (Leaf 1)) = Ok (0%nat, m1) /\ GetPsddTopNode m1 1 0 a b = Ok (1%nat, m2) /\
  nth_error (m_heap m2) 0 = Some (MkN [] 0 (BTop 1 pone pone)) /\ nth_error (m_heap m2) 1 = Some (MkN [] 0 (BTop 1 a b)) /\
  Multiply m2 1 1 0 = Ok ((Some 0%nat, z), m2) /\ cval b * cval b <= / 10000000 * cval z.
Proof.
  destruct multiply_collision as (m1 & m2 & z & A & B & C & D & E & F & G). exists (skew_t u), (skew_f u). split; auto.
  split; [apply exp_pos|]. split; [apply exp_pos|]. exists m1, m2, z. auto 10.
Qed.
Print Assumptions C55_with_true_nodes_refuted.
(** And the constant true itself: after a top node that leaves less than 10^-7 to the false value, GetTrueNode returns that node. *)
Theorem C55_true_node_refuted : exists a b : Lcode, cval a + cval b = 1 /\ 0 < cval b < / 10000000 /\ exists m1,
  GetPsddTopNode (new_mgr (Leaf 1)) 1 0 a b = Ok (0%nat, m1) /\ GetTrueNode [] 0 m1 = Ok (0%nat, m1) /\
  nth_error (m_heap m1) 0 = Some (MkN [] 0 (BTop 1 a b)).
Proof.
  destruct true_node_collision as (m1 & A & B & C & D & E). exists (skew_t (u * u)), (skew_f (u * u)). split; auto. split; auto. exists m1. auto.
Qed.
Print Assumptions C55_true_node_refuted.

(** GetMPESolution: the instance returned has the value returned, and no instance beats it by more than the factor
    exp(size * d).  Nothing else changes. *)
Theorem C56_mpe_tolerance : forall P val d, papprox P val d -> forall (m : mgr P) i s t L ud fuel, psdd_at val m i s t -> deterministic t ->
  SerializePsddNodes (m_heap m) [i] = Ok L -> (vsize s <= fuel)%nat ->
  exists x v ud', GetMPESolution fuel (m_heap m) L ud = Ok (x, v, ud') /\
    weight t x = val v /\ base t x = true /\ (forall y, weight t y <= exp (INR (vsize s) * d) * val v) /\
    (forall w, x w = true -> In w (leaves s)) /\ (forall j, In j L -> ud' j = None) /\ (forall j, ~ In j L -> ud' j = ud j).
Proof. exact @approx_mpe. Qed.
Print Assumptions C56_mpe_tolerance.
Example C56_nonvacuous : papprox Ltrunc lval tol /\ @psdd_at Ltrunc lval (ap_m half) 4 ap_vt ap_t /\ deterministic ap_t /\
  SerializePsddNodes (m_heap (ap_m half)) [4%nat] = Ok [4; 0; 1; 2; 3]%nat /\ papprox Qex qval 0.
Proof.
  split; [exact Ltrunc_approx|]. split; [exact ap_at|]. split; [exact ap_det|]. split; [reflexivity|]. apply papprox_of_exact, Qex_exact.
Qed.
