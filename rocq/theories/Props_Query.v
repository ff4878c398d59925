(** Property theorems C17-C23 and C31 (psdd_node.cpp: queries).
    [psdd_at val m i s t]: node [i] of the well-formed manager [m] (every manager reached by operations is, C10) sits at a vtree
    node with subtree [s] and represents the tree [t]. *)
From Coq Require Import Reals Lra.
From Verif Require Import Base Param ParamProofs Vtree VtreeProofs Spec SpecProofs Heap Manager HeapProofs SerProofs
  RepProofs OrderProofs CanonProofs HeapExamples ManagerExamples TreeProofs Query QueryProofs MpeProofs SampleProofs QueryExamples.
Local Open Scope R_scope.

(** C17, C18.  [tops_one t]: at every top node the two parameters sum to one; decision nodes may be unnormalized. *)
Theorem C17_evaluate_full : forall P val, parith P val -> forall (m : mgr P) i s t mask x, psdd_at val m i s t ->
  (forall w, In w (leaves s) -> mask w = true) -> exists v, Evaluate (m_heap m) mask x i = Ok v /\ val v = weight t x.
Proof. intros P val HP m i s t mask x A M. destruct (evaluate_full val HP m i s t mask x A) as (v & E & F & _). eauto. Qed.
Print Assumptions C17_evaluate_full.
Example C17_nonvacuous : @psdd_at Qex qval ex_m 8 ex_vt ex_t8 /\ weight ex_t8 (fun _ => true) = 1 / 24 /\
  Evaluate (m_heap ex_m) (fun _ => true) (fun _ => true) 8 = Ok (q 1 24).
Proof. split; [exact ex_at8|]. split; [simpl; unfold lit_sat; simpl; lra|vm_compute; reflexivity]. Qed.

Theorem C18_evaluate_marginal : forall P val, parith P val -> forall (m : mgr P) i s t mask x, psdd_at val m i s t ->
  exists v, Evaluate (m_heap m) mask x i = Ok v /\
    (tops_one t -> forall x0, val v = sum_over (leaves s) (fun y => if agreesb (leaves s) mask x y then weight t y else 0) x0) /\
    (normalized t -> (forall w, In w (leaves s) -> mask w = false) -> val v = 1).
Proof. intros P val HP m i s t mask x A. destruct (evaluate_full val HP m i s t mask x A) as (v & E & _ & F & G). eauto. Qed.
Print Assumptions C18_evaluate_marginal.
Example C18_nonvacuous : @psdd_at Qex qval ex_m 8 ex_vt ex_t8 /\ tops_one ex_t8 /\ normalized ex_t8 /\
  Evaluate (m_heap ex_m) (fun v => N.eqb v 3) (fun _ => true) 8 = Ok (q 1 3) /\ Evaluate (m_heap ex_m) (fun _ => false) (fun _ => true) 8 = Ok (q 1 1).
Proof. split; [exact ex_at8|]. split; [apply normalized_tops_one, ex_normalized|]. split; [apply ex_normalized|]. split; vm_compute; reflexivity. Qed.
(** the hypothesis is needed: a top node with parameters (1,1), as GetTrueNode creates, is counted once *)
Theorem C18_unnormalized_refuted : exists m i s t v mask, @psdd_at Qex qval m i s t /\
  @Evaluate Qex (m_heap m) mask (fun _ => true) i = Ok v /\
  qval v <> sum_over (leaves s) (fun y => if agreesb (leaves s) mask (fun _ => true) y then weight t y else 0) (fun _ => true).
Proof. destruct unnormalized_false as (v & mask & E). exists un_m, 2%nat, ex_vt12, un_t, v, mask. split; [exact un_at|exact E]. Qed.
Print Assumptions C18_unnormalized_refuted.

(** C19, from cleared flags *)
Theorem C19_is_consistent : forall P val (m : mgr P) i s t mask e f, psdd_at val m i s t ->
  (forall j, reach (m_heap m) i j -> f j = false) ->
  exists b f', IsConsistent (m_heap m) mask e i f = Ok (b, f') /\ (forall j, f' j = f j) /\
    (b = true <-> exists y, agrees (leaves s) mask e y /\ base t y = true).
Proof. exact @consistent_full. Qed.
Print Assumptions C19_is_consistent.
Theorem C19_consistent_method : forall P val (m : mgr P) i s t ev fuel, psdd_at val m i s t -> (i < fuel)%nat ->
  exists b, node_consistent fuel (m_heap m) ev i = Ok b /\
    (b = true <-> exists y, (forall v w, In v (leaves s) -> ev v = Some w -> y v = w) /\ base t y = true).
Proof. exact @method_full. Qed.
Print Assumptions C19_consistent_method.
(** the bitset form: variables 1..n are observed *)
Theorem C19_consistent_bitset : forall P val (m : mgr P) i s t x n fuel, psdd_at val m i s t -> (i < fuel)%nat ->
  exists b, node_consistent fuel (m_heap m) (full_evidence x n) i = Ok b /\
    (b = true <-> exists y, (forall v, In v (leaves s) -> (1 <= v <= n)%N -> y v = x v) /\ base t y = true) /\
    ((forall v, In v (leaves s) -> (1 <= v <= n)%N) -> b = base t x).
Proof. exact @bitset_full. Qed.
Print Assumptions C19_consistent_bitset.
Example C19_bitset_nonvacuous : @psdd_at Qex qval ex_m 4 ex_vt12 ex_t4 /\ (forall v, In v (leaves ex_vt12) -> (1 <= v <= 2)%N) /\
  node_consistent 5 (m_heap ex_m) (full_evidence (fun v => N.eqb v 1) 2) 4 = Ok false /\
  node_consistent 5 (m_heap ex_m) (full_evidence (fun v => N.eqb v 1) 1) 4 = Ok true.
Proof. split; [exact ex_at4|]. split; [intros v [<-|[<-|[]]]; lia|]. split; vm_compute; reflexivity. Qed.
Example C19_nonvacuous : @psdd_at Qex qval ex_m 4 ex_vt12 ex_t4 /\
  (exists f, IsConsistent (m_heap ex_m) (fun v => N.eqb v 1) evA 4 all_false = Ok (true, f)) /\
  (exists f, IsConsistent (m_heap ex_m) (fun _ => true) evB 4 all_false = Ok (false, f)).
Proof. split; [exact ex_at4|]. split; eexists; vm_compute; reflexivity. Qed.
(** without cleared flags it is false: flags left by SetActivationFlag are taken for consistency *)
Theorem C19_stale_flags_refuted : exists (m : mgr Qex) i s t eA eB L f1 f2, @psdd_at Qex qval m i s t /\
  SerializePsddNodes (m_heap m) [i] = Ok L /\ SetActivationFlag (m_heap m) eA L (fun _ => false) = Ok f1 /\
  IsConsistent (m_heap m) (fun _ => true) eB i f1 = Ok (true, f2) /\
  forall y, agrees (leaves s) (fun _ => true) eB y -> base t y = false.
Proof.
  destruct consistent_stale as (f1 & f2 & A & B & C & _). exists ex_m, 4%nat, ex_vt12, ex_t4, evA, evB, ex_L4, f1, f2.
  split; [exact ex_at4|]. split; [exact ex_ser4|]. auto.
Qed.
Print Assumptions C19_stale_flags_refuted.

(** C20 from cleared flags; false for the second call *)
Theorem C20_set_activation_flag_partial : forall P val (m : mgr P) i s t e f L, psdd_at val m i s t ->
  SerializePsddNodes (m_heap m) [i] = Ok L -> (forall j, In j L -> f j = false) ->
  exists f', SetActivationFlag (m_heap m) e L f = Ok f' /\
    (forall j tj, In j L -> Rep val (m_heap m) j tj -> f' j = base tj e) /\ (forall j, ~ In j L -> f' j = f j).
Proof. exact @set_flag_full. Qed.
Print Assumptions C20_set_activation_flag_partial.
Example C20_nonvacuous : @psdd_at Qex qval ex_m 4 ex_vt12 ex_t4 /\ SerializePsddNodes (m_heap ex_m) [4%nat] = Ok ex_L4 /\
  exists f, SetActivationFlag (m_heap ex_m) evA ex_L4 all_false = Ok f /\ f 4%nat = true /\ f 0%nat = true /\ f 1%nat = false.
Proof. split; [exact ex_at4|]. split; [exact ex_ser4|]. eexists. repeat split; vm_compute; reflexivity. Qed.
Theorem C20_second_call_refuted : exists (m : mgr Qex) i s t eA eB L f1 f2, @psdd_at Qex qval m i s t /\
  SerializePsddNodes (m_heap m) [i] = Ok L /\ SetActivationFlag (m_heap m) eA L (fun _ => false) = Ok f1 /\
  SetActivationFlag (m_heap m) eB L f1 = Ok f2 /\ f2 i = true /\ base t eB = false.
Proof.
  destruct flags_stale as (f1 & f2 & A & B & C & D & _). exists ex_m, 4%nat, ex_vt12, ex_t4, evA, evB, ex_L4, f1, f2.
  split; [exact ex_at4|]. split; [exact ex_ser4|]. auto.
Qed.
Print Assumptions C20_second_call_refuted.

(** C21 *)
Theorem C21_model_count : forall P val (m : mgr P) i s t L x0, psdd_at val m i s t -> deterministic t ->
  SerializePsddNodes (m_heap m) [i] = Ok L -> ModelCount (m_heap m) L = Ok (count_over (leaves s) (base t) x0).
Proof. exact @count_full. Qed.
Print Assumptions C21_model_count.
Example C21_nonvacuous : @psdd_at Qex qval ex_m 8 ex_vt ex_t8 /\ deterministic ex_t8 /\
  exists L, SerializePsddNodes (m_heap ex_m) [8%nat] = Ok L /\ ModelCount (m_heap ex_m) L = Ok 8%N.
Proof. split; [exact ex_at8|]. split; [apply ex_deterministic|]. eexists. split; vm_compute; reflexivity. Qed.

(** C22 *)
Theorem C22_mpe : forall P val, pexact P val -> forall (m : mgr P) i s t L ud fuel, psdd_at val m i s t -> nonneg t -> deterministic t ->
  SerializePsddNodes (m_heap m) [i] = Ok L -> (vsize s <= fuel)%nat ->
  exists x v ud', GetMPESolution fuel (m_heap m) L ud = Ok (x, v, ud') /\
    weight t x = val v /\ base t x = true /\ (forall y, weight t y <= val v) /\ (forall w, x w = true -> In w (leaves s)) /\
    (forall j, In j L -> ud' j = None) /\ (forall j, ~ In j L -> ud' j = ud j).
Proof. exact @mpe_full. Qed.
Print Assumptions C22_mpe.
Example C22_nonvacuous : @psdd_at Qex qval ex_m 8 ex_vt ex_t8 /\ nonneg ex_t8 /\ deterministic ex_t8 /\
  exists L x ud', SerializePsddNodes (m_heap ex_m) [8%nat] = Ok L /\ GetMPESolution 20 (m_heap ex_m) L (fun _ => None) = Ok (x, q 1 4, ud') /\ x 1%N = false.
Proof. split; [exact ex_at8|]. split; [exact ex_nonneg|]. split; [apply ex_deterministic|]. do 3 eexists. repeat split; vm_compute; reflexivity. Qed.
(** with the code's comparison (equal when the logarithms agree to seven digits) the answer need not be the largest *)
Theorem C22_code_comparison_refuted : exists (h : heap Lcode) L x v ud' pt pf,
  nth_error h 0 = Some (MkN [] 0 (BTop 1 pt pf)) /\ L = [0%nat] /\
  GetMPESolution 5 h L (fun _ => None) = Ok (x, v, ud') /\ cval v < cval pt /\ x 1%N = false.
Proof.
  destruct mpe_not_best as (x & v & ud' & E & A & B). exists mpe_heap, [0%nat], x, v, ud', (lc (Fin 0)), (lc (Fin tiny)). repeat split; auto.
Qed.
Print Assumptions C22_code_comparison_refuted.

(** C23.  Pairs are (false, true). *)
Theorem C23_marginals : forall P val, parith P val -> forall (m : mgr P) i s t L, psdd_at val m i s t -> normalized t ->
  SerializePsddNodes (m_heap m) [i] = Ok L ->
  exists mg, GetMarginals (m_heap m) L = Ok mg /\
    (forall v, In v (leaves s) -> exists pf pt, mg v = Some (pf, pt) /\
       (forall x0, val pt = sum_over (leaves s) (fun y => if y v then weight t y else 0) x0) /\
       (forall x0, val pf = sum_over (leaves s) (fun y => if y v then 0 else weight t y) x0) /\
       (exists e, Evaluate (m_heap m) (only v) (fun _ => true) i = Ok e /\ val pt = val e) /\
       (exists e, Evaluate (m_heap m) (only v) (fun _ => false) i = Ok e /\ val pf = val e)) /\
    (forall v, ~ In v (leaves s) -> mg v = None).
Proof. exact @marg_full. Qed.
Print Assumptions C23_marginals.
Example C23_nonvacuous : @psdd_at Qex qval ex_m 8 ex_vt ex_t8 /\ normalized ex_t8 /\
  exists L mg, SerializePsddNodes (m_heap ex_m) [8%nat] = Ok L /\ GetMarginals (m_heap ex_m) L = Ok mg /\ mg 1%N = Some (q 3 4, q 1 4) /\ mg 3%N = Some (q 2 3, q 1 3).
Proof. split; [exact ex_at8|]. split; [apply ex_normalized|]. do 2 eexists. repeat split; vm_compute; reflexivity. Qed.

(** C31.  [sampled] (SampleProofs.v) says which instantiation a list of draws stands for: element k is taken exactly for
    draws in the k-th interval, of length its parameter. *)
Theorem C31_direct_sample_partial : forall P val, pexact P val -> forall (m : mgr P) i s t fuel us, psdd_at val m i s t -> nonneg t -> normalized t ->
  (i < fuel)%nat -> (vsize s <= length us)%nat -> (forall u, In u us -> val u < 1) ->
  exists x us', DirectSample fuel (m_heap m) i (fun _ => false) us = Ok (x, us') /\
    sampled t (map val us) (map val us') x /\ 0 < weight t x /\ (forall v, x v = true -> In v (leaves s)) /\ (exists d, us = d ++ us').
Proof. exact @sample_full. Qed.
Print Assumptions C31_direct_sample_partial.
Example C31_nonvacuous : @psdd_at Qex qval ex_m 8 ex_vt ex_t8 /\ nonneg ex_t8 /\ normalized ex_t8 /\
  exists x, DirectSample 9 (m_heap ex_m) 8 (fun _ => false) [q 1 2; q 1 8; q 0 1; q 1 5; q 3 4; q 0 1; q 0 1] = Ok (x, [q 0 1; q 0 1]) /\
    map x [1; 2; 3; 4]%N = [true; true; true; false].
Proof.
  split; [exact ex_at8|]. split; [exact ex_nonneg|]. split; [apply ex_normalized|]. eexists. split; vm_compute; reflexivity.
Qed.
(** with the code's comparison a draw below 1 but within 1e-7 of it selects no element: assertion failure *)
Theorem C31_code_comparison_refuted : exists (h : heap Lcode) i u, cval u < 1 /\
  nth_error h i = Some (MkN [] 0 (BDec [MkE 0 1 (lc (Fin 0))])) /\ cval (lc (Fin 0)) = 1 /\
  DirectSample 5 h i (fun _ => false) [u] = Abort.
Proof.
  exists smp_heap, 2%nat, (lc (Fin tiny)). destruct sample_aborts as (A & B & _). repeat split; auto. unfold cval. cbn. apply exp_0.
Qed.
Print Assumptions C31_code_comparison_refuted.
(** ... and at a top node with a zero parameter it selects the value of probability zero *)
Theorem C31_zero_probability_refuted : exists (m : mgr Lcode) i u x, cval u < 1 /\ GetPsddTopNode (new_mgr (Leaf 1)) 1 0 (lc (Fin 0)) pzero = Ok (i, m) /\
  cval (lc (Fin 0)) = 1 /\ cval (@pzero Lcode) = 0 /\ DirectSample 5 (m_heap m) i (fun _ => false) [u] = Ok (x, []) /\ x 1%N = false.
Proof.
  destruct sample_zero as (A & B & C). do 4 eexists. split; [exact (proj1 sample_aborts)|]. split; [exact A|]. split; [unfold cval; cbn; apply exp_0|]. split; [exact B|]. split; [exact C|reflexivity].
Qed.
Print Assumptions C31_zero_probability_refuted.
