(** Property theorems C69 (psdd_manager.cpp: Multiply used as an algebra).
    [mrun fl e m] multiplies the nodes of the expression [e] bottom up; [factors e] are its nodes from left to right;
    [wprod l x] is the product of the weights of the trees [l] at [x]; [operand val m p i t]: the node [i] of [m] at the
    vtree node [p] is the positive and deterministic PSDD [t]. *)
From Coq Require Import Reals Lra.
From Verif Require Import Base Param ParamProofs Vtree VtreeProofs Spec SpecProofs Heap Manager HeapProofs SerProofs
  RepProofs OrderProofs CanonProofs LoadProofs MulProofs ReplayProofs ManagerExamples Query ProductTrees ProductNodes ProductProofs ProductExamples.
Local Open Scope R_scope.

Theorem C69_product : forall P val, pexact P val -> forall fl (m : mgr P) p s e l,
  tidy val fl m -> subtree (m_vt m) p = Some s -> Forall2 (operand val m p) (factors e) l ->
  exists r z m', mrun fl e m = Ok ((r, z), m') /\ mext fl m m' /\ tidy val fl m' /\
    (r = None <-> forall x, wprod l x = 0) /\
    match r with
    | None => val z = 0
    | Some i => exists t, node_at val m' i p t /\ positive t /\ deterministic t /\ (forall x, weight t x * val z = wprod l x) /\
        ((exists a b, e = MMul a b) -> normalized t /\ forall x, val z = sum_over (leaves s) (wprod l) x)
    end.
Proof. exact @product_value. Qed.
Print Assumptions C69_product.

Theorem C69_any_order : forall P val, pexact P val -> forall fl (m : mgr P) p s e e' l r z m1 m2,
  tidy val fl m -> subtree (m_vt m) p = Some s -> Forall2 (operand val m p) (factors e) l ->
  Permutation (factors e) (factors e') -> mrun fl e m = Ok ((r, z), m1) -> tidy val fl m2 -> grow m1 m2 ->
  exists z' m3, mrun fl e' m2 = Ok ((r, z'), m3) /\ val z' = val z /\ mext fl m2 m3.
Proof. exact @product_order. Qed.
Print Assumptions C69_any_order.

Theorem C69_conditioning : forall P val, pexact P val -> forall fl (m : mgr P) a b p s ta tb (ev : inst -> bool) c,
  tidy val fl m -> subtree (m_vt m) p = Some s ->
  node_at val m a p ta -> node_at val m b p tb -> positive ta -> positive tb -> normalized ta ->
  (forall x, weight tb x = if ev x then c else 0) ->
  exists r z m', Multiply m a b fl = Ok ((r, z), m') /\ mext fl m m' /\
    (forall x0, val z = c * sum_over (leaves s) (fun x => if ev x then weight ta x else 0) x0) /\
    match r with
    | None => forall x, ev x = true -> weight ta x = 0
    | Some i => forall mask y x0, exists v, Evaluate (m_heap m') mask y i = Ok v /\
        val v * sum_over (leaves s) (fun x => if ev x then weight ta x else 0) x0 =
        sum_over (leaves s) (fun x => if agreesb (leaves s) mask y x && ev x then weight ta x else 0) x0
    end.
Proof. exact @conditioning. Qed.
Print Assumptions C69_conditioning.

(** Three nodes over two variables.  The two orders create different intermediate nodes and end in the same node. *)
Example C69_nonvacuous : pexact Qex qval /\ @tidy Qex qval 0 pr_m /\ subtree (m_vt pr_m) [] = Some pr_vt /\
  Forall2 (@operand Qex qval pr_m []) (factors (MMul (MMul (MNode 6) (MNode 8)) (MNode 9))) [pr_a; pr_b; pr_c] /\
  exists z z' m1 m2, mrun 0 (MMul (MMul (MNode 6) (MNode 8)) (MNode 9)) pr_m = Ok ((Some 12%nat, z), m1) /\ @tidy Qex qval 0 m1 /\
    mrun 0 (MMul (MMul (MNode 9) (MNode 6)) (MNode 8)) m1 = Ok ((Some 12%nat, z'), m2) /\
    length (m_heap m1) = 13%nat /\ length (m_heap m2) = 14%nat /\ qval z = qval z' /\ qval z = 5 / 72.
Proof.
  split; [exact Qex_exact|]. split; [exact pr_tidy|]. split; [reflexivity|]. split; [exact pr_operands|].
  destruct pr_orders as (z & z' & m1 & m2 & E1 & E2 & R). exists z, z', m1, m2. split; auto. split; [|auto].
  exact (@mrun_tidy Qex qval Qex_exact 0 [] (MMul (MMul (MNode 6) (MNode 8)) (MNode 9)) pr_m [pr_a; pr_b; pr_c] _ m1 pr_tidy pr_operands E1).
Qed.
(** The third node is positive exactly where both variables agree; its probability under the first node is 1/12 + 3/8. *)
Example C69_conditioning_nonvacuous : normalized pr_a /\ (forall x, weight pr_c x = if Bool.eqb (x 1%N) (x 2%N) then 1 / 2 else 0) /\
  exists i z m', Multiply pr_m 6 9 0 = Ok ((Some i, z), m') /\ qval z = 1 / 2 * (1 / 12 + 3 / 8) /\
  exists v, Evaluate (m_heap m') (N.eqb 1) (fun _ => true) i = Ok v /\ qval v * (1 / 12 + 3 / 8) = 1 / 12.
Proof.
  split; [exact pr_normalized|]. split; [exact pr_indicator|]. do 3 eexists. split; [vm_compute; reflexivity|].
  split; [unfold qval; simpl; lra|]. eexists. split; [vm_compute; reflexivity|unfold qval; simpl; lra].
Qed.
