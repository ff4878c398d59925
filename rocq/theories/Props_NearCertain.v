(** Property theorems C87 (network compilation with the comparison of the code).  [Lexact]: logarithms with exact comparison; [Ltrunc]: the same arithmetic with
    the comparison of the code; [Lcode]: class PsddParameter.  [cr r], [cl r]: the parameter that stands for the positive number r.
    [stored_apart h]: moreover all logarithms are below 2^63/10^7.
    [stored_apart_t h]: two parameters of h that the unique table compares are equal, or one is zero, or they differ by a factor of at least exp(2e-7). *)
From Coq Require Import Reals Lra Permutation.
From Verif Require Import Base Param ParamProofs Vtree VtreeProofs Spec SpecProofs Heap Manager HeapProofs SerProofs RepProofs OrderProofs ManagerExamples Pgm PgmProofs PgmNet PgmExamples CompilerProofs QueryExamples
  TransferProofs TransferOps TransferCode NearCertain NearKept NetCode.
Local Open Scope R_scope.

(** If the run with exact comparison stores only parameters that are far apart, the code compiles the network to the product of its factors. *)
Theorem C87_far_partial : forall ords srt gc (fs : network Lexact) (m : mgr Lexact), (forall a b c, Permutation (ords a b c) c) -> sorts srt -> @Inv Lexact lval 0 m ->
  (forall v, In v (leaves (m_vt m)) -> v <> 0%N) -> Forall (good_factor (m_vt m)) fs -> fs <> [] -> gc <> 0%N ->
  (exists x, @network_value Lexact lval fs x <> 0) ->
  exists i z m' t, compile_network_dc ords srt gc fs m = Ok (Some i, z, m') /\
    (forall x, weight t x * lval z = @network_value Lexact lval fs x) /\ positive t /\ deterministic t /\ conforms (m_vt m) t /\
    (stored_apart_t (m_heap m') ->
      @compile_network_dc Ltrunc ords srt gc (map (mapf trunc_of) fs) (mapm trunc_of m) = Ok (Some i, z, mapm trunc_of m') /\
      @Rep Ltrunc lval (m_heap (mapm trunc_of m')) i t).
Proof. exact far_dc. Qed.
Print Assumptions C87_far_partial.
Example C87_far_nonvacuous : @Inv Lexact lval 0 (new_mgr (VNode (Leaf 1) (Leaf 2))) /\ Forall (good_factor (VNode (Leaf 1) (Leaf 2))) kept_net /\
  (exists x, @network_value Lexact lval kept_net x <> 0) /\
  exists z m', compile_network_dc (fun _ _ l => l) isort 1 kept_net (new_mgr (VNode (Leaf 1) (Leaf 2))) = Ok (Some 6%nat, z, m') /\ stored_apart_t (m_heap m').
Proof.
  split; [apply new_mgr_inv; repeat constructor; simpl; intuition discriminate|]. split; [exact kept_good|]. split.
  - exists (fun _ => true). unfold network_value, factor_value, table_value, table_index, kept_net. simpl. rewrite !exp_ln by lra. lra.
  - destruct (kept_run (fun _ _ l => l) isort 1 isort_sorts) as (z & m' & E & EH); [discriminate|]. exists z, m'. split; auto. rewrite EH. exact kept_apart.
Qed.

(** The same for class PsddParameter: a network of zeros and doubles is compiled to the product of its factors. *)
Theorem C87_far_code_partial : forall ords srt gc (fs : network Lexact) (m : mgr Lexact), (forall a b c, Permutation (ords a b c) c) -> sorts srt -> @Inv Lexact lval 0 m ->
  (forall v, In v (leaves (m_vt m)) -> v <> 0%N) -> Forall (good_factor (m_vt m)) fs -> Forall (fun F => Forall double_entry (f_table F)) fs -> fs <> [] -> gc <> 0%N ->
  let fc : network Lcode := map (mapf code_of) fs in
  (exists x, network_value cval fc x <> 0) ->
  exists i z m' t, compile_network_dc ords srt gc fs m = Ok (Some i, z, m') /\
    (stored_apart (m_heap m') ->
      compile_network_dc ords srt gc fc (mapm code_of m) = Ok (Some i, code_of z, mapm code_of m') /\
      Rep cval (m_heap (mapm code_of m')) i t /\ (forall x, weight t x * cval (code_of z) = network_value cval fc x) /\
      positive t /\ deterministic t /\ conforms (m_vt m) t).
Proof. exact far_dc_code. Qed.
Print Assumptions C87_far_code_partial.
Example C87_far_code_nonvacuous : Forall (fun F => Forall double_entry (f_table F)) kept_net /\ (exists x, network_value cval (map (mapf code_of) kept_net) x <> 0) /\
  exists z m', compile_network_dc (fun _ _ l => l) isort 1 kept_net (new_mgr (VNode (Leaf 1) (Leaf 2))) = Ok (Some 6%nat, z, m') /\ stored_apart (m_heap m').
Proof.
  split; [exact kept_entries|]. split.
  - exists (fun _ => true). rewrite code_value. unfold network_value, factor_value, table_value, table_index, kept_net. simpl. rewrite !exp_ln by lra. lra.
  - destruct (kept_run (fun _ _ l => l) isort 1 isort_sorts) as (z & m' & E & EH); [discriminate|]. exists z, m'. split; auto. rewrite EH. exact kept_stored.
Qed.

(** A factor over one variable that prefers true by more than 10^7 to 1 is lost once the constant true of that variable is stored: all three compilers, with the parameters
    of the code, return a PSDD in which the variable is even, and twice the partition function.  Any positive doubles; the other factor is over another variable. *)
Theorem C87_nearly_certain_refuted : forall x0 x1 p q, double_range x0 -> double_range x1 -> double_range p -> double_range q ->
  q * 10000000 < p -> x1 <= 999999 * x0 ->
  let fs : network Lcode := [MkF [2%N] [cr x0; cr x1]; MkF [1%N] [cr q; cr p]] in let vt := VNode (Leaf 1) (Leaf 2) in
  let lost r := exists z m t, r = Ok (Some 6%nat, z, m) /\ Rep cval (m_heap m) 6 t /\
    cval z = 2 * sum_over [1; 2]%N (network_value cval fs) (fun _ => false) /\
    forall x, weight t x = / 2 * ((if x 2%N then x1 else x0) / (x1 + x0)) in
  (forall x, network_value cval fs x = (if x 2%N then x1 else x0) * (if x 1%N then p else q)) /\
  (forall ords srt gc, sorts srt -> gc <> 0%N -> lost (compile_network_dc ords srt gc fs (new_mgr vt))) /\
  (forall ords srt, sorts srt -> lost (compile_network ords srt fs (new_mgr vt))) /\
  (forall ords gc, gc <> 0%N -> lost (compile_network_with_vtree ords gc fs (new_mgr vt))).
Proof.
  intros x0 x1 p q X0 X1 RP RQ NEAR FAR fs vt lost. split; [|split; [|split]]; intros.
  - apply (lost_value x0 x1 p q); auto.
  - apply (lost_dc x0 x1 p q); auto.
  - apply (lost_seq x0 x1 p q); auto.
  - apply (lost_vtree x0 x1 p q); auto.
Qed.
Print Assumptions C87_nearly_certain_refuted.
(** one chance in 10^8 against, and an even coin *)
Example C87_nearly_certain_nonvacuous : double_range 1 /\ double_range 99999999 /\ 1 * 10000000 < 99999999 /\ 1 <= 999999 * 1 /\ sorts isort.
Proof. split; [apply range_between; lra|]. split; [apply range_between; lra|]. split; [lra|]. split; [lra|exact isort_sorts]. Qed.
