(** Property theorems C38-C41 (compiling factors and networks, exact parameters).  [factor_value val F x]: the entry of F's table that x
    selects, the first variable of the scope being the most significant bit; [network_value val fs x]: the product of these;
    [good_factor vt F]: the scope is a non-empty duplicate-free list of at most 31 variables of vt, the table has 2^n entries, and vt lays the scope out right-linearly
    (wherever variables of the scope are on both sides of a vtree node, exactly one is on the left); [root_node m i t]: node i of m hangs
    at the root of the vtree and stands for the deterministic PSDD t with positive parameters; [sorts srt]: srt is a sorting function.
    [ord], [ords]: any iteration order of the hash maps. *)
From Coq Require Import Reals Lra.
From Verif Require Import Base Param ParamProofs Vtree VtreeProofs Spec SpecProofs Heap Manager HeapProofs SerProofs RepProofs OrderProofs CanonProofs
  HeapExamples LoadProofs MulProofs ReplayProofs ManagerExamples Query TreeProofs Pgm PgmLayout PgmProofs PgmFail PgmNet PgmExamples.
Local Open Scope R_scope.

(** C38 *)
Theorem C38_factor : forall P val, pexact P val -> forall ord F (m : mgr P), (forall k l, Permutation (ord k l) l) -> Inv val 0 m ->
  (forall v, In v (leaves (m_vt m)) -> v <> 0%N) -> good_factor (m_vt m) F -> (exists x, factor_value val F x <> 0) ->
  exists i z m' t, compile_factor ord F m = Ok (i, z, m') /\ Inv val 0 m' /\ mext 0 m m' /\ root_node (val := val) m' i t /\ 0 < val z /\
    (forall x, weight t x * val z = factor_value val F x) /\ forall x, val z = sum_over (f_scope F) (factor_value val F) x.
Proof. exact @factor_full. Qed.
Print Assumptions C38_factor.
Example C38_nonvacuous : @Inv Qex qval 0 (new_mgr ex_vt) /\ (forall v, In v (leaves ex_vt) -> v <> 0%N) /\ good_factor ex_vt fac_a /\ good_factor ex_vt fac_b /\
  @factor_value Qex qval fac_a (fun v => N.eqb v 1) = 2 /\ @factor_value Qex qval fac_b (fun v => N.eqb v 4) = 1 / 3 /\
  (do (x, _) <- compile_factor (id_ord 0) fac_b (new_mgr ex_vt) ;; Ok (snd x)) = Ok (MkQ 47 6).
Proof.
  split; [apply new_inv, ex_vt_leaves|]. split; [apply ex_vt_leaves|]. split; [apply fac_good|]. split; [apply fac_good|].
  split; [fv|]. split; [fv|]. vm_compute. reflexivity.
Qed.

(** C39: the compiler works for right-linear layouts (C38) but not for every vtree, and not for the factor 0.  C39_exactly_partial says for which
    factors it works; the others give the failures named here. *)
Theorem C39_layout_refuted : incl (f_scope fac_three) (leaves ex_vt) /\ NoDup (f_scope fac_three) /\ length (f_table fac_three) = 8%nat /\
  compile_factor (id_ord 0) fac_three (new_mgr ex_vt) = Abort.
Proof.
  split; [apply fac_three_aborts|]. split; [repeat constructor; simpl; intuition discriminate|]. split; [reflexivity|apply fac_three_aborts].
Qed.
Print Assumptions C39_layout_refuted.
Theorem C39_zero_refuted : forall P val, pexact P val -> forall ord F (m : mgr P), (forall k l, Permutation (ord k l) l) -> Inv val 0 m ->
  (forall v, In v (leaves (m_vt m)) -> v <> 0%N) -> NoDup (f_scope F) -> incl (f_scope F) (leaves (m_vt m)) -> (length (f_scope F) <= 31)%nat ->
  N.of_nat (length (f_table F)) = (2 ^ N.of_nat (length (f_scope F)))%N -> (forall x, factor_value val F x = 0) -> compile_factor ord F m = UB.
Proof. exact @factor_null. Qed.
Print Assumptions C39_zero_refuted.
Theorem C39_abort_refuted : forall P val, pexact P val -> forall ord F (m : mgr P), (forall k l, Permutation (ord k l) l) -> Inv val 0 m ->
  (forall v, In v (leaves (m_vt m)) -> v <> 0%N) -> NoDup (f_scope F) -> incl (f_scope F) (leaves (m_vt m)) -> (length (f_scope F) <= 31)%nat ->
  N.of_nat (length (f_table F)) = (2 ^ N.of_nat (length (f_scope F)))%N -> (exists x, factor_value val F x <> 0) -> ~ right_linear (f_scope F) (m_vt m) ->
  compile_factor ord F m = Abort.
Proof. exact @factor_abort. Qed.
Print Assumptions C39_abort_refuted.
Theorem C39_foreign : forall P val ord F (m : mgr P), Inv val 0 m -> NoDup (f_scope F) ->
  (~ incl (f_scope F) (leaves (m_vt m)) -> compile_factor ord F m = Abort) /\ (f_scope F = [] -> compile_factor ord F m = UB).
Proof. intros P val ord F m I ND. split; [exact (factor_foreign ord F m I ND)|exact (factor_empty ord F m)]. Qed.
Print Assumptions C39_foreign.
Theorem C39_exactly_partial : forall P val, pexact P val -> forall ord F (m : mgr P), (forall k l, Permutation (ord k l) l) -> Inv val 0 m ->
  (forall v, In v (leaves (m_vt m)) -> v <> 0%N) ->
  ((exists r, compile_factor ord F m = Ok r) <-> good_factor (m_vt m) F /\ exists x, factor_value val F x <> 0).
Proof. exact @factor_exactly. Qed.
Print Assumptions C39_exactly_partial.
Example C39_nonvacuous : good_factor ex_vt fac_null /\ (forall x, @factor_value Qex qval fac_null x = 0) /\
  compile_factor (id_ord 0) fac_null (new_mgr ex_vt) = UB.
Proof. split; [apply fac_null_good|]. split; [apply fac_null_good|]. vm_compute. reflexivity. Qed.
Example C39_abort_nonvacuous : @Inv Qex qval 0 (new_mgr ex_vt) /\ NoDup (f_scope fac_three) /\ incl (f_scope fac_three) (leaves ex_vt) /\
  N.of_nat (length (f_table fac_three)) = (2 ^ N.of_nat (length (f_scope fac_three)))%N /\
  (exists x, @factor_value Qex qval fac_three x <> 0) /\ ~ right_linear (f_scope fac_three) ex_vt.
Proof.
  split; [apply new_inv, ex_vt_leaves|]. split; [repeat constructor; simpl; intuition discriminate|]. split; [apply fac_three_aborts|]. split; [reflexivity|].
  split; [exists (fun _ => true); fv|]. simpl. intros [[H _]|[[H _]|[(a & v & b & E & _ & H) _]]].
  - apply (H 1%N); simpl; auto.
  - apply (H 3%N); simpl; auto.
  - destruct a as [|a0 [|a1 a]]; simpl in E.
    + injection E as <- <-. apply (H 2%N); simpl; auto.
    + injection E as <- <- <-. apply (H 1%N); simpl; auto.
    + injection E as _ _ E. destruct a; discriminate.
Qed.
(** a fourth entry too many, a variable given twice, a variable the vtree does not have *)
Example C39_bad_factors : compile_factor (id_ord 0) (MkF [1]%N [q 1 1; q 1 1; q 1 1] : factor Qex) (new_mgr ex_vt) = UB /\
  compile_factor (id_ord 0) (MkF [1]%N (repeat (q 1 1) 4) : factor Qex) (new_mgr ex_vt) = Abort /\
  compile_factor (id_ord 0) (MkF [1; 1]%N (repeat (q 1 1) 4) : factor Qex) (new_mgr ex_vt) = Abort /\
  compile_factor (id_ord 0) (MkF [1; 9]%N (repeat (q 1 1) 4) : factor Qex) (new_mgr ex_vt) = Abort.
Proof. split; [|split; [|split]]; vm_compute; reflexivity. Qed.

(** C40 *)
Theorem C40_network : forall P val, pexact P val -> forall ords srt fs (m : mgr P), (forall a b c, Permutation (ords a b c) c) -> sorts srt -> Inv val 0 m ->
  (forall v, In v (leaves (m_vt m)) -> v <> 0%N) -> Forall (good_factor (m_vt m)) fs -> Forall (nonzero (val := val)) fs -> fs <> [] ->
  exists r z m', compile_network ords srt fs m = Ok (r, z, m') /\ Inv val 0 m' /\ mext 0 m m' /\
    ((exists x, network_value val fs x <> 0) -> exists i t, r = Some i /\ root_node (val := val) m' i t /\ 0 < val z /\
       (forall x, weight t x * val z = network_value val fs x) /\ ((2 <= length fs)%nat -> normalized t)) /\
    ((forall x, network_value val fs x = 0) -> val z = 0).
Proof. exact @network_full. Qed.
Print Assumptions C40_network.
Theorem C40_network_dc_partial : forall P val, pexact P val -> forall ords srt gc fs (m : mgr P), (forall a b c, Permutation (ords a b c) c) -> sorts srt ->
  Inv val 0 m -> (forall v, In v (leaves (m_vt m)) -> v <> 0%N) -> Forall (good_factor (m_vt m)) fs -> fs <> [] -> gc <> 0%N ->
  (exists x, network_value val fs x <> 0) ->
  exists i z m' t, compile_network_dc ords srt gc fs m = Ok (Some i, z, m') /\ Inv val 0 m' /\ m_vt m' = m_vt m /\
    (exists l, m_heap m' = m_heap m ++ l) /\ root_node (val := val) m' i t /\
    0 < val z /\ (forall x, weight t x * val z = network_value val fs x) /\ ((2 <= length fs)%nat -> normalized t).
Proof. exact @network_dc_full. Qed.
Print Assumptions C40_network_dc_partial.
Theorem C40_network_with_vtree_partial : forall P val, pexact P val -> forall ords gc fs (m : mgr P), (forall a b c, Permutation (ords a b c) c) ->
  Inv val 0 m -> (forall v, In v (leaves (m_vt m)) -> v <> 0%N) -> Forall (good_factor (m_vt m)) fs -> fs <> [] -> gc <> 0%N ->
  (exists x, network_value val fs x <> 0) ->
  exists i z m' t, compile_network_with_vtree ords gc fs m = Ok (Some i, z, m') /\ Inv val 0 m' /\ m_vt m' = m_vt m /\
    (exists l, m_heap m' = m_heap m ++ l) /\ root_node (val := val) m' i t /\
    0 < val z /\ (forall x, weight t x * val z = network_value val fs x) /\ ((2 <= length fs)%nat -> normalized t).
Proof. exact @network_with_vtree_full. Qed.
Print Assumptions C40_network_with_vtree_partial.
Example C40_nonvacuous : sorts isort /\ Forall (good_factor ex_vt) [fac_a; fac_b] /\ Forall (@nonzero Qex qval) [fac_a; fac_b] /\
  (exists x, @network_value Qex qval [fac_a; fac_b] x <> 0) /\
  z_of (compile_network_dc id_ord isort 100 [fac_a; fac_b] (new_mgr ex_vt)) = Ok (47%N, 2%positive) /\
  z_of (compile_network id_ord isort [fac_a; fac_b] (new_mgr ex_vt)) = Ok (47%N, 2%positive) /\
  z_of (compile_network_with_vtree id_ord 1 [fac_a; fac_b] (new_mgr ex_vt)) = Ok (47%N, 2%positive).
Proof.
  split; [exact isort_sorts|]. split; [apply Forall_cons; [|apply Forall_cons; [|apply Forall_nil]]; apply fac_good|]. split; [apply fac_nonzero|]. split; [apply fac_nonzero|].
  split; [exact fac_product|exact fac_product_all].
Qed.
(** Not for every network: a product that is zero, a network without factors, GC frequency 0, and a factor that is zero *)
Theorem C40_null_product_refuted : (forall x, @network_value Qex qval [fac_x; fac_not_x; fac_y; fac_y] x = 0) /\
  Forall (@nonzero Qex qval) [fac_x; fac_not_x; fac_y; fac_y] /\
  compile_network_dc id_ord isort 100 [fac_x; fac_not_x; fac_y; fac_y] (new_mgr ex_vt) = UB /\
  compile_network_with_vtree id_ord 100 [fac_x; fac_not_x] (new_mgr ex_vt) = Abort.
Proof.
  split.
  { intros x. unfold network_value, factor_value, table_value, table_index, fac_x, fac_not_x. simpl. destruct (x 1%N); simpl; unfold qval; simpl; lra. }
  split; [|split; apply null_product_crashes].
  repeat apply Forall_cons; try apply Forall_nil; first [exists (fun _ => true); fv | exists (fun _ => false); fv].
Qed.
Print Assumptions C40_null_product_refuted.
Theorem C40_edge_cases_refuted : compile_network_dc id_ord isort 0 [fac_x; fac_y] (new_mgr ex_vt) = UB /\
  compile_network_with_vtree id_ord 0 [fac_x; fac_y] (new_mgr ex_vt) = UB /\
  compile_network_dc id_ord isort 100 [] (new_mgr (P := Qex) ex_vt) = UB /\ compile_network_with_vtree id_ord 100 [] (new_mgr (P := Qex) ex_vt) = UB.
Proof. destruct other_crashes as (A & B & C & D & _). auto. Qed.
Print Assumptions C40_edge_cases_refuted.
Theorem C40_zero_factor_refuted : forall P val, pexact P val -> forall ords srt gc fs (m : mgr P), (forall a b c, Permutation (ords a b c) c) ->
  Inv val 0 m -> (forall v, In v (leaves (m_vt m)) -> v <> 0%N) -> Forall (good_factor (m_vt m)) fs ->
  (exists F, In F fs /\ forall x, factor_value val F x = 0) ->
  compile_network ords srt fs m = UB /\ compile_network_dc ords srt gc fs m = UB /\ compile_network_with_vtree ords gc fs m = UB.
Proof. exact @networks_zero. Qed.
Print Assumptions C40_zero_factor_refuted.

(** C41 *)
Theorem C41_partition_partial : forall P val, pexact P val -> forall ords srt gc fs (m : mgr P), (forall a b c, Permutation (ords a b c) c) -> sorts srt ->
  Inv val 0 m -> (forall v, In v (leaves (m_vt m)) -> v <> 0%N) -> Forall (good_factor (m_vt m)) fs -> (2 <= length fs)%nat -> gc <> 0%N ->
  (exists x, network_value val fs x <> 0) -> exists i z m', compile_network_dc ords srt gc fs m = Ok (Some i, z, m') /\
    forall x, val z = sum_over (leaves (m_vt m)) (network_value val fs) x.
Proof. exact @partition_many. Qed.
Print Assumptions C41_partition_partial.
Example C41_nonvacuous : z_of (compile_network_dc id_ord isort 100 [fac_a; fac_b] (new_mgr ex_vt)) = Ok (47%N, 2%positive) /\ (2 <= length [fac_a; fac_b])%nat.
Proof. split; [exact fac_product|simpl; lia]. Qed.
(** a single factor: too small by 2 for every variable that is not in it *)
Theorem C41_single_factor : forall P val, pexact P val -> forall ords srt gc F (m : mgr P), (forall a b c, Permutation (ords a b c) c) -> sorts srt ->
  Inv val 0 m -> (forall v, In v (leaves (m_vt m)) -> v <> 0%N) -> good_factor (m_vt m) F -> gc <> 0%N ->
  (exists x, factor_value val F x <> 0) -> exists i z m', compile_network_dc ords srt gc [F] m = Ok (Some i, z, m') /\
    forall x, 2 ^ (length (leaves (m_vt m)) - length (f_scope F)) * val z = sum_over (leaves (m_vt m)) (network_value val [F]) x.
Proof. exact @partition_one. Qed.
Print Assumptions C41_single_factor.
Theorem C41_single_factor_refuted : good_factor ex_vt fac_y /\ z_of (compile_network_dc id_ord isort 100 [fac_y] (new_mgr ex_vt)) = Ok (2%N, 1%positive) /\
  forall x, sum_over (leaves ex_vt) (@network_value Qex qval [fac_y]) x = 16.
Proof.
  split; [|exact single_partition].
  split; [repeat constructor; simpl; intuition discriminate|discriminate|intros v; simpl; intuition (subst; auto)|simpl; lia|reflexivity|]. simpl.
  right; left. split; [intros v [<-|[<-|[]]]; intuition discriminate|]. left. split; [intros v [<-|[]]; intuition discriminate|exact I].
Qed.
Print Assumptions C41_single_factor_refuted.
