(** Property theorem C91 (networks without a model).  [network_value], [good_factor], [sorts], [ords]: as in C38-C41; [uai_text],
    [externals_ok], [method_ok], [plain_factor]: as in C53. *)
From Coq Require Import Ascii String Reals Lra.
From Verif Require Import Base Param ParamProofs Vtree VtreeProofs Spec SpecProofs Heap Manager HeapProofs HeapExamples RepProofs LoadProofs MulProofs QueryExamples CnfExamples ManagerExamples
  Text IO IOProofs Pgm PgmLayout PgmProofs PgmNet PgmExamples Uai UaiProofs UaiExamples Compiler CompilerProofs CompilerExamples PgmZero CompilerZero.
Local Open Scope R_scope.

(** The multiplication in rounds fails or returns no node and the constant 0, never another answer; it returns only if no collection falls
    on the last multiplication *)
Theorem C91_rounds_partial : forall P val, pexact P val -> forall ords srt gc fs (m : mgr P), (forall a b c, Permutation (ords a b c) c) -> sorts srt ->
  Inv val 0 m -> (forall v, In v (leaves (m_vt m)) -> v <> 0%N) -> Forall (good_factor (m_vt m)) fs -> fs <> [] -> gc <> 0%N ->
  (forall x, network_value val fs x = 0) ->
  compile_network_dc ords srt gc fs m = UB \/
  exists z m', compile_network_dc ords srt gc fs m = Ok (None, z, m') /\ val z = 0 /\ (N.of_nat (length fs - 1) mod gc <> 0)%N.
Proof. exact @network_dc_zero. Qed.
Print Assumptions C91_rounds_partial.
(** The multiplication along the vtree fails or returns the constant 0 *)
Theorem C91_along_vtree_partial : forall P val, pexact P val -> forall ords gc fs (m : mgr P), (forall a b c, Permutation (ords a b c) c) ->
  Inv val 0 m -> (forall v, In v (leaves (m_vt m)) -> v <> 0%N) -> Forall (good_factor (m_vt m)) fs -> gc <> 0%N ->
  (forall x, network_value val fs x = 0) ->
  compile_network_with_vtree ords gc fs m = UB \/ compile_network_with_vtree ords gc fs m = Abort \/
  exists r z m', compile_network_with_vtree ords gc fs m = Ok (r, z, m') /\ val z = 0.
Proof. exact @network_with_vtree_zero. Qed.
Print Assumptions C91_along_vtree_partial.
(** The program never reports such a network: it dereferences a null pointer, whatever the method and the answers of the libraries *)
Theorem C91_program_refuted : forall P val, pexact P val ->
  forall x rdu (show : P -> text) ud fuel method l1 l2 l3 l4 scs tbs ty nv scopes tables s,
  uai_text rdu l1 l2 l3 l4 scs tbs ty nv scopes tables -> feeds (l1 :: l2 :: l3 :: l4 :: scs ++ concat tbs) (s, true) -> (length (concat tbs) <= fuel)%nat ->
  externals_ok x (N.to_nat nv) scopes -> method_ok method scopes -> scopes <> [] ->
  let fs := map (fun y => MkF (fst y) (snd y)) (combine scopes tables) in
  Forall (plain_factor (N.to_nat nv)) fs -> (forall y, network_value val fs y = 0) ->
  uai_compiler x rdu show ud fuel method (Some s) = UB.
Proof. exact @uai_compiler_zero. Qed.
Print Assumptions C91_program_refuted.
(** Every outcome occurs: a null node alone at the end, a collection that meets it, a null node in the middle; along the vtree also a node
    beside the constant 0.  The program: two factors that are not zero *)
Definition fac_xz : list (factor Qex) := [fac_x; fac_not_x].
Example C91_nonvacuous : @Inv Qex qval 0 (new_mgr ex_vt) /\ Forall (good_factor ex_vt) fac_xz /\ (forall x, @network_value Qex qval fac_xz x = 0) /\
  (do (r, m) <- compile_network_dc id_ord isort 100 fac_xz (new_mgr ex_vt) ;; Ok r) = Ok (None, q 0 1) /\
  compile_network_dc id_ord isort 1 fac_xz (new_mgr ex_vt) = UB /\
  compile_network_dc id_ord isort 100 (fac_xz ++ fac_xz) (new_mgr ex_vt) = UB /\
  compile_network_with_vtree id_ord 100 fac_xz (new_mgr ex_vt) = Abort /\
  (do (r, m) <- compile_network_with_vtree id_ord 100 (fac_x :: fac_xz) (new_mgr ex_vt) ;; Ok (snd r)) = Abort /\
  (do (r, m) <- compile_network_with_vtree id_ord 100 (fac_xz ++ [fac_x]) (new_mgr ex_vt) ;; Ok r) = Ok (Some 6%nat, q 0 1).
Proof.
  split; [apply new_inv, ex_vt_leaves|]. split; [|split].
  - repeat apply Forall_cons; try apply Forall_nil; (split; [repeat constructor; simpl; intuition discriminate|discriminate|intros v; simpl; intuition|simpl; lia|reflexivity|]);
      simpl; right; left; (split; [intros v [<-|[<-|[]]]; intuition discriminate|]); right; left; (split; [intros v [<-|[]]; intuition discriminate|exact Logic.I]).
  - intros x. unfold network_value, factor_value, table_value, table_index, fac_xz, fac_x, fac_not_x. simpl. destruct (x 1%N); simpl; unfold qval; simpl; lra.
  - repeat split; vm_compute; reflexivity.
Qed.
Example C91_program_nonvacuous : pexact Qex qval /\ @uai_text Qex rd_pct uai_l1 uai_l2 uai_l3 uai_l2 uai_scs zero_tbs 1 2 uai_scopes zero_tables /\
  feeds (uai_l1 :: uai_l2 :: uai_l3 :: uai_l2 :: uai_scs ++ concat zero_tbs) (zero_file, true) /\
  externals_ok ex_externals (N.to_nat 2) uai_scopes /\ Forall (@nonzero Qex qval) zero_fs /\ (forall y, @network_value Qex qval zero_fs y = 0) /\
  forall method, In method [Hyper; Jointree; MinFill; VtreeFile (VNode (Leaf 1) (Leaf 2))%N] -> zero_run method = UB.
Proof.
  split; [exact Qex_exact|]. split; [exact zero_text|]. split; [exact zero_feeds|]. split; [exact ex_externals_ok|]. split; [exact zero_nonzero|].
  split; [exact zero_value|exact zero_runs].
Qed.
