(** Property theorem C35 (PSDD files).  [show], [rd]: the texts of parameters; [rnd a] is what parameter [a] is read back as; [log0] is
    what a failed conversion leaves (log 1).  [shuffled]: equal up to the order of the elements.  [vr val rnd]: the value of a
    parameter after reading.  [near e a b]: a exp(-e) <= b <= a exp(e). *)
From Coq Require Import Ascii String Reals Lra.
From Verif Require Import Base Param ParamProofs Vtree VtreeProofs Spec SpecProofs Heap Manager HeapProofs SerProofs RepProofs LoadProofs
  Text IO IOProofs FixedProofs IOExamples.
Local Open Scope R_scope.

(** Any parameter format that reads back every parameter of the PSDD: the file describes the PSDD with the parameters as read;
    in particular the same PSDD when parameters are read back exactly. *)
Theorem C35_write_read : forall P val, pexact P val -> forall (show : P -> text) rd log0 rnd,
  (forall a, Forall plain (show a)) -> (forall a, show a <> []) ->
  forall T : N -> R -> R -> Prop, (forall v a b b', T v a b -> T v a b' -> b = b') ->
  forall sroot (hs : heap P) ud root q0 s t (m : mgr P) fl pb,
  heap_ok sroot hs -> vt_of hs root = Some q0 -> subtree sroot q0 = Some s -> fits sroot hs ->
  (forall i nd a, reach hs root i -> nth_error hs i = Some nd -> In a (params nd) -> rd (show a) = Some (rnd a)) ->
  Rep (vr val rnd) hs root t -> tops_T T t -> subtree (m_vt m) pb = Some s -> InvT val T fl m ->
  exists content ud' j m' t',
    WritePsddToFile show sroot hs ud root = Ok (content, ud') /\
    (forall i, reach hs root i -> ud' i = 0%N) /\ (forall i, ~ reach hs root i -> ud' i = ud i) /\
    ReadPsddFile rd log0 content fl m = Ok (Some j, m') /\
    InvT val T fl m' /\ mext fl m m' /\ node_at val m' j pb t' /\ shuffled t t' /\ flag_of (m_heap m') j = Some fl /\ In j (m_live m').
Proof. exact @write_read. Qed.
Print Assumptions C35_write_read.
Theorem C35_same_meaning : forall t t', shuffled t t' -> (forall x, weight t' x = weight t x) /\ (forall x, base t' x = base t x) /\
  (normalized t -> normalized t') /\ (positive t -> positive t') /\ (deterministic t -> deterministic t').
Proof.
  intros t t' H. destruct (shuffled_like _ _ H) as [A B C D E]. repeat split; auto. apply shuffled_normalized; auto.
Qed.
Print Assumptions C35_same_meaning.
(** The code's own format (six decimals of the logarithm): without zero parameters every weight is read back within a factor
    exp(k / 2000000), where k is the number of nodes of the vtree, and the base exactly. *)
Theorem C35_code_partial : forall sroot (hs : heap Lexact) ud root q0 s t (m : mgr Lexact) fl pb,
  heap_ok sroot hs -> vt_of hs root = Some q0 -> subtree sroot q0 = Some s -> fits sroot hs ->
  nonzero_params hs root -> @Rep Lexact lval hs root t ->
  (forall i j ni nj v a b a' b', (reach hs root i /\ nth_error hs i = Some ni /\ n_body ni = BTop v a b) ->
     (reach hs root j /\ nth_error hs j = Some nj /\ n_body nj = BTop v a' b') -> rnd_log a = rnd_log a' -> rnd_log b = rnd_log b') ->
  subtree (m_vt m) pb = Some s -> Wf m ->
  (forall i nd v a b, In i (m_live m) -> nth_error (m_heap m) i = Some nd -> n_flag nd = fl -> n_body nd <> BTop v a b) ->
  exists content ud' j m' t',
    @WritePsddToFile Lexact show_log sroot hs ud root = Ok (content, ud') /\
    (forall i, reach hs root i -> ud' i = 0%N) /\ (forall i, ~ reach hs root i -> ud' i = ud i) /\
    @ReadPsddFile Lexact rd_log log0_log content fl m = Ok (Some j, m') /\
    Wf m' /\ mext fl m m' /\ @node_at Lexact lval m' j pb t' /\ flag_of (m_heap m') j = Some fl /\ In j (m_live m') /\
    (forall x, base t' x = base t x) /\
    (forall x, near (INR (vsize s) / 2000000) (weight t x) (weight t' x)) /\
    (deterministic t -> deterministic t').
Proof. exact write_read_code. Qed.
Print Assumptions C35_code_partial.
Example C35_nonvacuous : heap_ok io_vt io_heap /\ vt_of io_heap 4 = Some [] /\ subtree io_vt [] = Some io_vt /\ fits io_vt io_heap /\
  nonzero_params io_heap 4 /\ @Rep Lexact lval io_heap 4 io_tree /\
  (forall i j ni nj v a b a' b', (reach io_heap 4 i /\ nth_error io_heap i = Some ni /\ n_body ni = BTop v a b) ->
     (reach io_heap 4 j /\ nth_error io_heap j = Some nj /\ n_body nj = BTop v a' b') -> rnd_log a = rnd_log a' -> rnd_log b = rnd_log b') /\
  Wf (@new_mgr Lexact io_vt).
Proof.
  split; [exact io_ok|]. split; [reflexivity|]. split; [reflexivity|]. split; [exact io_fits|]. split; [exact io_nonzero|]. split; [exact io_rep|].
  split; [exact io_tops|]. apply wf_new. repeat constructor; simpl; intuition discriminate.
Qed.
(** Not the same distribution in general: a normalized PSDD that comes back unnormalized with another weight; a zero parameter that
    comes back as one; a zero parameter on which the reader's behaviour is undefined. *)
Theorem C35_precision_refuted : exists (hs : heap Lexact) t ud content ud' j m' t',
  heap_ok (Leaf 1%N) hs /\ @Rep Lexact lval hs 0 t /\ positive t /\ weight t (fun _ => true) + weight t (fun _ => false) = 1 /\
  @WritePsddToFile Lexact show_log (Leaf 1%N) hs ud 0 = Ok (content, ud') /\
  @ReadPsddFile Lexact rd_log log0_log content 0 (new_mgr (Leaf 1%N)) = Ok (Some j, m') /\
  @Rep Lexact lval (m_heap m') j t' /\ weight t (fun _ => true) < 1 /\ weight t' (fun _ => true) = 1 /\ 0 < weight t' (fun _ => false).
Proof. exact lost_decimals. Qed.
Print Assumptions C35_precision_refuted.
Theorem C35_zero_refuted : exists (hs : heap Lexact) t ud content ud' j m' t',
  heap_ok (Leaf 1%N) hs /\ @Rep Lexact lval hs 0 t /\ weight t (fun _ => true) = 0 /\ weight t (fun _ => false) = 1 /\
  @WritePsddToFile Lexact show_log (Leaf 1%N) hs ud 0 = Ok (content, ud') /\
  @ReadPsddFile Lexact rd_log log0_log content 0 (new_mgr (Leaf 1%N)) = Ok (Some j, m') /\
  @Rep Lexact lval (m_heap m') j t' /\ weight t' (fun _ => true) = 1.
Proof. exact zero_becomes_one. Qed.
Print Assumptions C35_zero_refuted.
Theorem C35_zero_undefined_refuted : exists (hs : heap Lexact) t ud content ud',
  heap_ok (Leaf 1%N) hs /\ @Rep Lexact lval hs 0 t /\ weight t (fun _ => true) = 1 /\ weight t (fun _ => false) = 0 /\
  @WritePsddToFile Lexact show_log (Leaf 1%N) hs ud 0 = Ok (content, ud') /\
  @ReadPsddFile Lexact rd_log log0_log content 0 (new_mgr (Leaf 1%N)) = UB.
Proof. exact zero_undefined. Qed.
Print Assumptions C35_zero_undefined_refuted.
