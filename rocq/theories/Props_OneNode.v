(** Property theorems C70: a manager has one node per PSDD.  [runs (new_mgr vt) ops = Ok m]: the manager m is the result of any sequence of operations on a
    new manager; [node_at val m i p t]: node i of m is at vtree node p and represents the tree t; [shuffled]: equal up to the order of the elements at every
    node; [held fl m i]: everything reachable from i is in the unique table and has the flag fl; [InvT], [spells], [file_means]: as in C68;
    [grow m m']: every node of m is in m' unchanged. *)
From Coq Require Import Reals Lra Permutation Ascii String.
From Verif Require Import Base Param ParamProofs Vtree VtreeProofs Spec SpecProofs Heap Manager HeapProofs SerProofs
  RepProofs OrderProofs CanonProofs HeapExamples LoadProofs MulProofs ReplayProofs ManagerExamples ProductTrees ProductNodes ProductProofs ProductExamples
  Text IO IOProofs Data Uai NumProofs FileProofs FileExamples OneNode OneFile OneExamples.
Local Open Scope R_scope.

Lemma history P val : pexact P val -> forall vt ops (m : mgr P), NoDup (leaves vt) -> runs (new_mgr vt) ops = Ok m -> Wf m /\ sortedH m.
Proof.
  intros HP vt ops m ND R. split.
  - apply (runs_wf (val_peq_refl val HP) (val_plt_irrefl val HP) ops (new_mgr vt) m (wf_new _ ND) R).
  - exact (sort_runs ops _ _ (sort_new vt) R).
Qed.
(** Two nodes that represent the same PSDD are the same node. *)
Theorem C70_one_node : forall P val, pexact P val -> forall vt ops (m : mgr P), NoDup (leaves vt) -> runs (new_mgr vt) ops = Ok m ->
  forall fl i j p t t', node_at val m i p t -> node_at val m j p t' -> held fl m i -> held fl m j -> shuffled t t' -> deterministic t -> i = j.
Proof.
  intros P val HP vt ops m ND R fl i j p t t' A B H K S D. destruct (history P val HP vt ops m ND R) as [W SO].
  eapply (same_shuffled val HP fl m W t); eauto using held_kept, shuffled_refl.
Qed.
Print Assumptions C70_one_node.
(** The trees may be built in any order: the elements of node 6 of [pr_m] and of node 4 of [on_m] have opposite orders. *)
Example C70_one_node_nonvacuous : pexact Qex qval /\ NoDup (leaves pr_vt) /\ runs (new_mgr pr_vt) pr_ops = Ok pr_m /\ @node_at Qex qval pr_m 6 [] pr_a /\ held 0 pr_m 6 /\
  shuffled pr_a on_t /\ pr_a <> on_t /\ deterministic pr_a.
Proof.
  split; [exact Qex_exact|]. split; [exact pr_nodup|]. split; [exact pr_runs|]. pose proof pr_operands as O. inversion O as [|? ? ? ? (A & _ & D) _]; subst.
  split; [exact A|]. split; [exact pr_held|]. split; [unfold on_t, pr_a; eapply sh_dec; [|apply perm_swap]; repeat constructor|]. split; [intros Q; injection Q; lra|exact D].
Qed.

(** Loading a PSDD that the manager holds already, from any manager: the node held is returned and nothing is created. *)
Theorem C70_load : forall P val, pexact P val -> forall vt ops (m : mgr P), NoDup (leaves vt) -> runs (new_mgr vt) ops = Ok m ->
  forall sroot (hs : heap P) root q ud t fl i p t', heap_ok sroot hs -> Rep val hs root t -> vt_of hs root = Some q -> deterministic t ->
  node_at val m i p t' -> held fl m i -> shuffled t t' ->
  exists ud', LoadPsddNode hs ud (Some p) root fl m = Ok (i, ud', m).
Proof.
  intros P val HP vt ops m ND R sroot hs root q ud t fl i p t' HO HR V D A H S. destruct (history P val HP vt ops m ND R) as [W SO].
  eapply (load_held val HP); eauto using held_kept.
Qed.
Print Assumptions C70_load.
Example C70_load_nonvacuous : heap_ok pr_vt (m_heap on_m) /\ @Rep Qex qval (m_heap on_m) 4 on_t /\ vt_of (m_heap on_m) 4 = Some [] /\ deterministic on_t /\
  @node_at Qex qval pr_m 6 [] pr_a /\ held 0 pr_m 6 /\ shuffled on_t pr_a /\
  exists ud', @LoadPsddNode Qex (m_heap on_m) (fun _ => None) (Some []) 4 0 pr_m = Ok (6%nat, ud', pr_m).
Proof.
  split; [exact on_ok|]. split; [exact on_rep|]. split; [reflexivity|]. split; [exact on_det|]. pose proof pr_operands as O. inversion O as [|? ? ? ? (A & _) _]; subst.
  split; [exact A|]. split; [exact pr_held|]. split; [exact on_shuffled|].
  exact (C70_load Qex qval Qex_exact pr_vt pr_ops pr_m pr_nodup pr_runs pr_vt (m_heap on_m) 4 [] _ on_t 0 6 [] pr_a on_ok on_rep eq_refl on_det A pr_held on_shuffled).
Qed.

(** Reading a file, of any program, that describes a PSDD the manager holds returns the node held. *)
Theorem C70_file : forall P val, pexact P val -> forall (rd : text -> option P) log0 (T : N -> R -> R -> Prop), (forall v a b b', T v a b -> T v a b' -> b = b') ->
  forall vt ops (m : mgr P) fl, runs (new_mgr vt) ops = Ok m -> InvT val T fl m ->
  forall content cs n its k p t e i t', Forall2 (spells rd) (lines content) (cs ++ Count n :: its) -> Forall (eq Comment) cs ->
  Forall (item_T val T) its -> file_means val (m_vt m) [] its ((k, (p, t)) :: e) -> deterministic t ->
  node_at val m i p t' -> held fl m i -> shuffled t t' ->
  exists m', ReadPsddFile rd log0 content fl m = Ok (Some i, m') /\ grow m m'.
Proof.
  intros P val HP rd log0 T TF vt ops m fl R IV content cs n its k p t e i t' SP CO TT M D A H S.
  pose proof (sort_runs ops _ _ (sort_new vt) R) as SO. eapply (file_held val HP); eauto. apply held_kept; auto. apply IV.
Qed.
Print Assumptions C70_file.
(** If everything the file describes is held, nothing is created. *)
Theorem C70_file_unchanged : forall P val, pexact P val -> forall (rd : text -> option P) log0 vt ops (m : mgr P) fl, NoDup (leaves vt) -> runs (new_mgr vt) ops = Ok m ->
  forall content cs n its k p t e, Forall2 (spells rd) (lines content) (cs ++ Count n :: its) -> Forall (eq Comment) cs -> file_means val (m_vt m) [] its ((k, (p, t)) :: e) ->
  (forall k0 p0 t0, In (k0, (p0, t0)) ((k, (p, t)) :: e) -> deterministic t0 /\ exists i t', node_at val m i p0 t' /\ shuffled t0 t' /\ held fl m i) ->
  exists i t', ReadPsddFile rd log0 content fl m = Ok (Some i, m) /\ node_at val m i p t' /\ shuffled t t' /\ held fl m i.
Proof.
  intros P val HP rd log0 vt ops m fl ND R content cs n its k p t e SP CO M H. destruct (history P val HP vt ops m ND R) as [W SO].
  destruct (file_unchanged val HP rd log0 content cs n its fl m k p t e W SP CO M) as (i & t' & E & A & S & K).
  - intros k0 p0 t0 I. destruct (H k0 p0 t0 I) as (D & i & t' & A & S & K). split; auto. exists i, t'. auto using held_kept.
  - destruct (H k p t (or_introl eq_refl)) as (D & j & t1 & A1 & S1 & K1). exists i, t'. split; auto. split; auto. split; auto.
    rewrite (same_shuffled val HP fl m W t p i j t' t1); auto using held_kept.
Qed.
Print Assumptions C70_file_unchanged.
(** [of_m] holds, as node 3, the PSDD of a file that another program wrote. *)
Example C70_file_nonvacuous : forall P val, pexact P val -> forall (rd : text -> option P) log0 w T, rd (str "x") = Some w ->
  runs (new_mgr fx_vt) (of_ops w) = Ok (of_m w) /\ InvT val T 7 (of_m w) /\
  Forall2 (spells rd) (lines (fx_file "3" "1 0 1 x")) ([Comment] ++ Count 3 :: [ILit 0 1; ILit 1 2; IDec 2 [(0%Z, 1%Z, w)]]) /\
  file_means val fx_vt [] [ILit 0 1; ILit 1 2; IDec 2 [(0%Z, 1%Z, w)]] [(2%Z, ([], of_t val w)); (1%Z, ([true], TLit 2)); (0%Z, ([false], TLit 1))] /\
  deterministic (of_t val w) /\ node_at val (of_m w) 3 [] (of_t val w) /\ held 7 (of_m w) 3 /\ held 7 (of_m w) 2 /\ held 7 (of_m w) 0 /\
  ReadPsddFile rd log0 (fx_file "3" "1 0 1 x") 7 (of_m w) = Ok (Some 3%nat, of_m w).
Proof.
  intros P val HP rd log0 w T E. assert (NoDup (leaves fx_vt)) as ND by (repeat constructor; simpl; intuition discriminate).
  destruct (history P val HP fx_vt (of_ops w) (of_m w) ND (of_runs w)) as [W SO].
  assert (file_means val fx_vt [] [ILit 0 1; ILit 1 2; IDec 2 [(0%Z, 1%Z, w)]] [(2%Z, ([], of_t val w)); (1%Z, ([true], TLit 2)); (0%Z, ([false], TLit 1))]) as M.
  { pose proof (fx_means val 3 w) as M. inversion M as [|? ? ? ? ? M1 M2]; subst. inversion M1; subst. exact M2. }
  destruct (of_held_below w) as [H2 H0].
  split; [apply of_runs|]. split; [apply of_inv; auto|]. split; [exact (fx_spells rd w E)|]. split; [exact M|]. split; [apply of_det|]. split; [apply of_at|]. split; [apply of_held|]. split; [exact H2|]. split; [exact H0|].
  destruct (C70_file_unchanged P val HP rd log0 fx_vt (of_ops w) (of_m w) 7 ND (of_runs w) _ _ _ _ _ _ _ _ (fx_spells rd w E) ltac:(repeat constructor) M) as (i & t' & EQ & A & S & H).
  { intros k0 p0 t0 [Q|[Q|[Q|[]]]]; injection Q as <- <- <-.
    - split; [apply of_det|]. exists 3%nat, (of_t val w). split; [apply of_at|]. split; [apply shuffled_refl|apply of_held].
    - split; [repeat constructor|]. exists 0%nat, (TLit 2). split; [split; [reflexivity|eapply Rep_lit; reflexivity]|]. split; [apply shuffled_refl|exact H0].
    - split; [repeat constructor|]. exists 2%nat, (TLit 1). split; [split; [reflexivity|eapply Rep_lit; reflexivity]|]. split; [apply shuffled_refl|exact H2]. }
  rewrite EQ. do 2 f_equal. f_equal.
  assert (shuffled t' (of_t val w)) as S' by (unfold of_t in *; apply shuffled_dec_inv in S as (us & us' & -> & F & PM); inversion F as [|? u ? ? (X1 & X2 & X3) F1]; subst; inversion F1; subst;
    apply Permutation_length_1_inv in PM; subst us'; inversion X1; inversion X2; subst; destruct u as [[a b] c]; unfold tp, ts, tw in *; simpl in *; subst; apply shuffled_refl).
  eapply (same_shuffled val HP 7 (of_m w) W (of_t val w)); [exact A|apply of_at| | |exact S|apply shuffled_refl|apply of_det]; apply held_kept; auto. apply of_held.
Qed.

(** Writing a PSDD of any manager and reading the file into a manager that holds it (with the parameters as read) returns the node held. *)
Theorem C70_write_read : forall P val, pexact P val -> forall (show : P -> text) rd log0 rnd,
  (forall a, Forall plain (show a)) -> (forall a, show a <> []) ->
  forall T : N -> R -> R -> Prop, (forall v a b b', T v a b -> T v a b' -> b = b') ->
  forall vt ops (m : mgr P) fl, runs (new_mgr vt) ops = Ok m -> InvT val T fl m ->
  forall sroot (hs : heap P) ud root q0 s t p i t', heap_ok sroot hs -> vt_of hs root = Some q0 -> subtree sroot q0 = Some s -> fits sroot hs ->
  (forall i nd a, reach hs root i -> nth_error hs i = Some nd -> In a (params nd) -> rd (show a) = Some (rnd a)) ->
  Rep (vr val rnd) hs root t -> tops_T T t -> subtree (m_vt m) p = Some s ->
  deterministic t -> node_at val m i p t' -> held fl m i -> shuffled t t' ->
  exists content ud' m', WritePsddToFile show sroot hs ud root = Ok (content, ud') /\ ReadPsddFile rd log0 content fl m = Ok (Some i, m') /\ grow m m'.
Proof.
  intros P val HP show rd log0 rnd SP SN T TF vt ops m fl R IV sroot hs ud root q0 s t p i t' HO V SU FT RD RE TT SM D A H S.
  pose proof (sort_runs ops _ _ (sort_new vt) R) as SO. eapply (written_held val HP); eauto. apply held_kept; auto. apply IV.
Qed.
Print Assumptions C70_write_read.
(** The manager's own node: if the texts of its parameters are read back exactly, writing and reading it gives the node itself. *)
Example C70_write_read_nonvacuous : forall P val, pexact P val -> forall (show : P -> text) rd log0 w, (forall a, Forall plain (show a)) -> (forall a, show a <> []) -> rd (show w) = Some w ->
  exists content ud' m', WritePsddToFile show fx_vt (m_heap (of_m w)) (fun _ => 0%N) 3 = Ok (content, ud') /\ ReadPsddFile rd log0 content 7 (of_m w) = Ok (Some 3%nat, m') /\ grow (of_m w) m'.
Proof.
  intros P val HP show rd log0 w SP SN E. assert (NoDup (leaves fx_vt)) as ND by (repeat constructor; simpl; intuition discriminate).
  destruct (history P val HP fx_vt (of_ops w) (of_m w) ND (of_runs w)) as [W SO].
  refine (C70_write_read P val HP show rd log0 (fun a => a) SP SN (fun _ a b => b = 0) _ fx_vt (of_ops w) (of_m w) 7 (of_runs w) _ fx_vt (m_heap (of_m w)) _ 3 [] fx_vt (of_t val w) [] 3 (of_t val w)
    (wf_heap _ W) eq_refl eq_refl _ _ _ _ eq_refl (of_det val w) (of_at val w) (of_held w) (shuffled_refl _)).
  - intros v a b b' -> ->. auto.
  - apply of_inv; auto.
  - split.
    + cbn. lia.
    + cbn. lia.
    + intros v L. cbn in L. destruct L as [<-|[<-|[]]]; cbn; lia.
    + intros i nd es Ei B. do 4 (destruct i as [|i]; [cbn in Ei; injection Ei as <-; cbn in B; try discriminate B; injection B as <-; cbn; lia|]). destruct i; discriminate.
  - intros i nd a RE Ei I. apply of_reach in RE as [RE _]. specialize (RE eq_refl). repeat (destruct RE as [<-|RE]; [simpl in Ei; injection Ei as <-; simpl in I; try (destruct I as [<-|[]]; auto); try contradiction|]). destruct RE.
  - exact (proj2 (of_at val w)).
  - unfold of_t. apply all_nodes_dec. split; [exact Logic.I|]. repeat constructor.
Qed.
