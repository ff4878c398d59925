(** Property theorem C68: PSDD files that another program wrote, or that are damaged.  [spells rd l it]: the line l says it ([Comment], [Count n]: the
    number of nodes, [ILit k l], [ITop k v neg pos], [IDec k elements]: the node with id k); numbers and blanks may be spelled in any way and anything
    may follow the last number.  [file_means val vt e its e']: the items give the ids the trees e', latest first, when e is known before.
    [node_at val m j p t]: node j of manager m is at vtree node p and represents the tree t; [shuffled]: equal up to the order of elements;
    [InvT], [mext]: as in C35; [grow m m']: every node of m is in m' unchanged. *)
From Coq Require Import Ascii String Reals Lra Permutation.
From Verif Require Import Base Param ParamProofs Vtree VtreeProofs Spec SpecProofs Heap Manager HeapProofs SerProofs RepProofs LoadProofs ReplayProofs
  Text IO IOProofs Data Uai NumProofs FileProofs FileExamples.

(** A file that describes a PSDD for the manager's vtree is read as that PSDD, whatever number of nodes it states and whatever vtree ids;
    without nodes the result is nullptr. *)
Theorem C68_read : forall (P : pops) (rd : text -> option P) log0 val, pexact P val ->
  forall T : N -> R -> R -> Prop, (forall v a b b', T v a b -> T v a b' -> b = b') ->
  forall content cs n its fl (m : mgr P) e, InvT val T fl m -> Forall2 (spells rd) (lines content) (cs ++ Count n :: its) -> Forall (eq Comment) cs ->
  Forall (item_T val T) its -> file_means val (m_vt m) [] its e ->
  exists r m', ReadPsddFile rd log0 content fl m = Ok (r, m') /\ InvT val T fl m' /\ mext fl m m' /\
    match e with
    | [] => r = None
    | (k, (p, t)) :: _ => exists j t', r = Some j /\ node_at val m' j p t' /\ shuffled t t' /\ flag_of (m_heap m') j = Some fl /\ In j (m_live m')
    end.
Proof. exact @read_as_described. Qed.
Print Assumptions C68_read.
Example C68_read_nonvacuous : forall (P : pops) (rd : text -> option P) a (val : P -> R) T fl, rd (str "x") = Some a ->
  InvT val T fl (new_mgr fx_vt) /\ Forall2 (spells rd) (lines (fx_file "3" "1 0 1 x")) ([Comment] ++ Count 3 :: [ILit 0 1; ILit 1 2; IDec 2 [(0%Z, 1%Z, a)]]) /\
  Forall (item_T val T) [ILit 0 1; ILit 1 2; IDec 2 [(0%Z, 1%Z, a)]] /\
  exists e, file_means val fx_vt [] [ILit 0 1; ILit 1 2; IDec 2 [(0%Z, 1%Z, a)]] ((2%Z, ([], TDec [(TLit 1, TLit 2, val a)])) :: e).
Proof.
  intros P rd a val T fl E. split. { split; [apply wf_new; repeat constructor; simpl; intuition discriminate|]. intros i nd v pt pf []. }
  split; [exact (fx_spells rd a E)|]. split; [repeat constructor|]. eexists. pose proof (fx_means val 3 a) as M. inversion M as [|? ? ? ? ? M1 M2]; subst. inversion M1; subst. exact M2.
Qed.
(** Whatever the file contains, if it is accepted then no existing node is changed or lost. *)
Theorem C68_existing_nodes : forall (P : pops) (rd : text -> option P) log0 content fl (m : mgr P) x m', ReadPsddFile rd log0 content fl m = Ok (x, m') -> grow m m'.
Proof. exact @read_grow. Qed.
Print Assumptions C68_existing_nodes.
Example C68_existing_nodes_nonvacuous : forall (P : pops) (rd : text -> option P) log0 fl, exists m', ReadPsddFile rd log0 (fx_file "3" "1 1 0 x") fl (new_mgr fx_vt) = Ok (Some 2, m').
Proof. intros. eexists. apply fx_swapped. Qed.
(** Rejected, wherever it stands and whatever follows: a line that starts with no letter of the format (also an empty one), a line p... of fewer than five
    characters, a variable that is not in the vtree, an element whose prime or sub no line before defines ([line_id l k]: l defines k).  [bind x ...]: if
    the lines before are accepted, the program stops; otherwise it fails as they do. *)
Theorem C68_rejected : forall (P : pops) (rd : text -> option P) log0 content content1 l ls2 fl (m : mgr P), lines content = lines content1 ++ l :: ls2 ->
  (~ In (head_char l) ["c"; "p"; "L"; "T"; "D"]%char
   \/ (head_char l = "p"%char /\ List.length l < 5)
   \/ (exists k x, spells rd l (ILit k x) /\ ~ In (Z.abs_N x) (leaves (m_vt m)))
   \/ (exists k v a b, spells rd l (ITop k v a b) /\ ~ In v (leaves (m_vt m)))
   \/ (exists k els a b w, spells rd l (IDec k els) /\ In (a, b, w) els /\
         ((forall l', In l' (lines content1) -> ~ line_id l' a) \/ (forall l', In l' (lines content1) -> ~ line_id l' b)))) ->
  ReadPsddFile rd log0 content fl m = bind (ReadPsddFile rd log0 content1 fl m) (fun _ => Abort).
Proof. exact @rejected. Qed.
Print Assumptions C68_rejected.
Example C68_rejected_nonvacuous : forall (P : pops) (rd : text -> option P) log0 w fl, rd (str "x") = Some w ->
  lines (fx_file "3" "1 0 5 x") = lines (fx_cut "3") ++ str "D 2 1 1 0 5 x" :: [] /\
  (exists k els a b w, spells rd (str "D 2 1 1 0 5 x") (IDec k els) /\ In (a, b, w) els /\ forall l', In l' (lines (fx_cut "3")) -> ~ line_id l' b) /\
  ReadPsddFile rd log0 (fx_file "3" "1 0 5 x") fl (new_mgr fx_vt) = Abort.
Proof.
  intros P rd log0 w fl E. assert (lines (fx_file "3" "1 0 5 x") = lines (fx_cut "3") ++ str "D 2 1 1 0 5 x" :: []) as L by reflexivity.
  assert (exists k els a b w, spells rd (str "D 2 1 1 0 5 x") (IDec k els) /\ In (a, b, w) els /\ forall l', In l' (lines (fx_cut "3")) -> ~ line_id l' b) as B.
  { destruct (fx_bad rd) as [(k & els & a & b & w' & S & I & ->)|N]; [|congruence]. exists k, els, a, 5%Z, w'. split; auto. split; auto.
    intros l' I' (_ & D). repeat (destruct I' as [<-|I']; [cbv in D; discriminate D|]). exact I'. }
  split; auto. split; auto. rewrite (rejected rd log0 _ _ _ _ fl (new_mgr fx_vt) L).
  - rewrite fx_cut_read. reflexivity.
  - destruct B as (k & els & a & b & w' & S & I & N). do 4 right. exists k, els, a, b, w'. auto.
Qed.
(** Never accepted: a decision node without elements, a node before the line with the number of nodes *)
Theorem C68_undefined : forall (P : pops) (rd : text -> option P) log0 content content1 l ls2 fl (m : mgr P), lines content = lines content1 ++ l :: ls2 ->
  (exists k, spells rd l (IDec k [])) \/ (In (head_char l) ["L"; "T"; "D"]%char /\ forall l', In l' (lines content1) -> head_char l' <> "p"%char) ->
  forall x, ReadPsddFile rd log0 content fl m <> Ok x.
Proof. exact @undefined. Qed.
Print Assumptions C68_undefined.
Example C68_undefined_nonvacuous : lines (str "L 0 0 1") = lines [] ++ str "L 0 0 1" :: [] /\ In (head_char (str "L 0 0 1")) ["L"; "T"; "D"]%char.
Proof. split; [reflexivity|left; reflexivity]. Qed.
(** Not detected: a file cut off after any line is accepted whenever the whole file is, with another result; *)
Theorem C68_truncation_refuted : (forall (P : pops) (rd : text -> option P) log0 content content1 ls2 fl (m : mgr P) x, lines content = lines content1 ++ ls2 ->
    ReadPsddFile rd log0 content fl m = Ok x -> exists y, ReadPsddFile rd log0 content1 fl m = Ok y) /\
  forall (P : pops) (rd : text -> option P) log0 fl, exists content content1 ls2 m' m1, lines content = lines content1 ++ ls2 /\
    ReadPsddFile rd log0 content fl (new_mgr fx_vt) = Ok (Some 2, m') /\ vt_of (m_heap m') 2 = Some [] /\
    ReadPsddFile rd log0 content1 fl (new_mgr fx_vt) = Ok (Some 1, m1) /\ vt_of (m_heap m1) 1 = Some [true].
Proof.
  split; [exact @truncated|]. intros P rd log0 fl. exists (fx_file "3" "1 0 1 x"), (fx_cut "3"), [str "D 2 1 1 0 1 x"]. do 2 eexists.
  split; [reflexivity|]. split; [exact (fx_read rd log0 fl)|]. split; [reflexivity|]. split; [exact (fx_cut_read rd log0 fl)|reflexivity].
Qed.
Print Assumptions C68_truncation_refuted.
(** a wrong number of nodes; a decision node with prime and sub exchanged, or with the prime as sub: the node returned fits no PSDD for the vtree; *)
Theorem C68_misplaced_refuted : forall (P : pops) (rd : text -> option P) log0 (val : P -> R) fl,
  (exists x, ReadPsddFile rd log0 (fx_file "3" "1 0 1 x") fl (new_mgr fx_vt) = Ok x /\ ReadPsddFile rd log0 (fx_file "9" "1 0 1 x") fl (new_mgr fx_vt) = Ok x) /\
  forall elems, elems = "1 1 0 x"%string \/ elems = "1 0 0 x"%string -> exists m', ReadPsddFile rd log0 (fx_file "3" elems) fl (new_mgr fx_vt) = Ok (Some 2, m') /\
    vt_of (m_heap m') 2 = Some [] /\ (exists t, Rep val (m_heap m') 2 t) /\ forall t, Rep val (m_heap m') 2 t -> ~ conforms fx_vt t.
Proof.
  intros P rd log0 val fl. split; [eexists; split; [exact (fx_read rd log0 fl)|exact (fx_read_count rd log0 fl)]|].
  intros elems [->| ->].
  - exists (MkM fx_vt (fx_nodes fl 1 0 (fx_word rd log0)) [0; 1; 2]). split; [exact (fx_swapped rd log0 fl)|]. split; [reflexivity|]. split.
    + exists (TDec [(TLit 2, TLit 1, val (fx_word rd log0))]). eapply Rep_dec; [reflexivity|reflexivity|]. constructor; [|constructor]. repeat split; eapply Rep_lit; reflexivity.
    + intros t R. apply (fx_rep val fl 1 0 (fx_word rd log0) t R); lia.
  - exists (MkM fx_vt (fx_nodes fl 0 0 (fx_word rd log0)) [0; 1; 2]). split; [exact (fx_twice rd log0 fl)|]. split; [reflexivity|]. split.
    + exists (TDec [(TLit 1, TLit 1, val (fx_word rd log0))]). eapply Rep_dec; [reflexivity|reflexivity|]. constructor; [|constructor]. repeat split; eapply Rep_lit; reflexivity.
    + intros t R. apply (fx_rep val fl 0 0 (fx_word rd log0) t R); lia.
Qed.
Print Assumptions C68_misplaced_refuted.
(** an unreadable last parameter, which becomes log 0, the number one. *)
Theorem C68_parameter_refuted : forall (P : pops) (rd : text -> option P) log0 fl, rd (str "x") = None ->
  exists m' nd, ReadPsddFile rd log0 (fx_file "3" "1 0 1 x") fl (new_mgr fx_vt) = Ok (Some 2, m') /\ nth_error (m_heap m') 2 = Some nd /\ n_body nd = BDec [MkE 0 1 log0].
Proof. intros P rd log0 fl E. exists (MkM fx_vt (fx_nodes fl 0 1 (fx_word rd log0)) [0; 1; 2]). eexists. split; [exact (fx_read rd log0 fl)|]. split; [reflexivity|]. simpl. unfold fx_word. rewrite E. reflexivity. Qed.
Print Assumptions C68_parameter_refuted.
Example C68_parameter_nonvacuous : rd_log (str "x") = None /\ rd_code (str "x") = None.
Proof. split; reflexivity. Qed.
