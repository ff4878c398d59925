(** Property theorems C33-C34 (conversions between SDDs and PSDDs).  [SRep sd n st]: node n of the SDD manager is the SDD [st];
    [swf]: compressed and trimmed, as libsdd keeps its SDDs; [topo_order]: what sdd_topological_sort returns; [models]: the SDD's
    models; [pull f x]: the SDD variable v has the value of the PSDD variable [f v]. *)
From Coq Require Import Reals Lra.
From Verif Require Import Base Param ParamProofs Vtree VtreeProofs Spec SpecProofs Heap Manager HeapProofs SerProofs RepProofs OrderProofs CanonProofs
  HeapExamples LoadProofs MulProofs ReplayProofs ManagerExamples TreeProofs Query QueryProofs SampleProofs QueryExamples Sdd SddProofs SddExamples.
Local Open Scope R_scope.

(** C33 *)
Theorem C33_from_sdd : forall P val, pexact P val -> forall sd svt f fl pb pvt order root st (d : pdata) (m : mgr P),
  rename_vtree f svt = Some pvt -> Inv val fl m -> subtree (m_vt m) pb = Some pvt -> (forall v, In v (leaves pvt) -> v <> 0%N) ->
  SRep sd root st -> swf svt st -> topo_order sd root order ->
  ((forall y, models st y = false) -> FromSdd sd order root svt fl (Some pb) d m = Ok (None, d, m)) /\
  ((exists y, models st y = true) -> exists i d' m', FromSdd sd order root svt fl (Some pb) d m = Ok (Some i, d', m') /\
     Inv val fl m' /\ mext fl m m' /\ represents val f pvt pb st m' i /\
     (forall q, d' q = None \/ d' q = d q) /\ (forall q, subtree svt q = None -> d' q = d q) /\
     ((forall q, d q = None) -> forall q, d' q = None) /\
     forall L y0, SerializePsddNodes (m_heap m') [i] = Ok L -> ModelCount (m_heap m') L = Ok (count_over (leaves svt) (models st) y0)).
Proof. exact @from_sdd_full. Qed.
Print Assumptions C33_from_sdd.
Theorem C33_from_sdd_variables : forall P sd svt fl order root (d : pdata) (m : mgr P) vars,
  NoDup (leaves (m_vt m)) -> NoDup vars -> vars <> [] ->
  (forall pb pvt, subtree (m_vt m) pb = Some pvt -> (forall v, In v (leaves pvt) <-> In v vars) ->
     FromSddVariables sd order root svt fl vars d m = FromSdd sd order root svt fl (Some pb) d m) /\
  ((forall pb pvt, subtree (m_vt m) pb = Some pvt -> ~ (forall v, In v (leaves pvt) <-> In v vars)) ->
     forall n, sd root = Some n -> s_body n <> SFalse -> FromSddVariables sd order root svt fl vars d m = UB).
Proof. exact @from_sdd_variables. Qed.
Print Assumptions C33_from_sdd_variables.
Theorem C33_convert : forall P val, pexact P val -> forall sd svt f fl order root st (d : pdata) (m0 m : mgr P),
  GetPsddManagerFromSddVtree svt f = Ok m0 -> Inv val fl m -> m_vt m = m_vt m0 ->
  (forall v w, In v (leaves svt) -> f v = Some w -> w <> 0%N) -> SRep sd root st -> swf svt st -> topo_order sd root order ->
  ((forall y, models st y = false) -> ConvertSddToPsdd sd order root svt fl d m = Ok (None, d, m)) /\
  ((exists y, models st y = true) -> exists i d' m', ConvertSddToPsdd sd order root svt fl d m = Ok (Some i, d', m') /\
     Inv val fl m' /\ mext fl m m' /\ represents val f (m_vt m0) [] st m' i).
Proof. exact @convert_full. Qed.
Print Assumptions C33_convert.

(** the SDD (x1 and x2 and x3) or not x1 with ten models, at the root of a manager over the variables 11 to 14 *)
Example C33_nonvacuous : rename_vtree fx ex_vt = Some px /\ @Inv Qex qval 0 (new_mgr px) /\ subtree px [] = Some px /\
  (forall v, In v (leaves px) -> v <> 0%N) /\ SRep sx 9 st9 /\ swf ex_vt st9 /\ topo_order sx 9 (seq 0 10) /\ models st9 all_true = true /\
  count_over (leaves ex_vt) (models st9) all_true = 10%N /\
  exists i d m, FromSdd sx (seq 0 10) 9 ex_vt 0 (Some []) (fun _ => None) (new_mgr (P := Qex) px) = Ok (Some i, d, m) /\
    exists L, SerializePsddNodes (m_heap m) [i] = Ok L /\ ModelCount (m_heap m) L = Ok 10%N.
Proof.
  split; [reflexivity|]. split; [exact px_inv|]. split; [reflexivity|]. split.
  { intros v Hv. vm_compute in Hv. intuition (subst; discriminate). }
  split; [exact st9_rep|]. split; [exact st9_wf|]. split; [exact sx_topo|]. split; [reflexivity|]. split; [reflexivity|].
  do 3 eexists. split; [vm_compute; reflexivity|]. eexists. split; vm_compute; reflexivity.
Qed.
Example C33_manager_nonvacuous : exists m0 : mgr Qex, GetPsddManagerFromSddVtree ex_vt fx = Ok m0 /\ m_vt m0 = px.
Proof. eexists. split; vm_compute; reflexivity. Qed.

(** C34.  [sdd_ops]: the meaning of libsdd's constructors, conjunction and disjunction; [ren vm y]: the PSDD variable v has the value
    of the SDD variable [vm v]. *)
Theorem C34_to_sdd : forall P val S (s_true s_false : S) s_lit s_and s_or mdl, sdd_ops s_true s_false s_lit s_and s_or mdl ->
  forall vroot (h : heap P), heap_ok vroot h -> forall root L, ser_of h root L -> forall vm, (forall v w, vm v = Some w -> (0 < w)%Z) ->
  forall u0 t, Rep val h root t ->
  ((forall i, reach h root i -> mapped h vm i) -> exists s u', ConvertPsddNodeToSddNode s_true s_false s_lit s_and s_or h L vm u0 = Ok (s, u') /\
     (forall y, mdl s y = base t (ren vm y)) /\ (forall i, u' i = if memb i L then None else u0 i)) /\
  (forall i, reach h root i -> ~ mapped h vm i -> ConvertPsddNodeToSddNode s_true s_false s_lit s_and s_or h L vm u0 = Abort).
Proof. exact @to_sdd_spec. Qed.
Print Assumptions C34_to_sdd.
(** SDDs as Boolean functions; the variables 1 to 4 become 5 to 8 *)
Example C34_nonvacuous :
  sdd_ops (fun _ => true) (fun _ => false) lit_sat (fun a b y => a y && b y) (fun a b y => a y || b y) (fun s y => s y) /\
  heap_ok ex_vt (m_heap ex_m) /\ @Rep Qex qval (m_heap ex_m) 8 ex_t8 /\
  exists L, SerializePsddNodes (m_heap ex_m) [8%nat] = Ok L /\
    (forall i, In i L -> mapped (m_heap ex_m) (fun v => Some (Z.of_N v + 4)%Z) i) /\
    exists s u, ConvertPsddNodeToSddNode (fun _ => true) (fun _ => false) lit_sat (fun a b y => a y && b y) (fun a b y => a y || b y)
      (m_heap ex_m) L (fun v => Some (Z.of_N v + 4)%Z) (fun _ => None) = Ok (s, u) /\ s (fun v => N.eqb v 5) = false /\ s (fun v => N.eqb v 7) = true.
Proof.
  split; [split; auto|]. split; [exact ex_heap_ok|]. split; [exact ex_r8|]. eexists. split; [vm_compute; reflexivity|].
  split; [intros i _ nd l _ _; eauto|]. do 2 eexists. split; [vm_compute; reflexivity|]. split; vm_compute; reflexivity.
Qed.
