(** Property theorem C66: what exact comparison does, the code does when the parameters it stores are far enough apart.
    [Lexact] compares logarithms exactly; the theorems of the other files hold of it.  [Lcode] is the class PsddParameter.
    [code_of a] is the parameter of the class with the same logarithm; [mapm], [maph], [mapo] replace every parameter of a manager, a
    heap, an operation.  [cparams]: the parameters of a node the unique table compares (the true parameter of a top node, those of the
    elements); [nparams]: all parameters of a node.  [stored_apart]: compared parameters are equal, zero, or differ by a factor of at least
    exp(2e-7), and the logarithms stay below 2^63/10^7.  C55_with_true_nodes_refuted: without the first condition the code differs. *)
From Coq Require Import Ascii String Reals Lra.
From Verif Require Import Base Param ParamProofs Vtree VtreeProofs Spec SpecProofs Heap Manager HeapProofs SerProofs RepProofs LoadProofs OrderProofs ReplayProofs MulProofs ManagerExamples
  Query QueryExamples Text IO Sdd Cnf RefLib Learn Pgm TransferProofs TransferOps TransferCode PgmProofs PgmNet PgmExamples CompilerProofs NearCertain NearKept TransferNet NetCode.
Local Open Scope R_scope.

(** Histories of manager operations: the same nodes at the same indexes with the same parameters, the same unique table *)
Theorem C66_histories : forall ops (m m1 : mgr Lexact), runs m ops = Ok m1 -> stored_apart (m_heap m1) ->
  runs (mapm code_of m) (map (mapo code_of) ops) = Ok (mapm code_of m1).
Proof. intros ops m m1 E S. exact (proj2 (runs_transfer code_of code_hom ops m m1 E) (stored_sep _ S)). Qed.
Print Assumptions C66_histories.
Example C66_nonvacuous : runs (new_mgr (Leaf 1)) x_ops = Ok x_m /\ stored_apart (m_heap x_m) /\ length (m_heap x_m) = 3%nat.
Proof. split; [exact x_runs|]. split; [exact x_apart|reflexivity]. Qed.

(** Values and represented distributions are the same. *)
Theorem C66_values : (forall a, cval (code_of a) = lval a) /\
  (forall (h : heap Lexact) i t, @Rep Lexact lval h i t -> @Rep Lcode cval (maph code_of h) i t) /\
  (forall (h : heap Lexact) mask x root w, Evaluate h mask x root = Ok w -> Evaluate (maph code_of h) mask x root = Ok (code_of w)).
Proof. split; [exact cval_code|]. split; [exact Rep_code|]. intros. eapply (Evaluate_map code_of code_hom); eauto. Qed.
Print Assumptions C66_values.
Example C66_values_nonvacuous : @Rep Lexact lval (m_heap x_m) 1 (TTop 1 (exp (-5)) (exp (- ln 2))) /\
  Evaluate (m_heap x_m) (fun _ => true) (fun _ => true) 1 = Ok x_small.
Proof. split; [|reflexivity]. eapply (@Rep_top Lexact lval _ 1 _ 1%N x_small x_half); reflexivity. Qed.

(** Multiply in the code's manager: the exact product of the two distributions *)
Theorem C66_multiply : forall fl (m : mgr Lexact) a b p ta tb, @tidy Lexact lval fl m ->
  vt_of (m_heap m) a = Some p -> vt_of (m_heap m) b = Some p -> @Rep Lexact lval (m_heap m) a ta -> @Rep Lexact lval (m_heap m) b tb ->
  positive ta -> positive tb ->
  exists r z m', Multiply m a b fl = Ok ((r, z), m') /\
    (stored_apart (m_heap m') -> Multiply (mapm code_of m) a b fl = Ok ((r, code_of z), mapm code_of m') /\
      (r = None <-> forall x, weight ta x * weight tb x = 0) /\
      match r with
      | None => cval (code_of z) = 0
      | Some i => 0 < cval (code_of z) /\ exists t, @Rep Lcode cval (m_heap (mapm code_of m')) i t /\
          forall x, weight t x * cval (code_of z) = weight ta x * weight tb x
      end).
Proof.
  intros fl m a b p ta tb T Va Vb Ra Rb Pa Pb. destruct (@multiply_full Lexact lval Lexact_exact fl m a b p ta tb T Va Vb Ra Rb Pa Pb) as (r & z & m' & E & _ & N & C).
  exists r, z, m'. split; auto. intros S. split; [exact (proj2 (sim_Multiply code_of code_hom m a b fl _ m' E) (stored_sep _ S))|]. split; auto.
  rewrite cval_code. destruct r as [i|]; auto. destruct C as (Z & t & R & W). split; auto. exists t. split; auto. apply (Rep_code _ _ _ R).
Qed.
Print Assumptions C66_multiply.
Example C66_multiply_nonvacuous : @tidy Lexact lval 1 x_two /\ vt_of (m_heap x_two) 0 = Some [] /\
  @Rep Lexact lval (m_heap x_two) 0 (TTop 1 (lval x_half) (lval x_half)) /\ positive (TTop 1 (lval x_half) (lval x_half)) /\
  exists z, Multiply x_two 0 0 1 = Ok ((Some 2%nat, z), x_m) /\ stored_apart (m_heap x_m).
Proof.
  split; [exact x_tidy|]. split; [reflexivity|]. split; [eapply (@Rep_top Lexact lval _ 0 _ 1%N x_half x_half); reflexivity|]. split.
  - unfold positive, all_nodes. simpl. pose proof (exp_pos (- ln 2)). repeat split; auto; lra.
  - destruct x_mul as (z & E). exists z. split; [exact E|exact x_apart].
Qed.

(** The other ways to make PSDDs *)
Theorem C66_load : forall hs ud target root fl (m : mgr Lexact) x m1, LoadPsddNode hs ud target root fl m = Ok (x, m1) -> stored_apart (m_heap m1) ->
  LoadPsddNode (maph code_of hs) ud target root fl (mapm code_of m) = Ok (x, mapm code_of m1).
Proof. intros hs ud target root fl m x m1 E S. exact (proj2 (sim_Load code_of code_hom hs ud target root fl m x m1 E) (stored_sep _ S)). Qed.
Print Assumptions C66_load.
Theorem C66_from_sdd : forall sd order root svt fl target d (m : mgr Lexact) x m1,
  FromSdd sd order root svt fl target d m = Ok (x, m1) -> stored_apart (m_heap m1) ->
  FromSdd sd order root svt fl target d (mapm code_of m) = Ok (x, mapm code_of m1).
Proof. intros sd order root svt fl target d m x m1 E S. exact (proj2 (sim_FromSdd code_of code_hom sd order root svt fl target d m x m1 E) (stored_sep _ S)). Qed.
Print Assumptions C66_from_sdd.
Theorem C66_compile_cnf : forall libs cs fl (m : mgr Lexact) x m1, Compile libs cs fl m = Ok (x, m1) -> stored_apart (m_heap m1) ->
  Compile libs cs fl (mapm code_of m) = Ok (x, mapm code_of m1).
Proof. intros libs cs fl m x m1 E S. exact (proj2 (sim_Compile code_of code_hom libs cs fl m x m1 E) (stored_sep _ S)). Qed.
Print Assumptions C66_compile_cnf.
Theorem C66_learn : forall (hs : heap Lexact) ud dc root ex n (alpha : Lexact) fl (m : mgr Lexact) x m1, 0 < lval alpha ->
  LearnPsddParameters hs ud dc root ex n alpha fl m = Ok (x, m1) -> stored_apart (m_heap m1) ->
  LearnPsddParameters (maph code_of hs) ud dc root ex n (code_of alpha) fl (mapm code_of m) = Ok (x, mapm code_of m1).
Proof.
  intros hs ud dc root ex n alpha fl m x m1 A E S.
  exact (proj2 (@sim_Learn Lexact Lcode code_of code_hom lval Lexact_exact alpha A hs ud dc root ex n fl m x m1 E) (stored_sep _ S)).
Qed.
Print Assumptions C66_learn.
Example C66_others_nonvacuous : let m := @two_tops Lexact x_half x_half x_small x_half in let m1 := third x_half x_half x_small x_half in
  (exists ud, LoadPsddNode (m_heap m) (fun _ => None) (Some []) 0 1 m = Ok (2%nat, ud, m1 (BTop 1 x_half x_half))) /\
  (exists dt, FromSdd one_literal [0%nat] 0 (Leaf 1) 1 (Some []) (fun _ => None) m = Ok (Some 2%nat, dt, m1 (BLit 1))) /\
  Compile ref_lib [[1]]%Z 1 m = Ok (Some 2%nat, m1 (BLit 1)) /\
  (exists r, LearnPsddParameters (m_heap m) (fun _ => None) (fun _ => [0; 0]%N) 0 (fun _ => Some []) 0 (lf 0 : Lexact) 1 m = Ok (r, m1 (BTop 1 x_half x_half))) /\
  0 < lval (lf 0) /\ stored_apart (m_heap (m1 (BTop 1 x_half x_half))) /\ stored_apart (m_heap (m1 (BLit 1))).
Proof.
  intros m m1. split; [apply gen_load|]. split; [apply gen_from_sdd|]. split; [apply gen_compile|]. split.
  - destruct (gen_learn x_half x_half x_small x_half (lf 0 : Lexact)) as (r & E). exists r. pose proof half_learnt as HL. cbv zeta in E, HL. rewrite HL in E. exact E.
  - split; [apply exp_pos|]. split; apply x_third_apart; auto.
Qed.
(** Files: the text of a parameter is that of its logarithm. *)
Theorem C66_read : forall content fl (m : mgr Lexact) x m1, ReadPsddFile rd_log log0_log content fl m = Ok (x, m1) -> stored_apart (m_heap m1) ->
  ReadPsddFile rd_code log0_code content fl (mapm code_of m) = Ok (x, mapm code_of m1).
Proof.
  intros content fl m x m1 E S. exact (proj2 (sim_Read code_of code_hom rd_log rd_code log0_log log0_code rd_log_code eq_refl content fl m x m1 E) (stored_sep _ S)).
Qed.
Print Assumptions C66_read.
Theorem C66_write : forall root (h : heap Lexact) ud r, WritePsddToFile show_code root (maph code_of h) ud r = WritePsddToFile show_log root h ud r.
Proof. exact write_code. Qed.
Print Assumptions C66_write.
Example C66_read_nonvacuous : exists m1, ReadPsddFile rd_log log0_log x_file 0 (new_mgr (Leaf 1)) = Ok (Some 0%nat, m1) /\ stored_apart (m_heap m1) /\ length (m_heap m1) = 1%nat.
Proof.
  eexists. split; [eapply gen_read; reflexivity|]. split; [|reflexivity]. simpl m_heap.
  match goal with |- stored_apart [MkN _ _ (BTop _ (lf ?a) (lf ?b))] => assert (a = -2 /\ b = -1) as [-> ->] by (simpl; split; lra) end.
  split.
  - simpl. intros a b [<-|[]] [<-|[]]. left. reflexivity.
  - simpl. intros a [<-|[<-|[]]]; right; simpl; rewrite ln_exp; apply Rabs_def1; lra.
Qed.

(** Networks, with the comparison of the code on logarithms of any size ([Ltrunc]: the partition constants need not be in range) *)
Theorem C66_networks : forall ords srt gc (fs : network Lexact) (m : mgr Lexact),
  (forall r z m1, compile_network ords srt fs m = Ok (r, z, m1) -> stored_apart_t (m_heap m1) ->
    @compile_network Ltrunc ords srt (map (mapf trunc_of) fs) (mapm trunc_of m) = Ok (r, trunc_of z, mapm trunc_of m1)) /\
  (forall r z m1, compile_network_dc ords srt gc fs m = Ok (r, z, m1) -> stored_apart_t (m_heap m1) ->
    @compile_network_dc Ltrunc ords srt gc (map (mapf trunc_of) fs) (mapm trunc_of m) = Ok (r, trunc_of z, mapm trunc_of m1)) /\
  (forall r z m1, compile_network_with_vtree ords gc fs m = Ok (r, z, m1) -> stored_apart_t (m_heap m1) ->
    @compile_network_with_vtree Ltrunc ords gc (map (mapf trunc_of) fs) (mapm trunc_of m) = Ok (r, trunc_of z, mapm trunc_of m1)).
Proof.
  intros ords srt gc fs m. split; [|split]; intros r z m1 E S.
  - exact (proj2 (sim_compile_network trunc_of trunc_hom trunc_zero ords srt fs m _ m1 E) (stored_sep_t _ S)).
  - exact (proj2 (sim_compile_network_dc trunc_of trunc_hom trunc_zero ords srt gc fs m _ m1 E) (stored_sep_t _ S)).
  - exact (proj2 (sim_compile_network_with_vtree trunc_of trunc_hom trunc_zero ords gc fs m _ m1 E) (stored_sep_t _ S)).
Qed.
Print Assumptions C66_networks.
Example C66_networks_nonvacuous : (exists z, compile_network (fun _ _ l => l) (fun _ l => l) x_net (new_mgr (Leaf 1)) = Ok (Some 0%nat, z, x_net_m)) /\
  stored_apart_t (m_heap x_net_m).
Proof. split; [exact x_net_runs|]. simpl. intros a b [<-|[]] [<-|[]]. left. reflexivity. Qed.
(** The same with class PsddParameter, for tables of zeros and numbers of the size of doubles *)
Theorem C66_networks_code : forall ords srt gc (fs : network Lexact) (m : mgr Lexact), Forall double_factor fs ->
  (forall r z m1, compile_network ords srt fs m = Ok (r, z, m1) -> stored_apart (m_heap m1) ->
    compile_network ords srt (map (mapf code_of) fs) (mapm code_of m) = Ok (r, code_of z, mapm code_of m1)) /\
  (forall r z m1, compile_network_dc ords srt gc fs m = Ok (r, z, m1) -> stored_apart (m_heap m1) ->
    compile_network_dc ords srt gc (map (mapf code_of) fs) (mapm code_of m) = Ok (r, code_of z, mapm code_of m1)) /\
  (forall r z m1, compile_network_with_vtree ords gc fs m = Ok (r, z, m1) -> stored_apart (m_heap m1) ->
    compile_network_with_vtree ords gc (map (mapf code_of) fs) (mapm code_of m) = Ok (r, code_of z, mapm code_of m1)).
Proof. exact code_networks. Qed.
Print Assumptions C66_networks_code.
Example C66_networks_code_nonvacuous : Forall double_factor kept_net /\
  exists z m', compile_network_dc (fun _ _ l => l) isort 1 kept_net (new_mgr (VNode (Leaf 1) (Leaf 2))) = Ok (Some 6%nat, z, m') /\ stored_apart (m_heap m').
Proof.
  split.
  { apply Forall_forall. intros F HF. split; [exact (proj1 (Forall_forall _ _) kept_entries F HF)|].
    destruct HF as [<-|[<-|[]]]; cbn [f_scope length]; lia. }
  destruct (kept_run (fun _ _ l => l) isort 1 isort_sorts) as (z & m' & E & EH); [discriminate|]. exists z, m'. split; auto. rewrite EH. exact kept_stored.
Qed.
