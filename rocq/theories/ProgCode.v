(** The programs uai_compiler and psdd_inference with class PsddParameter, when the stored parameters are far apart (C92). *)
From Coq Require Import Ascii String Reals Lra Lia Permutation Sorting.
From Verif Require Import Base Param ParamProofs Vtree VtreeProofs Spec SpecProofs Heap Manager HeapProofs SerProofs RepProofs LoadProofs OrderProofs MulProofs ReplayProofs ManagerExamples
  TreeProofs Query QueryProofs MpeProofs SampleProofs QueryExamples Sdd SddProofs Text IO IOProofs Cnf CnfProofs InferProofs Pgm PgmProofs PgmNet PgmExamples Uai UaiProofs VtreeGen Compiler CompilerProofs
  TransferProofs TransferOps TransferCode TransferNet NearCertain NetCode ApproxMpe QueryCode.
Local Open Scope list_scope.

(** ** Reading a network: only the entries depend on the kind of parameter. *)
Section Uai.
Context {P P' : pops} (f : P -> P') (rd : text -> option P) (rd' : text -> option P') (Hrd : forall w, rd' w = option_map f (rd w)).
Definition mapu (u : uai P) : uai P' := MkU (u_vars u) (u_factors u) (u_type u) (u_scopes u) (map (map f) (u_params u)).
Lemma read_entries_map : forall fuel st, read_entries rd' fuel st = map f (read_entries rd fuel st).
Proof.
  induction fuel as [|fuel IH]; intros st; cbn [read_entries]; auto.
  assert (ex_word (fun w => option_map Some (rd' w)) None st = (option_map (option_map f) (fst (ex_word (fun w => option_map Some (rd w)) None st)), snd (ex_word (fun w => option_map Some (rd w)) None st))) as ->.
  { unfold ex_word. destruct st as [s b]. destruct (negb b); [reflexivity|]. destruct (skip_ws s) as [|c s']; [reflexivity|]. destruct (take_word (c :: s')) as [w0 r]. rewrite Hrd.
    destruct (rd w0); reflexivity. }
  destruct (ex_word (fun w => option_map Some (rd w)) None st) as [[[p|]|] st']; cbn [fst snd option_map map]; auto. rewrite IH. reflexivity.
Qed.
Lemma more_entries_map : forall fuel n ps st buf r x, more_entries rd fuel n ps st buf = Ok (r, x) -> more_entries rd' fuel n (map f ps) st buf = Ok (map f r, x).
Proof.
  induction fuel as [|fuel IH]; intros n ps st buf r x E; cbn [more_entries] in E |- *; rewrite map_length; destruct (N.ltb _ _); try discriminate; try (injection E as <- <-; reflexivity).
  destruct (getline st buf) as [l st1]. unfold entries in *. rewrite read_entries_map, <- map_app. auto.
Qed.
Lemma read_table_map fuel st buf ps x : read_table rd fuel st buf = Ok (ps, x) -> read_table rd' fuel st buf = Ok (map f ps, x).
Proof.
  unfold read_table. intros E. bk E as [l st1] E1. rewrite E1. cbn [bind]. destruct (ex_u64 (l, true)) as [o is]. bk E as z Ez. rewrite Ez. cbn [bind].
  bk E as u Eu. rewrite Eu. cbn [bind]. bk E as [ps1 y] E2. bk E as u1 Eu1. bk E as u2 Eu2. injection E as -> ->.
  assert ((if snd is then entries rd' (fst is) else []) = map f (if snd is then entries rd (fst is) else [])) as ->.
  { destruct (snd is); auto. apply read_entries_map. }
  rewrite (more_entries_map _ _ _ _ _ _ _ E2). cbn [bind]. rewrite map_length, Eu1. cbn [bind]. rewrite Eu2. reflexivity.
Qed.
Lemma read_tables_map fuel : forall n st buf ts, read_tables rd fuel n st buf = Ok ts -> read_tables rd' fuel n st buf = Ok (map (map f) ts).
Proof.
  induction n as [|n IH]; intros st buf ts E; cbn [read_tables] in E |- *; [injection E as <-; reflexivity|].
  bk E as [ps x] E1. rewrite (read_table_map _ _ _ _ _ E1). cbn [bind]. bk E as rest E2. injection E as <-. rewrite (IH _ _ _ E2). reflexivity.
Qed.
Theorem read_file_map fuel u file r : read_file rd fuel u file = Ok r -> read_file rd' fuel (mapu u) file = Ok (mapu r).
Proof.
  unfold read_file. destruct (getline _ []) as [l1 st1]. destruct (getline st1 l1) as [l2 st2]. intros E. bk E as nv En. rewrite En. cbn [bind].
  destruct (getline st2 l2) as [l3 st3]. destruct (getline st3 l3) as [l4 st4]. bk E as nf Ef. rewrite Ef. cbn [bind]. destruct (nf <? 0)%Z; [discriminate|].
  bk E as [scs x] Es. rewrite Es. cbn [bind]. bk E as ts Et. rewrite (read_tables_map _ _ _ _ _ Et). injection E as <-. unfold mapu. cbn [bind u_scopes u_params u_vars u_factors u_type].
  rewrite map_app. reflexivity.
Qed.
Lemma network_map u : network_of (mapu u) = map (mapf f) (network_of u).
Proof.
  unfold network_of, mapu. cbn [u_scopes u_params]. rewrite map_map. generalize (u_params u). induction (u_scopes u) as [|s l IH]; intros [|t ts]; simpl; auto. f_equal. auto.
Qed.
Lemma write_map (show : P -> text) (show' : P' -> text) : (forall a, show' (f a) = show a) -> forall root (h : heap P) ud r, WritePsddToFile show' root (maph f h) ud r = WritePsddToFile show root h ud r.
Proof.
  intros Hs root h ud r. unfold WritePsddToFile. rewrite serialize_map. destruct (SerializePsddNodes h [r]) as [ser| | |]; auto. cbn [bind].
  assert (forall st i, write_step show' root (maph f h) st i = write_step show root h st i) as W.
  { intros [[k ls] u] i. unfold write_step. rewrite maph_nth. destruct (nth_error h i) as [nd|]; [|reflexivity]. cbn [option_map get bind].
    replace (show_node show' root u k (mapn f nd)) with (show_node show root u k nd); [reflexivity|].
    unfold show_node, mapn. cbn [n_vt n_body]. destruct (n_body nd) as [l|v a b|es]; cbn [mapb]; auto; [rewrite !Hs; reflexivity|]. rewrite map_length, map_map.
    do 5 f_equal. apply map_ext. intros e. unfold show_elem. cbn [mape e_prime e_sub e_param]. rewrite Hs. reflexivity. }
  rewrite (foldM_ext _ _ W). reflexivity.
Qed.
End Uai.

(** ** uai_compiler *)
Theorem compiler_code x (rdu : text -> option Lexact) rdc (show : Lexact -> text) showc ud fuel method file content size z m :
  (forall w, rdc w = option_map code_of (rdu w)) -> (forall a, showc (code_of a) = show a) ->
  uai_compiler x rdu show ud fuel method file = Ok (content, size, z, m) ->
  (forall u, read_file rdu fuel fresh_uai file = Ok u -> Forall double_factor (network_of u)) -> stored_apart (m_heap m) ->
  uai_compiler x rdc showc ud fuel method file = Ok (content, size, code_of z, mapm code_of m).
Proof.
  intros Hr Hs E DF S. unfold uai_compiler in E |- *. bk E as u Eu. pose proof (read_file_map code_of rdu rdc Hr _ _ _ _ Eu) as E1.
  change (mapu code_of fresh_uai) with (@fresh_uai Lcode) in E1. rewrite E1. cbn [bind]. specialize (DF u Eu).
  bk E as t Et. assert (make_vtree x method (mapu code_of u) = make_vtree x method u) as -> by reflexivity. rewrite Et. cbn [bind].
  bk E as m0 E0. assert (GetPsddManagerFromVtree t = Ok (mapm code_of m0)) as ->.
  { unfold GetPsddManagerFromVtree in E0 |- *. bk E0 as [t' d] Ec. rewrite Ec. injection E0 as <-. reflexivity. }
  cbn [bind]. bk E as [[r z0] m1] En. cbn [fst snd] in E. bk E as i Ei. bk E as [c1 ud1] Ew. bk E as ser Es. injection E as <- <- <- <-.
  rewrite network_map, (proj1 (proj2 (code_networks _ _ _ _ m0 DF)) _ _ _ En S). cbn [bind fst snd]. rewrite Ei. cbn [bind mapm m_vt m_heap].
  rewrite (write_map code_of show showc Hs), Ew. cbn [bind]. rewrite serialize_map, Es. reflexivity.
Qed.

(** ** psdd_inference *)
Local Open Scope R_scope.
Lemma Rep_map {P P' : pops} (f : P -> P') (val : P -> R) (val' : P' -> R) : (forall a, val' (f a) = val a) -> forall (h : heap P) i t, Rep val h i t -> Rep val' (maph f h) i t.
Proof.
  intros HV h. fix IH 3. intros i t R. destruct R as [i nd l E B|i nd v pt pf E B|i nd es tes E B F].
  - eapply Rep_lit with (nd := mapn f nd); [rewrite maph_nth, E; reflexivity|]. unfold mapn. simpl. rewrite B. reflexivity.
  - rewrite <- !HV. eapply Rep_top with (nd := mapn f nd); [rewrite maph_nth, E; reflexivity|]. unfold mapn. simpl. rewrite B. reflexivity.
  - eapply Rep_dec with (nd := mapn f nd) (es := map (mape f) es); [rewrite maph_nth, E; reflexivity|unfold mapn; simpl; rewrite B; reflexivity|].
    clear E B. induction F as [|e te es tes (A & B & C) F IHF]; simpl; constructor; auto. simpl. rewrite HV. auto.
Qed.
Lemma heap_ok_map {P P' : pops} (f : P -> P') root (h : heap P) : heap_ok root h -> heap_ok root (maph f h).
Proof.
  intros HO i nd E. rewrite maph_nth in E. destruct (nth_error h i) as [nd0|] eqn:E0; [|discriminate]. injection E as <-. specialize (HO i nd0 E0).
  unfold node_ok, mapn in *. cbn [n_body n_vt]. destruct (n_body nd0) as [l|v a b|es]; cbn [mapb]; auto. destruct HO as (NE & S & F). split; [destruct es; [contradiction|discriminate]|].
  split; auto. rewrite Forall_map. eapply Forall_impl; [|exact F]. intros e. cbn [mape e_prime e_sub]. rewrite !maph_vt. auto.
Qed.
(** As [answers_for], but no instantiation beats the reported one by more than the factor exp d. *)
Definition answers_near {P : pops} (val : P -> R) (vt : vtree) (g : inst -> R) (z d : R) (mpe mar : bool) (a : @answer P) : Prop :=
  match a with
  | Unsatisfied => False
  | Answer ma mb => exists vs, Permutation vs (leaves vt) /\ StronglySorted N.le vs /\
      (if mpe then exists x v, ma = Some (map (fun w => (w, x w)) vs, v) /\ g x = val v * z /\ 0 < g x /\ (forall y, g y <= exp d * g x)
       else ma = None) /\
      (if mar then exists f : N -> P * P, mb = Some (map (fun w => (w, f w)) vs) /\
         forall v, In v (leaves vt) -> (forall x0, val (snd (f v)) * z = sum_over (leaves vt) (fun y => if y v then g y else 0) x0) /\
                                       (forall x0, val (fst (f v)) * z = sum_over (leaves vt) (fun y => if y v then 0 else g y) x0)
       else mb = None)
  end.
(** All products of stored parameters along the vtree have logarithms below 2^63/10^7. *)
Definition products_fit (m : mgr Lexact) : Prop :=
  exists B, 0 <= B /\ (forall a, In a (flat_map nparams (m_heap m)) -> within B a) /\ B * INR (vsize (m_vt m)) * 10000000 < IZR (2 ^ 63).
Lemma answers_code mpe mar dflt r (m : mgr Lexact) t g z : @psdd_at Lexact lval m r (m_vt m) t -> positive t -> normalized t -> deterministic t ->
  0 < z -> (forall x, weight t x * z = g x) -> (mpe = true -> products_fit m) ->
  exists a, answers mpe mar dflt r (mapm code_of m) = Ok a /\ answers_near cval (m_vt m) g z (INR (vsize (m_vt m)) * (2 / 10000000)) mpe mar a.
Proof.
  intros A PO NO DE HZ HG HM. unfold answers. cbn [mapm m_vt m_heap]. destruct (variables_under_spec [] (m_vt m)) as (vs & Evs & PM). rewrite Evs. cbn [bind]. cbv zeta.
  destruct (@psdd_at_facts Lexact lval m r _ t A) as (HO & ND & C & L & SO). rewrite serialize_map, (so_eq _ _ _ SO). cbn [bind].
  assert (Permutation (sort_N vs) (leaves (m_vt m))) as PM2 by (rewrite sort_perm; auto).
  assert (exists ma, (if mpe then do x <- GetMPESolution (vsize (m_vt m)) (maph code_of (m_heap m)) L (fun _ => None) ;;
             Ok (Some (map (fun v => (v, fst (fst x) v)) (sort_N vs), snd (fst x))) else Ok None) = Ok ma /\
     (if mpe then exists x v, ma = Some (map (fun w => (w, x w)) (sort_N vs), v) /\ g x = cval v * z /\ 0 < g x /\ (forall y, g y <= exp (INR (vsize (m_vt m)) * (2 / 10000000)) * g x)
       else ma = None)) as (ma & E1 & H1).
  { destruct mpe; [|eauto]. destruct (HM eq_refl) as (B & B0 & HB & HS).
    set (mt := MkM (m_vt m) (maph trunc_of (m_heap m)) [] : mgr Ltrunc).
    assert (psdd_at (P := Ltrunc) lval mt r (m_vt m) t) as AT.
    { destruct A as (W & HR & p & V & S). split; [|split].
      - split; simpl; [apply W|apply heap_ok_map; auto|intros i []|constructor|intros i j a b []].
      - apply (Rep_map trunc_of (P := Lexact) (P' := Ltrunc) lval lval); auto.
      - exists p. split; auto. simpl. rewrite maph_vt. auto. }
    destruct (approx_mpe (P := Ltrunc) lval (2 / 10000000) Ltrunc_approx mt r (m_vt m) t L (fun _ => None) (vsize (m_vt m)) AT DE) as (x & v & ud' & E & W & BS & MX & _); auto.
    { simpl. rewrite serialize_map. apply SO. }
    destruct (mpe_code m B HO B0 HB HS (vsize (m_vt m)) L x v ud' E) as (ud2 & E2). rewrite E2. cbn [bind fst snd]. eexists. split; [reflexivity|].
    exists x, (code_of v). split; auto. rewrite <- !HG, cval_code, W. split; auto. split.
    - rewrite <- W. apply Rmult_lt_0_compat; auto. apply weight_pos_base; auto.
    - intros y. rewrite <- HG, <- Rmult_assoc. apply Rmult_le_compat_r; [lra|auto]. }
  assert (exists mb, (if mar then do mg <- GetMarginals (maph code_of (m_heap m)) L ;;
             Ok (Some (map (fun v => (v, match mg v with Some p => p | None => dflt end)) (sort_N vs))) else Ok None) = Ok mb /\
     (if mar then exists f : N -> Lcode * Lcode, mb = Some (map (fun w => (w, f w)) (sort_N vs)) /\
         forall v, In v (leaves (m_vt m)) -> (forall x0, cval (snd (f v)) * z = sum_over (leaves (m_vt m)) (fun y => if y v then g y else 0) x0) /\
                                       (forall x0, cval (fst (f v)) * z = sum_over (leaves (m_vt m)) (fun y => if y v then 0 else g y) x0)
       else mb = None)) as (mb & E2 & H2).
  { destruct mar; [|eauto]. destruct (@marg_full Lexact lval Lexact_exact m r (m_vt m) t L A NO (so_eq _ _ _ SO)) as (mg & E & M & MN).
    destruct (marginals_map code_of code_hom _ _ _ E) as (mg' & E' & LK).
    { intros v pf pt Ev. destruct (in_dec N.eq_dec v (leaves (m_vt m))) as [Hv|Hv]; [|rewrite MN in Ev by auto; discriminate].
      destruct (M v Hv) as (pf' & pt' & Ev' & M1 & M2 & _). rewrite Ev in Ev'. injection Ev' as <- <-.
      assert (lval pt + lval pf = 1) as S1.
      { rewrite (M1 (fun _ => true)), (M2 (fun _ => true)), <- sum_over_plus, <- (normalized_total (m_vt m) t (fun _ => true) ND C NO). apply sum_over_ext'. intros y. destruct (y v); lra. }
      destruct (peq pf pzero) eqn:F1; auto. destruct (peq pt pzero) eqn:F2; auto. apply l_eq_iff in F1, F2. rewrite F1, F2 in S1. simpl in S1. lra. }
    rewrite E'. cbn [bind]. eexists. split; [reflexivity|]. exists (fun v => match mg' v with Some p => p | None => dflt end). split; auto.
    intros v Hv. destruct (M v Hv) as (pf & pt & Ev & M1 & M2 & _). rewrite (LK v), Ev. cbn [option_map mapp fst snd]. rewrite !cval_code. split; intros y0.
    - rewrite (M1 y0), Rmult_comm, <- sum_over_scal. apply sum_over_ext'. intros y. rewrite <- HG. destruct (y v); ring.
    - rewrite (M2 y0), Rmult_comm, <- sum_over_scal. apply sum_over_ext'. intros y. rewrite <- HG. destruct (y v); ring. }
  rewrite E1. cbn [bind]. rewrite E2. cbn [bind]. eexists. split; [reflexivity|]. simpl. exists (sort_N vs). split; auto. split; [apply sort_sorted|]. auto.
Qed.

Section Inference.
Context (rd : text -> option Lexact) (log0 : Lexact) (rdc : text -> option Lcode) (log0c : Lcode) (Hrd : forall w, rdc w = option_map code_of (rd w)) (Hlog0 : log0c = code_of log0).
Context (libs : vtree -> sddlib) (LO : libs_ok libs) (dflt : Lexact * Lexact) (dfltc : Lcode * Lcode).
Definition tolerance (vt : vtree) : R := INR (vsize vt) * (2 / 10000000).
Theorem inference_code psdd vt t mpe mar : @file_holds Lexact lval rd log0 psdd vt t -> positive t -> normalized t -> deterministic t ->
  exists a m', Inference rd log0 libs mpe mar dflt psdd None vt = Ok (a, m') /\
    (stored_apart (m_heap m') -> (mpe = true -> products_fit m') ->
      exists ac, Inference rdc log0c libs mpe mar dfltc psdd None vt = Ok (ac, mapm code_of m') /\ answers_near cval vt (weight t) 1 (tolerance vt) mpe mar ac).
Proof.
  intros (r & m1 & E & EV & I & V & R) PO NO DE. assert (@psdd_at Lexact lval m1 r (m_vt m1) t) as A by (split; [apply I|]; split; auto; exists []; split; auto).
  destruct (@answers_spec Lexact lval Lexact_exact mpe mar dflt r m1 t (weight t) 1) as (a & Ea & Ha); auto; try lra; [intros x; ring|].
  exists a, m1. unfold Inference. cbn [bind]. rewrite E. cbn [bind]. rewrite Ea. split; auto. intros S PF.
  pose proof (proj2 (sim_Read code_of code_hom rd rdc log0 log0c Hrd Hlog0 psdd 0 (new_mgr vt) _ _ E) (stored_sep _ S)) as E'.
  change (mapm code_of (new_mgr vt)) with (@new_mgr Lcode vt) in E'. rewrite E'. cbn [bind].
  destruct (answers_code mpe mar dfltc r m1 t (weight t) 1) as (ac & Eac & Hac); auto; try lra; [intros x; ring|].
  rewrite Eac. cbn [bind]. exists ac. split; auto. rewrite EV in Hac. exact Hac.
Qed.
Theorem inference_evidence_code psdd vt t mpe mar cnf cs : @file_holds Lexact lval rd log0 psdd vt t -> positive t -> normalized t -> deterministic t ->
  (forall v, In v (leaves vt) -> v <> 0%N) -> ReadCnf cnf = Ok cs -> in_vtree vt cs ->
  let g x := if cnf_sat cs x then weight t x else 0 in
  ((exists x, cnf_sat cs x = true) -> (forall x, g x = 0) -> exists m', Inference rd log0 libs mpe mar dflt psdd (Some cnf) vt = Ok (Unsatisfied, m') /\
     (stored_apart (m_heap m') -> Inference rdc log0c libs mpe mar dfltc psdd (Some cnf) vt = Ok (Unsatisfied, mapm code_of m'))) /\
  ((exists x, 0 < g x) -> exists a m' z, Inference rd log0 libs mpe mar dflt psdd (Some cnf) vt = Ok (a, m') /\
     0 < z /\ (forall x0, z = sum_over (leaves vt) g x0) /\
     (stored_apart (m_heap m') -> (mpe = true -> products_fit m') ->
       exists ac, Inference rdc log0c libs mpe mar dfltc psdd (Some cnf) vt = Ok (ac, mapm code_of m') /\ answers_near cval vt g z (tolerance vt) mpe mar ac)).
Proof.
  intros (r & m1 & E & EV & I & V & R) PO NO DE NZ EC SC g. unfold Inference. rewrite EC. cbn [bind]. rewrite E. cbn [bind].
  destruct (sim_Read code_of code_hom rd rdc log0 log0c Hrd Hlog0 psdd 0 (new_mgr vt) _ _ E) as [_ B1].
  change (mapm code_of (new_mgr vt)) with (@new_mgr Lcode vt) in B1.
  destruct (@compile_full Lexact lval Lexact_exact libs cs 0 m1 LO I) as [_ K2]; [rewrite EV; auto|rewrite EV; auto|].
  assert (forall x, cnf_sat cs x = true -> exists i m2 te o z m3, Compile libs cs 0 m1 = Ok (Some i, m2) /\ Multiply m2 i r 0 = Ok ((o, z), m3) /\ m_vt m3 = vt /\
    (o = None <-> (forall y, g y = 0)) /\ (match o with None => True | Some j => exists t', @psdd_at Lexact lval m3 j (m_vt m3) t' /\ positive t' /\ normalized t' /\ deterministic t' /\ 0 < lval z /\ (forall y, weight t' y * lval z = g y) end) /\
    @Rep Lexact lval (m_heap m2) i te /\
    (stored_apart (m_heap m3) -> ReadPsddFile rdc log0c psdd 0 (new_mgr vt) = Ok (Some r, mapm code_of m1) /\ Compile libs cs 0 (mapm code_of m1) = Ok (Some i, mapm code_of m2) /\
       Multiply (mapm code_of m2) i r 0 = Ok ((o, code_of z), mapm code_of m3))) as K.
  { intros x Sx. destruct (K2 (ex_intro _ x Sx)) as (i & m2 & te & E2 & I2 & X2 & Ve & Re & Le & Ce & De & Pe & Be & We & _).
    assert (@node_at Lexact lval m2 r [] t) as Nr by (destruct (@node_at_ext Lexact lval 0%N m1 m2 r [] t X2 (conj V R)); split; auto).
    destruct (@multiply_spec Lexact lval Lexact_exact 0 m2 i r [] te t I2 (conj Ve Re) Nr Pe PO) as ([o z] & m3 & E3 & I3 & X3 & M).
    pose proof (@multiply_null Lexact lval Lexact_exact 0 m2 i r [] te t (o, z) m3 I2 (conj Ve Re) Nr Pe PO E3) as NU. cbn [fst] in NU.
    assert (m_vt m3 = vt) as EV3 by (rewrite (me_vt _ _ _ X3), (me_vt _ _ _ X2); auto).
    exists i, m2, te, o, z, m3. do 3 (split; auto). split; [rewrite NU; split; intros Z y; specialize (Z y); rewrite We in *; unfold g in *; destruct (cnf_sat cs y); lra|].
    split; [|split; auto].
    - destruct o as [j|]; auto. destruct M as (t' & [V' R'] & PR & _). cbn [fst snd] in PR, V', R'. exists t'.
      split; [split; [apply I3|]; split; auto; exists []; split; auto|]. split; [apply PR|]. split; [apply PR|]. split; [apply PR; auto|]. split; [apply PR|].
      intros y. rewrite (po_weight _ _ _ _ PR), We. unfold g. destruct (cnf_sat cs y); ring.
    - intros S. destruct (sim_Multiply code_of code_hom _ _ _ _ _ _ E3) as [G3 B3]. destruct (sim_Compile code_of code_hom libs cs 0 _ _ _ E2) as [G2 B2].
      apply stored_sep in S. split; [apply B1; eapply sep_grow; [|exact S]; eapply grow_trans; eauto|]. split; [apply B2; eapply sep_grow; eauto|]. exact (B3 S). }
  split.
  - intros [x Sx] ZERO. destruct (K x Sx) as (i & m2 & te & o & z & m3 & E2 & E3 & _ & NU & _ & _ & B). rewrite E2. cbn [bind get]. rewrite E3. cbn [bind fst].
    apply NU in ZERO. subst o. exists m3. split; auto. intros S. destruct (B S) as (-> & B2 & B3). cbn [bind]. rewrite B2. cbn [bind get]. rewrite B3. reflexivity.
  - intros [x Hx]. assert (cnf_sat cs x = true) as Sx by (unfold g in Hx; destruct (cnf_sat cs x); auto; lra).
    destruct (K x Sx) as (i & m2 & te & o & z & m3 & E2 & E3 & EV3 & NU & M & _ & B). rewrite E2. cbn [bind get]. rewrite E3. cbn [bind fst].
    destruct o as [j|]; [|exfalso; pose proof (proj1 NU eq_refl x); lra]. destruct M as (t' & A & PO' & NO' & DE' & ZP & HG).
    destruct (@answers_spec Lexact lval Lexact_exact mpe mar dflt j m3 t' g (lval z)) as (a & Ea & Ha); auto.
    rewrite Ea. cbn [bind]. exists a, m3, (lval z). split; auto. split; auto. split.
    + intros x0. destruct (@psdd_at_facts Lexact lval m3 j _ t' A) as (_ & ND & C & _). rewrite EV3 in *.
      rewrite (sum_over_ext' _ g (fun y => lval z * weight t' y)) by (intros y; rewrite <- HG; ring).
      rewrite sum_over_scal, (normalized_total vt t'); auto; ring.
    + intros S PF. destruct (B S) as (-> & B2 & B3). cbn [bind]. rewrite B2. cbn [bind get]. rewrite B3. cbn [bind fst].
      destruct (answers_code mpe mar dfltc j m3 t' g (lval z)) as (ac & Eac & Hac); auto. rewrite Eac. cbn [bind]. exists ac. split; auto. rewrite EV3 in Hac. exact Hac.
Qed.
End Inference.

(** ** uai_compiler on a network file *)
Theorem compiler_code_spec x rdu rdc (show : Lexact -> text) showc ud fuel method l1 l2 l3 l4 scs tbs ty nv scopes tables s :
  (forall w, rdc w = option_map code_of (rdu w)) -> (forall a, showc (code_of a) = show a) ->
  uai_text rdu l1 l2 l3 l4 scs tbs ty nv scopes tables -> feeds (l1 :: l2 :: l3 :: l4 :: scs ++ concat tbs) (s, true) -> (length (concat tbs) <= fuel)%nat ->
  externals_ok x (N.to_nat nv) scopes -> method_ok method scopes -> (2 <= length scopes)%nat -> Forall (Forall double_entry) tables ->
  let fs := map (fun y => MkF (fst y) (snd y)) (combine scopes tables) in let fc := map (mapf code_of) fs in
  Forall (plain_factor (N.to_nat nv)) fs -> (exists y, network_value cval fc y <> 0) ->
  exists content size z m i t, uai_compiler x rdu show ud fuel method (Some s) = Ok (content, size, z, m) /\ method_vars method (N.to_nat nv) scopes (m_vt m) /\
    (stored_apart (m_heap m) ->
      let mc := mapm code_of m in let zc := code_of z in
      uai_compiler x rdc showc ud fuel method (Some s) = Ok (content, size, zc, mc) /\
      0 < cval zc /\ (forall y, cval zc = sum_over (leaves (m_vt mc)) (network_value cval fc) y) /\
      (exists ud', WritePsddToFile showc (m_vt mc) (m_heap mc) ud i = Ok (content, ud')) /\ vt_of (m_heap mc) i = Some [] /\ Rep cval (m_heap mc) i t /\
      positive t /\ normalized t /\ deterministic t /\ forall y, weight t y * cval zc = network_value cval fc y).
Proof.
  intros Hr Hs UT FD HF X MO L2 DT fs fc PF NZ. pose proof (ut_len _ _ _ _ _ _ _ _ _ _ _ UT) as LT.
  assert (exists y, @network_value Lexact lval fs y <> 0) as NZ' by (destruct NZ as [y NZ]; exists y; rewrite <- code_value; exact NZ).
  assert (map f_scope fs = scopes) as ES.
  { unfold fs. rewrite map_map. cbn [f_scope]. clear -LT. revert tables LT. induction scopes as [|S l IH]; intros [|T r] LT; simpl in *; try discriminate; auto. f_equal. apply IH. lia. }
  assert (length fs = length scopes) as LF by (rewrite <- ES, map_length; auto).
  pose proof (read_uai rdu l1 l2 l3 l4 scs tbs ty nv scopes tables s fuel fresh_uai UT FD HF) as RU.
  assert (forall content size z m, uai_compiler x rdu show ud fuel method (Some s) = Ok (content, size, z, m) -> stored_apart (m_heap m) ->
    uai_compiler x rdc showc ud fuel method (Some s) = Ok (content, size, code_of z, mapm code_of m)) as CC.
  { intros content size z m E S. eapply compiler_code; eauto. intros u Eu. rewrite RU in Eu. injection Eu as <-. apply Forall_forall. intros F HF'. split.
    - change (network_of _) with fs in HF'. apply in_map_iff in HF' as ([sc tb] & <- & HC). apply in_combine_r in HC. rewrite Forall_forall in DT. apply (DT tb HC).
    - change (network_of _) with fs in HF'. rewrite Forall_forall in PF. pose proof (pf_len _ _ (PF F HF')). lia. }
  unfold uai_compiler at 1. rewrite RU. cbn [bind].
  set (u := {| u_vars := nv; u_factors := _; u_type := ty; u_scopes := _; u_params := _ |}).
  assert (u_scopes u = scopes) as EU by reflexivity. assert (network_of u = fs) as EN by reflexivity.
  assert (scopes <> []) as NE by (intros Z; rewrite Z in L2; simpl in L2; lia).
  destruct (make_vtree_spec x method u) as (vt & EVT & MV & ND & NZL & RL).
  - rewrite EU. exact X.
  - rewrite EU. exact MO.
  - rewrite EU. exact NE.
  - rewrite EU, <- ES. apply Forall_map. eapply Forall_impl; [|exact PF]. intros F [A B C D E]. auto.
  - assert (Forall (good_factor vt) fs) as GF.
    { rewrite Forall_forall in *. intros F HFs. destruct (PF F HFs) as [A B C D E]. rewrite EU in RL.
      destruct (RL (f_scope F)) as [R1 R2]; [rewrite <- ES; apply in_map; auto|]. split; auto. }
    pose proof (@new_mgr_inv Lexact lval vt ND) as I0.
    assert (fs <> []) as NF by (intros Z; rewrite Z in LF; simpl in LF; lia).
    destruct (@network_dc_full Lexact lval Lexact_exact (x_ords x) (x_srt x) 100 fs (new_mgr vt) (xo_ords _ _ _ X) (xo_srt _ _ _ X) I0 NZL GF NF) as
      (i & z & m & t & EC & I & EV & _ & (V & R & LV & CF & PO & DE) & ZP & W & NT); auto; [discriminate|].
    specialize (NT ltac:(lia)). cbn [m_vt new_mgr] in EV.
    assert (heap_ok (m_vt m) (m_heap m)) as HO by (apply (wf_heap _ (proj1 I))).
    assert (i < length (m_heap m))%nat as HI by (eapply vt_of_lt; eauto).
    destruct (serialize_root (m_heap m) (m_vt m) i HO HI) as [L SO].
    destruct (write_spec show (m_vt m) (m_heap m) i L SO HO HI ud) as (ud' & E1 & _).
    rewrite EVT. cbn [bind]. rewrite manager_from_vtree. cbn [bind]. rewrite EN, EC. cbn [bind fst snd get]. rewrite E1. cbn [bind]. rewrite (so_eq _ _ _ SO). cbn [bind].
    eexists _, _, z, m, i, t. split; [reflexivity|]. split; [rewrite EV; exact MV|]. intros S. split.
    { apply CC; auto. unfold uai_compiler. rewrite RU. cbn [bind]. fold u. rewrite EVT. cbn [bind]. rewrite manager_from_vtree. cbn [bind]. rewrite EN, EC. cbn [bind fst snd get]. rewrite E1. cbn [bind]. rewrite (so_eq _ _ _ SO). reflexivity. }
    rewrite cval_code. split; auto. split.
    + intros y. cbn [mapm m_vt]. rewrite EV. rewrite (sum_over_ext' _ _ (fun y => lval z * weight t y)), sum_over_scal.
      * rewrite EV in CF. rewrite (normalized_total vt t y ND CF NT). ring.
      * intros w. unfold fc. rewrite code_value, <- W. ring.
    + split; [exists ud'; cbn [mapm m_vt m_heap]; rewrite (write_map code_of show showc Hs); exact E1|]. split; [cbn [mapm m_heap]; rewrite maph_vt; auto|].
      split; [apply Rep_code; auto|]. do 3 (split; auto). intros y. unfold fc. rewrite code_value. auto.
Qed.
