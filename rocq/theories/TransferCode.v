(** The comparison of the code on parameters that are far enough apart (C66), with an example. *)
From Coq Require Import Ascii String Reals Lra.
From Verif Require Import Base Param ParamProofs Vtree VtreeProofs Heap Manager HeapProofs SerProofs OrderProofs ReplayProofs ManagerExamples TransferProofs TransferOps.
From Verif Require Import Spec RepProofs Query QueryExamples Text IO Sdd Cnf RefLib Learn Pgm.
Local Open Scope string_scope.
Local Open Scope list_scope.
Local Open Scope R_scope.

(** The parameter of the code with a given logarithm *)
Definition code_of (a : Lexact) : Lcode := mkp (lx a).
Lemma lx_xl a x : denotes a x -> lx (xl (par a)) = par a.
Proof. intros [? E|? ? E]; rewrite E; reflexivity. Qed.
Lemma mkp_fresh c : fresh c -> mkp (par c) = c.
Proof. unfold fresh, mkp. intros <-. destruct c. reflexivity. Qed.
Lemma fresh_add a b : fresh a -> fresh b -> fresh (p_add a b).
Proof. unfold p_add. intros A B. destruct (is_neginf (par a)); auto. destruct (is_neginf (par b)); reflexivity. Qed.
Lemma code_xl c x : denotes c x -> fresh c -> code_of (xl (par c)) = c.
Proof. intros D F. unfold code_of. rewrite (lx_xl _ _ D). apply mkp_fresh. auto. Qed.
Lemma l_eq_iff (a b : lnum) : l_eq a b = true <-> a = b.
Proof.
  destruct a as [|x], b as [|y]; simpl; split; intros E; auto; try discriminate.
  - destruct (Req_EM_T x y); congruence.
  - injection E as ->. destruct (Req_EM_T y y); congruence.
Qed.
Lemma l_lt_tri (a b : lnum) : l_lt a b = false -> l_lt b a = false -> a = b.
Proof.
  destruct a as [|x], b as [|y]; simpl; intros A B; auto; try discriminate. unfold l_lt in *. simpl in *.
  destruct (Rlt_dec x y), (Rlt_dec y x); try discriminate. f_equal. lra.
Qed.
Lemma l_div_zero (a : lnum) : l_div a lz = lz.
Proof. destruct a; reflexivity. Qed.
Lemma nat_log n : code_of (l_of_decimal (IZR (Z.of_N n))) = p_of_decimal (Fin (IZR (Z.of_N n))).
Proof.
  unfold code_of, l_of_decimal, p_of_decimal, xlog. assert (0 <= IZR (Z.of_N n)) by (apply IZR_le; lia).
  destruct (Rlt_dec 0 (IZR (Z.of_N n))); [reflexivity|]. destruct (Req_EM_T (IZR (Z.of_N n)) 0); [reflexivity|lra].
Qed.
Theorem code_hom : phom Lexact Lcode code_of.
Proof.
  split; simpl.
  - reflexivity.
  - exact (nat_log 1).
  - exact nat_log.
  - intros a b. apply (code_xl _ (lval a + lval b)); [apply add_denotes; apply denotes_lx|apply fresh_add; reflexivity].
  - intros a b. apply (code_xl _ (lval a * lval b)); [apply mul_denotes; apply denotes_lx|reflexivity].
  - intros a b NZ. apply (code_xl _ (lval a / lval b)); [apply div_denotes; try apply denotes_lx|reflexivity].
    destruct b; [discriminate|]. simpl. pose proof (exp_pos r). lra.
  - intros a b E. apply l_eq_iff in E. subst b. apply l_div_zero.
  - apply l_eq_iff.
  - apply l_lt_tri.
Qed.
Definition trunc_of (a : Lexact) : Ltrunc := a.
Theorem trunc_hom : phom Lexact Ltrunc trunc_of.
Proof.
  split; simpl; auto.
  - intros a b E. apply l_eq_iff in E. subst b. apply l_div_zero.
  - apply l_eq_iff.
  - apply l_lt_tri.
Qed.
Lemma trunc_zero (a : lnum) : t_eq a lz = l_eq a lz.
Proof. destruct a; reflexivity. Qed.

(** The values are equal, one of them is zero, or their ratio is at least exp(2e-7). *)
Definition apart (a b : lnum) : Prop := lval a = lval b \/ lval a = 0 \/ lval b = 0 \/ 2 / 10000000 <= Rabs (ln (lval a) - ln (lval b)).
(** zero, or at least exp(-9.2e11) and at most exp(9.2e11) *)
Definition moderate (a : lnum) : Prop := lval a = 0 \/ Rabs (ln (lval a) * 10000000) < IZR (2 ^ 63).
Definition stored_apart (h : heap Lexact) : Prop :=
  (forall a b, In a (flat_map cparams h) -> In b (flat_map cparams h) -> apart a b) /\ (forall a, In a (flat_map nparams h) -> moderate a).
Lemma moderate_good a : moderate a -> good (code_of a).
Proof.
  intros M. split; [reflexivity|]. unfold code_of, in_range. destruct a as [|r]; simpl; auto. destruct M as [M|M]; simpl in M.
  - pose proof (exp_pos r). lra.
  - rewrite ln_exp in M. exact M.
Qed.
Lemma lval_inj (a b : lnum) : lval a = lval b -> a = b.
Proof.
  destruct a as [|x], b as [|y]; simpl; intros E; auto.
  - pose proof (exp_pos y). lra.
  - pose proof (exp_pos x). lra.
  - f_equal. apply exp_inv. auto.
Qed.
Lemma code_eq a b : moderate a -> moderate b -> apart a b -> p_eq (code_of a) (code_of b) = l_eq a b.
Proof.
  intros Ma Mb A. apply moderate_good in Ma, Mb. destruct (l_eq a b) eqn:E.
  - apply l_eq_iff in E. subst b. apply p_eq_refl.
  - apply not_true_iff_false. intros Q. pose proof (p_eq_tolerance _ _ _ _ Ma Mb Q (denotes_lx a) (denotes_lx b)) as [[Za Zb]|(Pa & Pb & T)].
    + assert (a = b) as -> by (apply lval_inj; lra). assert (l_eq b b = true) by (apply l_eq_iff; auto). congruence.
    + destruct A as [A|[A|[A|A]]]; try lra. apply lval_inj in A. subst b. assert (l_eq a a = true) by (apply l_eq_iff; auto). congruence.
Qed.
Lemma code_lt a b : moderate a -> moderate b -> apart a b -> p_lt (code_of a) (code_of b) = l_lt a b.
Proof.
  intros Ma Mb A. unfold p_lt. rewrite code_eq by auto. destruct (l_eq a b) eqn:E; [|reflexivity]. apply l_eq_iff in E. subst b.
  symmetry. apply xltb_irrefl.
Qed.
Lemma cparams_nparams {P : pops} (nd : node P) x : In x (cparams nd) -> In x (nparams nd).
Proof. unfold cparams, nparams. destruct (n_body nd); simpl; tauto. Qed.
Lemma stored_sep (h : heap Lexact) : stored_apart h -> @sep Lexact Lcode code_of h.
Proof.
  intros [A M]. assert (forall a, In a (flat_map cparams h) -> moderate a) as MC.
  { intros a Ha. apply M. apply in_flat_map in Ha as (nd & Hn & Ha). apply in_flat_map. eauto using cparams_nparams. }
  split.
  - intros a b Ha Hb. split; [apply code_eq|apply code_lt]; auto.
  - intros a Ha. change (@pzero Lcode) with (code_of lz). apply code_eq; auto; [left; reflexivity|right; right; left; reflexivity].
Qed.
(** Without overflow: no bound on the magnitude *)
Definition stored_apart_t (h : heap Lexact) : Prop := forall a b, In a (flat_map cparams h) -> In b (flat_map cparams h) -> apart a b.
Lemma trunc_eq (a b : lnum) : apart a b -> t_eq a b = l_eq a b.
Proof.
  intros A. destruct (l_eq a b) eqn:E.
  - apply l_eq_iff in E. subst b. unfold t_eq. destruct (l_hash a); auto. apply Z.eqb_refl.
  - apply not_true_iff_false. intros Q. unfold t_eq in Q. destruct a as [|x], b as [|y]; simpl in Q; try discriminate. apply Z.eqb_eq in Q.
    destruct A as [A|[A|[A|A]]].
    + apply lval_inj in A. injection A as ->. simpl in E. destruct (Req_EM_T y y); congruence.
    + simpl in A. pose proof (exp_pos x). lra.
    + simpl in A. pose proof (exp_pos y). lra.
    + simpl in A. rewrite !ln_exp in A. destruct (trunc_bounds (x * 10000000)) as [T1 _]. destruct (trunc_bounds (y * 10000000)) as [T2 _]. rewrite Q in T1.
      apply Rabs_def2 in T1 as [? ?]. apply Rabs_def2 in T2 as [? ?]. assert (Rabs (x - y) < 2 / 10000000) by (apply Rabs_def1; lra). lra.
Qed.
Lemma stored_sep_t (h : heap Lexact) : stored_apart_t h -> @sep Lexact Ltrunc trunc_of h.
Proof.
  intros A. split.
  - intros a b Ha Hb. split; [apply (trunc_eq a b); auto|]. change (t_lt a b = l_lt a b). unfold t_lt. rewrite trunc_eq by auto.
    destruct (l_eq a b) eqn:E; [|reflexivity]. apply l_eq_iff in E. subst b. symmetry. apply xltb_irrefl.
  - intros a Ha. apply trunc_zero.
Qed.

(** ** Values and distributions *)
Lemma cval_code a : cval (code_of a) = lval a.
Proof. destruct a; reflexivity. Qed.
Lemma Rep_code (h : heap Lexact) : forall i t, @Rep Lexact lval h i t -> @Rep Lcode cval (maph code_of h) i t.
Proof.
  fix IH 3. intros i t R. destruct R as [i nd l E B|i nd v pt pf E B|i nd es tes E B F].
  - eapply Rep_lit with (nd := mapn code_of nd); [rewrite maph_nth, E; reflexivity|]. unfold mapn. simpl. rewrite B. reflexivity.
  - rewrite <- !cval_code. eapply Rep_top with (nd := mapn code_of nd); [rewrite maph_nth, E; reflexivity|]. unfold mapn. simpl. rewrite B. reflexivity.
  - eapply Rep_dec with (nd := mapn code_of nd) (es := map (mape code_of) es); [rewrite maph_nth, E; reflexivity|unfold mapn; simpl; rewrite B; reflexivity|].
    clear E B. induction F as [|e te es tes (A & B & C) F IHF]; simpl; constructor; auto. simpl. rewrite cval_code. auto.
Qed.
(** Reading a logarithm *)
Lemma rd_log_code s : rd_code s = option_map code_of (rd_log s).
Proof. unfold rd_code, rd_log. destruct (rd_dec s); reflexivity. Qed.

(** ** Example: two tops of the same variable, and the square of the first *)
Definition x_half : Lexact := lf (- ln 2).
Definition x_small : Lexact := lf (-5).
Definition x_ops : list (@op Lexact) := [OTop 1 0 x_half x_half; OTop 1 0 x_small x_half; OMul 0 0 1].
Definition x_m : mgr Lexact :=
  MkM (Leaf 1) [MkN [] 0 (@BTop Lexact 1 x_half x_half); MkN [] 0 (@BTop Lexact 1 x_small x_half); MkN [] 1 (@BTop Lexact 1 x_half x_half)] [0; 1; 2]%nat.
Lemma ln2_bounds : 0 < ln 2 <= 1.
Proof.
  split; [rewrite <- ln_1; apply ln_increasing; lra|]. rewrite <- (ln_exp 1). pose proof (exp_ineq1_le 1) as E.
  destruct E as [E|E]; [left; apply ln_increasing; lra|]. right. f_equal. lra.
Qed.
Lemma half_mul : @pmul Lexact x_half x_half = lf (- ln 2 + - ln 2).
Proof. reflexivity. Qed.
Lemma half_add (r : R) : l_add (lf r) (lf r) = lf (r + ln 2).
Proof. unfold l_add, p_add. simpl. rewrite log_add_fin. simpl. replace (exp r + exp r) with (exp r * 2) by ring. rewrite ln_mult, ln_exp; [reflexivity|apply exp_pos|lra]. Qed.
Lemma half_div r : l_div (lf r) (lf (r + ln 2)) = lf (- ln 2).
Proof. unfold l_div, p_div. simpl. f_equal. ring. Qed.
Section Gen. Context {P : pops}.
Lemma gen_top (a b c d : P) : plt c a = true ->
  GetPsddTopNode (MkM (Leaf 1) [MkN [] 0 (BTop 1 a b)] [0%nat]) 1 0 c d =
  Ok (1%nat, MkM (Leaf 1) [MkN [] 0 (BTop 1 a b); MkN [] 0 (BTop 1 c d)] [0%nat; 1%nat]).
Proof. intros A. unfold GetPsddTopNode. cbn [leaf_path m_vt]. simpl. unfold GetUniqueNode. simpl. unfold equiv, same_slot. simpl. unfold node_less. simpl. rewrite A. reflexivity. Qed.
Lemma gen_mul (a b : P) nd : nd = MkN [] 0 (BTop 1 a b) -> forall nd2, n_flag nd2 = 0%N ->
  let z := padd (pmul a a) (pmul b b) in peq (pdiv (pmul a a) z) pzero = false -> peq (pdiv (pmul b b) z) pzero = false ->
  Multiply (MkM (Leaf 1) [nd; nd2] [0%nat; 1%nat]) 0 0 1 =
  Ok ((Some 2%nat, z), MkM (Leaf 1) [nd; nd2; MkN [] 1 (BTop 1 (pdiv (pmul a a) z) (pdiv (pmul b b) z))] [0%nat; 1%nat; 2%nat]).
Proof.
  intros -> [q f bd] F z A B. simpl in F. subst f. unfold Multiply. simpl. fold z. unfold equiv, same_slot, node_less, GetUniqueNode. simpl. unfold equiv, same_slot, node_less. simpl.
  rewrite !andb_false_r. simpl. rewrite A, B. reflexivity.
Qed.
End Gen.
Lemma x_less : plt x_small x_half = true.
Proof. change (l_lt x_small x_half = true). unfold l_lt, x_small, x_half. simpl. destruct (Rlt_dec (-5) (- ln 2)); auto. pose proof ln2_bounds. lra. Qed.
Definition x_two : mgr Lexact := MkM (Leaf 1) [MkN [] 0 (@BTop Lexact 1 x_half x_half); MkN [] 0 (@BTop Lexact 1 x_small x_half)] [0; 1]%nat.
Lemma x_two_runs : runs (new_mgr (Leaf 1)) [OTop 1 0 x_half x_half; OTop 1 0 x_small x_half] = Ok x_two.
Proof.
  unfold runs. cbn [foldM step]. assert (GetPsddTopNode (new_mgr (Leaf 1)) 1 0 x_half x_half = Ok (0%nat, MkM (Leaf 1) [MkN [] 0 (BTop 1 x_half x_half)] [0%nat])) as -> by reflexivity.
  cbn [bind]. rewrite (gen_top _ _ _ _ x_less). reflexivity.
Qed.
Lemma x_mul : exists z, Multiply x_two 0 0 1 = Ok ((Some 2%nat, z), x_m).
Proof.
  pose proof (gen_mul x_half x_half _ eq_refl (MkN [] 0 (@BTop Lexact 1 x_small x_half)) eq_refl) as M. cbv zeta in M.
  change (padd (pmul x_half x_half) (pmul x_half x_half)) with (l_add (lf (- ln 2 + - ln 2)) (lf (- ln 2 + - ln 2))) in M. rewrite half_add in M.
  change (pdiv (pmul x_half x_half) (lf (- ln 2 + - ln 2 + ln 2))) with (l_div (lf (- ln 2 + - ln 2)) (lf (- ln 2 + - ln 2 + ln 2))) in M. rewrite half_div in M. specialize (M eq_refl eq_refl).
  eexists. exact M.
Qed.
Lemma x_runs : runs (new_mgr (Leaf 1)) x_ops = Ok x_m.
Proof.
  assert (runs (new_mgr (Leaf 1)) x_ops = do m <- runs (new_mgr (Leaf 1)) [OTop 1 0 x_half x_half; OTop 1 0 x_small x_half] ;; runs m [OMul 0 0 1]) as ->.
  { unfold runs, x_ops. exact (foldM_app _ [_; _] [_] _). }
  rewrite x_two_runs. cbn [bind]. unfold runs. cbn [foldM step]. destruct x_mul as (z & ->). reflexivity.
Qed.
Lemma x_tidy : @tidy Lexact lval 1 x_two.
Proof.
  apply (@tidy_runs Lexact lval 1 [OTop 1 0 x_half x_half; OTop 1 0 x_small x_half] (new_mgr (Leaf 1))); [| |exact x_two_runs].
  - constructor. simpl. repeat constructor. intros [].
  - repeat constructor; simpl; discriminate.
Qed.
Lemma x_apart : stored_apart (m_heap x_m).
Proof.
  pose proof ln2_bounds as B.
  assert (apart x_half x_small /\ apart x_small x_half) as [A1 A2].
  { split; right; right; right; simpl; rewrite !ln_exp; [rewrite Rabs_right|rewrite Rabs_left]; lra. }
  assert (moderate x_half /\ moderate x_small) as [M1 M2].
  { split; right; simpl; rewrite ln_exp; apply Rabs_def1; lra. }
  assert (forall a, apart a a) as R by (intros; left; auto).
  split.
  - intros a b Ha Hb. simpl in Ha, Hb. destruct Ha as [<-|[<-|[<-|[]]]], Hb as [<-|[<-|[<-|[]]]]; auto.
  - intros a Ha. simpl in Ha. destruct Ha as [<-|[<-|[<-|[<-|[<-|[<-|[]]]]]]]; auto.
Qed.
(** A network with one factor *)
Definition x_net : network Lexact := [@MkF Lexact [1%N] [x_half; x_half]].
Definition x_net_m : mgr Lexact := MkM (Leaf 1) [MkN [] 0 (@BTop Lexact 1 x_half x_half)] [0]%nat.
Section Gen2. Context {P : pops}.
Lemma gen_net (a : P) : peq (padd a a) pzero = false -> peq a pzero = false ->
  compile_network (fun _ _ l => l) (fun _ l => l) [MkF [1%N] [a; a]] (new_mgr (Leaf 1)) =
  Ok (Some 0%nat, pmul pone (padd a a), MkM (Leaf 1) [MkN [] 0 (BTop 1 (pdiv a (padd a a)) (pdiv a (padd a a)))] [0%nat]).
Proof. intros A B. unfold compile_network. simpl. unfold compile_factor. simpl. unfold term_step, term_node. simpl. rewrite A, B. simpl. reflexivity. Qed.
End Gen2.
Lemma x_net_runs : exists z, compile_network (fun _ _ l => l) (fun _ l => l) x_net (new_mgr (Leaf 1)) = Ok (Some 0%nat, z, x_net_m).
Proof.
  eexists. unfold x_net. rewrite gen_net.
  - unfold x_net_m. change (@padd Lexact) with l_add. change (@pdiv Lexact) with l_div. unfold x_half. rewrite half_add, half_div. reflexivity.
  - change (l_eq (l_add (lf (- ln 2)) (lf (- ln 2))) lz = false). rewrite half_add. reflexivity.
  - reflexivity.
Qed.
(** A file with one node *)
Definition x_file : text := unlines [str "psdd 1"; str "T 0 0 1 -1 -2"].
Section Gen3. Context {P : pops}.
Lemma gen_read (rd : text -> option P) log0 a b : rd (str "-1") = Some a -> rd (str "-2") = Some b ->
  ReadPsddFile rd log0 x_file 0 (new_mgr (Leaf 1)) = Ok (Some 0%nat, MkM (Leaf 1) [MkN [] 0 (BTop 1 b a)] [0%nat]).
Proof.
  intros A B. unfold ReadPsddFile. replace (lines x_file) with [str "psdd 1"; str "T 0 0 1 -1 -2"] by reflexivity. cbn [foldM].
  assert (read_line rd log0 0 ([], None, None, new_mgr (Leaf 1)) (str "psdd 1") = Ok ([], None, Some 1%Z, new_mgr (Leaf 1))) as -> by reflexivity.
  cbn [bind]. assert (read_line rd log0 0 ([], None, Some 1%Z, new_mgr (Leaf 1)) (str "T 0 0 1 -1 -2") =
    (do neg <- get (rd (str "-1")) ;; do pos <- get (rd (str "-2")) ;; Ok ([(0%Z, 0%nat)], Some 0%nat, Some 1%Z, MkM (Leaf 1) [MkN [] 0 (BTop 1 pos neg)] [0%nat]))) as ->.
  { unfold str in *. simpl in A, B. unfold read_line. simpl. rewrite A. unfold ex_word. simpl. rewrite B. reflexivity. }
  rewrite A, B. reflexivity.
Qed.
End Gen3.
(** Writing *)
Lemma write_code root (h : heap Lexact) ud r : WritePsddToFile show_code root (maph code_of h) ud r = WritePsddToFile show_log root h ud r.
Proof.
  unfold WritePsddToFile. rewrite serialize_map. destruct (SerializePsddNodes h [r]) as [ser| | |]; auto. cbn [bind].
  assert (forall st i, write_step show_code root (maph code_of h) st i = write_step show_log root h st i) as W.
  { intros [[k ls] u] i. unfold write_step. rewrite maph_nth. destruct (nth_error h i) as [nd|]; [|reflexivity]. cbn [option_map get bind].
    replace (show_node show_code root u k (mapn code_of nd)) with (show_node show_log root u k nd); [reflexivity|].
    unfold show_node, mapn. cbn [n_vt n_body]. destruct (n_body nd); cbn [mapb]; auto. rewrite map_length, map_map. reflexivity. }
  rewrite (foldM_ext _ _ W). reflexivity.
Qed.
(** Loading, compiling and learning with flag index 1 in a manager with two top nodes *)
Section Gen4. Context {P : pops}.
Definition two_tops (a b c d : P) : mgr P := MkM (Leaf 1) [MkN [] 0 (BTop 1 a b); MkN [] 0 (BTop 1 c d)] [0%nat; 1%nat].
Definition third (a b c d : P) (bd : body P) : mgr P := MkM (Leaf 1) [MkN [] 0 (BTop 1 a b); MkN [] 0 (BTop 1 c d); MkN [] 1 bd] [0%nat; 1%nat; 2%nat].
Lemma gen_load (a b c d : P) : exists ud, LoadPsddNode (m_heap (two_tops a b c d)) (fun _ => None) (Some []) 0 1 (two_tops a b c d) = Ok (2%nat, ud, third a b c d (BTop 1 a b)).
Proof. eexists. reflexivity. Qed.
Lemma gen_compile (a b c d : P) : Compile ref_lib [[1]]%Z 1 (two_tops a b c d) = Ok (Some 2%nat, third a b c d (BLit 1)).
Proof. vm_compute. reflexivity. Qed.
Definition one_literal : sdd := fun i => match i with O => Some (MkS [] (SLit 1%Z)) | _ => None end.
Lemma gen_from_sdd (a b c d : P) : exists dt, FromSdd one_literal [0%nat] 0 (Leaf 1) 1 (Some []) (fun _ => None) (two_tops a b c d) = Ok (Some 2%nat, dt, third a b c d (BLit 1)).
Proof. eexists. reflexivity. Qed.
Lemma gen_learn (a b c d al : P) : let t := padd (pnat 0) al in
  exists r, LearnPsddParameters (m_heap (two_tops a b c d)) (fun _ => None) (fun _ => [0; 0]%N) 0 (fun _ => Some []) 0 al 1 (two_tops a b c d) =
    Ok (r, third a b c d (BTop 1 (pdiv t (padd t t)) (pdiv t (padd t t)))).
Proof. eexists. reflexivity. Qed.
End Gen4.
Lemma half_learnt : let t := @padd Lexact (pnat 0) (lf 0) in pdiv t (padd t t) = x_half.
Proof.
  intros t. assert (t = lf 0) as ->.
  { unfold t. cbn [padd Lexact]. apply lval_inj. rewrite (val_add Lexact_exact), (val_nat Lexact_exact). simpl. ring. }
  change (l_div (lf 0) (l_add (lf 0) (lf 0)) = x_half). rewrite half_add. apply half_div.
Qed.
Lemma x_third_apart bd : bd = BTop 1 x_half x_half \/ bd = BLit 1 -> stored_apart (m_heap (@third Lexact x_half x_half x_small x_half bd)).
Proof.
  intros E. destruct x_apart as [A M]. destruct E as [-> | ->]; [split; assumption|]. split.
  - intros a b Ha Hb. apply A; simpl in *; tauto.
  - intros a Ha. apply M. simpl in *. tauto.
Qed.
