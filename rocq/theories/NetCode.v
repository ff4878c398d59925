(** Compilation of networks with class PsddParameter itself when the stored parameters are far apart (C66, C87). *)
From Coq Require Import Reals Lra Permutation.
From Verif Require Import Base Param ParamProofs Vtree VtreeProofs Spec SpecProofs Heap Manager HeapProofs SerProofs RepProofs OrderProofs ManagerExamples Pgm PgmProofs PgmNet PgmExamples
  QueryExamples TransferProofs TransferOps TransferCode TransferNet NearCertain NearKept.
Local Open Scope R_scope.

(** Zero or a number of the size of a double *)
Definition double_entry (a : Lexact) : Prop := lval a = 0 \/ double_range (lval a).
Definition double_factor (F : factor Lexact) : Prop := Forall double_entry (f_table F) /\ (length (f_scope F) <= 1000)%nat.
(** Sums of at most 2^k of them *)
Definition dsum (k : nat) (a : Lexact) : Prop := lval a = 0 \/ exp (- 1000) <= lval a <= exp (1000 + INR k * ln 2).
Lemma dsum_0 a : double_entry a -> dsum 0 a.
Proof. intros [Z|[A B]]; [left; auto|right]. split; auto. replace (1000 + INR 0 * ln 2) with 1000 by (simpl; lra). auto. Qed.
Lemma exp_step x : exp (x + ln 2) = 2 * exp x.
Proof. rewrite exp_plus, exp_ln by lra. lra. Qed.
Lemma ln2_pos : 0 < ln 2. Proof. apply ln2_bounds. Qed.
Lemma dsum_up k a : dsum k a -> dsum (S k) a.
Proof.
  intros [Z|[A B]]; [left; auto|right]. split; auto. eapply Rle_trans; [exact B|]. left. apply exp_increasing. rewrite S_INR. pose proof ln2_pos. lra.
Qed.
Lemma dsum_add k a b : dsum k a -> dsum k b -> dsum (S k) (padd a b).
Proof.
  unfold dsum. rewrite (val_add Lexact_exact). replace (1000 + INR (S k) * ln 2) with (1000 + INR k * ln 2 + ln 2) by (rewrite S_INR; lra).
  rewrite exp_step. pose proof (exp_pos (- 1000)). pose proof (exp_pos (1000 + INR k * ln 2)).
  intros [A|[A A2]] [B|[B B2]]; [left; lra|right; lra..].
Qed.
Lemma dsum_moderate k a : (k <= 1000)%nat -> dsum k a -> moderate a.
Proof.
  intros L [Z|[A B]]; [left; auto|right]. assert (0 < lval a) as PA by (pose proof (exp_pos (- 1000)); lra).
  assert (- 1000 <= ln (lval a)) as LA. { rewrite <- (ln_exp (- 1000)). destruct (Rle_lt_or_eq_dec _ _ A) as [M|M]; [left; apply ln_increasing; auto; apply exp_pos|right; rewrite M; reflexivity]. }
  assert (ln (lval a) <= 1000 + INR k * ln 2) as LB. { rewrite <- (ln_exp (1000 + INR k * ln 2)). destruct (Rle_lt_or_eq_dec _ _ B) as [M|M]; [left; apply ln_increasing; auto|right; rewrite M; reflexivity]. }
  assert (INR k * ln 2 <= 1000) as LK.
  { apply le_INR in L. replace (INR 1000) with 1000 in L by (rewrite INR_IZR_INZ; reflexivity). pose proof ln2_bounds. pose proof (pos_INR k).
    apply Rle_trans with (1000 * 1); [|lra]. apply Rmult_le_compat; lra. }
  assert (20000000000 < IZR (2 ^ 63)) as BIG by (apply IZR_lt; reflexivity).
  apply Rabs_def1; lra.
Qed.
Lemma dsum_test k a : (k <= 1000)%nat -> dsum k a -> peq (code_of a) (@pzero Lcode) = peq a pzero.
Proof.
  intros L A. change (@pzero Lcode) with (code_of lz). apply code_eq; [eapply dsum_moderate; eauto|left; reflexivity|right; right; left; reflexivity].
Qed.
Lemma double_moderate fs : Forall double_factor fs -> Forall (moderate_factor dsum 1000) fs.
Proof. intros A. eapply Forall_impl; [|exact A]. intros F [B C]. split; auto. eapply Forall_impl; [|exact B]. exact dsum_0. Qed.

Theorem code_networks ords srt gc (fs : network Lexact) (m : mgr Lexact) : Forall double_factor fs ->
  (forall r z m1, compile_network ords srt fs m = Ok (r, z, m1) -> stored_apart (m_heap m1) ->
    compile_network ords srt (map (mapf code_of) fs) (mapm code_of m) = Ok (r, code_of z, mapm code_of m1)) /\
  (forall r z m1, compile_network_dc ords srt gc fs m = Ok (r, z, m1) -> stored_apart (m_heap m1) ->
    compile_network_dc ords srt gc (map (mapf code_of) fs) (mapm code_of m) = Ok (r, code_of z, mapm code_of m1)) /\
  (forall r z m1, compile_network_with_vtree ords gc fs m = Ok (r, z, m1) -> stored_apart (m_heap m1) ->
    compile_network_with_vtree ords gc (map (mapf code_of) fs) (mapm code_of m) = Ok (r, code_of z, mapm code_of m1)).
Proof.
  intros DF. apply double_moderate in DF. assert (forall k, dsum k pzero) as DZ by (intros k; left; reflexivity).
  split; [|split]; intros r z m1 E S.
  - exact (proj2 (sim_compile_network' code_of code_hom dsum 1000 dsum_test dsum_add dsum_up DZ fs DF ords srt m _ m1 E) (stored_sep _ S)).
  - exact (proj2 (sim_compile_network_dc' code_of code_hom dsum 1000 dsum_test dsum_add dsum_up DZ fs DF ords srt gc m _ m1 E) (stored_sep _ S)).
  - exact (proj2 (sim_compile_network_with_vtree' code_of code_hom dsum 1000 dsum_test dsum_add dsum_up DZ fs DF ords gc m _ m1 E) (stored_sep _ S)).
Qed.

Lemma code_value (fs : network Lexact) x : network_value cval (map (mapf code_of) fs) x = @network_value Lexact lval fs x.
Proof.
  unfold network_value. induction fs as [|F fs IH]; simpl; auto. rewrite IH. f_equal. unfold factor_value, table_value. cbn [mapf f_scope f_table].
  rewrite nth_error_map. destruct (nth_error _ _); simpl; auto. apply cval_code.
Qed.
Theorem far_dc_code ords srt gc (fs : network Lexact) (m : mgr Lexact) : (forall a b c, Permutation (ords a b c) c) -> sorts srt -> @Inv Lexact lval 0 m ->
  (forall v, In v (leaves (m_vt m)) -> v <> 0%N) -> Forall (good_factor (m_vt m)) fs -> Forall (fun F => Forall double_entry (f_table F)) fs -> fs <> [] -> gc <> 0%N ->
  let fc : network Lcode := map (mapf code_of) fs in
  (exists x, network_value cval fc x <> 0) ->
  exists i z m' t, compile_network_dc ords srt gc fs m = Ok (Some i, z, m') /\
    (stored_apart (m_heap m') ->
      compile_network_dc ords srt gc fc (mapm code_of m) = Ok (Some i, code_of z, mapm code_of m') /\
      Rep cval (m_heap (mapm code_of m')) i t /\ (forall x, weight t x * cval (code_of z) = network_value cval fc x) /\
      positive t /\ deterministic t /\ conforms (m_vt m) t).
Proof.
  intros HO HS I NZ G DE NE GC fc X.
  assert (exists x, @network_value Lexact lval fs x <> 0) as X' by (destruct X as [x X]; exists x; rewrite <- code_value; exact X).
  destruct (network_dc_full Lexact_exact ords srt gc fs m HO HS I NZ G NE GC X') as (i & z & m' & t & E & I' & EV & PH & RN & ZP & W & NO).
  exists i, z, m', t. split; auto. destruct RN as (R1 & R2 & R3 & R4 & R5 & R6). rewrite EV in R4. intros S.
  assert (Forall double_factor fs) as DF.
  { rewrite Forall_forall in *. intros F HF. split; auto. pose proof (gf_len _ _ (G F HF)). lia. }
  split; [exact (proj1 (proj2 (code_networks ords srt gc fs m DF)) _ _ _ E S)|]. split; [apply Rep_code; auto|]. split; auto.
  intros x. unfold fc. rewrite code_value, cval_code. auto.
Qed.

Lemma cl_moderate r : / 1000000000 <= r <= 1000000000 -> moderate (cl r).
Proof. intros B. apply (dsum_moderate 0); [lia|]. apply dsum_0. right. rewrite cl_val by lra. apply range_between. auto. Qed.
Lemma kept_stored : stored_apart (m_heap kept_mgr).
Proof.
  split; [exact kept_apart|]. intros a Ha.
  assert (In a [cl (1 / 4); cl (1 / 3); cl 1; cl (2 / 3); cl (3 / 4)]) as I.
  { cbn [kept_mgr kp_last kp_second nc_first m_heap app flat_map nparams n_body map e_param] in Ha. rewrite ?cl_one in Ha. simpl In in Ha |- *. tauto. }
  simpl in I. intuition subst; apply cl_moderate; lra.
Qed.
Lemma kept_entries : Forall (fun F => Forall double_entry (f_table F)) kept_net.
Proof. repeat (apply Forall_cons || apply Forall_nil); right; rewrite cl_val by lra; apply range_between; lra. Qed.
