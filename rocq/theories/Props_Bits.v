(** Property theorems C84: variables that the bitsets of the interface have no room for.
    The functions of BitQuery.v are the queries with the bounds of std::bitset<65536>, those of Query.v, without bounds, are the ones
    of C17-C23 and C31. *)
From Coq Require Import Reals Lra.
From Verif Require Import Base Text Csv CsvProofs Param ParamProofs Vtree VtreeProofs Spec SpecProofs Heap Manager HeapProofs SerProofs
  RepProofs OrderProofs CanonProofs HeapExamples ManagerExamples TreeProofs Query QueryProofs MpeProofs SampleProofs QueryExamples Data DataProofs
  BitQuery BitProofs BitData.

Definition in_bitset (v : N) : bool := N.ltb v 65536.

(** Evaluate is as before when every variable of the PSDD is below 65536, and undefined when one is not, whatever the evidence *)
Theorem C84_evaluate_partial : forall P val (m : mgr P) i s t mask x, psdd_at val m i s t ->
  BEvaluate (m_heap m) mask x i = if forallb in_bitset (leaves s) then Evaluate (m_heap m) mask x i else UB.
Proof. exact @evaluate_bits. Qed.
Print Assumptions C84_evaluate_partial.
(** the consistency tests read the bits of the literals only *)
Theorem C84_flags_partial : forall P val (m : mgr P) i s t e f L, psdd_at val m i s t -> SerializePsddNodes (m_heap m) [i] = Ok L ->
  BSetActivationFlag (m_heap m) e L f = if forallb in_bitset (lit_vars t) then SetActivationFlag (m_heap m) e L f else UB.
Proof. exact @flags_bits. Qed.
Print Assumptions C84_flags_partial.
Theorem C84_consistent_partial : forall P val (m : mgr P) i s t mask e f, psdd_at val m i s t ->
  BIsConsistent (m_heap m) mask e i f = if forallb in_bitset (lit_vars t) then IsConsistent (m_heap m) mask e i f else UB.
Proof. exact @consistent_bits. Qed.
Print Assumptions C84_consistent_partial.
(** the method reads as many bits as it is told there are variables *)
Theorem C84_method_partial : forall P (h : heap P) fuel x n i,
  BNodeIsConsistent fuel h x n i = if in_bitset n then node_consistent fuel h (full_evidence x n) i else UB.
Proof. exact @method_bits. Qed.
Print Assumptions C84_method_partial.
(** the most probable instantiation and samples: as before when no variable from 65536 on is true in the answer, otherwise the program stops *)
Theorem C84_mpe_partial : forall P (h : heap P) fuel L ud x v ud', GetMPESolution fuel h L ud = Ok (x, v, ud') ->
  ((forall w, x w = true -> (w < 65536)%N) -> BGetMPESolution fuel h L ud = Ok (x, v, ud')) /\
  ((exists w, x w = true /\ (65536 <= w)%N) -> BGetMPESolution fuel h L ud = Abort).
Proof.
  intros P h fuel L ud x v ud' E. destruct (mpe_bits h fuel L ud x v ud' E) as [A B]. split.
  - intros H. apply A. intros w Hw. apply N.ltb_lt, H, Hw.
  - intros (w & H1 & H2). apply B. exists w. split; auto. apply N.ltb_ge, H2.
Qed.
Print Assumptions C84_mpe_partial.
Theorem C84_sample_partial : forall P (h : heap P) fuel i us x us', DirectSample fuel h i (fun _ => false) us = Ok (x, us') ->
  ((forall w, x w = true -> (w < 65536)%N) -> BDirectSample fuel h i (fun _ => false) us = Ok (x, us')) /\
  ((exists w, x w = true /\ (65536 <= w)%N) -> BDirectSample fuel h i (fun _ => false) us = Abort).
Proof.
  intros P h fuel i us x us' E. destruct (sample_bits h fuel i _ us x us' E) as [A B]; [discriminate|]. split.
  - intros H. apply A. intros w Hw. apply N.ltb_lt, H, Hw.
  - intros (w & H1 & H2). apply B. exists w. split; auto. apply N.ltb_ge, H2.
Qed.
Print Assumptions C84_sample_partial.

(** The claim itself is false: x1 <-> x70000, built by the ordinary requests *)
Definition big_vt := VNode (Leaf 1) (Leaf 70000).
Definition big_ops : list (@op Qex) := [OLit 1 0; OLit (-1) 0; OLit 70000 0; OLit (-70000) 0; ODec [0%nat; 1%nat] [2%nat; 3%nat] [q 3 4; q 1 4] 0;
  OTop 70000 0 (q 1 3) (q 2 3)].
Definition big_m : mgr Qex := Eval vm_compute in match runs (new_mgr big_vt) big_ops with Ok m => m | _ => new_mgr big_vt end.
Lemma big_runs : runs (new_mgr big_vt) big_ops = Ok big_m.
Proof. vm_compute. reflexivity. Qed.
Definition big_t : ptree := TDec [(TLit 1, TLit 70000, 3/4); (TLit (-1), TLit (-70000), 1/4)]%R.
Lemma big_wf : Wf big_m.
Proof.
  apply (@runs_wf Qex (@val_peq_refl Qex qval Qex_exact) (@val_plt_irrefl Qex qval Qex_exact) big_ops (new_mgr big_vt) big_m); [|apply big_runs].
  apply wf_new. vm_compute. repeat constructor; simpl; intuition congruence.
Qed.
Lemma big_at : @psdd_at Qex qval big_m 4 big_vt big_t.
Proof.
  split; [exact big_wf|]. split; [|exists []; split; reflexivity]. unfold big_t. eapply Rep_dec; [reflexivity..|].
  repeat constructor; unfold tp, ts, tw; simpl; try (eapply Rep_lit; reflexivity); unfold qval; simpl; lra.
Qed.
Lemma big_top : @psdd_at Qex qval big_m 5 (Leaf 70000) (TTop 70000 (qval (q 1 3)) (qval (q 2 3))).
Proof. split; [exact big_wf|]. split; [eapply Rep_top; reflexivity|exists [true]; split; reflexivity]. Qed.
Definition big_L : list nat := Eval vm_compute in match SerializePsddNodes (m_heap big_m) [4%nat] with Ok L => L | _ => [] end.
Theorem C84_variables_refuted : runs (new_mgr big_vt) big_ops = Ok big_m /\ @psdd_at Qex qval big_m 4 big_vt big_t /\
  (forall mask x, @BEvaluate Qex (m_heap big_m) mask x 4 = UB /\ exists v, Evaluate (m_heap big_m) mask x 4 = Ok v) /\
  (forall mask e f, @BIsConsistent Qex (m_heap big_m) mask e 4 f = UB) /\
  SerializePsddNodes (m_heap big_m) [4%nat] = Ok big_L /\
  @BGetMPESolution Qex 20 (m_heap big_m) big_L (fun _ => None) = Abort /\
  (exists x v ud, @GetMPESolution Qex 20 (m_heap big_m) big_L (fun _ => None) = Ok (x, v, ud) /\ x 70000%N = true) /\
  @BDirectSample Qex 10 (m_heap big_m) 4 (fun _ => false) [q 1 2] = Abort /\ (exists x us, @DirectSample Qex 10 (m_heap big_m) 4 (fun _ => false) [q 1 2] = Ok (x, us)) /\
  (forall e f mask g, exists b f', @BIsConsistent Qex (m_heap big_m) mask e 5 f = Ok (b, f') /\ @BSetActivationFlag Qex (m_heap big_m) e [5%nat] g <> UB) /\
  (forall mask x, @BEvaluate Qex (m_heap big_m) mask x 5 = UB).
Proof.
  split; [exact big_runs|]. split; [exact big_at|]. split.
  { intros mask x. split; [rewrite (@evaluate_bits Qex qval big_m 4 big_vt big_t mask x big_at); reflexivity|].
    destruct (evaluate_full (P := Qex) qval Qex_arith big_m 4 big_vt big_t mask x big_at) as (v & E & _). eauto. }
  split; [intros mask e f; rewrite (@consistent_bits Qex qval big_m 4 big_vt big_t mask e f big_at); reflexivity|].
  split; [reflexivity|]. split; [vm_compute; reflexivity|]. split; [do 3 eexists; split; [vm_compute; reflexivity|reflexivity]|].
  split; [vm_compute; reflexivity|]. split; [do 2 eexists; vm_compute; reflexivity|].
  split; [|intros mask x; rewrite (@evaluate_bits Qex qval big_m 5 _ _ mask x big_top); reflexivity].
  intros e f mask g. do 2 eexists. split; [cbv; reflexivity|]. cbv. discriminate.
Qed.
Print Assumptions C84_variables_refuted.
Example C84_nonvacuous : @psdd_at Qex qval ex_m 8 ex_vt ex_t8 /\ forallb in_bitset (leaves ex_vt) = true /\
  BEvaluate (m_heap ex_m) (fun _ => true) (fun _ => true) 8 = Ok (q 1 24) /\ forallb in_bitset (leaves big_vt) = false /\ forallb in_bitset (lit_vars big_t) = false /\
  (exists x v ud, GetMPESolution 20 (m_heap ex_m) (match SerializePsddNodes (m_heap ex_m) [8%nat] with Ok L => L | _ => [] end) (fun _ => None) = Ok (x, v, ud)) /\
  (exists x us, DirectSample 10 (m_heap ex_m) 8 (fun _ => false) [q 1 8; q 1 8; q 1 8; q 1 8; q 1 8] = Ok (x, us) /\ x 1%N = true).
Proof.
  split; [exact ex_at8|]. split; [reflexivity|]. split; [vm_compute; reflexivity|]. split; [reflexivity|]. split; [reflexivity|].
  split; [do 3 eexists; vm_compute; reflexivity|do 2 eexists; split; [vm_compute; reflexivity|reflexivity]].
Qed.

(** ** Data files of any width *)
Local Open Scope N_scope.
(** they are read when all ones are in columns below 65536 *)
Theorem C84_data_read_partial : forall rs bss n s b, enc_file comma rs s -> Forall2 (Forall2 field_value) rs bss -> Forall (fun row => lenN row = n) rs -> 0 < n -> n < u32 ->
  (forall bs j, In bs bss -> nth j bs false = true -> 1 + N.of_nat j < 65536) -> lenN s + 3 <= big -> sound b -> total (b_map b) + lenN rs < u64 ->
  exists b', ReadFile b (Some s) = Ok b' /\ sound b' /\ (forall k, lookup k (b_map b') = lookup k (b_map b) + occ k (map (record_of 0) bss)) /\
    b_size b' = Some (lenN rs) /\ b_vars b' = Some (match rs with [] => 0 | _ => n end) /\ total (b_map b') = total (b_map b) + lenN rs.
Proof.
  intros rs bss n s b EF F FL P0 P1 FO B S T. eapply read_wide; eauto. apply Forall_forall. intros bs Hb j Hj. specialize (FO bs j Hb Hj). unfold max_var. lia.
Qed.
Print Assumptions C84_data_read_partial.
(** they stop the program at the first record with a one in a later column, *)
Theorem C84_data_read_refuted : forall rs1 row rs2 bss bs n s b j, enc_file comma (rs1 ++ row :: rs2) s -> Forall2 (Forall2 field_value) rs1 bss -> Forall2 field_value row bs ->
  Forall (fun r => lenN r = n) rs1 -> 0 < n -> n < u32 -> (forall bs j, In bs bss -> nth j bs false = true -> 1 + N.of_nat j < 65536) ->
  nth j bs false = true -> 65536 <= 1 + N.of_nat j -> lenN s + 3 <= big -> lenN rs1 < u64 ->
  ReadFile b (Some s) = Abort.
Proof.
  intros rs1 row rs2 bss bs n s b j EF F FR FL P0 P1 FO J1 J2 B T. eapply (read_beyond rs1 row rs2 bss bs n); eauto; [|exists j; split; auto; unfold max_var; lia].
  apply Forall_forall. intros bs' Hb k Hk. specialize (FO bs' k Hb Hk). unfold max_var. lia.
Qed.
Print Assumptions C84_data_read_refuted.
(** and a data set of that many variables that has a record cannot be written *)
Theorem C84_data_write_refuted : forall b v r c it, b_vars b = Some v -> 65536 <= v -> 1 <= c -> c <= int_max -> WriteFile b ((r, c) :: it) = UB.
Proof. intros. eapply write_beyond; eauto. Qed.
Print Assumptions C84_data_write_refuted.
(** one line of 65535 zeros and a last field: a zero is read (and the data set cannot be written again), a one is not *)
Example C84_data_nonvacuous : forall b, enc_file comma [bit_row (wide b)] (wide_text b) /\ Forall2 field_value (bit_row (wide b)) (wide b) /\ lenN (bit_row (wide b)) = 65536 /\ lenN (wide_text b) + 3 <= big /\
  nth (N.to_nat 65535) (wide b) false = b /\ (b = true -> ReadFile new_data (Some (wide_text b)) = Abort) /\
  (b = false -> exists d r, ReadFile new_data (Some (wide_text b)) = Ok d /\ lookup r (b_map d) = 1 /\ WriteFile d [(r, 1)] = UB).
Proof.
  intros b. assert (lenN (bit_row (wide b)) = 65536) as W by (pose proof (wide_len b) as H; unfold lenN, bit_row, max_var in *; rewrite map_length; exact H).
  split; [apply wide_enc|]. split; [apply bit_row_values|]. split; [exact W|]. split; [apply wide_short|]. split; [apply nth_wide|]. split.
  - intros ->. apply (read_beyond [] (bit_row (wide true)) [] [] (wide true) 1 (wide_text true) new_data (wide_enc true) (Forall2_nil _) (bit_row_values _) (Forall_nil _)); [lia|reflexivity|constructor|exact wide_true|apply wide_short|reflexivity].
  - intros ->. destruct (read_wide [bit_row (wide false)] [wide false] 65536 (wide_text false) new_data (wide_enc false)) as (d & E & S & LK & SZ & V & T);
      [constructor; [apply bit_row_values|constructor]|constructor; [exact W|constructor]|lia|reflexivity|constructor; [exact wide_false|constructor]|apply wide_short|exact sound_new|reflexivity|].
    exists d, (record_of 0 (wide false)). split; auto. split.
    + rewrite LK. unfold records. cbn [map]. generalize (record_of 0 (wide false)). intros r. cbn [lookup b_map new_data]. unfold occ. cbn [filter]. rewrite N.eqb_refl. reflexivity.
    + apply (write_beyond d 65536 _ (record_of 0 (wide false)) 1 []); [exact V|unfold max_var; lia|reflexivity|lia|unfold int_max; lia].
Qed.
