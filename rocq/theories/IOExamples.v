(** Witnesses for C35. *)
From Coq Require Import Ascii String Reals Lra Psatz.
From Verif Require Import Base Param ParamProofs Vtree VtreeProofs Spec SpecProofs Heap Manager HeapProofs SerProofs RepProofs LoadProofs Text IO IOProofs FixedProofs.
Local Open Scope R_scope.

(** ** A single top node *)
Definition one_top (pt pf : lnum) : heap Lexact := [@MkN Lexact [] 0%N (@BTop Lexact 1%N pt pf)].
Definition top_file (pt pf : lnum) : text :=
  unlines (header ++ [str "psdd 1"] ++ ["T"%char :: sp (str "0") ++ sp (str "0") ++ sp (str "1") ++ sp (show_log pf) ++ sp (show_log pt)]).
Lemma write_top pt pf ud : exists ud', @WritePsddToFile Lexact show_log (Leaf 1%N) (one_top pt pf) ud 0 = Ok (top_file pt pf, ud').
Proof. eexists. reflexivity. Qed.
Lemma read_top pt pf fl : @ReadPsddFile Lexact rd_log log0_log (top_file pt pf) fl (new_mgr (Leaf 1%N)) =
  match rd_log (show_log pf) with
  | Some b => let a := match rd_log (show_log pt) with Some a => a | None => log0_log end in
              Ok (Some 0%nat, MkM (Leaf 1%N) [@MkN Lexact [] fl (@BTop Lexact 1%N a b)] [0%nat])
  | None => UB
  end.
Proof.
  unfold ReadPsddFile, top_file. rewrite lines_unlines.
  2:{ apply Forall_app. split; [apply header_nonl|]. constructor; [|constructor; [|constructor]]; apply nonl_no.
      - repeat constructor; discriminate.
      - constructor; [discriminate|]. unfold nonl. rewrite !Forall_app. repeat split; try (repeat constructor; discriminate); apply sp_nonl, show_xr_plain. }
  rewrite foldM_app. rewrite header_read. cbn [bind app].
  assert (E : read_line rd_log log0_log fl ([], None, None, new_mgr (Leaf 1%N)) (str "psdd 1") = Ok ([], None, Some 1%Z, @new_mgr Lexact (Leaf 1%N))) by reflexivity.
  cbn [foldM]. rewrite E. cbn [bind]. unfold read_line at 1. cbn [head_char Ascii.eqb Bool.eqb]. cbv iota.
  cbn [substr skipn List.length Nat.ltb Nat.leb bind].
  assert (forall rest, starts_blank rest -> ex_u64 (sp (str "0") ++ rest, true) = (Some 0%Z, (rest, true))) as U1.
  { intros rest H. apply (ex_int_N 0 _ 0 rest); try lia; try (simpl; lia). apply starts_blank_nodig; auto. }
  assert (forall rest, starts_blank rest -> ex_u32 (sp (str "0") ++ rest, true) = (Some 0%Z, (rest, true))) as U2.
  { intros rest H. apply (ex_int_N 0 _ 0 rest); try lia; try (simpl; lia). apply starts_blank_nodig; auto. }
  assert (forall rest, starts_blank rest -> ex_u32 (sp (str "1") ++ rest, true) = (Some 1%Z, (rest, true))) as U3.
  { intros rest H. apply (ex_int_N 0 _ 1 rest); try lia; try (simpl; lia). apply starts_blank_nodig; auto. }
  rewrite U1, U2, U3 by reflexivity.
  unfold sp at 1. cbn [app]. rewrite ex_word_app; [|apply show_xr_plain|apply show_xr_ne|reflexivity].
  replace (sp (show_log pt)) with (sp (show_log pt) ++ []) by apply app_nil_r. unfold sp at 1. cbn [app].
  destruct (rd_log (show_log pf)) as [b|] eqn:EF.
  - rewrite ex_word_app; [|apply show_xr_plain|apply show_xr_ne|exact Logic.I]. destruct (rd_log (show_log pt)) as [a|]; reflexivity.
  - reflexivity.
Qed.

(** A parameter of which six decimals keep nothing *)
Definition tiny : R := - / 10000000.
Lemma rnd6_tiny : rnd6 tiny = 0.
Proof.
  unfold rnd6, tiny. rewrite Rabs_left by lra. assert (nearest (- - / 10000000 * 1000000) = 0%Z) as ->.
  { pose proof (nearest_spec (- - / 10000000 * 1000000)) as H. apply Rabs_le_inv in H. set (n := nearest _) in *.
    assert (IZR n < 1) as H1 by lra. assert (-1 < IZR n) as H2 by lra. apply lt_IZR in H1, H2. lia. }
  destruct (Rlt_dec _ _); lra.
Qed.
Lemma ex_rep_top pt pf (h : heap Lexact) fl rest : h = @MkN Lexact [] fl (@BTop Lexact 1%N pt pf) :: rest -> @Rep Lexact lval h 0 (TTop 1 (lval pt) (lval pf)).
Proof. intros ->. eapply (@Rep_top Lexact lval); reflexivity. Qed.

Lemma lost_decimals : exists (hs : heap Lexact) t ud content ud' j m' t',
  heap_ok (Leaf 1%N) hs /\ @Rep Lexact lval hs 0 t /\ positive t /\ weight t (fun _ => true) + weight t (fun _ => false) = 1 /\
  @WritePsddToFile Lexact show_log (Leaf 1%N) hs ud 0 = Ok (content, ud') /\
  @ReadPsddFile Lexact rd_log log0_log content 0 (new_mgr (Leaf 1%N)) = Ok (Some j, m') /\
  @Rep Lexact lval (m_heap m') j t' /\ weight t (fun _ => true) < 1 /\ weight t' (fun _ => true) = 1 /\ 0 < weight t' (fun _ => false).
Proof.
  set (pt := lf tiny). assert (exp tiny < 1) as L1 by (rewrite <- exp_0; apply exp_increasing; unfold tiny; lra).
  set (pf := lf (ln (1 - exp tiny))). exists (one_top pt pf), (TTop 1 (lval pt) (lval pf)), (fun _ => 0%N).
  destruct (write_top pt pf (fun _ => 0%N)) as [ud' EW].
  pose proof (read_top pt pf 0%N) as ER. unfold pf in ER at 2. rewrite rd_show_log in ER. unfold pt in ER at 2. rewrite rd_show_log in ER. cbn [rnd_log] in ER. rewrite rnd6_tiny in ER.
  assert (lval pf = 1 - exp tiny) as EF by (simpl; apply exp_ln; lra).
  do 5 eexists. split.
  { intros [|i] nd E; [|destruct i; discriminate]. injection E as <-. reflexivity. }
  split; [eapply ex_rep_top; reflexivity|]. split.
  { split; [split; [apply lval_pos|apply lval_pos]|exact Logic.I]. }
  split; [cbn [weight]; rewrite EF; simpl; lra|]. split; [exact EW|]. split; [exact ER|]. split; [eapply ex_rep_top; reflexivity|].
  cbn [weight lval]. split; [exact L1|]. split; [apply exp_0|]. apply exp_pos.
Qed.

(** A zero true parameter is read back as one; a zero false parameter makes the reader use an uninitialised variable. *)
Lemma zero_becomes_one : exists (hs : heap Lexact) t ud content ud' j m' t',
  heap_ok (Leaf 1%N) hs /\ @Rep Lexact lval hs 0 t /\ weight t (fun _ => true) = 0 /\ weight t (fun _ => false) = 1 /\
  @WritePsddToFile Lexact show_log (Leaf 1%N) hs ud 0 = Ok (content, ud') /\
  @ReadPsddFile Lexact rd_log log0_log content 0 (new_mgr (Leaf 1%N)) = Ok (Some j, m') /\
  @Rep Lexact lval (m_heap m') j t' /\ weight t' (fun _ => true) = 1.
Proof.
  exists (one_top lz (lf 0)), (TTop 1 (lval lz) (lval (lf 0))), (fun _ => 0%N).
  destruct (write_top lz (lf 0) (fun _ => 0%N)) as [ud' EW].
  pose proof (read_top lz (lf 0) 0%N) as ER. rewrite rd_show_log in ER. rewrite rd_show_zero in ER.
  do 5 eexists. split.
  { intros [|i] nd E; [|destruct i; discriminate]. injection E as <-. reflexivity. }
  split; [eapply ex_rep_top; reflexivity|]. split; [reflexivity|]. split; [apply exp_0|].
  split; [exact EW|]. split; [exact ER|]. split; [eapply ex_rep_top; reflexivity|]. apply exp_0.
Qed.
Lemma zero_undefined : exists (hs : heap Lexact) t ud content ud',
  heap_ok (Leaf 1%N) hs /\ @Rep Lexact lval hs 0 t /\ weight t (fun _ => true) = 1 /\ weight t (fun _ => false) = 0 /\
  @WritePsddToFile Lexact show_log (Leaf 1%N) hs ud 0 = Ok (content, ud') /\
  @ReadPsddFile Lexact rd_log log0_log content 0 (new_mgr (Leaf 1%N)) = UB.
Proof.
  exists (one_top (lf 0) lz), (TTop 1 (lval (lf 0)) (lval lz)), (fun _ => 0%N).
  destruct (write_top (lf 0) lz (fun _ => 0%N)) as [ud' EW].
  pose proof (read_top (lf 0) lz 0%N) as ER. rewrite rd_show_zero in ER.
  do 2 eexists. split.
  { intros [|i] nd E; [|destruct i; discriminate]. injection E as <-. reflexivity. }
  split; [eapply ex_rep_top; reflexivity|]. split; [apply exp_0|]. split; [reflexivity|].
  split; [exact EW|exact ER].
Qed.

(** ** A PSDD that survives: (x1, top A) or (not x1, top B) over the vtree (1, 2) *)
Definition io_vt : vtree := VNode (Leaf 1%N) (Leaf 2%N).
Definition io_heap : heap Lexact :=
  [ @MkN Lexact [false] 0%N (@BLit Lexact 1%Z); @MkN Lexact [false] 0%N (@BLit Lexact (-1)%Z);
    @MkN Lexact [true] 0%N (@BTop Lexact 2%N (lf (- / 2)) (lf (- 1))); @MkN Lexact [true] 0%N (@BTop Lexact 2%N (lf (- 1)) (lf (- / 2)));
    @MkN Lexact [] 0%N (@BDec Lexact [@MkE Lexact 0 2 (lf (- / 4)); @MkE Lexact 1 3 (lf (- 3 / 2))]) ].
Definition io_tree : ptree := TDec [(TLit 1, TTop 2 (exp (- / 2)) (exp (- 1)), exp (- / 4)); (TLit (-1), TTop 2 (exp (- 1)) (exp (- / 2)), exp (- 3 / 2))].
Lemma io_ok : heap_ok io_vt io_heap.
Proof.
  intros i nd E. do 5 (destruct i as [|i]; [injection E as <-; try reflexivity|]); [|destruct i; discriminate].
  split; [discriminate|]. split; [exists (Leaf 1%N), (Leaf 2%N); reflexivity|]. repeat (apply Forall_cons; [repeat split; simpl; lia|]). apply Forall_nil.
Qed.
Lemma io_rep : @Rep Lexact lval io_heap 4 io_tree.
Proof.
  eapply (@Rep_dec Lexact lval); [reflexivity|reflexivity|]. repeat (apply Forall2_cons); try apply Forall2_nil; (split; [|split; [|reflexivity]]).
  - eapply (@Rep_lit Lexact lval); reflexivity.
  - apply (@Rep_top Lexact lval io_heap 2 _ 2%N (lf (- / 2)) (lf (- 1))) with (1 := eq_refl); reflexivity.
  - eapply (@Rep_lit Lexact lval); reflexivity.
  - apply (@Rep_top Lexact lval io_heap 3 _ 2%N (lf (- 1)) (lf (- / 2))) with (1 := eq_refl); reflexivity.
Qed.
Lemma io_fits : fits io_vt io_heap.
Proof.
  split; [vm_compute; discriminate|vm_compute; discriminate|..].
  - intros v [<-|[<-|[]]]; lia.
  - intros i nd es E Eb. do 5 (destruct i as [|i]; [injection E as <-; try discriminate|]); [|destruct i; discriminate]. injection Eb as <-. simpl. lia.
Qed.
Lemma io_nonzero : nonzero_params io_heap 4.
Proof.
  intros i nd a _ E Ha. do 5 (destruct i as [|i]; [injection E as <-; simpl in Ha; intuition (subst; discriminate)|]). destruct i; discriminate.
Qed.
Lemma io_top_cases i (ni : node Lexact) v a b : nth_error io_heap i = Some ni -> n_body ni = BTop v a b ->
  (a = lf (- / 2) /\ b = lf (- 1)) \/ (a = lf (- 1) /\ b = lf (- / 2)).
Proof.
  intros E B. apply nth_error_In in E. unfold io_heap in E. simpl in E. destruct E as [<-|[<-|[<-|[<-|[<-|[]]]]]]; try discriminate; injection B as <- <- <-; auto.
Qed.
Lemma io_tops i j ni nj v a b a' b' : (reach io_heap 4 i /\ nth_error io_heap i = Some ni /\ n_body ni = BTop v a b) ->
  (reach io_heap 4 j /\ nth_error io_heap j = Some nj /\ n_body nj = BTop v a' b') -> rnd_log a = rnd_log a' -> rnd_log b = rnd_log b'.
Proof.
  intros (_ & E1 & B1) (_ & E2 & B2).
  assert (rnd6 (- / 2) = - / 2) as R1 by (replace (- / 2) with (IZR (-500000) / 1000000) by lra; apply rnd6_exact).
  assert (rnd6 (- 1) = - 1) as R2 by (replace (- 1) with (IZR (-1000000) / 1000000) by lra; apply rnd6_exact).
  destruct (io_top_cases _ _ _ _ _ E1 B1) as [[-> ->]|[-> ->]], (io_top_cases _ _ _ _ _ E2 B2) as [[-> ->]|[-> ->]];
    cbn [rnd_log]; auto; rewrite R1, R2; intros H; injection H; lra.
Qed.
