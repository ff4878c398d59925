(** Witnesses for the part of C78 on files cut inside a word. *)
From Coq Require Import Ascii String Reals Lra Permutation.
From Verif Require Import Base Param ParamProofs Vtree VtreeProofs Spec SpecProofs Heap Manager HeapProofs SerProofs RepProofs LoadProofs
  Text IO IOProofs FixedProofs IOExamples Cut CutLine.

Lemma show_minus_one_and_a_half : show_log (lf (-3 / 2)%R) = str "-1.500000".
Proof.
  unfold show_log. cbn [lx show_xr]. unfold fixed6. rewrite Rabs_left by lra. replace (- (-3 / 2) * 1000000)%R with (IZR 1500000) by lra. rewrite nearest_Z.
  destruct (Rlt_dec _ _); [|lra]. reflexivity.
Qed.
Lemma read_minus_one : rd_log (str "-1") = Some (lf (-1)).
Proof. unfold rd_log, rd_dec. cbn. do 2 f_equal. lra. Qed.

Definition half_file : text := unlines (header ++ [str "psdd 1"]) ++ "T"%char :: sp (str "0") ++ sp (str "0") ++ sp (str "1") ++ sp (show_log (lf 0)) ++ sp (str "-1").
Lemma half_read : @ReadPsddFile Lexact rd_log log0_log half_file 0 (new_mgr (Leaf 1%N)) =
  Ok (Some 0, MkM (Leaf 1%N) [@MkN Lexact [] 0%N (@BTop Lexact 1%N (lf (-1)) (lf (rnd6 0)))] [0]).
Proof.
  unfold ReadPsddFile, half_file. rewrite lines_unfinished.
  2:{ apply Forall_app. split; [apply header_nonl|]. constructor; [|constructor]. apply nonl_no. repeat constructor; discriminate. }
  2:{ apply nonl_no. constructor; [discriminate|]. unfold nonl. rewrite !Forall_app. repeat split; try (repeat constructor; discriminate); apply sp_nonl, show_xr_plain. }
  2:{ discriminate. }
  rewrite !foldM_app. rewrite header_read. cbn [bind app].
  assert (E : read_line rd_log log0_log 0 ([], None, None, new_mgr (Leaf 1%N)) (str "psdd 1") = Ok ([], None, Some 1%Z, @new_mgr Lexact (Leaf 1%N))) by reflexivity.
  cbn [foldM]. rewrite E. cbn [bind]. unfold read_line at 1. cbn [head_char Ascii.eqb Bool.eqb]. cbv iota.
  cbn [substr skipn List.length Nat.ltb Nat.leb bind].
  assert (forall rest, starts_blank rest -> ex_u64 (sp (str "0") ++ rest, true) = (Some 0%Z, (rest, true))) as U1.
  { intros rest H. apply (ex_int_N 0 _ 0 rest); try lia; try (simpl; lia). apply starts_blank_nodig; auto. }
  assert (forall rest, starts_blank rest -> ex_u32 (sp (str "0") ++ rest, true) = (Some 0%Z, (rest, true))) as U2.
  { intros rest H. apply (ex_int_N 0 _ 0 rest); try lia; try (simpl; lia). apply starts_blank_nodig; auto. }
  assert (forall rest, starts_blank rest -> ex_u32 (sp (str "1") ++ rest, true) = (Some 1%Z, (rest, true))) as U3.
  { intros rest H. apply (ex_int_N 0 _ 1 rest); try lia; try (simpl; lia). apply starts_blank_nodig; auto. }
  rewrite U1, U2, U3 by reflexivity.
  unfold sp at 1. cbn [app]. rewrite ex_word_app; [|apply show_xr_plain|apply show_xr_ne|reflexivity]. rewrite rd_show_log.
  rewrite (ex_last rd_log log0_log (str "-1")); [|repeat constructor|discriminate]. unfold read_param. rewrite read_minus_one. reflexivity.
Qed.
Lemma top_half : top_file (lf (-3 / 2)) (lf 0) = half_file ++ str ".500000" ++ [nl].
Proof.
  unfold top_file, half_file. rewrite show_minus_one_and_a_half. rewrite (app_assoc header), unlines_app, <- app_assoc. f_equal.
  unfold unlines at 1. cbn [map concat app]. rewrite app_nil_r. cbn [app]. f_equal. rewrite <- !app_assoc. reflexivity.
Qed.
Lemma half_length : List.length (top_file (lf (-3 / 2)) (lf 0)) = List.length half_file + 8.
Proof. rewrite top_half, app_length. reflexivity. Qed.
Lemma half_cut : firstn (List.length (top_file (lf (-3 / 2)) (lf 0)) - 8) (top_file (lf (-3 / 2)) (lf 0)) = half_file.
Proof.
  rewrite half_length, top_half. replace (List.length half_file + 8 - 8) with (List.length half_file + 0) by lia. rewrite firstn_app_2. apply app_nil_r.
Qed.
Lemma cut_parameter : exists (hs : heap Lexact) t ud content ud' n j m' t', heap_ok (Leaf 1%N) hs /\ @Rep Lexact lval hs 0 t /\
  @WritePsddToFile Lexact show_log (Leaf 1%N) hs ud 0 = Ok (content, ud') /\ n < List.length content /\
  @ReadPsddFile Lexact rd_log log0_log (firstn n content) 0 (new_mgr (Leaf 1%N)) = Ok (Some j, m') /\ @Rep Lexact lval (m_heap m') j t' /\
  weight t (fun _ => true) = exp (-3 / 2) /\ weight t' (fun _ => true) = exp (-1).
Proof.
  destruct (write_top (lf (-3 / 2)) (lf 0) (fun _ => 0%N)) as [ud' EW].
  exists (one_top (lf (-3 / 2)) (lf 0)), (TTop 1 (lval (lf (-3 / 2))) (lval (lf 0))), (fun _ => 0%N), (top_file (lf (-3 / 2)) (lf 0)), ud', (List.length (top_file (lf (-3 / 2)) (lf 0)) - 8).
  do 2 eexists. exists (TTop 1 (lval (lf (-1))) (lval (lf (rnd6 0)))).
  split. { intros [|i] nd E; [|destruct i; discriminate]. injection E as <-. reflexivity. }
  split; [eapply ex_rep_top; reflexivity|]. split; [exact EW|]. split; [rewrite half_length; lia|].
  rewrite half_cut, half_read. split; [reflexivity|]. split; [eapply ex_rep_top; reflexivity|]. split; reflexivity.
Qed.
Lemma cut_literal : exists (hs : heap Lexact) ud content ud' n j m', let vt := VNode (Leaf 1%N) (Leaf 12%N) in heap_ok vt hs /\ @Rep Lexact lval hs 0 (TLit 12) /\
  @WritePsddToFile Lexact show_log vt hs ud 0 = Ok (content, ud') /\ n < List.length content /\
  @ReadPsddFile Lexact rd_log log0_log (firstn n content) 0 (new_mgr vt) = Ok (Some j, m') /\ @Rep Lexact lval (m_heap m') j (TLit 1).
Proof.
  set (c := unlines (header ++ [str "psdd 1"; str "L 0 2 12"])).
  exists [@MkN Lexact [true] 0%N (@BLit Lexact 12%Z)], (fun _ => 0%N), c. eexists. exists (List.length c - 2), 0, (MkM (VNode (Leaf 1%N) (Leaf 12%N)) [@MkN Lexact [false] 0%N (@BLit Lexact 1%Z)] [0]).
  cbv zeta. split. { intros [|i] nd E; [|destruct i; discriminate]. injection E as <-. reflexivity. }
  split; [eapply (@Rep_lit Lexact lval); reflexivity|]. split; [reflexivity|]. split; [apply Nat.ltb_lt; reflexivity|].
  split; [reflexivity|]. eapply (@Rep_lit Lexact lval); reflexivity.
Qed.
