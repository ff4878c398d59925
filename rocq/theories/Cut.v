(** Files whose writing stopped before the end: PSDD files cut after a line, data files cut anywhere. *)
From Coq Require Import Ascii String Reals Lra Permutation.
From Verif Require Import Base Param ParamProofs Vtree VtreeProofs Spec SpecProofs Heap Manager HeapProofs SerProofs RepProofs LoadProofs Text IO IOProofs.

(** ** PSDD files *)
Section Psdd.
Context {P : pops} (val : P -> R) (HP : pexact P val).
Notation heap := (heap P). Notation mgr := (mgr P). Notation node := (node P).
Context (show : P -> text) (rd : text -> option P) (log0 : P) (rnd : P -> P).
Context (show_plain : forall a, Forall plain (show a)) (show_ne : forall a, show a <> []).
Context (T : N -> R -> R -> Prop) (Tfun : forall v a b b', T v a b -> T v a b' -> b = b').
Notation vr := (vr val rnd). Notation tops_T := (tops_T T).

Lemma reach_below sroot (hs : heap) : heap_ok sroot hs -> forall i j, reach hs i j -> forall q, vt_of hs i = Some q ->
  exists u, vt_of hs j = Some (u ++ q) /\ (j <> i -> u <> []).
Proof.
  intros HO i j R0 q Hq. destruct R0 as [i|i nd c j E Hc R0]; [exists []; split; auto; congruence|].
  apply in_children in Hc as (es & e & Eb & He & Hc).
  pose proof (HO _ _ E) as NO. unfold node_ok in NO. rewrite Eb in NO. destruct NO as (_ & _ & F).
  rewrite Forall_forall in F. destruct (F e He) as (_ & _ & V1 & V2).
  unfold vt_of in Hq. rewrite E in Hq. injection Hq as <-.
  destruct Hc as [->| ->]; [destruct (reach_vt _ _ HO _ _ R0 _ V1) as (u & Hu)|destruct (reach_vt _ _ HO _ _ R0 _ V2) as (u & Hu)];
    [exists (u ++ [false])|exists (u ++ [true])]; (split; [rewrite Hu, <- app_assoc; reflexivity|intros _ Z; destruct u; discriminate]).
Qed.

Definition count_line (L : list nat) : text := str "psdd" ++ sp (show_N (N.of_nat (List.length L))).
Lemma count_read fl L (m : mgr) : exists z, foldM (read_line rd log0 fl) [count_line L] ([], None, None, m) = Ok ([], None, Some z, m).
Proof.
  cbn [foldM]. unfold read_line, count_line. cbn [head_char str list_ascii_of_string app Ascii.eqb Bool.eqb]. cbv iota.
  unfold substr. cbn [List.length Nat.ltb Nat.leb skipn sp bind].
  destruct (show_N_head (N.of_nat (List.length L))) as (c & w & E & PL & E1 & E2).
  unfold ex_u32, ex_int. cbn [negb]. rewrite E, skip_ws_plain by auto. rewrite E1, E2. cbv iota beta. rewrite <- E.
  pose proof (take_digits_app (N.to_uint (N.of_nat (List.length L))) [] Logic.I) as TD. rewrite app_nil_r in TD. unfold show_N. rewrite TD.
  rewrite is_nil_to_uint. cbv zeta. cbn [Z.eqb]. destruct (_ <? _)%Z; eexists; reflexivity.
Qed.

Section Read.
Context (sroot : vtree) (hs : heap) (root : nat) (L : list nat) (SO : ser_of hs root L) (HO : heap_ok sroot hs) (HR : root < List.length hs).
Context (q0 : path) (s : vtree) (t0 : ptree) (Hq0 : vt_of hs root = Some q0) (Hs : subtree sroot q0 = Some s)
  (Rt : Rep vr hs root t0) (TT : tops_T t0) (FT : fits sroot hs)
  (RD : forall i nd a, reach hs root i -> nth_error hs i = Some nd -> In a (params nd) -> rd (show a) = Some (rnd a)).
Context (fl : N) (pb : path).
Notation LN := (line show sroot hs L).
Definition file_lines : list text := header ++ [count_line L] ++ map LN (rev L).
Lemma file_nonl : Forall no_nl file_lines.
Proof.
  apply Forall_app. split; [apply header_nonl|]. apply Forall_app. split.
  - constructor; [|constructor]. apply nonl_no. apply nonl_app; [repeat constructor; discriminate|]. apply sp_nonl, show_N_plain.
  - apply Forall_forall. intros x Hx. apply in_map_iff in Hx as (i & <- & _). apply nonl_no. unfold line.
    destruct (nth_error hs i); [apply show_node_nonl; auto|constructor].
Qed.
Lemma firstn_In {A} (l : list A) k x : In x (firstn k l) -> In x l.
Proof. intros H. rewrite <- (firstn_skipn k l). apply in_app_iff. auto. Qed.
Lemma cut_lines k : lines (unlines (firstn k file_lines)) = firstn k file_lines.
Proof.
  apply lines_unlines. apply Forall_forall. intros x H. apply firstn_In in H. pose proof file_nonl as F. rewrite Forall_forall in F. auto.
Qed.
Lemma cut_nodes L1 i L2 (m : mgr) : L = L1 ++ i :: L2 -> subtree (m_vt m) pb = Some s -> InvT val T fl m ->
  exists j m', ReadPsddFile rd log0 (unlines (firstn (9 + List.length (i :: L2)) file_lines)) fl m = Ok (Some j, m') /\
    InvT val T fl m' /\ mext fl m m' /\
    exists u t t', vt_of hs i = Some (u ++ q0) /\ Rep vr hs i t /\ node_at val m' j (u ++ pb) t' /\ shuffled t t' /\ flag_of (m_heap m') j = Some fl /\ In j (m_live m').
Proof.
  intros EL Sm I. unfold ReadPsddFile. rewrite cut_lines.
  assert (firstn (9 + List.length (i :: L2)) file_lines = header ++ [count_line L] ++ map LN (rev (i :: L2))) as EF.
  { unfold file_lines. transitivity (firstn (List.length header + (1 + List.length (i :: L2))) (header ++ [count_line L] ++ map LN (rev L))); [reflexivity|].
    rewrite (firstn_app_2 (1 + List.length (i :: L2)) header). f_equal. cbn [app plus firstn]. f_equal.
    assert (rev L = rev (i :: L2) ++ rev L1) as ER by (rewrite EL at 1; apply rev_app_distr). rewrite ER, map_app.
    replace (List.length (i :: L2)) with (List.length (map LN (rev (i :: L2))) + 0) by (rewrite map_length, rev_length; lia).
    rewrite firstn_app_2. apply app_nil_r. }
  rewrite EF. rewrite foldM_app, header_read. cbn [bind]. rewrite foldM_app. destruct (count_read fl L m) as [z Ez]. rewrite Ez. cbn [bind]. rewrite foldM_map.
  destruct (bottom_up (fun st i => read_line rd log0 fl st (LN i)) (fun L2 st =>
      exists cache ro m1, st = (cache, ro, Some z, m1) /\ InvT val T fl m1 /\ mext fl m m1 /\ (forall c, In c L2 -> image val rnd hs L q0 fl pb cache m1 c) /\
        (forall i l, L2 = i :: l -> exists j, ro = Some j /\ Zlookup (Z.of_N (fid L i)) cache = Some j)) (i :: L2) ([], None, Some z, m))
    as (st & E1 & cache & ro & m1 & -> & I1 & X1 & IM1 & RO).
  { intros L1' i' L2' st EL' (cache & ro & m1 & -> & I1 & X1 & IM1 & _).
    destruct (read_line_spec val HP show rd log0 rnd show_plain show_ne T Tfun sroot hs root L SO HO HR q0 s t0 Hq0 Hs Rt TT FT RD fl pb (L1 ++ L1') i' L2' cache ro z m1)
      as (j & m2 & E2 & I2 & X2 & IM2); auto. { rewrite EL, EL', app_assoc. reflexivity. } { rewrite (me_vt _ _ _ X1). auto. }
    eexists. split; [exact E2|]. eexists _, _, m2. split; [reflexivity|]. split; [auto|]. split; [eapply mext_trans; eauto|]. split; [auto|].
    intros i0 l H. injection H as <- <-. exists j. split; auto. unfold Zlookup. simpl. rewrite Z.eqb_refl. reflexivity. }
  { exists [], None, m. split; [reflexivity|]. split; [auto|]. split; [apply mext_refl|]. split; [intros c []|discriminate]. }
  rewrite E1. cbn [bind fst snd]. destruct (RO i L2 eq_refl) as (j & -> & EJ).
  destruct (IM1 i (or_introl eq_refl)) as (j' & u & t & t' & H1 & H2 & H3 & H4 & H5 & H6 & H7).
  assert (j' = j) as -> by congruence. exists j, m1. split; [reflexivity|]. split; [auto|]. split; [auto|]. exists u, t, t'. auto 10.
Qed.
Lemma cut_header k (m : mgr) : k <= 9 -> ReadPsddFile rd log0 (unlines (firstn k file_lines)) fl m = Ok (None, m).
Proof.
  intros K. unfold ReadPsddFile. rewrite cut_lines. destruct (Nat.eq_dec k 9) as [->|NK].
  - replace (firstn 9 file_lines) with (header ++ [count_line L]).
    2:{ unfold file_lines. rewrite app_assoc. change 9 with (List.length (header ++ [count_line L])). rewrite firstn_app, firstn_all, Nat.sub_diag. cbn [firstn]. rewrite app_nil_r. reflexivity. }
    rewrite foldM_app, header_read. cbn [bind]. destruct (count_read fl L m) as [z Ez]. rewrite Ez. reflexivity.
  - replace (firstn k file_lines) with (firstn k header).
    2:{ unfold file_lines. rewrite firstn_app. replace (k - List.length header) with 0 by (change (List.length header) with 8; lia). cbn [firstn]. rewrite app_nil_r. reflexivity. }
    assert (forall k, k <= 8 -> foldM (read_line rd log0 fl) (firstn k header) ([], None, None, m) = Ok ([], None, None, m)) as H.
    { clear. intros k K. do 9 (destruct k as [|k]; [reflexivity|]). lia. }
    rewrite H by lia. reflexivity.
Qed.
End Read.

(** Whatever line the file is cut after, it is accepted: before the first node the null pointer is returned, after it the node of the last line. *)
Theorem write_cut sroot (hs : heap) ud root q0 s t (m : mgr) fl pb :
  heap_ok sroot hs -> vt_of hs root = Some q0 -> subtree sroot q0 = Some s -> fits sroot hs ->
  (forall i nd a, reach hs root i -> nth_error hs i = Some nd -> In a (params nd) -> rd (show a) = Some (rnd a)) ->
  Rep vr hs root t -> tops_T t ->
  subtree (m_vt m) pb = Some s -> InvT val T fl m ->
  exists content ud' L, WritePsddToFile show sroot hs ud root = Ok (content, ud') /\ SerializePsddNodes hs [root] = Ok L /\
    List.length (lines content) = 9 + List.length L /\
    (forall k, k <= 9 -> ReadPsddFile rd log0 (unlines (firstn k (lines content))) fl m = Ok (None, m)) /\
    forall k i, nth_error (rev L) k = Some i ->
      exists j m', ReadPsddFile rd log0 (unlines (firstn (10 + k) (lines content))) fl m = Ok (Some j, m') /\ InvT val T fl m' /\ mext fl m m' /\
      exists u ti t', vt_of hs i = Some (u ++ q0) /\ (S k < List.length L -> u <> []) /\ Rep vr hs i ti /\ node_at val m' j (u ++ pb) t' /\ shuffled ti t' /\
        flag_of (m_heap m') j = Some fl /\ In j (m_live m').
Proof.
  intros HO Hq0 Hs FT RD Rt TT Sm I. assert (root < List.length hs) as HR by (eapply vt_of_lt; eauto).
  destruct (serialize_root hs sroot root HO HR) as [L SO].
  destruct (write_spec show sroot hs root L SO HO HR ud) as (ud' & E1 & _ & _).
  change (header ++ [str "psdd" ++ sp (show_N (N.of_nat (List.length L)))] ++ map (line show sroot hs L) (rev L)) with (file_lines sroot hs L) in E1.
  eexists _, ud', L. split; [exact E1|]. split; [apply (so_eq _ _ _ SO)|]. rewrite lines_unlines by apply file_nonl. split.
  { unfold file_lines. rewrite !app_length, map_length, rev_length. reflexivity. }
  split; [intros k K; eapply cut_header; eauto|]. intros k i Hk.
  assert (k < List.length L) as KL by (rewrite <- rev_length; apply nth_error_Some; congruence).
  destruct (nth_error_split _ _ Hk) as (l1 & l2 & EL & LL). apply (f_equal (@rev nat)) in EL. rewrite rev_involutive, rev_app_distr in EL. cbn [rev] in EL.
  rewrite <- app_assoc in EL. cbn [app] in EL.
  destruct (cut_nodes sroot hs root L SO HO HR q0 s t Hq0 Hs Rt TT FT RD fl pb (rev l2) i (rev l1) m EL Sm I) as (j & m' & E2 & I' & X & u & ti & t' & H1 & H2 & H3 & H4 & H5 & H6).
  replace (10 + k) with (9 + List.length (i :: rev l1)) by (simpl; rewrite rev_length; lia).
  exists j, m'. split; [exact E2|]. split; [auto|]. split; [auto|]. exists u, ti, t'. split; auto. split; [|auto 10].
  intros KK. assert (reach hs root i) as RI by (apply (so_in _ _ _ SO); rewrite EL; apply in_elt).
  destruct (reach_below sroot hs HO _ _ RI _ Hq0) as (u' & Hu' & NE). assert (u' = u) as -> by (rewrite H1 in Hu'; injection Hu' as Hu'; apply app_inv_tail in Hu'; auto).
  apply NE. intros ->. destruct (so_head _ _ _ SO) as [l El]. pose proof (so_nodup _ _ _ SO) as ND. rewrite EL in El, ND, KK. rewrite app_length in KK. simpl in KK. rewrite !rev_length in KK.
  destruct (rev l2) as [|x l'] eqn:ER.
  - apply (f_equal (@List.length nat)) in ER. rewrite rev_length in ER. simpl in ER. lia.
  - simpl in El. injection El as -> _. simpl in ND. inversion ND as [|? ? N1 _]; subst. apply N1. apply in_elt.
Qed.
End Psdd.
