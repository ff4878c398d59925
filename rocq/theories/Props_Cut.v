(** Property theorem C78: files whose writing was interrupted.  [written it]: the records in the order in which they are written, each as often as it
    is counted; [reads p l n]: the text p is read into a new data set as the records l (a multiset) over n variables; [low j r]: the variables
    1..j of record r.  The PSDD part: as in C35 ([shuffled], [vr], [InvT]); the file has nine lines before the lines of the nodes; [last_word]: the
    last word of the line of a node; [sp w]: a blank and w; [last_weight]: another parameter at the last element. *)
From Coq Require Import Ascii String Reals Lra Permutation.
From Verif Require Import Base Param ParamProofs Vtree VtreeProofs Spec SpecProofs Heap Manager HeapProofs SerProofs RepProofs LoadProofs
  Text IO IOProofs FixedProofs IOExamples Csv CsvProofs Data DataProofs DataExamples Cut DataCut CutLine CutExamples.

(** Data files, cut at any byte: k lines and x bytes of the next one, whose record is r.  Between lines: the records of these lines.  Within a line
    that is not the first: the program stops, unless only the last character of the line or the newline is missing.  Otherwise the part of the
    record that is there is taken for a record. *)
Theorem C78_data_cut : forall b v it k x r, b_vars b = Some v -> (1 <= v)%N -> (v < max_var)%N -> (forall r c, In (r, c) it -> (c <= int_max)%N /\ within v r) ->
  (lenN (written it) * (2 * v) + 3 <= big)%N -> nth_error (written it) k = Some r -> x < 2 * N.to_nat v ->
  exists s, WriteFile b it = Ok s /\ List.length s = List.length (written it) * (2 * N.to_nat v) /\
    let p := firstn (2 * N.to_nat v * k + x) s in
    (x = 0 -> reads p (firstn k (written it)) v) /\
    (0 < x -> x + 2 < 2 * N.to_nat v -> 0 < k -> ReadFile new_data (Some p) = Abort) /\
    (0 < x -> 2 * N.to_nat v <= x + 2 \/ k = 0 -> reads p (firstn k (written it) ++ [low (N.of_nat ((x + 1) / 2)) r]) (N.of_nat (x / 2 + 1))).
Proof. exact data_cut. Qed.
Print Assumptions C78_data_cut.
Lemma firstn_nth_S {A} (l : list A) k x : nth_error l k = Some x -> firstn (S k) l = firstn k l ++ [x].
Proof. revert k. induction l as [|y l IH]; intros [|k] E; try discriminate; simpl in *; [injection E as ->; reflexivity|rewrite <- (IH k E); reflexivity]. Qed.
(** only the last newline missing: nothing is lost *)
Theorem C78_data_newline : forall b v it k r, b_vars b = Some v -> (1 <= v)%N -> (v < max_var)%N -> (forall r c, In (r, c) it -> (c <= int_max)%N /\ within v r) ->
  (lenN (written it) * (2 * v) + 3 <= big)%N -> nth_error (written it) k = Some r ->
  exists s, WriteFile b it = Ok s /\ reads (firstn (2 * N.to_nat v * k + (2 * N.to_nat v - 1)) s) (firstn (S k) (written it)) v.
Proof.
  intros b v it k r EV V1 V2 HC B Hk. destruct (data_cut b v it k (2 * N.to_nat v - 1) r EV V1 V2 HC B Hk ltac:(lia)) as (s & E & _ & _ & _ & H).
  exists s. split; auto. specialize (H ltac:(lia) ltac:(lia)).
  replace (2 * N.to_nat v - 1 + 1) with (N.to_nat v * 2) in H by lia. rewrite Nat.div_mul in H by lia.
  assert ((2 * N.to_nat v - 1) / 2 + 1 = N.to_nat v) as Q.
  { replace (2 * N.to_nat v - 1) with (1 + (N.to_nat v - 1) * 2) by lia. rewrite Nat.div_add by lia. simpl. lia. }
  rewrite Q, N2Nat.id in H. assert (within v r) as W.
  { apply nth_error_In in Hk. unfold written in Hk. apply in_flat_map in Hk as ([r1 c1] & H1 & H2). apply repeat_spec in H2. simpl in H2. subst r. apply (HC r1 c1 H1). }
  rewrite low_all in H by auto. rewrite (firstn_nth_S _ _ _ Hk). exact H.
Qed.
Print Assumptions C78_data_newline.
Definition cut_it : list (N * N) := [(6, 1); (4, 1)]%N.
Example C78_data_nonvacuous : let b := MkData cut_it (Some 2%N) (Some 2%N) in
  (forall r c, In (r, c) cut_it -> (c <= int_max)%N /\ within 2 r) /\ (lenN (written cut_it) * (2 * 2) + 3 <= big)%N /\ nth_error (written cut_it) 1 = Some 4%N /\
  WriteFile b cut_it = Ok (str "1,1" ++ [nl] ++ str "0,1" ++ [nl]) /\ ReadFile new_data (Some (str "1,1" ++ [nl] ++ str "0")) = Abort.
Proof.
  split. { intros r c [E|[E|[]]]; injection E as <- <-; (split; [discriminate|]); intros k K; (destruct k as [|[k|k|]]; [discriminate| | |]); try lia; destruct k; try discriminate; lia. }
  split; [discriminate|]. split; [reflexivity|]. split; [reflexivity|vm_compute; reflexivity].
Qed.
(** Not detected: a cut before the last character of a line makes the last variable false; a cut in the first line makes a data set of one shorter
    record. *)
Theorem C78_data_refuted : exists b it s, b_vars b = Some 2%N /\ WriteFile b it = Ok s /\
  written it = [6; 4]%N /\
  reads (firstn 6 s) [6; 0]%N 2 /\ reads (firstn 1 s) [2]%N 1.
Proof.
  destruct C78_data_nonvacuous as (HC & B & N1 & E & _). pose (b := MkData cut_it (Some 2%N) (Some 2%N)).
  exists b, cut_it, (str "1,1" ++ [nl] ++ str "0,1" ++ [nl]). split; [reflexivity|]. split; [exact E|]. split; [reflexivity|].
  destruct (data_cut b 2%N cut_it 1 2 4%N eq_refl ltac:(lia) ltac:(reflexivity) HC B N1 ltac:(simpl; lia)) as (s & Es & _ & _ & _ & H1).
  destruct (data_cut b 2%N cut_it 0 1 6%N eq_refl ltac:(lia) ltac:(reflexivity) HC B eq_refl ltac:(simpl; lia)) as (s' & Es' & _ & _ & _ & H2).
  assert (s = str "1,1" ++ [nl] ++ str "0,1" ++ [nl] /\ s' = str "1,1" ++ [nl] ++ str "0,1" ++ [nl]) as [-> ->] by (split; unfold b in *; congruence).
  split; [apply H1; simpl; lia|apply H2; simpl; lia].
Qed.
Print Assumptions C78_data_refuted.

(** PSDD files, cut after any line: never detected.  The null pointer before the first node; then the PSDD of the node in the last line, which is below
    the vtree of the PSDD that was written unless this is the last line of the file. *)
Theorem C78_psdd_refuted : forall (P : pops) (val : P -> R), pexact P val -> forall (show : P -> text) rd log0 rnd,
  (forall a, Forall plain (show a)) -> (forall a, show a <> []) ->
  forall T : N -> R -> R -> Prop, (forall v a b b', T v a b -> T v a b' -> b = b') ->
  forall sroot (hs : heap P) ud root q0 s t (m : mgr P) fl pb,
  heap_ok sroot hs -> vt_of hs root = Some q0 -> subtree sroot q0 = Some s -> fits sroot hs ->
  (forall i nd a, reach hs root i -> nth_error hs i = Some nd -> In a (params nd) -> rd (show a) = Some (rnd a)) ->
  Rep (vr val rnd) hs root t -> tops_T T t -> subtree (m_vt m) pb = Some s -> InvT val T fl m ->
  exists content ud' L, WritePsddToFile show sroot hs ud root = Ok (content, ud') /\ SerializePsddNodes hs [root] = Ok L /\
    List.length (lines content) = 9 + List.length L /\
    (forall k, k <= 9 -> ReadPsddFile rd log0 (unlines (firstn k (lines content))) fl m = Ok (None, m)) /\
    forall k i, nth_error (rev L) k = Some i ->
      exists j m', ReadPsddFile rd log0 (unlines (firstn (10 + k) (lines content))) fl m = Ok (Some j, m') /\ InvT val T fl m' /\ mext fl m m' /\
      exists u ti t', vt_of hs i = Some (u ++ q0) /\ (S k < List.length L -> u <> []) /\ Rep (vr val rnd) hs i ti /\ node_at val m' j (u ++ pb) t' /\ shuffled ti t' /\
        flag_of (m_heap m') j = Some fl /\ In j (m_live m').
Proof. intros P val HP show rd log0 rnd H1 H2 T HT. exact (write_cut val HP show rd log0 rnd H1 H2 T HT). Qed.
Print Assumptions C78_psdd_refuted.
(** the hypotheses: as for C35 (C35_nonvacuous); this PSDD has five nodes, so four cuts give another PSDD *)
Example C78_psdd_nonvacuous : heap_ok io_vt io_heap /\ vt_of io_heap 4 = Some [] /\ fits io_vt io_heap /\ @Rep Lexact lval io_heap 4 io_tree /\
  exists L, SerializePsddNodes io_heap [4] = Ok L /\ 1 < List.length L.
Proof.
  split; [exact io_ok|]. split; [reflexivity|]. split; [exact io_fits|]. split; [exact io_rep|].
  destruct (serialize_root io_heap io_vt 4 io_ok) as [L SO]; [simpl; lia|]. exists L. split; [apply (so_eq _ _ _ SO)|].
  destruct (so_head _ _ _ SO) as [l ->]. destruct l as [|x l]; [|simpl; lia]. exfalso.
  assert (In 0 [4]) as I; [|destruct I as [I|[]]; discriminate]. apply (so_in _ _ _ SO). eapply reach_step; [reflexivity|simpl; left; reflexivity|]. apply reach_refl.
Qed.

(** PSDD files, cut anywhere.  Every prefix ends in some line (all of the line may be there).  A line of which only the newline is missing is read as
    if it was complete.  Before the nodes: the null pointer, unless less than five characters of the count line are left (the program stops).  A line
    of a node cut before its last word: never accepted, in any manager. *)
Theorem C78_psdd_inside : forall (P : pops) (show : P -> text) rd log0, (forall a, Forall plain (show a)) -> (forall a, show a <> []) ->
  forall sroot (hs : heap P) ud root, heap_ok sroot hs -> root < List.length hs ->
  exists content ud' L, WritePsddToFile show sroot hs ud root = Ok (content, ud') /\ SerializePsddNodes hs [root] = Ok L /\
    (forall n, n < List.length content -> exists k l x, nth_error (lines content) k = Some l /\ x <= List.length l /\
       firstn n content = unlines (firstn k (lines content)) ++ firstn x l) /\
    (forall k l fl m, nth_error (lines content) k = Some l ->
       ReadPsddFile rd log0 (unlines (firstn k (lines content)) ++ l) fl m = ReadPsddFile rd log0 (unlines (firstn (S k) (lines content))) fl m) /\
    (forall k l x fl m, k < 9 -> nth_error (lines content) k = Some l -> 1 <= x <= List.length l ->
       ReadPsddFile rd log0 (unlines (firstn k (lines content)) ++ firstn x l) fl m = if Nat.eqb k 8 && Nat.ltb x 5 then Abort else Ok (None, m)) /\
    forall k i nd, nth_error (rev L) k = Some i -> nth_error hs i = Some nd ->
      exists A, nth_error (lines content) (9 + k) = Some (A ++ sp (last_word show log0 nd)) /\
      forall x, 1 <= x <= List.length A + 1 -> forall fl m y, ReadPsddFile rd log0 (unlines (firstn (9 + k) (lines content)) ++ firstn x (A ++ sp (last_word show log0 nd))) fl m <> Ok y.
Proof. intros P show rd log0 H1 H2. exact (cut_inside show rd log0 H1 H2). Qed.
Print Assumptions C78_psdd_inside.
(** the hypotheses: C78_psdd_nonvacuous has a PSDD of five nodes; here is what a cut in a line looks like *)
Example C78_psdd_inside_nonvacuous : heap_ok io_vt io_heap /\ 4 < List.length io_heap /\ (forall a : Lexact, Forall plain (show_log a)) /\ (forall a : Lexact, show_log a <> []) /\
  exists ud', WritePsddToFile show_log (Leaf 1%N) (one_top (lf 0) (lf 1)) (fun _ => 0%N) 0 = Ok (top_file (lf 0) (lf 1), ud').
Proof. split; [exact io_ok|]. split; [simpl; lia|]. split; [intros a; apply show_xr_plain|]. split; [intros a; apply show_xr_ne|]. apply write_top. Qed.

(** Cut inside the last word of the line of a node (w is what is left of it, but may be anything): a literal node is made for the number that is
    left, if it is one; a top node or a decision node is always made, with the parameter that is left, or with the one that a failed conversion
    leaves (probability one) as its last. *)
Theorem C78_psdd_last_refuted : forall (P : pops) (val : P -> R), pexact P val -> forall (show : P -> text) rd log0 rnd,
  (forall a, Forall plain (show a)) -> (forall a, show a <> []) ->
  forall T : N -> R -> R -> Prop, (forall v a b b', T v a b -> T v a b' -> b = b') ->
  forall sroot (hs : heap P) ud root q0 s t0 (m : mgr P) fl pb,
  heap_ok sroot hs -> vt_of hs root = Some q0 -> subtree sroot q0 = Some s -> fits sroot hs ->
  (forall i nd a, reach hs root i -> nth_error hs i = Some nd -> In a (params nd) -> rd (show a) = Some (rnd a)) ->
  Rep (vr val rnd) hs root t0 -> tops_T T t0 -> subtree (m_vt m) pb = Some s -> InvT val T fl m ->
  exists content ud' L, WritePsddToFile show sroot hs ud root = Ok (content, ud') /\ SerializePsddNodes hs [root] = Ok L /\
    forall k i nd t, nth_error (rev L) k = Some i -> nth_error hs i = Some nd -> Rep (vr val rnd) hs i t ->
      exists A c m1, nth_error (lines content) (9 + k) = Some (A ++ sp (last_word show log0 nd)) /\
      ReadPsddFile rd log0 (unlines (firstn (9 + k) (lines content))) fl m = Ok (c, m1) /\ InvT val T fl m1 /\ mext fl m m1 /\
      forall w, Forall plain w -> w <> [] ->
        let r := ReadPsddFile rd log0 (unlines (firstn (9 + k) (lines content)) ++ A ++ sp w) fl m in
        let a := match rd w with Some a => a | None => log0 end in
        match n_body nd with
        | BLit _ => forall x, w = show_Z x -> (-2147483648 <= x <= 2147483647)%Z -> r = bind (GetPsddLiteralNode m1 x fl) (fun '(j, m') => Ok (Some j, m'))
        | BTop v pt pf => exists j m', GetPsddTopNode m1 v fl a (rnd pf) = Ok (j, m') /\ r = Ok (Some j, m')
        | BDec es => exists j m' u tes t', r = Ok (Some j, m') /\ InvT val T fl m' /\ mext fl m m' /\ vt_of hs i = Some (u ++ q0) /\ t = TDec tes /\
            node_at val m' j (u ++ pb) t' /\ shuffled (TDec (last_weight (val a) tes)) t' /\ flag_of (m_heap m') j = Some fl /\ In j (m_live m')
        end.
Proof. intros P val HP show rd log0 rnd H1 H2 T HT. exact (cut_last val HP show rd log0 rnd H1 H2 T HT). Qed.
Print Assumptions C78_psdd_last_refuted.
(** the hypotheses are those of C78_psdd_refuted; its PSDD has lines of all three kinds *)
Example C78_psdd_last_nonvacuous : exists i j k l v pt pf es, @reach Lexact io_heap 4 i /\ @reach Lexact io_heap 4 j /\ @reach Lexact io_heap 4 k /\
  option_map n_body (nth_error io_heap i) = Some (@BLit Lexact l) /\ option_map n_body (nth_error io_heap j) = Some (@BTop Lexact v pt pf) /\ option_map n_body (nth_error io_heap k) = Some (@BDec Lexact es).
Proof.
  exists 0, 2, 4. do 5 eexists. split; [|split; [|split; [apply reach_refl|split; [reflexivity|split; reflexivity]]]];
    (eapply reach_step; [reflexivity| |apply reach_refl]; simpl; tauto).
Qed.

(** Witnesses.  "-1.500000" cut to "-1": the probability of the variable is exp(-1) instead of exp(-3/2).  "12" cut to "1": the literal of variable 1 is
    returned instead of the one of variable 12. *)
Theorem C78_psdd_words_refuted :
  (exists (hs : heap Lexact) t ud content ud' n j m' t', heap_ok (Leaf 1%N) hs /\ @Rep Lexact lval hs 0 t /\
     @WritePsddToFile Lexact show_log (Leaf 1%N) hs ud 0 = Ok (content, ud') /\ n < List.length content /\
     @ReadPsddFile Lexact rd_log log0_log (firstn n content) 0 (new_mgr (Leaf 1%N)) = Ok (Some j, m') /\ @Rep Lexact lval (m_heap m') j t' /\
     weight t (fun _ => true) = exp (-3 / 2) /\ weight t' (fun _ => true) = exp (-1)) /\
  (exists (hs : heap Lexact) ud content ud' n j m', let vt := VNode (Leaf 1%N) (Leaf 12%N) in heap_ok vt hs /\ @Rep Lexact lval hs 0 (TLit 12) /\
     @WritePsddToFile Lexact show_log vt hs ud 0 = Ok (content, ud') /\ n < List.length content /\
     @ReadPsddFile Lexact rd_log log0_log (firstn n content) 0 (new_mgr vt) = Ok (Some j, m') /\ @Rep Lexact lval (m_heap m') j (TLit 1)).
Proof. exact (conj cut_parameter cut_literal). Qed.
Print Assumptions C78_psdd_words_refuted.
