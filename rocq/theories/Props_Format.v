(** Property theorem C83: written PSDD files have the format that their comments announce.  [words l]: the parts of a line between single blanks;
    [decimal n w], [integer z w]: w is n (z) in decimal, without leading zeros; [vinorder]: the nodes of a vtree from left to right; [line_says]: what
    the line of a node must say; [spells], [file_means]: which PSDD a file describes (as in C68); [near e a b]: equal up to a factor exp(e). *)
From Coq Require Import Ascii String Reals Lra Permutation.
From Verif Require Import Base Param ParamProofs Vtree VtreeProofs Spec SpecProofs Heap Manager HeapProofs SerProofs RepProofs LoadProofs ReplayProofs
  Text IO IOProofs FixedProofs IOExamples Data Uai NumProofs FileProofs Cut CutLine FormatProofs.

(** Comments, the number of nodes, and one line per node: every reachable node once, children before parents, the root last; the k-th line has id k. *)
Theorem C83_format : forall (P : pops) (show : P -> text), (forall a, Forall plain (show a)) -> (forall a, show a <> []) ->
  forall sroot (hs : heap P) ud root, heap_ok sroot hs -> root < List.length hs ->
  exists content ud' comments count node_lines order,
    WritePsddToFile show sroot hs ud root = Ok (content, ud') /\
    content = unlines (comments ++ count :: node_lines) /\ Forall no_nl (comments ++ count :: node_lines) /\
    Forall (fun l => head_char l = "c"%char) comments /\
    (exists w, words count = [str "psdd"; w] /\ decimal (N.of_nat (List.length node_lines)) w) /\
    NoDup order /\ (forall i, In i order <-> reach hs root i) /\ (exists l, order = l ++ [root]) /\
    List.length node_lines = List.length order /\
    (forall k i nd l, nth_error order k = Some i -> nth_error hs i = Some nd -> nth_error node_lines k = Some l -> line_says show sroot order k nd l).
Proof. exact (fun P show H1 H2 => @format P show H1). Qed.
Print Assumptions C83_format.
(** The texts determine the numbers, and every node of a vtree occurs once from left to right. *)
Theorem C83_unambiguous : (forall n n' w, decimal n w -> decimal n' w -> n = n') /\ (forall z z' w, integer z w -> integer z' w -> z = z') /\
  (forall t, NoDup (vinorder t) /\ forall p, In p (vinorder t) <-> exists u, subtree t p = Some u).
Proof. exact unambiguous. Qed.
Print Assumptions C83_unambiguous.
(** The file describes the PSDD, with the parameters as the reader reads them. *)
Theorem C83_describes : forall (P : pops) (show : P -> text), (forall a, Forall plain (show a)) -> (forall a, show a <> []) ->
  forall (val : P -> R) rd rnd sroot (hs : heap P) ud root q0 t, heap_ok sroot hs -> root < List.length hs -> fits sroot hs ->
  (Z.of_nat (List.length hs) <= 4294967295)%Z ->
  (forall i nd a, reach hs root i -> nth_error hs i = Some nd -> In a (params nd) -> rd (show a) = Some (rnd a)) ->
  vt_of hs root = Some q0 -> Rep (vr val rnd) hs root t ->
  exists content ud' cs n its k e, WritePsddToFile show sroot hs ud root = Ok (content, ud') /\
    Forall2 (spells rd) (lines content) (cs ++ Count n :: its) /\ Forall (eq Comment) cs /\ n = Z.of_nat (List.length its) /\
    file_means val sroot [] its ((k, (q0, t)) :: e).
Proof. exact @describes. Qed.
Print Assumptions C83_describes.
(** The text of a parameter: "-inf" for the logarithm of zero; otherwise six decimals of the logarithm, the nearest such number. *)
Theorem C83_parameter : forall a : Lexact, match a with
  | lz => show_log a = str "-inf"
  | lf r => exists sg A B, show_log a = sign_text sg ++ numeral A ++ "."%char :: numeral B /\ is_digits A /\ is_digits B /\ A <> [] /\
      (hd_error A = Some 0%N -> A = [0%N]) /\ List.length B = 6 /\ (sg = Minus <-> (r < 0)%R) /\ sg <> Plus /\
      (Rabs (IZR (signed sg (value (A ++ B))) / 1000000 - r) <= / 2000000)%R
  end.
Proof. intros [|r]; [reflexivity|apply fixed6_format]. Qed.
Print Assumptions C83_parameter.
(** A reader that knows "-inf" gets the PSDD back, also with zero parameters (which ReadPsddFile does not, C35). *)
Theorem C83_other_reader : forall sroot (hs : heap Lexact) ud root q0 s t, heap_ok sroot hs -> fits sroot hs -> (Z.of_nat (List.length hs) <= 4294967295)%Z ->
  vt_of hs root = Some q0 -> subtree sroot q0 = Some s -> @Rep Lexact lval hs root t ->
  exists content ud' cs n its k t' e, @WritePsddToFile Lexact show_log sroot hs ud root = Ok (content, ud') /\
    Forall2 (@spells Lexact rd_inf) (lines content) (cs ++ Count n :: its) /\ Forall (eq Comment) cs /\ n = Z.of_nat (List.length its) /\
    @file_means Lexact lval sroot [] its ((k, (q0, t')) :: e) /\
    (forall x, base t' x = base t x) /\ (forall x, near (INR (vsize s) / 2000000) (weight t x) (weight t' x)) /\ (deterministic t -> deterministic t').
Proof. exact other_reader. Qed.
Print Assumptions C83_other_reader.
Definition fmt_vt : vtree := VNode (VNode (Leaf 12%N) (Leaf 7%N)) (Leaf 3%N).
Definition fmt_hs : heap Lexact :=
  [@MkN Lexact [false; false] 0%N (@BLit Lexact (-12)%Z); @MkN Lexact [true; false] 0%N (@BTop Lexact 7%N lz (lf 0)); @MkN Lexact [true] 0%N (@BLit Lexact 3%Z);
   @MkN Lexact [false] 0%N (@BDec Lexact [MkE 0 1 (lf 0 : Lexact)]); @MkN Lexact [] 0%N (@BDec Lexact [MkE 3 2 (lf 0 : Lexact)])].
Example C83_nonvacuous : heap_ok fmt_vt fmt_hs /\ fits fmt_vt fmt_hs /\ vt_of fmt_hs 4 = Some [] /\ subtree fmt_vt [] = Some fmt_vt /\
  @Rep Lexact lval fmt_hs 4 (TDec [(TDec [(TLit (-12), TTop 7 (lval lz) (lval (lf 0)), lval (lf 0))], TLit 3, lval (lf 0))]) /\
  vinorder fmt_vt = [[false; false]; [false]; [true; false]; []; [true]] /\
  exists ud', @WritePsddToFile Lexact show_log fmt_vt fmt_hs (fun _ => 0%N) 4 = Ok (unlines (header ++ [str "psdd 5"; "T"%char :: str " 0 2 7" ++ sp (show_log (lf 0)) ++ sp (str "-inf"); str "L 1 0 -12"; str "L 2 4 3";
    "D"%char :: str " 3 1 1 1 0" ++ sp (show_log (lf 0)); "D"%char :: str " 4 3 1 3 2" ++ sp (show_log (lf 0))]), ud').
Proof.
  split.
  { intros i nd E. destruct i as [|[|[|[|[|i]]]]]; [..|destruct i; discriminate E]; injection E as <-; [reflexivity|reflexivity|reflexivity| |];
      (split; [discriminate|]; split; [eexists _, _; reflexivity|]; constructor; [|constructor]; cbn; repeat split; lia). }
  split.
  { split; [cbn; lia|cbn; lia| |].
    - intros v H. change (In v [12; 7; 3]%N) in H. destruct H as [<-|[<-|[<-|[]]]]; lia.
    - intros i nd es E Eb. destruct i as [|[|[|[|[|i]]]]]; [..|destruct i; discriminate E]; injection E as <-; try discriminate Eb; injection Eb as <-; cbn; lia. }
  split; [reflexivity|]. split; [reflexivity|]. split.
  { eapply (@Rep_dec Lexact lval); [reflexivity|reflexivity|]. constructor; [|constructor]. cbn [tp ts tw fst snd e_prime e_sub e_param]. split; [|split; [|reflexivity]].
    - eapply (@Rep_dec Lexact lval); [reflexivity|reflexivity|]. constructor; [|constructor]. cbn [tp ts tw fst snd e_prime e_sub e_param]. split; [|split; [|reflexivity]].
      + eapply (@Rep_lit Lexact lval); reflexivity.
      + eapply (@Rep_top Lexact lval); reflexivity.
    - eapply (@Rep_lit Lexact lval); reflexivity. }
  split; [reflexivity|].
  replace ("D"%char :: str " 3 1 1 1 0" ++ sp (show_log (lf 0))) with ("D"%char :: str " 3 1 1 1 0" ++ sp (show_log (lf 0)) ++ []) by (rewrite app_nil_r; reflexivity).
  replace ("D"%char :: str " 4 3 1 3 2" ++ sp (show_log (lf 0))) with ("D"%char :: str " 4 3 1 3 2" ++ sp (show_log (lf 0)) ++ []) by (rewrite app_nil_r; reflexivity).
  eexists. reflexivity.
Qed.
Example C83_nonvacuous_reader : (forall i nd a, reach fmt_hs 4 i -> nth_error fmt_hs i = Some nd -> In a (params nd) -> rd_inf (show_log a) = Some (rnd_log a)) /\ show_log (lf (-3 / 2)) = str "-1.500000" /\
  decimal 12 (str "12") /\ integer (-12) (str "-12").
Proof.
  split; [intros; apply rd_inf_show|]. split.
  { unfold show_log. cbn [lx show_xr]. unfold fixed6. rewrite Rabs_left by lra. replace (- (-3 / 2) * 1000000)%R with (IZR 1500000) by lra. rewrite nearest_Z.
    destruct (Rlt_dec _ _); [|lra]. reflexivity. }
  split; [exact (show_N_decimal 12)|exact (show_Z_integer (-12))].
Qed.
