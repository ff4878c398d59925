(** Property theorems C85-C86 (the programs psdd_inference and uai_compiler from their command lines to what they print and write).
    [disk]: the contents of files by name; [vread]: what sdd_vtree_read makes of the content of a file (or of a file that cannot be opened); [vsave]: what
    sdd_vtree_save writes; [line items]: the words of options ([item], [words]); [item_ok]: other options are not among the documented ones;
    [ends tail names]: the first word of [tail] is not an option, or is "--", and [names] are the file names; [wants_mpe], [wants_mar], [wants_help],
    [evidence]: what the options ask for (the first evidence file); [means vread disk w method]: the second argument of uai_compiler; [file_holds],
    [answers_for]: as in C37; [uai_text], [externals_ok], [method_ok], [plain_factor], [network_value], [fits]: as in C53; [as_printed]: the answer with
    the numbers as they are printed. *)
From Coq Require Import Ascii String Reals Lra.
From Verif Require Import Base Param ParamProofs Vtree VtreeProofs Spec SpecProofs Heap Manager HeapProofs HeapExamples QueryExamples Query Text IO IOProofs Csv Sdd Cnf CnfProofs
  RefLib InferProofs CnfExamples Pgm PgmLayout PgmProofs PgmNet PgmExamples Uai UaiProofs UaiExamples VtreeGen VtreeGenProofs JointreeProofs HyperProofs Compiler CompilerProofs
  CompilerExamples Kahypar FixedProofs Args ArgsProofs ProgProofs PipeProofs.
Local Open Scope R_scope.

(** C85: a PSDD file and a vtree file after options *)
Theorem C85_command_line_partial : forall (P : pops) showd rd log0 libs (dflt : P * P) help vread disk items tail psdd_name vtree_name rest psdd vt,
  Forall item_ok items -> wants_help items = false -> ends tail (psdd_name :: vtree_name :: rest) ->
  disk psdd_name = Some psdd -> vread (disk vtree_name) = Ok vt ->
  psdd_inference showd rd log0 libs dflt help vread disk (line items ++ tail) =
    (do (a, _) <- Inference rd log0 libs (wants_mpe items) (wants_mar items) dflt psdd
       (option_map (fun name => match disk name with Some c => c | None => [] end) (evidence items)) vt ;; Ok (0%Z, print_answer showd a)).
Proof. exact @main_files. Qed.
Print Assumptions C85_command_line_partial.
(** ... prints the answers for the distribution of the PSDD, conditioned on the evidence *)
Theorem C85_answers_partial : forall P val, pexact P val -> forall showd rd log0 libs (dflt : P * P) help vread disk items tail psdd_name vtree_name rest psdd vt t,
  Forall item_ok items -> wants_help items = false -> ends tail (psdd_name :: vtree_name :: rest) -> disk psdd_name = Some psdd -> vread (disk vtree_name) = Ok vt ->
  file_holds val rd log0 psdd vt t -> positive t -> normalized t -> deterministic t ->
  let main := psdd_inference showd rd log0 libs dflt help vread disk in
  (evidence items = None -> exists a, main (line items ++ tail) = Ok (0%Z, print_answer showd a) /\
     answers_for val vt (weight t) 1 (wants_mpe items) (wants_mar items) a) /\
  (libs_ok libs -> (forall v, In v (leaves vt) -> v <> 0%N) ->
   forall f cnf cs, evidence items = Some f -> disk f = Some cnf -> ReadCnf cnf = Ok cs -> in_vtree vt cs ->
   let g x := if cnf_sat cs x then weight t x else 0 in
   ((exists x, cnf_sat cs x = true) -> (forall x, g x = 0) -> main (line items ++ tail) = Ok (0%Z, str "UNSATISFIED" ++ [nl])) /\
   ((exists x, 0 < g x) -> exists a z, main (line items ++ tail) = Ok (0%Z, print_answer showd a) /\ 0 < z /\ (forall x0, z = sum_over (leaves vt) g x0) /\
      answers_for val vt g z (wants_mpe items) (wants_mar items) a) /\
   ((forall x, cnf_sat cs x = false) -> main (line items ++ tail) = UB)).
Proof. exact @main_answers. Qed.
Print Assumptions C85_answers_partial.
(** What is printed determines the answer (the variables, the bits and the printed numbers) *)
Theorem C85_output : forall (P : pops) (showd : P -> text), (forall p, quiet (showd p)) ->
  forall a b, print_answer showd a = print_answer showd b -> as_printed showd a = as_printed showd b.
Proof. exact @print_inj. Qed.
Print Assumptions C85_output.
(** Every command line has this form, or lacks the name of the evidence file at its end *)
Theorem C85_every_line : forall args, exists items, Forall item_ok items /\
  ((exists tail names, ends tail names /\ args = line items ++ tail) \/ args = line items ++ [str "--cnf_evid"]).
Proof. exact every_line. Qed.
Print Assumptions C85_every_line.
Theorem C85_missing_argument : forall (P : pops) showd rd log0 libs (dflt : P * P) help vread disk items, Forall item_ok items ->
  psdd_inference showd rd log0 libs dflt help vread disk (line items ++ [str "--cnf_evid"]) = Ok (1%Z, []).
Proof. exact @main_missing_argument. Qed.
Print Assumptions C85_missing_argument.
Theorem C85_help : forall (P : pops) showd rd log0 libs (dflt : P * P) help vread disk items tail names, Forall item_ok items -> ends tail names ->
  wants_help items = true \/ line items ++ tail = [] -> psdd_inference showd rd log0 libs dflt help vread disk (line items ++ tail) = Ok (0%Z, help).
Proof. exact @main_help. Qed.
Print Assumptions C85_help.
(** A PSDD file that cannot be opened ends the program *)
Theorem C85_no_psdd : forall (P : pops) showd rd log0 libs (dflt : P * P) help vread disk items tail psdd_name vtree_name rest vt, Forall item_ok items -> wants_help items = false ->
  ends tail (psdd_name :: vtree_name :: rest) -> disk psdd_name = None -> vread (disk vtree_name) = Ok vt ->
  (forall f, evidence items = Some f -> exists cs, ReadCnf (match disk f with Some c => c | None => [] end) = Ok cs) ->
  psdd_inference showd rd log0 libs dflt help vread disk (line items ++ tail) = Abort.
Proof. exact @main_no_psdd. Qed.
Print Assumptions C85_no_psdd.
(** File names are missing: undefined behaviour *)
Theorem C85_few_refuted : forall (P : pops) showd rd log0 libs (dflt : P * P) help vread disk items tail names, Forall item_ok items -> ends tail names ->
  wants_help items = false -> line items ++ tail <> [] -> (length names < 2)%nat ->
  (forall f, evidence items = Some f -> exists cs, ReadCnf (match disk f with Some c => c | None => [] end) = Ok cs) ->
  psdd_inference showd rd log0 libs dflt help vread disk (line items ++ tail) = UB.
Proof. exact @main_few. Qed.
Print Assumptions C85_few_refuted.
(** Options that the program does not know change nothing *)
Theorem C85_unknown : forall (P : pops) showd rd log0 libs (dflt : P * P) help vread disk items tail psdd_name vtree_name rest psdd vt, Forall item_ok items -> wants_help items = false ->
  ends tail (psdd_name :: vtree_name :: rest) -> disk psdd_name = Some psdd -> vread (disk vtree_name) = Ok vt ->
  let main := psdd_inference showd rd log0 libs dflt help vread disk in
  main (line items ++ tail) = main (line (filter known items) ++ tail).
Proof. exact @main_unknown. Qed.
Print Assumptions C85_unknown.
(** With an evidence file that cannot be opened the answers are those without evidence *)
Theorem C85_evidence_file_refuted : forall P val, pexact P val ->
  forall showd rd log0 libs (dflt : P * P) help vread disk items tail psdd_name vtree_name rest psdd vt t f, Forall item_ok items -> wants_help items = false ->
  ends tail (psdd_name :: vtree_name :: rest) -> disk psdd_name = Some psdd -> vread (disk vtree_name) = Ok vt ->
  file_holds val rd log0 psdd vt t -> positive t -> normalized t -> deterministic t -> libs_ok libs -> (forall v, In v (leaves vt) -> v <> 0%N) ->
  (exists x, 0 < weight t x) -> evidence items = Some f -> disk f = None ->
  exists a z, psdd_inference showd rd log0 libs dflt help vread disk (line items ++ tail) = Ok (0%Z, print_answer showd a) /\
    0 < z /\ (forall x0, z = sum_over (leaves vt) (weight t) x0) /\ answers_for val vt (weight t) z (wants_mpe items) (wants_mar items) a.
Proof. exact @main_no_evidence_file. Qed.
Print Assumptions C85_evidence_file_refuted.

(** The PSDD, the evidence and the vtree of C37's example *)
Definition ex_disk : files := put (put (put (fun _ => None) (str "m.psdd") inf_file) (str "m.vtree") (str "vtree")) (str "e.cnf") ev_or.
Definition ex_vread (c : option text) : res vtree := match c with Some _ => Ok ex_vt | None => UB end.
Definition ex_inf := @psdd_inference Qex show_frac rd_pct (q 1 1) ref_lib (q 0 1, q 0 1) (str "usage") ex_vread ex_disk.
Definition mpe_line : text := str "MPE result=1:0,2:0,3:1,4:0," ++ [nl] ++ str "MPE pr=3/11" ++ [nl].
(** Options after the file names are ignored, unknown ones are accepted; in both cases the exit code is 0 and nothing is printed *)
Theorem C85_order_refuted : exists psdd vtree evid : text,
  ex_inf [str "--mpe_query"; str "--cnf_evid"; evid; psdd; vtree] = Ok (0%Z, mpe_line) /\
  ex_inf [psdd; vtree; str "--mpe_query"; str "--cnf_evid"; evid] = Ok (0%Z, []) /\
  ex_inf [str "--mpe"; psdd; vtree] = Ok (0%Z, []).
Proof. exists (str "m.psdd"), (str "m.vtree"), (str "e.cnf"). split; [|split]; vm_compute; reflexivity. Qed.
Print Assumptions C85_order_refuted.
(** Only the first evidence file counts, and --cnf_evid takes the next word even if it is an option *)
Theorem C85_evidence_refuted : exists psdd vtree evid other : text, other <> evid /\
  ex_inf [str "--mpe_query"; str "--cnf_evid"; evid; str "--cnf_evid"; other; psdd; vtree] = ex_inf [str "--mpe_query"; str "--cnf_evid"; evid; psdd; vtree] /\
  ex_inf [str "--cnf_evid"; str "--mpe_query"; psdd; vtree] = Ok (0%Z, []).
Proof. exists (str "m.psdd"), (str "m.vtree"), (str "e.cnf"), (str "x.cnf"). split; [discriminate|]. split; vm_compute; reflexivity. Qed.
Print Assumptions C85_evidence_refuted.
Lemma frac_quiet a : quiet (show_frac a).
Proof.
  assert (forall n c, In c (show_N n) -> c <> nl /\ c <> ","%char /\ c <> "|"%char) as H.
  { intros n c Hc. apply digits_chars in Hc as (k & -> & L). assert (In k [0; 1; 2; 3; 4; 5; 6; 7; 8; 9]%N) as I by (simpl; lia).
    simpl in I. repeat destruct I as [<-|I]; try (repeat split; discriminate). destruct I. }
  intros c Hc. unfold show_frac in Hc. apply in_app_or in Hc as [Hc|[<-|Hc]]; eauto. repeat split; discriminate.
Qed.
Example C85_nonvacuous :
  let items := [Mpe None; Long (str "verbose"); EvidEq (str "e.cnf"); Short (str "x"); Mar (Some (str "yes"))] in
  let tail := [str "--"; str "m.psdd"; str "m.vtree"; str "--help"] in
  Forall item_ok items /\ wants_help items = false /\ ends tail [str "m.psdd"; str "m.vtree"; str "--help"] /\ ex_disk (str "m.psdd") = Some inf_file /\
  ex_vread (ex_disk (str "m.vtree")) = Ok ex_vt /\ evidence items = Some (str "e.cnf") /\ ex_disk (str "e.cnf") = Some ev_or /\
  @file_holds Qex qval rd_pct (q 1 1) inf_file ex_vt inf_t /\ positive inf_t /\ normalized inf_t /\ deterministic inf_t /\ (exists x, 0 < weight inf_t x) /\
  (forall p, quiet (show_frac p)) /\ ex_disk (str "none.cnf") = None /\
  ex_inf (line items ++ tail) = Ok (0%Z, mpe_line ++ str "MAR result=1:6/11|5/11,2:6/11|5/11,3:3/11|8/11,4:1/2|1/2," ++ [nl]).
Proof.
  cbv zeta. split.
  { repeat constructor; try discriminate.
    - intros k [e|] Hk; simpl in Hk; repeat destruct Hk as [<-|Hk]; try discriminate; destruct Hk.
    - exists "x"%char, []. split; [reflexivity|discriminate]. }
  split; [reflexivity|]. split; [constructor|]. split; [reflexivity|]. split; [reflexivity|]. split; [reflexivity|]. split; [reflexivity|].
  split; [exact inf_holds|]. split; [apply inf_good|]. split; [apply inf_good|]. split; [apply inf_good|]. split.
  { exists (fun _ => false). apply weight_pos_base; [apply inf_good|]. vm_compute. reflexivity. }
  split; [exact frac_quiet|]. split; [reflexivity|]. vm_compute. reflexivity.
Qed.

(** C86: uai_compiler writes the PSDD and the vtree next to the network, the configuration of KaHyPar for method 1, and nothing else *)
Theorem C86_files_partial : forall (P : pops) showd x rdu (show : P -> text) ud fuel vread vsave config help noise disk uai w rest method content size z m,
  means vread disk w method -> uai_compiler x rdu show ud fuel method (disk uai) = Ok (content, size, z, m) ->
  (length uai <= 993)%nat -> (method = Hyper -> ~ In nul (directory rest) /\ (length (directory rest) <= 488)%nat) ->
  exists disk', uai_main showd x rdu show ud fuel vread vsave config help noise disk (uai :: w :: rest) =
      Ok ((0%Z, noise ++ str "Final size " ++ show_N (N.of_nat size) ++ [nl] ++ str "Log Partition " ++ showd z ++ [nl]), disk') /\
    disk' (uai ++ str ".psdd") = Some content /\ disk' (uai ++ str ".vtree") = Some (vsave (m_vt m)) /\
    (method = Hyper -> disk' (directory rest ++ str "/config.ini") = Some config) /\
    forall n, n <> uai ++ str ".psdd" -> n <> uai ++ str ".vtree" -> (method = Hyper -> n <> directory rest ++ str "/config.ini") -> disk' n = disk n.
Proof. exact @uai_main_ok. Qed.
Print Assumptions C86_files_partial.
(** Too few arguments: nothing is written *)
Theorem C86_usage : forall (P : pops) showd x rdu (show : P -> text) ud fuel vread vsave config help noise disk args, (length args < 2)%nat ->
  uai_main showd x rdu show ud fuel vread vsave config help noise disk args = Ok ((1%Z, help), disk).
Proof. exact @uai_main_usage. Qed.
Print Assumptions C86_usage.
(** A name of 994 or more characters: undefined behaviour, although the network is compiled *)
Theorem C86_long_refuted : forall (P : pops) showd x rdu (show : P -> text) ud fuel vread vsave config help noise disk uai w rest method r,
  means vread disk w method -> uai_compiler x rdu show ud fuel method (disk uai) = Ok r -> (994 <= length uai)%nat ->
  uai_main showd x rdu show ud fuel vread vsave config help noise disk (uai :: w :: rest) = UB.
Proof. exact @uai_main_long. Qed.
Print Assumptions C86_long_refuted.
(** The two programs one after the other: the answers are those for the network *)
Theorem C86_programs : forall P val, pexact P val ->
  forall showd x rdu (show : P -> text) ud fuel rd log0 libs (dflt : P * P) vread vsave config help1 help2 noise disk uai w rest method
    l1 l2 l3 l4 scs tbs ty nv scopes tables s,
  uai_text rdu l1 l2 l3 l4 scs tbs ty nv scopes tables -> feeds (l1 :: l2 :: l3 :: l4 :: scs ++ concat tbs) (s, true) -> (length (concat tbs) <= fuel)%nat ->
  externals_ok x (N.to_nat nv) scopes -> method_ok method scopes -> (2 <= length scopes)%nat ->
  let fs := map (fun y => MkF (fst y) (snd y)) (combine scopes tables) in
  Forall (plain_factor (N.to_nat nv)) fs -> (exists y, network_value val fs y <> 0) ->
  (forall a, Forall plain (show a)) -> (forall a, show a <> []) -> (forall a, rd (show a) = Some a) -> libs_ok libs ->
  disk uai = Some s -> means vread disk w method -> (length uai <= 993)%nat -> (forall u, uai <> "-"%char :: u) ->
  (method = Hyper -> ~ In nul (directory rest) /\ (length (directory rest) <= 488)%nat) ->
  exists size z (m : mgr P) disk',
    uai_main showd x rdu show ud fuel vread vsave config help1 noise disk (uai :: w :: rest) =
      Ok ((0%Z, noise ++ str "Final size " ++ show_N (N.of_nat size) ++ [nl] ++ str "Log Partition " ++ showd z ++ [nl]), disk') /\
    (forall y, val z = sum_over (leaves (m_vt m)) (network_value val fs) y) /\
    disk' (uai ++ str ".vtree") = Some (vsave (m_vt m)) /\
    (forall n, n <> uai ++ str ".psdd" -> n <> uai ++ str ".vtree" -> (method = Hyper -> n <> directory rest ++ str "/config.ini") -> disk' n = disk n) /\
    (fits (m_vt m) (m_heap m) -> vread (Some (vsave (m_vt m))) = Ok (m_vt m) -> forall items, Forall item_ok items -> wants_help items = false ->
      let run := psdd_inference showd rd log0 libs dflt help2 vread disk' (line items ++ [uai ++ str ".psdd"; uai ++ str ".vtree"]) in
      (evidence items = None -> exists a, run = Ok (0%Z, print_answer showd a) /\
         answers_for val (m_vt m) (network_value val fs) (val z) (wants_mpe items) (wants_mar items) a) /\
      forall f cnf cs, evidence items = Some f -> disk' f = Some cnf -> ReadCnf cnf = Ok cs -> in_vtree (m_vt m) cs ->
        let g y := if cnf_sat cs y then network_value val fs y else 0 in
        ((exists y, cnf_sat cs y = true) -> (forall y, g y = 0) -> run = Ok (0%Z, str "UNSATISFIED" ++ [nl])) /\
        ((exists y, g y <> 0) -> exists a ze, run = Ok (0%Z, print_answer showd a) /\ 0 < ze /\ (forall y, ze = sum_over (leaves (m_vt m)) g y) /\
           answers_for val (m_vt m) g ze (wants_mpe items) (wants_mar items) a)).
Proof. exact @programs. Qed.
Print Assumptions C86_programs.

(** The network of C53's example *)
Definition net_disk : files := put (put (fun _ => None) (str "net.uai") uai_file) (str "./config.ini") uai_file.
Definition net_vread (c : option text) : res vtree := match c with Some _ => Ok (VNode (Leaf 1) (Leaf 2))%N | None => UB end.
Definition net_main := @uai_main Qex show_frac ex_externals rd_pct show_frac (fun _ => 0%N) 9 net_vread (fun _ => str "vtree") (str "config") (str "usage") [] net_disk.
(** The third argument is ignored when there is a fourth one, and with method 1 a network with the name of the configuration is overwritten *)
Theorem C86_directory_refuted : exists uai d e : text,
  (exists out disk', net_main [uai; str "1"; d] = Ok (out, disk') /\ disk' (d ++ str "/config.ini") = Some (str "config") /\ disk' (str "./config.ini") = Some uai_file) /\
  (exists out disk', net_main [uai; str "1"; d; e] = Ok (out, disk') /\ disk' (d ++ str "/config.ini") = None /\ disk' (str "./config.ini") = Some (str "config")).
Proof.
  exists (str "net.uai"), (str "/tmp"), (str "-v"). split.
  - destruct (net_main [str "net.uai"; str "1"; str "/tmp"]) as [[out disk']| | |] eqn:E; vm_compute in E; try discriminate.
    exists out, disk'. split; [reflexivity|]. injection E as <- <-. split; reflexivity.
  - destruct (net_main [str "net.uai"; str "1"; str "/tmp"; str "-v"]) as [[out disk']| | |] eqn:E; vm_compute in E; try discriminate.
    exists out, disk'. split; [reflexivity|]. injection E as <- <-. split; reflexivity.
Qed.
Print Assumptions C86_directory_refuted.
Theorem C86_input_refuted : exists uai out disk', net_disk uai = Some uai_file /\ net_main [uai; str "1"] = Ok (out, disk') /\ disk' uai = Some (str "config").
Proof.
  exists (str "./config.ini"). destruct (net_main [str "./config.ini"; str "1"]) as [[out disk']| | |] eqn:E; vm_compute in E; try discriminate.
  exists out, disk'. split; [reflexivity|]. split; [reflexivity|]. injection E as <- <-. reflexivity.
Qed.
Print Assumptions C86_input_refuted.
Example C86_nonvacuous : pexact Qex qval /\ @uai_text Qex rd_pct uai_l1 uai_l2 uai_l3 uai_l2 uai_scs uai_tbs 1 2 uai_scopes uai_tables /\
  feeds (uai_l1 :: uai_l2 :: uai_l3 :: uai_l2 :: uai_scs ++ concat uai_tbs) (uai_file, true) /\
  externals_ok ex_externals (N.to_nat 2) uai_scopes /\ Forall (plain_factor (N.to_nat 2)) uai_fs /\ (exists y, @network_value Qex qval uai_fs y <> 0) /\
  (forall a, Forall plain (show_frac a)) /\ (forall a, show_frac a <> []) /\ (forall a, rd_frac (show_frac a) = Some a) /\ libs_ok ref_lib /\
  net_disk (str "net.uai") = Some uai_file /\ means net_vread net_disk (str "1") Hyper /\ means net_vread net_disk (str "2") Jointree /\
  means net_vread net_disk (str "4") MinFill /\ means net_vread net_disk (str "net.uai") (VtreeFile (VNode (Leaf 1) (Leaf 2))%N) /\
  (do (r, disk') <- net_main [str "net.uai"; str "net.uai"] ;;
   do a <- @psdd_inference Qex show_frac rd_frac (q 0 1) ref_lib (q 0 1, q 0 1) [] net_vread disk'
     (line [Mar None] ++ [str "net.uai" ++ str ".psdd"; str "net.uai" ++ str ".vtree"]) ;; Ok (snd r, a)) =
    Ok (str "Final size 5" ++ [nl] ++ str "Log Partition 14/25" ++ [nl], (0%Z, str "MAR result=1:17/56|39/56,2:5/14|9/14," ++ [nl])).
Proof.
  split; [exact Qex_exact|]. split; [exact uai_ex_text|]. split; [exact uai_ex_feeds|]. split; [exact ex_externals_ok|]. split; [exact uai_plain|].
  split; [exact uai_nonzero|]. split; [exact frac_plain|]. split; [exact frac_nonempty|]. split; [exact frac_read|]. split; [exact ref_libs_ok|].
  split; [reflexivity|]. split; [constructor|]. split; [constructor|]. split; [constructor|].
  split; [constructor; [intros [H|[H|[H|[]]]]; discriminate|reflexivity]|]. vm_compute. reflexivity.
Qed.
(** ... and a name that is too long *)
Definition long_name : text := repeat "a"%char 994.
Example C86_long_witness : @uai_main Qex show_frac ex_externals rd_pct show_frac (fun _ => 0%N) 9 net_vread (fun _ => []) [] [] [] (put net_disk long_name uai_file) [long_name; str "4"] = UB /\
  match @uai_main Qex show_frac ex_externals rd_pct show_frac (fun _ => 0%N) 9 net_vread (fun _ => []) [] [] [] (put net_disk (tl long_name) uai_file) [tl long_name; str "4"] with Ok _ => True | _ => False end.
Proof. split; vm_compute; auto. Qed.
