(** Model of the command lines and of the printed output of the programs psdd_inference (psdd_inference_main.cpp, include/psdd/optionparser.h) and
    uai_compiler (uai_compiler.cpp).  Arguments are the characters before the terminating zero. *)
From Coq Require Import Ascii String.
From Verif Require Import Base Param Vtree Heap Manager Query Sdd Text IO Csv Cnf Uai Pgm VtreeGen Compiler Kahypar.

(** ** The option parser *)
(** option::Arg::None (optionparser.h 889-892) and Arg::Required (psdd_inference_main.cpp 21-26) *)
Inductive checkarg := NoArg | Required.
(** option::Descriptor, optionparser.h 310-418 (without type, which is 0 everywhere, and the help text) *)
Record descriptor := MkD { d_index : nat; d_short : text; d_long : text; d_check : checkarg }.
(** option::Option, optionparser.h 437-478: index of the descriptor and argument *)
Record opt := MkO { o_index : nat; o_arg : option text }.

(** Parser::streq, optionparser.h 1278-1284 *)
Fixpoint streq (s1 s2 : text) : bool :=
  match s1, s2 with
  | [], [] => true
  | [], c :: _ => Ascii.eqb c "="
  | _ :: _, [] => false
  | a :: s1', b :: s2' => if Ascii.eqb a b then streq s1' s2' else false
  end.
(** Parser::instr, optionparser.h 1328-1333, for a character that is not zero *)
Definition instr (c : ascii) (s : text) : bool := existsb (Ascii.eqb c) s.
Definition is_nil {A} (l : list A) : bool := match l with [] => true | _ => false end.
(** The dummy entry for unknown options, optionparser.h 1621-1628 *)
Definition dummy (d : descriptor) : bool := is_nil (d_short d) && is_nil (d_long d).
Definition lookup (usage : list descriptor) (p : descriptor -> bool) : option descriptor :=
  match find p usage with Some d => Some d | None => find dummy usage end.
(** The attached argument of a long option, lines 1592-1599: what follows the first '=' *)
Fixpoint attached (name : text) : option text :=
  match name with [] => None | c :: n => if Ascii.eqb c "=" then Some n else attached n end.
(** Lines 1630-1659 for one option: [None] if the argument is missing; otherwise the stored option and whether it has an argument *)
Definition handle (d : option descriptor) (arg : option text) : option (list opt * bool) :=
  match d with
  | None => Some ([], false)
  | Some d =>
      match d_check d with
      | NoArg => Some ([MkO (d_index d) None], false)
      | Required => match arg with None => None | Some a => Some ([MkO (d_index d) (Some a)], true) end
      end
  end.
(** --name or --name=argument, lines 1563-1600; [next]: the next argument.  The Boolean says that the next argument is used up. *)
Definition long_option (usage : list descriptor) (name : text) (next : option text) : option (list opt * bool) :=
  let a := attached name in
  match handle (lookup usage (fun d => streq (d_long d) name)) (match a with Some _ => a | None => next end) with
  | None => None
  | Some (os, ok) => Some (os, ok && match a with Some _ => false | None => true end)
  end.
(** A group of short options, lines 1602-1617 and 1648 *)
Fixpoint short_options (usage : list descriptor) (group : text) (next : option text) : option (list opt * bool) :=
  match group with
  | [] => Some ([], false)
  | c :: g =>
      match handle (lookup usage (fun d => instr c (d_short d))) (match g with [] => next | _ => Some g end) with
      | None => None
      | Some (os, true) => Some (os, is_nil g)
      | Some (os, false) =>
          match short_options usage g next with None => None | Some (os', used) => Some (os ++ os', used) end
      end
  end.
(** Parser::workhorse, lines 1502-1681, for gnu = false, single_minus_longopt = false and min_abbr_len = 0, which both programs use: [None] if it
    returns false; otherwise the options and the arguments left.  (The limit of 2^31 - 1 options is not modelled.) *)
Fixpoint workhorse (usage : list descriptor) (args : list text) : option (list opt * list text) :=
  let continue (rest : list text) (r : option (list opt * bool)) :=
    match r with
    | None => None
    | Some (os, used) =>
        match (match rest with
               | [] => Some ([], [])
               | _ :: rest' => if used then workhorse usage rest' else workhorse usage rest
               end) with
        | None => None
        | Some (os', files) => Some (os ++ os', files)
        end
    end in
  match args with
  | [] => Some ([], [])
  | param :: rest =>
      match param with
      | m :: c :: name =>
          if Ascii.eqb m "-" then
            if Ascii.eqb c "-" then
              if is_nil name then Some ([], rest) else continue rest (long_option usage name (hd_error rest))
            else continue rest (short_options usage (c :: name) (hd_error rest))
          else Some ([], args)
      | _ => Some ([], args)
      end
  end.
(** options[index], StoreOptionAction::perform, lines 1445-1461: the first option with this index (append puts later ones behind it) *)
Definition chosen (i : nat) (os : list opt) : option opt := find (fun o => Nat.eqb (o_index o) i) os.

(** ** psdd_inference *)
(** psdd_inference_main.cpp 38-51 *)
Definition UNKNOWN := 0.
Definition HELP := 1.
Definition MPE_QUERY := 2.
Definition MAR_QUERY := 3.
Definition CNF_EVID := 4.
Definition usage : list descriptor :=
  [MkD UNKNOWN [] [] NoArg; MkD HELP (str "h") (str "help") NoArg; MkD MPE_QUERY [] (str "mpe_query") NoArg;
   MkD MAR_QUERY [] (str "mar_query") NoArg; MkD CNF_EVID [] (str "cnf_evid") Required; MkD UNKNOWN [] [] NoArg].

(** How a program ends: exit code and standard output *)
Definition ending := (Z * text)%type.
(** The file system as a program sees it: contents by name; [None] for names that cannot be opened *)
Definition files := text -> option text.

Section Main.
Context {P : pops}.
(** [showd]: operator<< of parameter(), the logarithm, as a double (six digits) *)
Variable showd : P -> text.
(** Lines 91-97 *)
Definition show_bit (b : bool) : text := if b then str "1" else str "0".
Definition print_mpe (x : list (N * bool) * P) : text :=
  str "MPE result=" ++ concat (map (fun e => show_N (fst e) ++ str ":" ++ show_bit (snd e) ++ str ",") (fst x)) ++ [nl] ++
  str "MPE pr=" ++ showd (snd x) ++ [nl].
(** Lines 101-107 *)
Definition print_mar (x : list (N * (P * P))) : text :=
  str "MAR result=" ++ concat (map (fun e => show_N (fst e) ++ str ":" ++ showd (fst (snd e)) ++ str "|" ++ showd (snd (snd e)) ++ str ",") x) ++ [nl].
(** Lines 82 and 89-108 *)
Definition print_answer (a : answer) : text :=
  match a with
  | Unsatisfied => str "UNSATISFIED" ++ [nl]
  | Answer mpe mar => match mpe with Some x => print_mpe x | None => [] end ++ match mar with Some x => print_mar x | None => [] end
  end.
(** main, lines 53-113.  [vread name content] is what sdd_vtree_read does with the file: it is external, and so is printUsage ([help]).  [args]: the
    arguments after the program name.  nonOption(i) does not check its index: without files it reads through a null pointer, and with one file
    the name of the vtree is the null pointer, which fopen must not be given.  A CNF file that cannot be opened has no lines. *)
Definition psdd_inference (rd : text -> option P) (log0 : P) (libs : vtree -> sddlib) (dflt : P * P) (help : text)
    (vread : option text -> res vtree) (fs : files) (args : list text) : res ending :=
  match workhorse usage args with
  | None => Ok (1%Z, [])
  | Some (os, names) =>
      match chosen HELP os, args with
      | Some _, _ | None, [] => Ok (0%Z, help)
      | None, _ =>
          do psdd_filename <- get (nth_error names 0) ;;
          do cnf <- match chosen CNF_EVID os with
                    | None => Ok None
                    | Some o => do name <- get (o_arg o) ;; Ok (Some (match fs name with Some c => c | None => [] end))
                    end ;;
          do _ <- match cnf with None => Ok [] | Some c => ReadCnf c end ;;
          do vtree_filename <- get (nth_error names 1) ;;
          do vt <- vread (fs vtree_filename) ;;
          match fs psdd_filename with
          | None => Abort
          | Some psdd =>
              let given i := match chosen i os with Some _ => true | None => false end in
              do (a, _) <- Inference rd log0 libs (given MPE_QUERY) (given MAR_QUERY) dflt psdd cnf vt ;;
              Ok (0%Z, print_answer a)
          end
      end
  end.

(** ** uai_compiler *)
(** sprintf(buffer, "%s...", name), uai_compiler.cpp 67-70, for a buffer of [cap] bytes *)
Definition sprintf (cap : N) (name suffix : text) : res text :=
  if N.leb (lenN name + lenN suffix + 1) cap then Ok (name ++ suffix) else UB.
Definition text_dec (a b : text) : {a = b} + {a <> b} := list_eq_dec ascii_dec a b.
(** Writing a file *)
Definition put (fs : files) (name content : text) : files := fun n => if text_dec n name then Some content else fs n.
(** Lines 34-48 *)
Definition method_of (vread : option text -> res vtree) (fs : files) (method : text) : res vmethod :=
  if text_dec method (str "1") then Ok Hyper
  else if text_dec method (str "4") then Ok MinFill
  else if text_dec method (str "2") then Ok Jointree
  else do t <- vread (fs method) ;; Ok (VtreeFile t).
(** main, uai_compiler.cpp 13-78.  [args]: the arguments after the program name; [vsave]: what sdd_vtree_save writes; [config]: the KaHyPar
    configuration (hypergraph_decomposition_vtree.cpp 15-72).  Files that cannot be written are not modelled, and of the output only the two last
    lines are (the compiler and the constructions of vtrees print before them: [noise]).  The vtree of method "others" is read after
    the UAI file. *)
Definition uai_main (x : externals) (rdu : text -> option P) (show : P -> text) (ud : udN) (fuel : nat) (vread : option text -> res vtree) (vsave : vtree -> text)
    (config help noise : text) (fs : files) (args : list text) : res (ending * files) :=
  match args with
  | uai_fname :: vtree_method :: rest =>
      let working_dir := match rest with [d] => d | _ => str "." end in
      do _ <- read_file rdu fuel fresh_uai (fs uai_fname) ;;
      do method <- method_of vread fs vtree_method ;;
      do fs1 <- match method with
                | Hyper => do c <- config_name working_dir ;; Ok (put fs c config)
                | _ => Ok fs
                end ;;
      do (r, m) <- uai_compiler x rdu show ud fuel method (fs uai_fname) ;;
      let '(content, size, z) := r in
      do psdd_fname <- sprintf 1000 uai_fname (str ".psdd") ;;
      do vtree_fname <- sprintf 1000 uai_fname (str ".vtree") ;;
      Ok ((0%Z, noise ++ str "Final size " ++ show_N (N.of_nat size) ++ [nl] ++ str "Log Partition " ++ showd z ++ [nl]),
          put (put fs1 psdd_fname content) vtree_fname (vsave (m_vt m)))
  | _ => Ok ((1%Z, help), fs)
  end.
End Main.
