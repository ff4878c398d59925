(** Model of PgmCompiler's set-up (pgm_compiler.cpp 420-492) and of the program uai_compiler (uai_compiler.cpp). *)
From Coq Require Import Ascii String.
From Verif Require Import Base Param Vtree Heap Manager Text IO Pgm Uai VtreeGen.

(** The external libraries, iteration orders and std::sort of one run *)
Record externals := MkX {
  x_begin : path -> graph -> N;                                    (** min-fill: first key of a map *)
  x_ordering : nat -> list (list N) -> list N;                     (** min-fill: htd's elimination order *)
  x_decomposition : nat -> list (list N) -> dtree;                 (** join tree: htd's tree decomposition *)
  x_sets : path -> nat -> list N -> list N;                        (** hypergraph: iteration orders *)
  x_part : path -> list (list N) -> nat -> bool;                   (** hypergraph: KaHyPar's partitions *)
  x_ords : nat -> nat -> list N -> list N;                         (** compile_factor: iteration orders *)
  x_srt : (nat -> nat) -> list nat -> list nat;                    (** std::sort in compile_network_dc *)
}.
(** uai_compiler.cpp 36-48: the modes, or the name of a vtree file ([t] is what sdd_vtree_read makes of it) *)
Inductive vmethod := Hyper | Jointree | MinFill | VtreeFile (t : vtree).

Section Compiler.
Context {P : pops}.
(** The vtree made by init_psdd_manager, pgm_compiler.cpp 427-484, or read by init_psdd_manager_from_vtree, 420-425.  (The bound for Hyper
    is enough unless KaHyPar leaves a block empty.) *)
Definition make_vtree (x : externals) (method : vmethod) (u : uai P) : res vtree :=
  match method with
  | Jointree => JointreeVtree (x_decomposition x (N.to_nat (u_vars u)) (u_scopes u))
  | MinFill => MinFillVtree (x_begin x) (x_ordering x (N.to_nat (u_vars u)) (u_scopes u)) (N.to_nat (u_vars u)) (u_scopes u)
  | Hyper => HypergraphVtree (S (List.length (u_scopes u))) (x_sets x) (x_part x) (u_scopes u)
  | VtreeFile t => Ok t
  end.
(** PsddManager::GetPsddManagerFromVtree, psdd_manager.cpp 460-464 *)
Definition GetPsddManagerFromVtree (t : vtree) : res (mgr P) :=
  do (t', _) <- CopyVtree (fun _ => None) [] t ;;
  Ok (new_mgr t').
(** factor_scopes()[i] and params()[i] for i < factor_size() *)
Definition network_of (u : uai P) : network P := map (fun x => MkF (fst x) (snd x)) (combine (u_scopes u) (u_params u)).
Definition fresh_uai : uai P := {| u_vars := 0; u_factors := 0; u_type := 0; u_scopes := []; u_params := [] |}.
(** main, uai_compiler.cpp 57-77: the content of the PSDD file, the number of nodes and the partition function printed, and the final
    state (whose vtree is saved).  [rdu] reads the entries of tables, [show] writes parameters, [ud] is user_data before writing.
    (The buffers of 1000 characters for the file names and the messages are not modelled; the second printed line shows the
    logarithm.) *)
Definition uai_compiler (x : externals) (rdu : text -> option P) (show : P -> text) (ud : udN) (fuel : nat) (method : vmethod) (file : option text) :
    res (text * nat * P * mgr P) :=
  do u <- read_file rdu fuel fresh_uai file ;;
  do t <- make_vtree x method u ;;
  do m0 <- GetPsddManagerFromVtree t ;;
  do (r, m) <- compile_network_dc (x_ords x) (x_srt x) 100 (network_of u) m0 ;;
  do i <- get (fst r) ;;
  do (content, _) <- WritePsddToFile show (m_vt m) (m_heap m) ud i ;;
  do ser <- SerializePsddNodes (m_heap m) [i] ;;
  Ok (content, List.length ser, snd r, m).
End Compiler.
