(** Model of src/cnf.cpp (CNF formulas: reading DIMACS files, compiling to a PSDD) and of psdd_inference_main.cpp. *)
From Coq Require Import Ascii String.
From Verif Require Import Base Param Vtree Heap Manager Query Sdd Text IO.

(** ** libsdd as an abstract state machine (binary, external).  [L_nodes s] is what the accessors of SddNode show of the nodes of the
    manager in state [s] (sdd_node_is_..., sdd_node_elements, ...); [L_topo] is sdd_topological_sort.  Its meaning is stated in
    CnfProofs ([lib_ok]) and used as a hypothesis. *)
Record sddlib := MkLib {
  L_state : Type;
  L_new : L_state;                                        (* sdd_manager_new(vtree) *)
  L_true : L_state -> nat;                                (* sdd_manager_true *)
  L_false : L_state -> nat;                               (* sdd_manager_false *)
  L_lit : Z -> L_state -> nat * L_state;                  (* sdd_manager_literal *)
  L_and : nat -> nat -> L_state -> nat * L_state;         (* sdd_conjoin *)
  L_or : nat -> nat -> L_state -> nat * L_state;          (* sdd_disjoin *)
  L_nodes : L_state -> sdd;
  L_topo : L_state -> nat -> list nat
}.

(** ** Reading, cnf.cpp 43-65 *)
(** SddLiteral is long *)
Definition ex_i64 := ex_int (-9223372036854775808) 9223372036854775807.
(** while (ss >> token), cnf.cpp 56-61.  Every round consumes a character: fuel is the length of the line plus one. *)
Fixpoint read_clause (fuel : nat) (st : stream) : res (list Z) :=
  match fuel with
  | O => NoFuel
  | S f =>
      let '(z, st1) := ex_i64 st in
      if snd st1 then
        do z' <- get z ;;
        if Z.eqb z' 0 then Ok [] else do rest <- read_clause f st1 ;; Ok (z' :: rest)
      else Ok []
  end.
(** One line, cnf.cpp 47-62 *)
Definition read_cnf_line (line : text) : res (list (list Z)) :=
  if Ascii.eqb (head_char line) "p" then Ok []
  else if Ascii.eqb (head_char line) "c" then Ok []
  else do c <- read_clause (S (List.length line)) (line, true) ;; Ok [c].
(** CNF(filename), cnf.cpp 43-65.  (A file that cannot be opened has no lines.) *)
Definition ReadCnf (content : text) : res (list (list Z)) :=
  do cs <- mapM read_cnf_line (lines content) ;; Ok (concat cs).

(** ** Compiling *)
Section Compile.
Context (lib : sddlib).
(** One literal of a clause, cnf.cpp 25-37; dereferencing the end iterator of an unordered_map is UB *)
Definition clause_step (vm : N -> option N) (st : nat * L_state lib) (l : Z) : res (nat * L_state lib) :=
  let '(acc, s) := st in
  if Z.ltb l 0 then
    do w <- get (vm (Z.to_N (- l))) ;;
    let '(n, s1) := L_lit lib (- Z.of_N w)%Z s in
    Ok (L_or lib n acc s1)
  else
    do w <- get (vm (Z.to_N l)) ;;
    let '(n, s1) := L_lit lib (Z.of_N w) s in
    Ok (L_or lib n acc s1).
(** ConstructSddFromCnf, cnf.cpp 18-41 *)
Definition cnf_step (vm : N -> option N) (st : nat * L_state lib) (c : list Z) : res (nat * L_state lib) :=
  let '(total, s) := st in
  do (cn, s1) <- foldM (clause_step vm) c (L_false lib s, s) ;;
  Ok (L_and lib total cn s1).
Definition ConstructSddFromCnf (cs : list (list Z)) (vm : N -> option N) (s : L_state lib) : res (nat * L_state lib) :=
  foldM (cnf_step vm) cs (L_true lib s, s).
End Compile.

(** psdd_variable_to_sdd_variable, cnf.cpp 154-165: the variables are numbered from 1 in the order of VariablesUnderVtree.
    (sdd_variable_to_psdd_variable is never used.) *)
Fixpoint number (k : N) (vs : list N) : list (N * N) :=
  match vs with [] => [] | v :: vs' => (v, k) :: number (k + 1) vs' end.
Section Main.
Context {P : pops}.
(** CNF::Compile, cnf.cpp 153-177.  [libs t] is the library working on vtree [t]. *)
Definition Compile (libs : vtree -> sddlib) (cs : list (list Z)) (flag : N) (m : mgr P) : res (option nat * mgr P) :=
  do vs <- VariablesUnderVtree [] (m_vt m) ;;
  let vm v := Nlookup v (number 1 vs) in
  do (svt, _) <- CopyVtreeMap vm (fun _ => None) [] (m_vt m) ;;
  let lib := libs svt in
  do (r, s) <- ConstructSddFromCnf lib cs vm (L_new lib) ;;
  do (x, m1) <- ConvertSddToPsdd (L_nodes lib s) (L_topo lib s r) r svt flag (fun _ => None) m ;;
  Ok (fst x, m1).

(** ** psdd_inference_main.cpp 65-113.  The options are given as Booleans; the numbers are returned instead of printed. *)
Inductive answer :=
| Unsatisfied
| Answer (mpe : option (list (N * bool) * P)) (mar : option (list (N * (P * P)))).
(** std::sort *)
Fixpoint insert_N (v : N) (l : list N) : list N :=
  match l with [] => [v] | w :: l' => if N.leb v w then v :: l else w :: insert_N v l' end.
Definition sort_N (l : list N) : list N := fold_right insert_N [] l.
(** The answers for a PSDD, 85-108: mar_result[variable] of a missing variable default-constructs a pair *)
Definition answers (mpe mar : bool) (dflt : P * P) (r : nat) (m : mgr P) : res answer :=
  do vs <- VariablesUnderVtree [] (m_vt m) ;;
  let vs := sort_N vs in
  do ser <- SerializePsddNodes (m_heap m) [r] ;;
  do a <- (if mpe then do x <- GetMPESolution (vsize (m_vt m)) (m_heap m) ser (fun _ => None) ;;
             Ok (Some (map (fun v => (v, fst (fst x) v)) vs, snd (fst x)))
           else Ok None) ;;
  do b <- (if mar then do mg <- GetMarginals (m_heap m) ser ;;
             Ok (Some (map (fun v => (v, match mg v with Some p => p | None => dflt end)) vs))
           else Ok None) ;;
  Ok (Answer a b).
(** main, 65-108: the vtree is given; [cnf]: the content of the evidence file; Multiply dereferences its arguments *)
Definition Inference (rd : text -> option P) (log0 : P) (libs : vtree -> sddlib) (mpe mar : bool) (dflt : P * P)
  (psdd : text) (cnf : option text) (vt : vtree) : res (answer * mgr P) :=
  do cs <- match cnf with None => Ok None | Some c => do cs <- ReadCnf c ;; Ok (Some cs) end ;;
  do (r, m1) <- ReadPsddFile rd log0 psdd 0 (new_mgr vt) ;;
  do (r2, m2) <-
    match cs with
    | None => Ok (r, m1)
    | Some cs =>
        do (evid, m2) <- Compile libs cs 0 m1 ;;
        do e <- get evid ;;
        do r' <- get r ;;
        do (x, m3) <- Multiply m2 e r' 0 ;;
        Ok (fst x, m3)
    end ;;
  match r2 with
  | None => Ok (Unsatisfied, m2)
  | Some i => do a <- answers mpe mar dflt i m2 ;; Ok (a, m2)
  end.
End Main.
