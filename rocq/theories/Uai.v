(** Model of src/uai_network.cpp: reading a network in the UAI format.  Words of doubles are read by [rd], which also does
    PsddParameter::CreateFromDecimal; see Text.v for operator>>.  Not modelled: failure to allocate. *)
From Coq Require Import Ascii String.
From Verif Require Import Base Param Text.

(** std::getline.  The stream is what is left and good(); the string keeps its value when the stream is not good. *)
Fixpoint cut_line (s : text) : option (text * text) :=
  match s with
  | [] => None
  | c :: s' => if Ascii.eqb c nl then Some ([], s') else option_map (fun x => (c :: fst x, snd x)) (cut_line s')
  end.
Definition getline (st : stream) (buf : text) : text * stream :=
  let '(s, good) := st in
  if negb good then (buf, st)
  else match cut_line s with Some (l, r) => (l, (r, true)) | None => (s, ([], false)) end.
(** stoi: throws when there is no number or it is no int *)
Definition stoi (s : text) : res Z :=
  match skip_ws s with
  | [] => Abort
  | c :: s' =>
      let '(neg, body) := if Ascii.eqb c "-" then (true, s') else if Ascii.eqb c "+" then (false, s') else (false, c :: s') in
      let u := fst (take_digits body) in
      let v := Z.of_N (N.of_uint u) in
      let z := if neg then (- v)%Z else v in
      if is_nil u || (z <? -2147483648)%Z || (2147483647 <? z)%Z then Abort else Ok z
  end.
(** string_buf.find("BAYES") != npos, line 32 *)
Fixpoint is_prefix (p s : text) : bool :=
  match p, s with
  | [], _ => true
  | a :: p', b :: s' => Ascii.eqb a b && is_prefix p' s'
  | _ :: _, [] => false
  end.
Fixpoint contains (p s : text) : bool := is_prefix p s || match s with [] => false | _ :: s' => contains p s' end.

Section Uai.
Context {P : pops}.
Variable rd : text -> option P.

(** uai_network.h 29-33; 1 for Markov, 2 for Bayesian networks *)
Record uai := MkU { u_vars : N; u_factors : N; u_type : N; u_scopes : list (list N); u_params : list (list P) }.

(** Lines 51-53; the loop ends when the stream fails.  var_index + 1 is computed in int. *)
Fixpoint read_scope (fuel : nat) (st : stream) : res (list N) :=
  match fuel with
  | O => NoFuel
  | S f =>
      let '(o, st') := ex_i32 st in
      match o, snd st' with
      | Some z, true =>
          if (z =? 2147483647)%Z then UB else
          do vs <- read_scope f st' ;;
          Ok (Z.to_N ((z + 1) mod 18446744073709551616)%Z :: vs)
      | _, _ => Ok []
      end
  end.
(** Lines 45-54, one scope *)
Definition scope_of_line (l : text) : res (list N) := let '(_, st) := ex_i32 (l, true) in read_scope (S (length l)) st.
(** The first loop, lines 44-55 *)
Fixpoint read_scopes (n : nat) (st : stream) (buf : text) : res (list (list N) * (text * stream)) :=
  match n with
  | O => Ok ([], (buf, st))
  | S n' =>
      let '(l, st1) := getline st buf in
      do vs <- scope_of_line l ;;
      do (rest, x) <- read_scopes n' st1 l ;;
      Ok (vs :: rest, x)
  end.
(** while (iss >> cur_entry), lines 67-69 and 74-76 *)
Fixpoint read_entries (fuel : nat) (st : stream) : list P :=
  match fuel with
  | O => []
  | S f => match ex_word (fun w => option_map Some (rd w)) None st with
           | (Some (Some p), st') => p :: read_entries f st'
           | _ => []
           end
  end.
Definition entries (s : text) : list P := read_entries (S (length s)) (s, true).
(** Lines 57-60: the next line that is not empty *)
Fixpoint next_line (fuel : nat) (st : stream) (buf : text) : res (text * stream) :=
  match fuel with
  | O => NoFuel
  | S f => let '(l, st1) := getline st buf in
           match l with [] => next_line f st1 l | _ => Ok (l, st1) end
  end.
(** Lines 70-77: lines are read until there are [n] entries *)
Fixpoint more_entries (fuel : nat) (n : N) (ps : list P) (st : stream) (buf : text) : res (list P * (text * stream)) :=
  if N.ltb (N.of_nat (length ps)) n then
    match fuel with
    | O => NoFuel
    | S f => let '(l, st1) := getline st buf in more_entries f n (ps ++ entries l) st1 l
    end
  else Ok (ps, (buf, st)).
(** Lines 57-80, one table.  entry_cnt is not initialized: it stays indeterminate when the line has blanks only.  reserve throws when the
    number is above the maximal size of a vector of doubles. *)
Definition read_table (fuel : nat) (st : stream) (buf : text) : res (list P * (text * stream)) :=
  do (l, st1) <- next_line fuel st buf ;;
  let '(o, is) := ex_u64 (l, true) in
  do z <- match o with Some z => Ok z | None => UB end ;;
  do _ <- (if (1152921504606846975 <? z)%Z then Abort else Ok tt) ;;
  let ps0 := if snd is then entries (fst is) else [] in
  do (ps, x) <- more_entries fuel (Z.to_N z) ps0 st1 l ;;
  do _ <- assert (N.eqb (N.of_nat (length ps)) (Z.to_N z)) ;;
  do _ <- assert (negb (N.eqb (Z.to_N z) 0)) ;;
  Ok (ps, x).
(** The second loop, lines 56-81 *)
Fixpoint read_tables (fuel n : nat) (st : stream) (buf : text) : res (list (list P)) :=
  match n with
  | O => Ok []
  | S n' =>
      do (ps, x) <- read_table fuel st buf ;;
      do rest <- read_tables fuel n' (snd x) (fst x) ;;
      Ok (ps :: rest)
  end.
(** read_file, lines 24-82; [None]: a file that cannot be opened.  A negative number of factors becomes a number above 2^63: the first loop
    then overflows its counter (or the memory). *)
Definition read_file (fuel : nat) (u : uai) (file : option text) : res uai :=
  let st0 := match file with Some s => (s, true) | None => ([], false) end in
  let '(l1, st1) := getline st0 [] in
  let ty := if contains (str "BAYES") l1 then 2%N else 1%N in
  let '(l2, st2) := getline st1 l1 in
  do nv <- stoi l2 ;;
  let '(l3, st3) := getline st2 l2 in
  let '(l4, st4) := getline st3 l3 in
  do nf <- stoi l4 ;;
  if (nf <? 0)%Z then UB else
  do (scopes, x) <- read_scopes (Z.to_nat nf) st4 l4 ;;
  do tables <- read_tables fuel (Z.to_nat nf) (snd x) (fst x) ;;
  Ok {| u_vars := Z.to_N (nv mod 18446744073709551616)%Z; u_factors := Z.to_N nf; u_type := ty;
        u_scopes := u_scopes u ++ scopes; u_params := u_params u ++ tables |}.
End Uai.
Arguments uai : clear implicits.
