(** Model of src/binary_data.cpp and include/psdd/binary_data.h.  A bitset<MAX_VAR> is a number: bit k is its bit k.  data_, a hash map, is
    a list of pairs (record, count); the functions that iterate over it take the sequence in which the map is traversed as an argument.
    data_size_ and variable_size_ have no initializer: [None] is the indeterminate value of an object declared as a local variable.
    Doubles are real numbers.  Not modelled: failures to write a file, memory allocation. *)
From Coq Require Import Ascii String Reals.
From Verif Require Import Base Text Csv.
Local Open Scope N_scope.

Definition max_var : N := 65536.
Definition u64 : N := 18446744073709551616.
Definition u32 : N := 4294967296.
Definition getv {A} (o : option A) : res A := match o with Some a => Ok a | None => UB end.
(** binary_data.h 29-31 *)
Record bdata := MkData { b_map : list (N * N); b_vars : option N; b_size : option N }.
(** new BinaryData() sets the numbers to zero; BinaryData d; does not *)
Definition new_data : bdata := {| b_map := []; b_vars := Some 0; b_size := Some 0 |}.
Definition local_data : bdata := {| b_map := []; b_vars := None; b_size := None |}.
(** lines 70-74 and 33-37 *)
Fixpoint incr (r : N) (l : list (N * N)) : list (N * N) :=
  match l with
  | [] => [(r, 1)]
  | (r', c) :: l' => if N.eqb r' r then (r', (c + 1) mod u64) :: l' else (r', c) :: incr r l'
  end.
(** data().find(r): the count of record r, 0 if there is none *)
Fixpoint lookup (r : N) (l : list (N * N)) : N :=
  match l with [] => 0 | (r', c) :: l' => if N.eqb r' r then c else lookup r l' end.
(** AddRecord, lines 69-76 *)
Definition AddRecord (b : bdata) (r : N) : res bdata :=
  do n <- getv (b_size b) ;;
  Ok {| b_map := incr r (b_map b); b_vars := b_vars b; b_size := Some ((n + 1) mod u64) |}.
(** set_variable_size, lines 78-80 *)
Definition set_variable_size (b : bdata) (v : N) : bdata := {| b_map := b_map b; b_vars := Some v; b_size := b_size b |}.

(** atoi; a number that is no int is undefined behaviour *)
Definition atoi (s : text) : res Z :=
  match skip_ws s with
  | [] => Ok 0%Z
  | c :: s' =>
      let '(neg, body) := if Ascii.eqb c "-" then (true, s') else if Ascii.eqb c "+" then (false, s') else (false, c :: s') in
      let v := Z.of_N (N.of_uint (fst (take_digits body))) in
      let z := if neg then (- v)%Z else v in
      if (z <? -2147483648)%Z || (2147483647 <? z)%Z then UB else Ok z
  end.
(** Lines 25-32; bitset::set throws when the position is not below MAX_VAR.  [i]: the index of the first field *)
Fixpoint row_bits (i : N) (fs : list text) (r : N) : res N :=
  match fs with
  | [] => Ok r
  | f :: fs' =>
      do z <- atoi f ;;
      if Z.eqb z 0 then row_bits (i + 1) fs' r
      else if N.ltb (i + 1) max_var then row_bits (i + 1) fs' (N.setbit r (i + 1)) else Abort
  end.
(** The body of the loop, lines 24-44 *)
Definition read_row (b : bdata) (row : list text) : res bdata :=
  do r <- row_bits 0 row 0 ;;
  do n <- getv (b_size b) ;;
  do v <- getv (b_vars b) ;;
  do _ <- assert (N.eqb v 0 || N.eqb v (lenN row mod u32)) ;;
  Ok {| b_map := incr r (b_map b); b_vars := Some (if N.eqb v 0 then lenN row mod u32 else v); b_size := Some ((n + 1) mod u64) |}.
Fixpoint read_rows (fuel : nat) (p : parser) (b : bdata) : res bdata :=
  match fuel with
  | O => NoFuel
  | S f => do (r, p1) <- GetRow p ;;
           match r with
           | None => Ok b
           | Some row => do b1 <- read_row b row ;; read_rows f p1 b1
           end
  end.
(** ReadFile, lines 14-47; [None]: a file that cannot be opened (CsvParser_new never returns NULL) *)
Definition ReadFile (b : bdata) (file : option text) : res bdata :=
  let p := new_parser (match file with Some s => SFile s | None => SMissing end) comma false in
  read_rows (match file with Some s => length s + 2 | None => 1 end) p {| b_map := b_map b; b_vars := Some 0; b_size := Some 0 |}.

(** One line, lines 54-59: pop_back of an empty string and bitset::operator[] outside the bitset are undefined *)
Definition show_bit (b : bool) : ascii := if b then "1"%char else "0"%char.
Fixpoint bits_from (r k : N) (n : nat) : list bool :=
  match n with O => [] | S n' => N.testbit r k :: bits_from r (k + 1) n' end.
Definition write_line (r v : N) : res text :=
  if N.eqb v 0 || N.leb max_var v then UB
  else Ok (removelast (flat_map (fun b => [show_bit b; comma]) (bits_from r 1 (N.to_nat v))) ++ [nl]).
(** WriteFile, lines 48-63: what is written; [it]: data_ in the order of iteration; j is an int *)
Fixpoint write_records (v : option N) (it : list (N * N)) : res text :=
  match it with
  | [] => Ok []
  | (r, c) :: it' =>
      do ls <- (if N.eqb c 0 then Ok [] else
                if N.ltb int_max c then UB else
                do n <- getv v ;; do l <- write_line r n ;; Ok (concat (repeat l (N.to_nat c)))) ;;
      do rest <- write_records v it' ;;
      Ok (ls ++ rest)
  end.
Definition WriteFile (b : bdata) (it : list (N * N)) : res text := write_records (b_vars b) it.

(** CalculateEntropy, lines 87-94; [None]: not a number, 0/0 *)
Definition CalculateEntropy (b : bdata) (it : list (N * N)) : res (option R) :=
  do n <- getv (b_size b) ;;
  Ok (if N.eqb n 0 then None
      else Some (fold_left (fun e rc => (e + INR (N.to_nat (snd rc)) * (ln (INR (N.to_nat (snd rc))) - ln (INR (N.to_nat n))))%R) it 0%R / INR (N.to_nat n))%R).

(** ** ReadSparseDataJsonFile, lines 96-155, on the parsed document.  Numbers are integers (of 64 bits); the parser of nlohmann::json is
    not modelled; an object is the sequence of its members, ordered by key. *)
Inductive json := JNull | JBool (b : bool) | JNum (z : Z) | JStr (s : text) | JArr (l : list json) | JObj (kv : list (text * json)).
Fixpoint member (k : text) (kv : list (text * json)) : option json :=
  match kv with [] => None | (k', j) :: kv' => if list_eq_dec Ascii.ascii_dec k' k then Some j else member k kv' end.
(** begin() to end(): a value that is neither array nor object nor null is a sequence of one *)
Definition elements (j : json) : list json :=
  match j with JArr l => l | JObj kv => map snd kv | JNull => [] | _ => [j] end.
(** cur_variable <= variable_size, line 132: values of different types are ordered by type, and booleans come before numbers *)
Definition json_le (z : Z) (vs : json) : bool := match vs with JNum w => (z <=? w)%Z | JBool _ | JNull => false | _ => true end.
(** Lines 126-142: [None]: not legal *)
Fixpoint example_bits (vs : json) (l : list json) (r : N) : res (option N) :=
  match l with
  | [] => Ok (Some r)
  | JNum z :: l' =>
      if json_le z vs then
        if (0 <=? z)%Z && (z <? 65536)%Z then example_bits vs l' (N.setbit r (Z.to_N z)) else Abort
      else Ok None
  | _ :: l' => Ok None
  end.
Definition add_example (vs : json) (b : bdata) (ex : json) : res bdata :=
  match ex with
  | JArr l => do o <- example_bits vs l 0 ;; match o with Some r => AddRecord b r | None => Ok b end
  | _ => Ok b
  end.
(** (uint32_t)variable_size, line 115 *)
Definition to_u32 (j : json) : res N :=
  match j with
  | JNum z => Ok (Z.to_N (z mod 4294967296)%Z)
  | JBool b => Ok (if b then 1 else 0)
  | _ => Abort
  end.
(** [None]: nullptr *)
Definition ReadSparseDataJsonFile (doc : json) : res (option bdata) :=
  match doc with
  | JObj kv =>
      match member (str "variable_size") kv, member (str "data") kv with
      | Some vs, Some data =>
          do v <- to_u32 vs ;;
          do b <- foldM (add_example vs) (elements data) (set_variable_size new_data v) ;;
          Ok (Some b)
      | _, _ => Ok None
      end
  | _ => Ok None
  end.
