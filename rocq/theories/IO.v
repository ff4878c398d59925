(** Model of WritePsddToFile (src/psdd_node.cpp 581-637) and PsddManager::ReadPsddFile
    (src/psdd_manager.cpp 579-663): the content of the file as text.
    Not modelled: opening and closing the file (Write ignores a failure to open, Read exits), progress output. *)
From Coq Require Import Ascii String Reals.
From Verif Require Import Base Param Vtree Heap Manager Text.

Section IO.
Context {P : pops}.
(** std::to_string(parameter()) and operator>> into a double followed by CreateFromLog *)
Context (show : P -> text) (rd : text -> option P) (log0 : P).

Definition udN := nat -> N.
Definition set_uN (ud : udN) (i : nat) (x : N) : udN := fun j => if Nat.eqb j i then x else ud j.

(** The comment lines, psdd_node.cpp 583-590 *)
Definition header : list text := map str
  [ "c ids of psdd nodes start at 0";
    "c psdd nodes appear bottom-up, children before parents";
    "c file syntax:";
    "c psdd count-of-psdd-nodes";
    "c L id-of-literal-sdd-node id-of-vtree literal";
    "c T id-of-trueNode-sdd-node id-of-vtree variable log(neg_prob) log(pos_prob)";
    "c D id-of-decomposition-sdd-node id-of-vtree number-of-elements {id-of-prime id-of-sub log(elementProb)}*";
    "c" ]%string.
Definition sp (w : text) : text := blank :: w.
(** One element of a decision node, psdd_node.cpp 620-624 *)
Definition show_elem (ud : udN) (e : elem P) : text :=
  sp (show_N (ud (e_prime e))) ++ sp (show_N (ud (e_sub e))) ++ sp (show (e_param e)).
(** One node, psdd_node.cpp 592-629 *)
Definition show_node (root : vtree) (ud : udN) (k : N) (nd : node P) : text :=
  match n_body nd with
  | BLit l => "L"%char :: sp (show_N k) ++ sp (show_N (N.of_nat (vpos root (n_vt nd)))) ++ sp (show_Z l)
  | BTop v pt pf =>
      "T"%char :: sp (show_N k) ++ sp (show_N (N.of_nat (vpos root (n_vt nd)))) ++ sp (show_N v) ++ sp (show pf) ++ sp (show pt)
  | BDec es =>
      "D"%char :: sp (show_N k) ++ sp (show_N (N.of_nat (vpos root (n_vt nd)))) ++ sp (show_N (N.of_nat (List.length es))) ++
        concat (map (show_elem ud) es)
  end.
Definition write_step (root : vtree) (h : heap P) (st : N * list text * udN) (i : nat) : res (N * list text * udN) :=
  let '(k, ls, ud) := st in
  do nd <- get (nth_error h i) ;;
  Ok ((k + 1)%N, ls ++ [show_node root ud k nd], set_uN ud i k).
(** WritePsddToFile, psdd_node.cpp 581-637.  [root] is the vtree of the manager; the result is the content of the
    file and the user_data afterwards. *)
Definition WritePsddToFile (root : vtree) (h : heap P) (ud : udN) (r : nat) : res (text * udN) :=
  do ser <- SerializePsddNodes h [r] ;;
  do (x, ud1) <- foldM (write_step root h) (rev ser) (0%N, [], ud) ;;
  Ok (unlines (header ++ [str "psdd" ++ sp (show_N (N.of_nat (List.length ser)))] ++ snd x),
      fold_left (fun ud i => set_uN ud i 0%N) ser ud1).

(** ** Reading.  State: construct_cache, root_node, psdd_size (None: not initialised), the manager.
    num_constructed only drives the progress output, which reads psdd_size. *)
Definition rstate : Type := (list (Z * nat) * option nat * option Z * mgr P)%type.

(** Elements of a 'D' line, psdd_manager.cpp 631-646 (element_size as nat) *)
Fixpoint read_elems (n : nat) (cache : list (Z * nat)) (st : stream) : res (list nat * list nat * list P) :=
  match n with
  | O => Ok ([], [], [])
  | S n' =>
      let '(a, st1) := ex_u64 st in
      let '(b, st2) := ex_u64 st1 in
      let '(w, st3) := ex_word rd log0 st2 in
      do a' <- get a ;;
      do i <- (match Zlookup a' cache with Some i => Ok i | None => Abort end) ;;
      do b' <- get b ;;
      do j <- (match Zlookup b' cache with Some j => Ok j | None => Abort end) ;;
      do w' <- get w ;;
      do (x, ws) <- read_elems n' cache st3 ;;
      let '(ps, ss) := x in
      Ok (i :: ps, j :: ss, w' :: ws)
  end.
Definition oeqb (a b : option path) : bool :=
  match a, b with Some p, Some q => path_eqb p q | None, None => true | _, _ => false end.

(** One line, psdd_manager.cpp 593-658 *)
Definition read_line (flag : N) (st : rstate) (line : text) : res rstate :=
  let '(cache, root, psz, m) := st in
  if Ascii.eqb (head_char line) "c" then Ok st
  else if Ascii.eqb (head_char line) "p" then
    do s <- substr 5 line ;;
    Ok (cache, root, match fst (ex_u32 (s, true)) with Some z => Some z | None => psz end, m)
  else
    do (k, i, m1) <-
      (if Ascii.eqb (head_char line) "L" then
         do s <- substr 1 line ;;
         let '(k, s1) := ex_u64 (s, true) in
         let '(_, s2) := ex_u32 s1 in
         let '(l, _) := ex_i32 s2 in
         do l' <- get l ;;
         do (i, m1) <- GetPsddLiteralNode m l' flag ;;
         do k' <- get k ;;
         Ok (k', i, m1)
       else if Ascii.eqb (head_char line) "T" then
         do s <- substr 1 line ;;
         let '(k, s1) := ex_u64 (s, true) in
         let '(_, s2) := ex_u32 s1 in
         let '(v, s3) := ex_u32 s2 in
         let '(neg, s4) := ex_word rd log0 s3 in
         let '(pos, _) := ex_word rd log0 s4 in
         do v' <- get v ;;
         do pos' <- get pos ;;
         do neg' <- get neg ;;
         do (i, m1) <- GetPsddTopNode m (Z.to_N v') flag pos' neg' ;;
         do k' <- get k ;;
         Ok (k', i, m1)
       else
         do _ <- assert (Ascii.eqb (head_char line) "D") ;;
         do s <- substr 1 line ;;
         let '(k, s1) := ex_u64 (s, true) in
         let '(_, s2) := ex_i32 s1 in
         let '(n, s3) := ex_u64 s2 in
         do n' <- get n ;;
         do (x, ws) <- read_elems (Z.to_nat n') cache s3 ;;
         let '(ps, ss) := x in
         do p0 <- get (hd_error ps) ;;   (* primes[0] of an empty vector *)
         do s0 <- get (hd_error ss) ;;
         do vp <- get (vt_of (m_heap m) p0) ;;
         do vs <- get (vt_of (m_heap m) s0) ;;
         do _ <- assert (oeqb (vparent vp) (vparent vs)) ;;
         do next <- get (vparent vp) ;;  (* a null vtree is dereferenced by the unique table *)
         do (i, m1) <- new_dec m next flag ps ss ws ;;
         do k' <- get k ;;
         Ok (k', i, m1)) ;;
    do _ <- get psz ;;                   (* progress output *)
    Ok ((k, i) :: cache, Some i, psz, m1).
(** ReadPsddFile, psdd_manager.cpp 579-663; None is nullptr *)
Definition ReadPsddFile (content : text) (flag : N) (m : mgr P) : res (option nat * mgr P) :=
  do (x, m1) <- foldM (read_line flag) (lines content) ([], None, None, m) ;;
  Ok (snd (fst x), m1).
End IO.

(** ** The texts of doubles: std::to_string (printf "%f", six decimals) and operator>> *)
(** Nearest integer.  (printf rounds exact ties to even; doubles are exact ties only at multiples of 2^-7 times an
    odd number of half millionths, and the theorems use nothing but the distance.) *)
Definition nearest (x : R) : Z := Int_part (x + / 2).
Definition digit_char (d : N) : ascii := ascii_of_N (48 + d).
(** exactly k digits *)
Fixpoint pad (k : nat) (n : N) : text :=
  match k with
  | O => []
  | S k' => pad k' (n / 10)%N ++ [digit_char (n mod 10)%N]
  end.
Definition fixed6 (r : R) : text :=
  let z := Z.to_N (nearest (Rabs r * 1000000)) in
  (if Rlt_dec r 0 then [ "-"%char ] else []) ++ show_N (z / 1000000)%N ++ "."%char :: pad 6 (z mod 1000000)%N.
Definition show_xr (x : xr) : text :=
  match x with
  | Fin r => fixed6 r
  | NegInf => str "-inf"
  | PosInf => str "inf"
  | NaN => str "nan"
  end.
(** operator>> into a double accepts [sign] digits [. digits] [e [sign] digits] and neither "inf" nor "nan".  (Numbers are
    real: rounding to a double, and the range of doubles, are left out.) *)
Definition digit_val (c : ascii) : option N :=
  let n := N_of_ascii c in if (48 <=? n)%N && (n <=? 57)%N then Some (n - 48)%N else None.
Fixpoint dec_of (acc : N) (s : text) : option N :=
  match s with
  | [] => Some acc
  | c :: s' => match digit_val c with Some d => dec_of (acc * 10 + d) s' | None => None end
  end.
Fixpoint split_dot (s : text) : text * text :=
  match s with
  | [] => ([], [])
  | c :: s' => if Ascii.eqb c "." then ([], s') else let '(a, b) := split_dot s' in (c :: a, b)
  end.
Definition rd_unsigned (s : text) : option R :=
  let '(a, b) := split_dot s in
  match a ++ b with
  | [] => None
  | ab => match dec_of 0 ab with
          | Some n => Some (IZR (Z.of_N n) / 10 ^ List.length b)%R
          | None => None
          end
  end.
Definition rd_signed (s : text) : option R :=
  match s with
  | c :: s' => if Ascii.eqb c "-" then option_map Ropp (rd_unsigned s')
               else if Ascii.eqb c "+" then rd_unsigned s'
               else rd_unsigned s
  | [] => None
  end.
(** before the first e or E, and after it *)
Fixpoint split_exp (s : text) : text * option text :=
  match s with
  | [] => ([], None)
  | c :: s' => if Ascii.eqb c "e" || Ascii.eqb c "E" then ([], Some s') else let '(a, b) := split_exp s' in (c :: a, b)
  end.
Definition rd_nat (s : text) : option Z := match s with [] => None | _ => option_map Z.of_N (dec_of 0 s) end.
Definition rd_exp (s : text) : option Z :=
  match s with
  | c :: s' => if Ascii.eqb c "-" then option_map Z.opp (rd_nat s') else if Ascii.eqb c "+" then rd_nat s' else rd_nat s
  | [] => None
  end.
Definition rd_dec (s : text) : option R :=
  let '(a, b) := split_exp s in
  match b with
  | None => rd_signed a
  | Some x => match rd_signed a, rd_exp x with Some r, Some z => Some (r * powerRZ 10 z)%R | _, _ => None end
  end.
(** The instances for PsddParameter (log-space numbers) *)
Definition show_code (a : Lcode) : text := show_xr (par a).
Definition rd_code (s : text) : option Lcode := option_map (fun r => p_of_log (Fin r)) (rd_dec s).
Definition log0_code : Lcode := p_of_log (Fin 0%R).
Definition show_log (a : Lexact) : text := show_xr (lx a).
Definition rd_log (s : text) : option Lexact := option_map lf (rd_dec s).
Definition log0_log : Lexact := lf 0%R.
