(** Model of src/csvparser.c.  Characters are bytes.  Allocation always succeeds (malloc's result is not checked by the code) and freeing
    (CsvParser_destroy, CsvParser_destroy_row, lines 50-79) is not modelled; the error message is not modelled either.  Every access to
    currField, fields_ and csvString_ is checked against the allocated size, and overflow of an int is an error: both give [UB]. *)
From Coq Require Import Ascii String.
From Verif Require Import Base Text.

Definition quote : ascii := "034"%char.
Definition cr : ascii := "013"%char.
Definition nul : ascii := "000"%char.
Definition comma : ascii := ",".
Definition int_max : N := 2147483647.

(** A C string: the bytes before the first zero.  strlen and strcpy see only these. *)
Fixpoint cstring (s : text) : text :=
  match s with
  | [] => []
  | c :: s' => if Ascii.eqb c nul then [] else c :: cstring s'
  end.

(** The locals of _CsvParser_getRow, lines 108-147.  [r_buf]: the first currFieldCharIter bytes of currField, last one first;
    [r_cap]: acceptedCharsInField, its size; [r_fields]: the finished fields, last one first (their number is both numOfFields_ and
    fieldIter); [r_fcap]: the size of fields_; [r_realloc]: numRowRealloc. *)
Record rowst := MkRow {
  r_fields : list text; r_fcap : N; r_realloc : N;
  r_buf : text; r_cap : N;
  r_inside : bool; r_series : N; r_last : bool }.
Definition row_start : rowst :=
  {| r_fields := []; r_fcap := 64; r_realloc := 0; r_buf := []; r_cap := 64; r_inside := false; r_series := 0; r_last := false |}.
Definition lenN {A} (l : list A) : N := N.of_nat (length l).

(** Lines 186-212: the end of a field, or one more character.  [st] has the quote bookkeeping done; [inl]: the loop goes on *)
Definition row_store (d : ascii) (eof : bool) (st : rowst) (c : ascii) : res (rowst + list text) :=
  if eof || ((Ascii.eqb c d || Ascii.eqb c nl) && negb (r_inside st)) then
    (* line 187: position -1 if the last character was a quote and the buffer is empty *)
    do kept <- (if r_last st then match r_buf st with [] => UB | _ :: b => Ok b end else Ok (r_buf st)) ;;
    do _ <- (if N.ltb (lenN kept) (r_cap st) then Ok tt else UB) ;;
    do _ <- (if N.ltb (lenN (r_fields st)) (r_fcap st) then Ok tt else UB) ;;
    let field := cstring (rev kept) in
    (* line 188: currFieldCharIter + 1 bytes for the copy *)
    do _ <- (if N.ltb (lenN field) (lenN (r_buf st) + 1) then Ok tt else UB) ;;
    let fields := field :: r_fields st in
    if Ascii.eqb c nl then Ok (inr (rev fields))
    else
      do g <- (if N.eqb (lenN fields mod 64) 0
               then if N.leb ((r_realloc st + 2) * 64) int_max then Ok ((r_realloc st + 2) * 64, r_realloc st + 1)%N else UB
               else Ok (r_fcap st, r_realloc st)) ;;
      Ok (inl {| r_fields := fields; r_fcap := fst g; r_realloc := snd g; r_buf := []; r_cap := 64;
                 r_inside := false; r_series := r_series st; r_last := Ascii.eqb c quote |})
  else
    do _ <- (if N.ltb (lenN (r_buf st)) (r_cap st) then Ok tt else UB) ;;
    let buf := c :: r_buf st in
    do cap <- (if N.eqb (lenN buf) (r_cap st - 1) then if N.leb (r_cap st * 2) int_max then Ok (r_cap st * 2)%N else UB else Ok (r_cap st)) ;;
    Ok (inl {| r_fields := r_fields st; r_fcap := r_fcap st; r_realloc := r_realloc st; r_buf := buf; r_cap := cap;
               r_inside := r_inside st; r_series := r_series st; r_last := Ascii.eqb c quote |}).
Definition set_quotes (st : rowst) (buf : text) (inside : bool) (series : N) (last : bool) : rowst :=
  {| r_fields := r_fields st; r_fcap := r_fcap st; r_realloc := r_realloc st; r_buf := buf; r_cap := r_cap st;
     r_inside := inside; r_series := series; r_last := last |}.
(** Lines 168-212, one character; [eof]: it is the newline put in place of the end of file (line 165).  currFieldCharIter-- of zero would
    make the next write go before the buffer. *)
Definition row_step (d : ascii) (eof : bool) (st : rowst) (c : ascii) : res (rowst + list text) :=
  if Ascii.eqb c cr then Ok (inl st)
  else
    match r_buf st, r_last st with
    | [], false =>
        if Ascii.eqb c quote then Ok (inl (set_quotes st [] true (r_series st) true)) else row_store d eof st c
    | _, _ =>
        if Ascii.eqb c quote then
          let series := (r_series st + 1)%N in
          let inside := N.eqb (series mod 2) 0 in
          do _ <- (if N.leb series int_max then Ok tt else UB) ;;
          do buf <- (if inside then match r_buf st with [] => UB | _ :: b => Ok b end else Ok (r_buf st)) ;;
          row_store d eof (set_quotes st buf inside series (r_last st)) c
        else row_store d eof (set_quotes st (r_buf st) (r_inside st) 0 (r_last st)) c
    end.
(** csvStringIter_++, line 151, also when reading a file *)
Definition tick (it : N) : res N := if N.ltb it int_max then Ok (it + 1)%N else UB.
(** The loop, lines 148-213: the row, or [None] at the end; what is left to read *)
Fixpoint row_loop (d : ascii) (st : rowst) (rest : text) (it : N) : res (option (list text) * text * N) :=
  match rest with
  | [] =>
      do it1 <- tick it ;;
      match r_buf st, r_fields st with
      | [], [] => Ok (None, [], it1)
      | _, _ => do x <- row_step d true st nl ;; match x with inr row => Ok (Some row, [], it1) | inl _ => UB (* not reached *) end
      end
  | c :: rest' =>
      do it1 <- tick it ;;
      do x <- row_step d false st c ;;
      match x with inr row => Ok (Some row, rest', it1) | inl st' => row_loop d st' rest' it1 end
  end.

(** The parser, csvparser.h 14-25.  [SFile rest]: an open file, or one that can be opened; [SMissing]: one that cannot *)
Inductive src := SFile (rest : text) | SMissing | SString (s : text).
Record parser := MkParser { p_src : src; p_iter : N; p_delim : option ascii; p_has_header : bool; p_header : option (list text) }.
(** _CsvParser_delimiterIsAccepted, lines 216-223 *)
Definition delimiter_ok (d : ascii) : bool :=
  negb (Ascii.eqb d nl || Ascii.eqb d cr || Ascii.eqb d nul || Ascii.eqb d quote).
(** CsvParser_new and CsvParser_new_from_string, lines 12-48; the delimiter is the first character of a string (',' if NULL) *)
Definition new_parser (s : src) (d : ascii) (header : bool) : parser :=
  {| p_src := match s with SString t => SString (cstring t) | _ => s end; p_iter := 0;
     p_delim := if delimiter_ok d then Some d else None; p_has_header := header; p_header := None |}.
(** _CsvParser_getRow, lines 107-214.  csvString_[csvStringIter_] beyond the terminating zero is outside the string. *)
Definition get_row (p : parser) : res (option (list text) * parser) :=
  match p_delim p with
  | None => Ok (None, p)
  | Some d =>
      match p_src p with
      | SMissing => Ok (None, p)
      | SFile rest =>
          do (x, it) <- row_loop d row_start rest (p_iter p) ;;
          Ok (fst x, {| p_src := SFile (snd x); p_iter := it; p_delim := p_delim p; p_has_header := p_has_header p; p_header := p_header p |})
      | SString s =>
          if N.ltb (lenN s) (p_iter p) then UB else
          do (x, it) <- row_loop d row_start (skipn (N.to_nat (p_iter p)) s) (p_iter p) ;;
          Ok (fst x, {| p_src := SString s; p_iter := it; p_delim := p_delim p; p_has_header := p_has_header p; p_header := p_header p |})
      end
  end.
Definition set_header (p : parser) (h : option (list text)) : parser :=
  {| p_src := p_src p; p_iter := p_iter p; p_delim := p_delim p; p_has_header := p_has_header p; p_header := h |}.
(** CsvParser_getHeader, lines 81-90 *)
Definition GetHeader (p : parser) : res (option (list text) * parser) :=
  if negb (p_has_header p) then Ok (None, p)
  else match p_header p with
       | Some h => Ok (Some h, p)
       | None => do (h, p1) <- get_row p ;; Ok (h, set_header p1 h)
       end.
(** CsvParser_getRow, lines 92-97 *)
Definition GetRow (p : parser) : res (option (list text) * parser) :=
  match p_has_header p, p_header p with
  | true, None => do (h, p1) <- get_row p ;; get_row (set_header p1 h)
  | _, _ => get_row p
  end.
(** while ((row = CsvParser_getRow(p))): all rows; every row but the last consumes a character *)
Fixpoint rows (fuel : nat) (p : parser) : res (list (list text) * parser) :=
  match fuel with
  | O => NoFuel
  | S f => do (r, p1) <- GetRow p ;;
           match r with
           | None => Ok ([], p1)
           | Some row => do (rs, p2) <- rows f p1 ;; Ok (row :: rs, p2)
           end
  end.
