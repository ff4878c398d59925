(** Model of what the hypergraph construction hands to KaHyPar: hypergraph_decomposition_vtree.cpp 74-86 (the configuration file) and 131-166
    (the hypergraph). *)
From Coq Require Import Ascii String.
From Verif Require Import Base Vtree Text Csv VtreeGen.

(** variable_to_factor_indexes[v].push_back(factor_idx), lines 137-143; a new key goes to the end (the order of the map is an oracle below) *)
Fixpoint add_factor (i : nat) (m : list (N * list nat)) (v : N) : list (N * list nat) :=
  match m with
  | [] => [(v, [i])]
  | (w, l) :: m' => if N.eqb w v then (w, l ++ [i]) :: m' else (w, l) :: add_factor i m' v
  end.
(** lines 131-145 *)
Definition factor_indexes (scopes : list (list N)) : list (N * list nat) :=
  fold_left (fun m x => fold_left (add_factor (fst x)) (snd x) m) (combine (seq 0 (length scopes)) scopes) [].
(** lines 133-135 and 147-152: eptr_vec and eind_vec.  [m]: variable_to_factor_indexes in its iteration order.  (The conversion of the indexes
    to 32 bits is not modelled: there are fewer than 2^31 factors.) *)
Definition pins_step (st : list nat * list nat) (e : N * list nat) : list nat * list nat :=
  let eind := snd st ++ snd e in (fst st ++ [length eind], eind).
Definition pins (m : list (N * list nat)) : list nat * list nat := fold_left pins_step m ([0], []).
(** What kahypar_partition is given, lines 154-166: num_vertices, num_hyperedges, eptr, eind; [ord]: the iteration order of the map *)
Definition hypergraph (ord : list (N * list nat) -> list (N * list nat)) (scopes : list (list N)) : nat * nat * list nat * list nat :=
  let m := factor_indexes scopes in
  let '(eptr, eind) := pins (ord m) in
  (length scopes, length m, eptr, eind).

(** ** The name of the configuration file, lines 76-79.  [buf]: the bytes before the terminating zero of a buffer of [cap] bytes *)
Definition strcpy (cap : N) (s : text) : res text := if N.leb (lenN (cstring s) + 1) cap then Ok (cstring s) else UB.
Definition strcat (cap : N) (buf s : text) : res text := if N.leb (lenN buf + lenN (cstring s) + 1) cap then Ok (buf ++ cstring s) else UB.
Definition config_name (working_dir : text) : res text :=
  do b <- strcpy 500 working_dir ;; strcat 500 b (str "/config.ini").
