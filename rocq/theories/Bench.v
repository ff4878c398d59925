(** Model of psdd_inference_benchmark.cpp.  The times it prints are not modelled. *)
From Verif Require Import Base Param Vtree Heap Manager Query.

Section Bench.
Context {P : pops}.
(** add_batch_vector, multiply_batch_vector, max_batch_vector, lines 21-49.  (All vectors of one query have the same length; positions at
    which one of the vectors ends would be read outside of it.) *)
Definition batch (op : P -> P -> P) (a b : list P) : list P := map (fun x => op (fst x) (snd x)) (combine a b).
Definition max_op (a b : P) : P := if plt a b then b else a.
(** The loop bodies of MpepQuery (lines 60-109, [mpe] is true) and of MarQuery (lines 135-179), which differ in the operation and in the
    value of a true/false node of another variable.  The vectors the nodes point to are a function of the node. *)
Definition bench_node (mpe : bool) (evid : list Z) (c : nat -> list P) (nd : node P) : list P :=
  match n_body nd with
  | BLit l => map (fun e => if N.eqb (Z.abs_N l) (Z.abs_N e) then (if Z.eqb l e then pone else pzero) else pone) evid
  | BDec es =>
      fold_left (fun values e => let buffer := batch pmul (c (e_prime e)) (c (e_sub e)) in
                                 batch (if mpe then max_op else padd) buffer values) es (map (fun _ => pzero) evid)
  | BTop v pt pf =>
      map (fun e => if N.eqb v (Z.abs_N e) then (if Z.ltb 0 e then pt else pf)
                    else if mpe then (if pgt pt pf then pt else pf) else pone) evid
  end.
(** MpepQuery and MarQuery, lines 51-124 and 126-194, on a list of nodes, children first *)
Definition bench_query (mpe : bool) (h : heap P) (cbp : list nat) (evid : list Z) : res (list P) :=
  do c <- foldM (fun c i => do nd <- node_of h i ;; Ok (set_at c i (bench_node mpe evid c nd))) cbp (fun _ => map (fun _ => pzero) evid) ;;
  match rev cbp with [] => UB | r :: _ => Ok (c r) end.
Definition MpepQuery := bench_query true.
Definition MarQuery := bench_query false.
(** The evidence of main, lines 228-244; [draws]: the random variables and values.  [peq _ pzero] compares with CreateFromDecimal(0). *)
Definition bench_evidence (mg : N -> option (P * P)) (draws : list (N * bool)) : list Z :=
  map (fun d : N * bool =>
         let (v, b) := d in
         let p := marg_find mg v in
         let given := negb (peq (if b then snd p else fst p) pzero) in
         if Bool.eqb b given then Z.of_N v else (- Z.of_N v)%Z) draws.
(** main, lines 197-248, from the node that was read *)
Definition Benchmark (h : heap P) (root : nat) (draws : list (N * bool)) : res (nat * list Z * list P * list P) :=
  do L <- SerializePsddNodes h [root] ;;
  let cbp := rev L in
  do mg <- GetMarginals h cbp ;;
  let evid := bench_evidence mg draws in
  do a <- MpepQuery h cbp evid ;;
  do b <- MarQuery h cbp evid ;;
  Ok (length L, evid, a, b).
End Bench.
