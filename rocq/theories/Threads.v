(** Queries running at the same time (C82).  psdd_node.cpp keeps intermediate results of some queries in the nodes themselves (activation_flag_,
    user_data_).  Here these queries are programs of single reads and writes of these two fields, so that runs of several threads can be
    interleaved at any point between two accesses (accesses are atomic and sequentially consistent; in C++ a data race is already undefined).
    Structure and parameters of nodes are only read. *)
From Verif Require Import Base Param Vtree Heap Manager Query.

Section Threads.
Context {P : pops}.
Notation heap := (heap P). Notation node := (node P).
(** user_data_: a number or a pointer to a pair, psdd_node.h; the pair is kept in the value, so freeing it is not visible *)
Inductive uval := UNum (n : nat) | UPair (p : P * nat).
Record cells := MkC { c_flag : nat -> bool; c_ud : nat -> uval }.
Inductive prog (A : Type) :=
| Ret (r : res A)
| RdF (i : nat) (k : bool -> prog A)
| WrF (i : nat) (b : bool) (k : prog A)
| RdU (i : nat) (k : uval -> prog A)
| WrU (i : nat) (u : uval) (k : prog A).
Arguments Ret {A}. Arguments RdF {A}. Arguments WrF {A}. Arguments RdU {A}. Arguments WrU {A}.
Definition ret {A} (a : A) : prog A := Ret (Ok a).
Fixpoint pbind {A B} (p : prog A) (k : A -> prog B) : prog B :=
  match p with
  | Ret (Ok a) => k a
  | Ret Abort => Ret Abort
  | Ret UB => Ret UB
  | Ret NoFuel => Ret NoFuel
  | RdF i f => RdF i (fun b => pbind (f b) k)
  | WrF i b p => WrF i b (pbind p k)
  | RdU i f => RdU i (fun u => pbind (f u) k)
  | WrU i u p => WrU i u (pbind p k)
  end.
Fixpoint pfold {S A} (f : S -> A -> prog S) (l : list A) (s : S) : prog S :=
  match l with
  | [] => ret s
  | a :: l' => pbind (f s a) (fun s' => pfold f l' s')
  end.

(** ** The queries *)
(** IsConsistent, psdd_node.cpp 540-574 *)
Fixpoint cons_elems (es : list (elem P)) : prog bool :=
  match es with
  | [] => ret false
  | e :: es' => RdF (e_prime e) (fun a => if a then RdF (e_sub e) (fun b => if b then ret true else cons_elems es') else cons_elems es')
  end.
Definition cons_stepP (h : heap) (mask e : N -> bool) (_ : unit) (i : nat) : prog unit :=
  pbind (Ret (node_of h i)) (fun nd =>
  match n_body nd with
  | BLit l => if (if mask (lit_var l) then Bool.eqb (e (lit_var l)) (lit_sign l) else true) then WrF i true (ret tt) else ret tt
  | BTop _ _ _ => WrF i true (ret tt)
  | BDec es => pbind (cons_elems es) (fun b => if b then WrF i true (ret tt) else ret tt)
  end).
Definition IsConsistentP (h : heap) (mask e : N -> bool) (L : list nat) : prog bool :=
  pbind (pfold (cons_stepP h mask e) (rev L) tt) (fun _ =>
  pbind (Ret (front L)) (fun r =>
  RdF r (fun b => pbind (pfold (fun _ i => WrF i false (ret tt)) L tt) (fun _ => ret b)))).
(** GetMarginals, psdd_node.cpp 638-707 *)
Definition readnum (i : nat) : prog nat := RdU i (fun u => match u with UNum n => ret n | UPair _ => Ret UB end).
Definition marg_pushP (d w : P) (ds : list P) (c : nat) : prog (list P) :=
  pbind (readnum c) (fun k1 =>
  pbind (Ret (get (nth_error ds k1))) (fun old =>
  pbind (readnum c) (fun k2 =>
  pbind (Ret (get (nth_error ds k2))) (fun _ => ret (upd_nth ds k2 (padd old (pmul d w))))))).
Definition marg_stepP (h : heap) (st : list P * (N -> option (P * P))) (i : nat) : prog (list P * (N -> option (P * P))) :=
  let '(ds, mg) := st in
  pbind (Ret (node_of h i)) (fun nd =>
  pbind (readnum i) (fun k =>
  pbind (Ret (get (nth_error ds k))) (fun d =>
  match n_body nd with
  | BLit l =>
      let p := marg_find mg (lit_var l) in
      ret (ds, vset mg (lit_var l) (Some (if lit_sign l then (fst p, padd (snd p) d) else (padd (fst p) d, snd p))))
  | BTop v pt pf =>
      pbind (readnum i) (fun k2 =>
      pbind (Ret (get (nth_error ds k2))) (fun d2 =>
      let p := marg_find mg v in
      ret (ds, vset mg v (Some (padd (fst p) (pmul d pf), padd (snd p) (pmul d2 pt))))))
  | BDec es =>
      pbind (pfold (fun ds e => pbind (marg_pushP d (e_param e) ds (e_prime e)) (fun ds1 => marg_pushP d (e_param e) ds1 (e_sub e))) es ds)
            (fun ds' => ret (ds', mg))
  end))).
Definition GetMarginalsP (h : heap) (L : list nat) : prog (N -> option (P * P)) :=
  match L with
  | [] => Ret UB
  | _ :: L' =>
      pbind (pfold (fun k i => WrU i (UNum k) (ret (S k))) L 0) (fun _ =>
      pbind (pfold (marg_stepP h) L (pone :: map (fun _ => pzero) L', fun _ => None)) (fun st =>
      pbind (pfold (fun _ i => WrU i (UNum 0) (ret tt)) L tt) (fun _ =>
      ret (fun v => match snd st v with
                    | Some (f, t) => let z := padd f t in Some (pdiv f z, pdiv t z)
                    | None => None
                    end))))
  end.
(** GetMPESolution, psdd_node.cpp 361-447 *)
Definition readpair (i : nat) : prog (P * nat) := RdU i (fun u => match u with UPair p => ret p | UNum _ => Ret UB end).
Definition mpe_elemP (st : P * nat * nat) (e : elem P) : prog (P * nat * nat) :=
  let '(best, idx, k) := st in
  pbind (readpair (e_prime e)) (fun a =>
  pbind (readpair (e_sub e)) (fun b =>
  let v := pmul (pmul (fst a) (fst b)) (e_param e) in
  ret (if pgt v best then (v, k, S k) else (best, idx, S k)))).
Definition mpe_nodeP (nd : node) : prog (P * nat) :=
  match n_body nd with
  | BLit _ => ret (pone, 0)
  | BTop _ pt pf => ret (if pgt pt pf then (pt, 1) else (pf, 0))
  | BDec es => pbind (pfold mpe_elemP es (pzero, 0, 0)) (fun r => ret (fst r))
  end.
Definition mpe_stepP (h : heap) (_ : unit) (i : nat) : prog unit :=
  pbind (Ret (node_of h i)) (fun nd => pbind (mpe_nodeP nd) (fun r => WrU i (UPair r) (ret tt))).
Fixpoint mpe_queueP (fuel : nat) (h : heap) (queue : list nat) (x : N -> bool) : prog (N -> bool) :=
  match queue with
  | [] => ret x
  | i :: queue' =>
      match fuel with
      | O => Ret NoFuel
      | S fuel' =>
          pbind (Ret (node_of h i)) (fun nd =>
          match n_body nd with
          | BLit l => mpe_queueP fuel' h queue' (if lit_sign l then vset x (lit_var l) true else x)
          | BDec es =>
              pbind (readpair i) (fun r =>
              pbind (Ret (get (nth_error es (snd r)))) (fun e =>
              mpe_queueP fuel' h (queue' ++ [e_prime e; e_sub e]) x))
          | BTop v _ _ =>
              pbind (readpair i) (fun r => mpe_queueP fuel' h queue' (if Nat.eqb (snd r) 0 then x else vset x v true))
          end)
      end
  end.
Definition GetMPESolutionP (fuel : nat) (h : heap) (L : list nat) : prog ((N -> bool) * P) :=
  pbind (pfold (mpe_stepP h) (rev L) tt) (fun _ =>
  pbind (Ret (front L)) (fun r =>
  pbind (readpair r) (fun p =>
  pbind (mpe_queueP fuel h [r] (fun _ => false)) (fun x =>
  pbind (pfold (fun _ i => RdU i (fun u => match u with UNum (S _) => Ret UB | _ => WrU i (UNum 0) (ret tt) end)) L tt) (fun _ =>
  ret (x, fst p)))))).

(** ** Threads *)
Inductive query :=
| QEvaluate (mask x : N -> bool) (root : nat)
| QModelCount (root : nat)
| QIsConsistent (mask e : N -> bool) (root : nat)
| QGetMarginals (root : nat)
| QGetMPESolution (fuel root : nat).
Inductive answer :=
| AProb (p : P)
| ACount (n : N)
| ABool (b : bool)
| AMarginals (mg : N -> option (P * P))
| AMpe (x : N -> bool) (p : P).
Definition lift {A} (f : A -> answer) (p : prog A) : prog answer := pbind p (fun a => ret (f a)).
(** What a thread executes.  SerializePsddNodes, Evaluate and ModelCount use no field of the nodes that is ever written *)
Definition qprog (h : heap) (q : query) : prog answer :=
  match q with
  | QEvaluate mask x r => lift AProb (Ret (Evaluate h mask x r))
  | QModelCount r => lift ACount (Ret (do L <- SerializePsddNodes h [r] ;; ModelCount h L))
  | QIsConsistent mask e r => pbind (Ret (SerializePsddNodes h [r])) (fun L => lift ABool (IsConsistentP h mask e L))
  | QGetMarginals r => pbind (Ret (SerializePsddNodes h [r])) (fun L => lift AMarginals (GetMarginalsP h L))
  | QGetMPESolution fuel r => pbind (Ret (SerializePsddNodes h [r])) (fun L => lift (fun y => AMpe (fst y) (snd y)) (GetMPESolutionP fuel h L))
  end.
(** The answer of the query alone, by Query.v, on nodes with all flags cleared and no user data *)
Definition qalone (h : heap) (q : query) : res answer :=
  match q with
  | QEvaluate mask x r => do p <- Evaluate h mask x r ;; Ok (AProb p)
  | QModelCount r => do L <- SerializePsddNodes h [r] ;; do n <- ModelCount h L ;; Ok (ACount n)
  | QIsConsistent mask e r => do y <- IsConsistent h mask e r (fun _ => false) ;; Ok (ABool (fst y))
  | QGetMarginals r => do L <- SerializePsddNodes h [r] ;; do mg <- GetMarginals h L ;; Ok (AMarginals mg)
  | QGetMPESolution fuel r => do L <- SerializePsddNodes h [r] ;; do y <- GetMPESolution fuel h L (fun _ => None) ;; Ok (AMpe (fst (fst y)) (snd (fst y)))
  end.
(** One access of one thread *)
Definition access (c : cells) (p : prog answer) : option (cells * prog answer) :=
  match p with
  | Ret _ => None
  | RdF i k => Some (c, k (c_flag c i))
  | WrF i b k => Some (MkC (set_at (c_flag c) i b) (c_ud c), k)
  | RdU i k => Some (c, k (c_ud c i))
  | WrU i u k => Some (MkC (c_flag c) (set_at (c_ud c) i u), k)
  end.
Inductive tstep : cells * list (prog answer) -> cells * list (prog answer) -> Prop :=
| tstep_at c c' p p' ts1 ts2 : access c p = Some (c', p') -> tstep (c, ts1 ++ p :: ts2) (c', ts1 ++ p' :: ts2).
Inductive tsteps : cells * list (prog answer) -> cells * list (prog answer) -> Prop :=
| tsteps_refl s : tsteps s s
| tsteps_more s s1 s2 : tstep s s1 -> tsteps s1 s2 -> tsteps s s2.
Definition finished (s : cells * list (prog answer)) : Prop := Forall (fun p => exists r, p = Ret r) (snd s).
(** Flags cleared, no user data *)
Definition clean (c : cells) : Prop := forall i, c_flag c i = false /\ c_ud c i = UNum 0.
(** A schedule: which thread makes the next access *)
Fixpoint exec (sch : list nat) (c : cells) (ts : list (prog answer)) : cells * list (prog answer) :=
  match sch with
  | [] => (c, ts)
  | k :: sch' =>
      match nth_error ts k with
      | Some p => match access c p with
                  | Some (c', p') => exec sch' c' (firstn k ts ++ p' :: skipn (S k) ts)
                  | None => exec sch' c ts
                  end
      | None => exec sch' c ts
      end
  end.
End Threads.
Arguments Ret {P A}. Arguments RdF {P A}. Arguments WrF {P A}. Arguments RdU {P A}. Arguments WrU {P A}.
