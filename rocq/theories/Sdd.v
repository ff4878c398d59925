(** Model of the conversions between SDDs and PSDDs: src/psdd_manager.cpp 18-28, 285-380, 731-835 (ConvertSddToPsdd, FromSdd) and
    src/psdd_node.cpp 205-250 (ConvertPsddNodeToSddNode).  SDDs live in libsdd (binary, external): the nodes are modelled by
    their documented structure. *)
From Verif Require Import Base Param Vtree Heap Manager.

(** SddNode: sdd_node_is_{true,false,literal,decision}, sdd_node_literal, sdd_node_elements (prime, sub), sdd_vtree_of (a path into
    the SDD's vtree; meaningless for constants).  A pointer is the node's sdd_id. *)
Inductive sbody := STrue | SFalse | SLit (l : Z) | SDec (es : list (nat * nat)).
Record snode := MkS { s_vt : path; s_body : sbody }.
Definition sdd := nat -> option snode.

(** sdd_vtree_data of the SDD's vtree: pointers into the PSDD's vtree *)
Definition pdata := path -> option path.
Definition set_pdata (d : pdata) (p : path) (x : option path) : pdata := fun q => if path_eqb q p then x else d q.
(** TagSddVtreeWithPsddVtree, psdd_manager.cpp 19-28 *)
Definition Tag (d : pdata) (ss ps : list (path * vtree)) : res pdata :=
  do _ <- assert (Nat.eqb (length ss) (length ps)) ;;
  Ok (fold_left (fun d sp => set_pdata d (fst (fst sp)) (Some (fst (snd sp)))) (combine ss ps) d).

Section Sdd.
Context {P : pops}.

(** node_map, psdd_manager.cpp 302, 757 (newest binding first) *)
Definition nmap := list (nat * nat).
Definition sget (sd : sdd) (n : nat) : res snode := get (sd n).

(** One element of a decision node, psdd_manager.cpp 314-344 and 769-799.  [vt] is the PSDD vtree node. *)
Definition from_elem (sd : sdd) (nm : nmap) (vt : path) (flag : N) (st : list nat * list nat * tmap * mgr P) (e : nat * nat)
  : res (list nat * list nat * tmap * mgr P) :=
  let '(ps, ss, tm, m) := st in
  match nlookup (fst e) nm with
  | None => Abort
  | Some pp =>
      do sn <- sget sd (snd e) ;;
      match s_body sn with
      | STrue =>
          do (x, m1) <- normalize_with (get_true gt_fuel) (vkid (m_vt m) vt false) flag pp tm m ;;
          let '(p1, tm1) := x in
          do rt <- get (vkid (m_vt m) vt true) ;;
          do (y, m2) <- get_true gt_fuel rt flag tm1 m1 ;;
          let '(s1, tm2) := y in
          Ok (ps ++ [p1], ss ++ [s1], tm2, m2)
      | SFalse => Ok st
      | _ =>
          match nlookup (snd e) nm with
          | None => Abort
          | Some sp =>
              do (x, m1) <- normalize_with (get_true gt_fuel) (vkid (m_vt m) vt false) flag pp tm m ;;
              let '(p1, tm1) := x in
              do (y, m2) <- normalize_with (get_true gt_fuel) (vkid (m_vt m) vt true) flag sp tm1 m1 ;;
              let '(s1, tm2) := y in
              Ok (ps ++ [p1], ss ++ [s1], tm2, m2)
          end
      end
  end.
(** One node of the topological order, psdd_manager.cpp 303-370 and 758-825.  (The literal is computed without the cast to int32_t;
    sdd_vtree_var is 0 on an inner vtree node, which cannot happen after tagging isomorphic vtrees: UB here.) *)
Definition from_step (sd : sdd) (d : pdata) (flag : N) (st : nmap * tmap * mgr P) (n : nat) : res (nmap * tmap * mgr P) :=
  let '(nm, tm, m) := st in
  do sn <- sget sd n ;;
  match s_body sn with
  | SDec es =>
      do vt <- get (d (s_vt sn)) ;;
      do (x, m1) <- foldM (from_elem sd nm vt flag) es ([], [], tm, m) ;;
      let '(ps, ss, tm1) := x in
      do _ <- assert (match ps with [] => false | _ => true end) ;;
      do (i, m2) <- new_dec m1 vt flag ps ss (repeat pone (length es)) ;;
      Ok ((n, i) :: nm, tm1, m2)
  | SLit l =>
      do vt <- get (d (s_vt sn)) ;;
      match subtree (m_vt m) vt with
      | Some (Leaf v) =>
          let '(i, m1) := GetUniqueNode m (MkN vt flag (BLit (if Z.ltb 0 l then Z.of_N v else (- Z.of_N v)%Z))) in
          Ok ((n, i) :: nm, tm, m1)
      | _ => UB
      end
  | _ => Ok (nm, tm, m)
  end.
(** FromSdd, psdd_manager.cpp 739-835 ([target]: sub_psdd_vtree; null makes SerializeVtree dereference null).
    [order] is the result of sdd_topological_sort.  Also returns the data pointers of the SDD's vtree. *)
Definition FromSdd (sd : sdd) (order : list nat) (root : nat) (svt : vtree) (flag : N) (target : option path) (d : pdata) (m : mgr P)
  : res (option nat * pdata * mgr P) :=
  do sn <- sget sd root ;;
  match s_body sn with
  | SFalse => Ok (None, d, m)
  | STrue =>
      do tp <- get target ;;
      do (i, m1) <- GetTrueNode tp flag m ;;
      Ok (Some i, d, m1)
  | _ =>
      do tp <- get target ;;
      do pt <- get (subtree (m_vt m) tp) ;;
      do pser <- SerializeVtree tp pt ;;
      do sser <- SerializeVtree [] svt ;;
      do d1 <- Tag d sser pser ;;
      do (x, m1) <- foldM (from_step sd d1 flag) order ([], [], m) ;;
      let '(nm, tm) := x in
      match nlookup root nm with
      | None => Abort
      | Some i =>
          do (y, m2) <- normalize_with (get_true gt_fuel) (Some tp) flag i tm m1 ;;
          Ok (Some (fst y), fold_left (fun d x => set_pdata d (fst x) None) sser d1, m2)
      end
  end.
(** ConvertSddToPsdd, psdd_manager.cpp 285-380: the same code with the manager's vtree *)
Definition ConvertSddToPsdd (sd : sdd) (order : list nat) (root : nat) (svt : vtree) (flag : N) (d : pdata) (m : mgr P)
  : res (option nat * pdata * mgr P) := FromSdd sd order root svt flag (Some []) d m.
(** FromSdd for a set of variables, psdd_manager.cpp 731-737 *)
Definition FromSddVariables (sd : sdd) (order : list nat) (root : nat) (svt : vtree) (flag : N) (vars : list N) (d : pdata) (m : mgr P)
  : res (option nat * pdata * mgr P) :=
  FromSdd sd order root svt flag (option_map fst (SubVtreeByVariables [] (m_vt m) vars)) d m.
(** GetPsddManagerFromSddVtree, psdd_manager.cpp 228-262: a copy of the vtree with renamed variables.  (The loop is CopyVtree's; the
    children's data pointers are cleared at the end instead of at once.) *)
Definition GetPsddManagerFromSddVtree (svt : vtree) (mapping : N -> option N) : res (mgr P) :=
  do (t, _) <- CopyVtreeMap mapping (fun _ => None) [] svt ;;
  Ok (new_mgr t).

(** ** ConvertPsddNodeToSddNode, psdd_node.cpp 205-250.  The operations of libsdd are parameters. *)
Section ToSdd.
Context {S : Type} (s_true s_false : S) (s_lit : Z -> S) (s_and s_or : S -> S -> S).
Definition sudata := nat -> option S.
Definition set_sud (u : sudata) (i : nat) (x : option S) : sudata := fun j => if Nat.eqb j i then x else u j.
Definition to_sdd_step (h : heap P) (vm : N -> option Z) (u : sudata) (i : nat) : res sudata :=
  do nd <- get (nth_error h i) ;;
  match n_body nd with
  | BLit l =>
      match vm (lit_var l) with
      | None => Abort
      | Some w => Ok (set_sud u i (Some (s_lit (if lit_sign l then w else (- w)%Z))))
      end
  | BDec es =>
      do r <- foldM (fun acc e =>
                do a <- get (u (e_prime e)) ;;
                do b <- get (u (e_sub e)) ;;
                Ok (s_or acc (s_and a b))) es s_false ;;
      Ok (set_sud u i (Some r))
  | BTop _ _ _ => Ok (set_sud u i (Some s_true))
  end.
Definition ConvertPsddNodeToSddNode (h : heap P) (ser : list nat) (vm : N -> option Z) (u : sudata) : res (S * sudata) :=
  do u1 <- foldM (to_sdd_step h vm) (rev ser) u ;;
  do r <- get (hd_error ser) ;;
  do s <- get (u1 r) ;;
  Ok (s, fold_left (fun u i => set_sud u i None) ser u1).
End ToSdd.
End Sdd.
