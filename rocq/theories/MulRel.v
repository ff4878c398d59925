(** Multiply in a build without assertions (NDEBUG, the CMake build types Release and RelWithDebInfo; CMakeLists.txt sets no build type). *)
From Coq Require Import Reals Lra.
From Verif Require Import Base Param Vtree Heap Manager.

Section MulRel.
Context {P : pops}.
Notation mgr := (mgr P). Notation mcache := (@mcache P). Notation mres := (@mres P).
(** ComputationCache::Lookup and Update without their assertions, psdd_manager.cpp 45-67: a position outside the vector is undefined behaviour. *)
Definition cache_pos_rel (m : mgr) (first : nat) : res nat :=
  do vt <- get (vt_of (m_heap m) first) ;;
  let pos := vpos (m_vt m) vt in
  if Nat.ltb pos (cache_size (m_vt m)) then Ok pos else UB.
Definition cache_update_rel (m : mgr) (c : mcache) (a b : nat) (r : mres) : res mcache :=
  do pos <- cache_pos_rel m a ;; Ok (((pos, a, b), r) :: c).
(** MultiplyWithCache, psdd_manager.cpp 76-225, without its assertions: nothing is checked about the positions (82-83), the variables (145, 163, 186,
    206) and the parameters of the result (134, 216-219), and a node of another kind than the first one needs gives a null pointer (85, 161, 182,
    204).  Simplification: the functions that make nodes are those of Manager.v with their assertions; a run that returns Ok has not failed any. *)
Fixpoint multiply_with_cache_rel (fuel : nat) (flag : N) (first second : nat) (s : mgr * mcache) : res (mres * (mgr * mcache)) :=
  match fuel with
  | O => NoFuel
  | S f =>
      let '(m, c) := s in
      do pos <- cache_pos_rel m first ;;
      match alookup key_eqb (pos, first, second) c with
      | Some r => Ok (r, s)
      | None =>
          do na <- get (nth_error (m_heap m) first) ;;
          do nb <- get (nth_error (m_heap m) second) ;;
          match n_body na, n_body nb with
          | BDec ea, BDec eb =>
              do (x, s1) <- foldM (mul_pair (multiply_with_cache_rel f flag)) (list_prod ea eb) ([], pzero, s) ;;
              let '(acc, part) := x in
              let '(m1, c1) := s1 in
              match acc with
              | [] =>
                  let r := (None, pzero) in
                  do c2 <- cache_update_rel m1 c1 first second r ;;
                  Ok (r, (m1, c2))
              | _ =>
                  do (i, m2) <- GetConformedPsddDecisionNode m1 (map e_prime acc) (map e_sub acc) (map (fun e => pdiv (e_param e) part) acc) flag ;;
                  let r := (Some i, part) in
                  do c2 <- cache_update_rel m2 c1 first second r ;;
                  Ok (r, (m2, c2))
              end
          | BLit la, BLit lb =>
              if Z.eqb la lb then
                do (i, m1) <- GetPsddLiteralNode m la flag ;;
                let r := (Some i, pone) in
                do c1 <- cache_update_rel m1 c first second r ;;
                Ok (r, (m1, c1))
              else
                let r := (None, pzero) in
                do c1 <- cache_update_rel m c first second r ;;
                Ok (r, (m, c1))
          | BLit l, BTop v pt pf | BTop v pt pf, BLit l =>
              do (i, m1) <- GetPsddLiteralNode m l flag ;;
              let r := (Some i, if lit_sign l then pt else pf) in
              do c1 <- cache_update_rel m1 c first second r ;;
              Ok (r, (m1, c1))
          | BTop va ta fa, BTop vb tb fb =>
              let pos_weight := pmul ta tb in
              let neg_weight := pmul fa fb in
              let part := padd pos_weight neg_weight in
              do (i, m1) <- GetPsddTopNode m va flag (pdiv pos_weight part) (pdiv neg_weight part) ;;
              let r := (Some i, part) in
              do c1 <- cache_update_rel m1 c first second r ;;
              Ok (r, (m1, c1))
          | _, _ => UB
          end
      end
  end.
(** PsddManager::Multiply, psdd_manager.cpp 573-577 *)
Definition MultiplyRel (m : mgr) (a b : nat) (flag : N) : res (mres * mgr) :=
  do (r, s) <- multiply_with_cache_rel (S a) flag a b (m, []) ;;
  Ok (r, fst s).

(** Whatever the assertions let pass is the same without them. *)
Lemma cache_pos_same m a pos : cache_pos m a = Ok pos -> cache_pos_rel m a = Ok pos.
Proof.
  unfold cache_pos, cache_pos_rel. destruct (vt_of (m_heap m) a) as [vt|]; cbn [get bind]; [|discriminate].
  destruct (Nat.ltb (vpos (m_vt m) vt) (cache_size (m_vt m))); cbn [assert bind]; [auto|discriminate].
Qed.
Lemma cache_update_same m c a b r c' : cache_update m c a b r = Ok c' -> cache_update_rel m c a b r = Ok c'.
Proof.
  unfold cache_update, cache_update_rel. destruct (cache_pos m a) as [pos| | |] eqn:E; try discriminate. rewrite (cache_pos_same _ _ _ E). auto.
Qed.
Lemma pairs_same f g : (forall a b s r, f a b s = Ok r -> g a b s = Ok r) -> forall pairs st r,
  foldM (mul_pair f) pairs st = Ok r -> foldM (@mul_pair P g) pairs st = Ok r.
Proof.
  intros H pairs. induction pairs as [|[a b] pairs IH]; intros [[acc part] s] r; [auto|]. cbn [foldM].
  destruct (mul_pair f (acc, part, s) (a, b)) as [st| | |] eqn:E; try discriminate.
  assert (mul_pair g (acc, part, s) (a, b) = Ok st) as ->.
  { revert E. unfold mul_pair. destruct (f (e_prime a) (e_prime b) s) as [[pr s1]| | |] eqn:E1; try discriminate. rewrite (H _ _ _ _ E1). cbn [bind].
    destruct (fst pr); auto. destruct (f (e_sub a) (e_sub b) s1) as [[sr s2]| | |] eqn:E2; try discriminate. rewrite (H _ _ _ _ E2). auto. }
  cbn [bind]. apply IH.
Qed.
Ltac upd E := match type of E with bind (cache_update ?m ?c ?a ?b ?r) _ = _ =>
  let Q := fresh in destruct (cache_update m c a b r) eqn:Q; try discriminate; rewrite (cache_update_same _ _ _ _ _ _ Q); exact E end.
Lemma mul_same flag : forall n a b s r, multiply_with_cache n flag a b s = Ok r -> multiply_with_cache_rel n flag a b s = Ok r.
Proof.
  induction n as [|n IH]; intros a b [m c] r E; [discriminate|]. cbn [multiply_with_cache] in E. cbn [multiply_with_cache_rel].
  destruct (cache_pos m a) as [pos| | |] eqn:Ep; try discriminate. rewrite (cache_pos_same _ _ _ Ep). cbn [bind] in *.
  destruct (alookup key_eqb (pos, a, b) c); [exact E|].
  destruct (nth_error (m_heap m) a) as [na|]; [|discriminate]. cbn [get bind] in *.
  destruct (nth_error (m_heap m) b) as [nb|]; [|discriminate]. cbn [get bind] in *.
  destruct (Nat.eqb _ _); [|discriminate]. cbn [assert bind] in E.
  destruct (n_body na) as [la|va ta fa|ea], (n_body nb) as [lb|vb tb fb|eb]; try discriminate.
  - destruct (N.eqb _ _); [|discriminate]. cbn [assert bind] in E. destruct (Z.eqb la lb).
    + destruct (GetPsddLiteralNode m la flag) as [[i m1]| | |]; try discriminate. cbn [bind] in *. upd E.
    + upd E.
  - destruct (N.eqb _ _); [|discriminate]. cbn [assert bind] in E.
    destruct (GetPsddLiteralNode m la flag) as [[i m1]| | |]; try discriminate. cbn [bind] in *. upd E.
  - destruct (N.eqb _ _); [|discriminate]. cbn [assert bind] in E.
    destruct (GetPsddLiteralNode m lb flag) as [[i m1]| | |]; try discriminate. cbn [bind] in *. upd E.
  - destruct (N.eqb _ _); [|discriminate]. cbn [assert bind] in E.
    destruct (GetPsddTopNode m va flag _ _) as [[i m1]| | |]; try discriminate. cbn [bind] in *.
    destruct (nth_error (m_heap m1) i) as [nd|]; [|discriminate]. cbn [get bind] in E. destruct (n_body nd) as [|v t' f'|]; try discriminate.
    destruct (negb (peq t' pzero)); [|discriminate]. cbn [assert bind] in E. destruct (negb (peq f' pzero)); [|discriminate]. cbn [assert bind] in E. upd E.
  - destruct (foldM (mul_pair (multiply_with_cache n flag)) (list_prod ea eb) ([], pzero, (m, c))) as [[[acc part] [m1 c1]]| | |] eqn:F; try discriminate.
    rewrite (pairs_same _ _ IH _ _ _ F). cbn [bind] in *. destruct acc as [|e0 acc]; [upd E|].
    destruct (forallb _ _) in E; [|discriminate]. cbn [assert bind] in E.
    destruct (GetConformedPsddDecisionNode m1 _ _ _ flag) as [[i m2]| | |]; try discriminate. cbn [bind] in *. upd E.
Qed.
Theorem multiply_same m a b flag r : Multiply m a b flag = Ok r -> MultiplyRel m a b flag = Ok r.
Proof.
  unfold Multiply, MultiplyRel. intros E.
  match type of E with bind ?x _ = _ => destruct x as [[r0 s]| | |] eqn:E1; try discriminate end.
  change (multiply_with_cache (S a) flag a b (m, []) = Ok (r0, s)) in E1. apply mul_same in E1.
  match goal with |- bind ?x _ = _ => change x with (multiply_with_cache_rel (S a) flag a b (m, [])) end.
  unfold mcache, mres in *. rewrite E1. exact E.
Qed.
End MulRel.
