(** Property theorem C96 (sizes of products at each vtree node).  [here h p i]: node [i] is at the vtree node with path [p]; [width_at h i]: its
    number of elements, one for a literal or top node. *)
From Coq Require Import Reals Lra.
From Verif Require Import Base Param ParamProofs Vtree VtreeProofs Spec SpecProofs Heap Manager HeapProofs SerProofs RepProofs OrderProofs CanonProofs HeapExamples LoadProofs MulProofs ReplayProofs ManagerExamples
  TreeProofs Query QueryProofs Pgm PgmLayout PgmProofs PgmNet PgmExamples SizeProofs Props_Size SizeAtProofs SizeNet SizeFactor SizeTrue SizeCut.
Local Open Scope nat_scope.

(** Nodes, and elements, of the PSDD with root [i] at vtree node [p]; [None] if it cannot be serialized. *)
Definition nodes_at {P} (h : heap P) (p : path) (i : nat) : option nat :=
  match SerializePsddNodes h [i] with Ok L => Some (length (filter (here h p) L)) | _ => None end.
Definition elements_at {P} (h : heap P) (p : path) (i : nat) : option nat :=
  match SerializePsddNodes h [i] with Ok L => Some (list_sum (map (width_at h) (filter (here h p) L))) | _ => None end.
Lemma compares P val d : pexact P val \/ papprox P val d -> (forall x : P, peq x x = true) /\ (forall x : P, plt x x = false) /\ @shaped P.
Proof.
  intros [HP|HP].
  - split; [apply (val_peq_refl val HP)|]. split; [apply (val_plt_irrefl val HP)|]. apply total_shaped, (exact_total P val HP).
  - split; [apply (approx_refl HP)|]. split; [apply (approx_irrefl HP)|]. apply total_shaped, (approx_total P val d HP).
Qed.
Lemma counted {P} root (h : heap P) p i : heap_ok root h -> i < length h -> exists n w, nodes_at h p i = Some n /\ elements_at h p i = Some w /\ at_most h i p n w /\
  forall n' w', at_most h i p n' w' -> n <= n' /\ w <= w'.
Proof.
  intros H L. destruct (serialize_root _ _ _ H L) as (Ls & S). unfold nodes_at, elements_at. rewrite (so_eq _ _ _ S). do 2 eexists. do 2 (split; [reflexivity|]). split; [apply at_most_ser, S|].
  intros n' w' A. apply A; [apply NoDup_filter, (so_nodup _ _ _ S)|]. intros j I. apply filter_In in I as [I1 I2]. apply here_true in I2. split; auto. apply (so_in _ _ _ S); auto.
Qed.
Lemma has_one {P} root (h : heap P) p i n w s : heap_ok root h -> vt_of h i = Some [] -> subtree root p = Some s -> at_most h i p n w -> 1 <= n /\ 1 <= w.
Proof.
  intros H V S A. destruct (has_node p root h i s H V S) as (j & R & Vj). destruct (A [j]) as [A1 A2]; [repeat constructor; auto|intros k [<-|[]]; auto|]. cbn in A1. split; auto.
  cbn [map list_sum fold_right] in A2. assert (1 <= width_at h j); [|cbn in A2; lia]. unfold width_at, vt_of in *. destruct (nth_error h j) as [nd|] eqn:E; [|discriminate].
  pose proof (H _ _ E) as O. unfold node_ok in O. unfold width. destruct (n_body nd) as [l|v a b|es]; auto.
  destruct O as (NE & _). destruct es; [congruence|cbn; lia].
Qed.

(** C96.  At every vtree node, a product has at most as many nodes (and elements) as the product of the numbers its arguments have there. *)
Theorem C96_multiply : forall P val d, pexact P val \/ papprox P val d -> forall (m : mgr P) a b fl k z m' p, Wf m -> a < length (m_heap m) -> b < length (m_heap m) ->
  Multiply m a b fl = Ok ((Some k, z), m') ->
  exists na nb n wa wb w, nodes_at (m_heap m) p a = Some na /\ nodes_at (m_heap m) p b = Some nb /\ nodes_at (m_heap m') p k = Some n /\
    elements_at (m_heap m) p a = Some wa /\ elements_at (m_heap m) p b = Some wb /\ elements_at (m_heap m') p k = Some w /\ n <= na * nb /\ w <= wa * wb.
Proof.
  intros P val d HP m a b fl k z m' p W LA LB E. destruct (compares P val d HP) as (Hr & Hi & SH).
  destruct (multiply_wf Hr Hi m a b fl _ m' W E) as [W' _].
  assert (LK : k < length (m_heap m')).
  { pose proof E as E0. unfold Multiply in E. bk E as [r1 [m1 c1]] E1. injection E as -> <-.
    assert (S0 : mst (m_vt m) (m_heap m) m []).
    { split; [exact W|reflexivity|exists []; rewrite app_nil_r; auto|constructor|intros ? ? ? ? []|intros ? ? ? ? ? []|intros ? ? ? ? ? []]. }
    destruct (multiply_grown Hr Hi (m_vt m) (m_heap m) (wf_heap _ W) fl (1 + a) a b m [] _ _ c1 S0 LA LB E1) as [_ RR].
    cbn [fst] in RR. destruct RR as [V _]. destruct (vt_of_get (m_heap m) a LA) as (q & Eq). rewrite Eq in V. apply vt_of_lt in V. exact V. }
  destruct (counted (m_vt m) (m_heap m) p a (wf_heap _ W) LA) as (na & wa & A1 & A2 & A3 & _). destruct (counted (m_vt m) (m_heap m) p b (wf_heap _ W) LB) as (nb & wb & B1 & B2 & B3 & _).
  destruct (counted (m_vt m') (m_heap m') p k (wf_heap _ W') LK) as (n & w & K1 & K2 & _ & K4). exists na, nb, n, wa, wb, w. do 6 (split; [assumption|]).
  apply K4. exact (multiply_at Hr Hi m a b fl k z m' p na nb wa wb SH W LA LB E A3 B3).
Qed.
Print Assumptions C96_multiply.
(** at the left child of the root: two nodes of each argument, four nodes of the product *)
Example C96_multiply_nonvacuous : pexact Qex qval /\ Wf si_m /\ exists w m', Multiply si_m 14 15 0 = Ok ((Some 24, w), m') /\
  nodes_at (m_heap si_m) [false] 14 = Some 2 /\ nodes_at (m_heap si_m) [false] 15 = Some 2 /\ nodes_at (m_heap m') [false] 24 = Some 4 /\
  elements_at (m_heap si_m) [] 14 = Some 2 /\ elements_at (m_heap si_m) [] 15 = Some 2 /\ elements_at (m_heap m') [] 24 = Some 4.
Proof.
  split; [exact Qex_exact|]. split; [exact si_wf|].
  assert (E : match Multiply si_m 14 15 0 with Ok ((Some k, _), m') => Some (k, nodes_at (m_heap m') [false] k, elements_at (m_heap m') [] k) | _ => None end = Some (24, Some 4, Some 4))
    by (vm_compute; reflexivity).
  destruct (Multiply si_m 14 15 0) as [[[[k|] w] m']| | |]; try discriminate. injection E as -> E1 E2. exists w, m'. split; [reflexivity|].
  do 2 (split; [vm_compute; reflexivity|]). split; [exact E1|]. do 2 (split; [vm_compute; reflexivity|]). exact E2.
Qed.

Definition product (l : list nat) : nat := fold_right Nat.mul 1 l.
(** C96.  A compiled network has, at every vtree node, at most as many nodes (and elements) as the product of the numbers that the PSDDs of its
    factors have there.  So a factor whose PSDD has one node there does not count.  The bound is
    the same for all three ways to compile, in whatever order the factors are multiplied and whatever is collected in between. *)
Theorem C96_networks : forall P val d, pexact P val \/ papprox P val d -> forall ords srt gc (fs : network P) (m : mgr P) nodes z0 m1 p s, Wf m ->
  (forall key l, Permutation (srt key l) l) -> subtree (m_vt m) p = Some s -> load_factors ords 0 fs pone m = Ok (nodes, z0, m1) ->
  forall r z m', compile_network ords srt fs m = Ok (Some r, z, m') \/ compile_network_dc ords srt gc fs m = Ok (Some r, z, m') \/
    compile_network_with_vtree ords gc fs m = Ok (Some r, z, m') ->
  exists ns ws n w, Forall2 (fun i n => nodes_at (m_heap m1) p i = Some n) nodes ns /\ Forall2 (fun i w => elements_at (m_heap m1) p i = Some w) nodes ws /\
    nodes_at (m_heap m') p r = Some n /\ elements_at (m_heap m') p r = Some w /\ length nodes = length fs /\ n <= product ns /\ w <= product ws.
Proof.
  intros P val d HP ords srt gc fs m nodes z0 m1 p s W HS Hp EL r z m' E. destruct (compares P val d HP) as (Hr & Hi & SH).
  destruct (load_factors_wf Hr Hi ords fs 0 pone m nodes z0 m1 W EL) as (W1 & X1 & FV & LN).
  set (bf := fun i => (match nodes_at (m_heap m1) p i with Some n => n | None => 0 end, match elements_at (m_heap m1) p i with Some w => w | None => 0 end)).
  assert (S1 : subtree (m_vt m1) p = Some s) by (rewrite (me_vt _ _ _ X1); auto).
  assert (BF : Forall (fun i => nodes_at (m_heap m1) p i = Some (fst (bf i)) /\ elements_at (m_heap m1) p i = Some (snd (bf i)) /\ bnd p (m_heap m1) i (bf i)) nodes).
  { eapply Forall_impl; [|exact FV]. cbn beta. intros i V. destruct (counted (m_vt m1) (m_heap m1) p i (wf_heap _ W1) (vt_of_lt _ _ _ V)) as (n & w & A & B & C & _).
    unfold bf. rewrite A, B. cbn [fst snd]. do 2 (split; [reflexivity|]). split; auto. split; auto. eapply has_one; eauto. apply W1. }
  destruct (networks_bound Hr Hi p ords srt gc fs m nodes z0 m1 bf SH W HS EL) with (r := r) (z := z) (m' := m') as (W' & X' & V & A & _); auto.
  { eapply Forall_impl; [|exact BF]. cbn beta. tauto. }
  destruct (counted (m_vt m') (m_heap m') p r (wf_heap _ W') (vt_of_lt _ _ _ V)) as (n & w & K1 & K2 & _ & K4). destruct (K4 _ _ A) as [Q1 Q2].
  exists (map (fun i => fst (bf i)) nodes), (map (fun i => snd (bf i)) nodes), n, w.
  split; [apply (Forall2_map_r (fun i n => nodes_at (m_heap m1) p i = Some n)); eapply Forall_impl; [|exact BF]; cbn beta; tauto|].
  split; [apply (Forall2_map_r (fun i n => elements_at (m_heap m1) p i = Some n)); eapply Forall_impl; [|exact BF]; cbn beta; tauto|].
  do 2 (split; [assumption|]). split; auto.
  replace (product (map (fun i => fst (bf i)) nodes)) with (fst (prod (map bf nodes))) by (clear; induction nodes as [|i l IH]; cbn in *; auto).
  replace (product (map (fun i => snd (bf i)) nodes)) with (snd (prod (map bf nodes))) by (clear; induction nodes as [|i l IH]; cbn in *; auto). auto.
Qed.
Print Assumptions C96_networks.
Lemma si_loaded : exists nodes z0 m1, load_factors id_ord 0 [fac_a; fac_b] pone (new_mgr ex_vt) = Ok (nodes, z0, m1) /\
  map (nodes_at (m_heap m1) [false]) nodes = [Some 2; Some 2] /\ map (nodes_at (m_heap m1) [false; false]) nodes = [Some 2; Some 1] /\
  map (elements_at (m_heap m1) [true]) nodes = [Some 2; Some 3].
Proof.
  pose (f := fun x : res (list nat * Qex * mgr Qex) => match x with
    | Ok (nodes, _, m1) => Some (map (nodes_at (m_heap m1) [false]) nodes, map (nodes_at (m_heap m1) [false; false]) nodes, map (elements_at (m_heap m1) [true]) nodes) | _ => None end).
  assert (G : forall x, f x = Some ([Some 2; Some 2], [Some 2; Some 1], [Some 2; Some 3]) -> exists nodes z0 m1, x = Ok (nodes, z0, m1) /\
    map (nodes_at (m_heap m1) [false]) nodes = [Some 2; Some 2] /\ map (nodes_at (m_heap m1) [false; false]) nodes = [Some 2; Some 1] /\
    map (elements_at (m_heap m1) [true]) nodes = [Some 2; Some 3]).
  { intros [[[nodes z0] m1]| | |] E; try discriminate. injection E as E1 E2 E3. exists nodes, z0, m1. auto. }
  apply G. vm_compute. reflexivity.
Qed.
Lemma si_compiled : exists r z m', compile_network_with_vtree id_ord 1 [fac_a; fac_b] (new_mgr ex_vt) = Ok (Some r, z, m') /\
  nodes_at (m_heap m') [false] r = Some 3 /\ nodes_at (m_heap m') [false; false] r = Some 2 /\ elements_at (m_heap m') [true] r = Some 4.
Proof.
  pose (f := fun x : res (option nat * Qex * mgr Qex) => match x with
    | Ok (Some r, _, m') => Some (nodes_at (m_heap m') [false] r, nodes_at (m_heap m') [false; false] r, elements_at (m_heap m') [true] r) | _ => None end).
  assert (G : forall x, f x = Some (Some 3, Some 2, Some 4) -> exists r z m', x = Ok (Some r, z, m') /\
    nodes_at (m_heap m') [false] r = Some 3 /\ nodes_at (m_heap m') [false; false] r = Some 2 /\ elements_at (m_heap m') [true] r = Some 4).
  { intros [[[[r|] z] m']| | |] E; try discriminate. injection E as E1 E2 E3. exists r, z, m'. auto. }
  apply G. vm_compute. reflexivity.
Qed.
(** two factors over four variables: at the left child of the root each has two nodes and the network three; at the first leaf the second
    factor has one node, and the network as many as the first *)
Example C96_networks_nonvacuous : pexact Qex qval /\ Wf (new_mgr (P := Qex) ex_vt) /\ (forall key l, Permutation (isort key l) l) /\
  exists nodes z0 m1 r z m', load_factors id_ord 0 [fac_a; fac_b] pone (new_mgr ex_vt) = Ok (nodes, z0, m1) /\
  compile_network_with_vtree id_ord 1 [fac_a; fac_b] (new_mgr ex_vt) = Ok (Some r, z, m') /\
  map (nodes_at (m_heap m1) [false]) nodes = [Some 2; Some 2] /\ nodes_at (m_heap m') [false] r = Some 3 /\
  map (nodes_at (m_heap m1) [false; false]) nodes = [Some 2; Some 1] /\ nodes_at (m_heap m') [false; false] r = Some 2 /\
  map (elements_at (m_heap m1) [true]) nodes = [Some 2; Some 3] /\ elements_at (m_heap m') [true] r = Some 4.
Proof.
  split; [exact Qex_exact|]. split; [apply wf_new; repeat constructor; simpl; intuition discriminate|]. split; [intros key l; apply isort_sorts|].
  destruct si_loaded as (nodes & z0 & m1 & A1 & A2 & A3 & A4). destruct si_compiled as (r & z & m' & B1 & B2 & B3 & B4). exists nodes, z0, m1, r, z, m'. do 7 (split; [assumption|]). assumption.
Qed.

(** C96.  Compiling a factor adds at most |scope| * |table| * (2 * V + 2) + V nodes, and as many elements, where V is the number of nodes of the
    vtree; the factors of a network add at most the sum.  For the code's own parameters, zeros, infinities and NaN included, and for any
    others that are equal to themselves and not less. *)
Theorem C96_factors : forall (P : pops), (forall a : P, peq a a = true) -> (forall a : P, plt a a = false) -> forall (m : mgr P), Wf m ->
  let bound (F : factor P) := length (f_scope F) * (length (f_table F) * (2 * vsize (m_vt m) + 2)) + vsize (m_vt m) in
  (forall ord F i z m', (forall k l, Permutation (ord k l) l) -> compile_factor ord F m = Ok (i, z, m') -> adds m m' (bound F) (bound F)) /\
  (forall ords k fs z nodes z' m', (forall a b c, Permutation (ords a b c) c) -> load_factors ords k fs z m = Ok (nodes, z', m') ->
     adds m m' (list_sum (map bound fs)) (list_sum (map bound fs))).
Proof.
  intros P Hr Hi m W bound. split.
  - intros ord F i z m' HO E. exact (compile_factor_more Hr Hi ord F m i z m' HO W E).
  - intros ords k fs z nodes z' m' HO E. exact (load_factors_more Hr Hi ords HO fs k z m nodes z' m' W E).
Qed.
Print Assumptions C96_factors.
(** the code's parameters are such; and the two factors of the example *)
Example C96_factors_nonvacuous : (forall a : Lcode, peq a a = true) /\ (forall a : Lcode, plt a a = false) /\ (forall a : Qex, peq a a = true) /\ (forall a : Qex, plt a a = false) /\
  Wf (new_mgr (P := Qex) ex_vt) /\ (forall a b c, Permutation (id_ord a b c) c) /\
  exists nodes z0 m1, load_factors id_ord 0 [fac_a; fac_b] pone (new_mgr ex_vt) = Ok (nodes, z0, m1).
Proof.
  split; [exact code_refl|]. split; [exact code_irrefl|]. split; [apply (@val_peq_refl Qex qval Qex_exact)|]. split; [apply (@val_plt_irrefl Qex qval Qex_exact)|].
  split; [apply wf_new; repeat constructor; simpl; intuition discriminate|]. split; [intros; apply Permutation_refl|].
  destruct si_loaded as (nodes & z0 & m1 & A & _). eauto.
Qed.

(** The whole network: at most the product of the sizes of the factors' PSDDs. *)
Lemma split_count {P} (h : heap P) (PS : list path) : NoDup PS -> forall L, (forall i, In i L -> exists p, In p PS /\ vt_of h i = Some p) ->
  length L = list_sum (map (fun p => length (filter (here h p) L)) PS).
Proof.
  intros ND. induction L as [|i L IH]; intros H.
  - clear. induction PS as [|p PS IH]; auto.
  - cbn [length]. rewrite (IH (fun j I => H j (or_intror I))). destruct (H i (or_introl eq_refl)) as (p & Ip & V). clear - ND Ip V.
    assert (HN : forall q, here h q i = true <-> q = p) by (intros q; rewrite here_true, V; split; congruence).
    rewrite (map_ext (fun q => length (filter (here h q) (i :: L))) (fun q => (if here h q i then 1 else 0) + length (filter (here h q) L))) by (intros q; cbn [filter]; destruct (here h q i); auto).
    assert (SA : forall f g : path -> nat, list_sum (map (fun q => f q + g q) PS) = list_sum (map f PS) + list_sum (map g PS)).
    { intros f g. clear. unfold list_sum. induction PS as [|q PS IH]; cbn; auto. rewrite IH. lia. }
    rewrite SA. enough (list_sum (map (fun q => if here h q i then 1 else 0) PS) = 1) as -> by reflexivity. clear SA V.
    assert (Z : forall l, ~ In p l -> list_sum (map (fun q => if here h q i then 1 else 0) l) = 0).
    { unfold list_sum. induction l as [|q l IH]; intros N; auto. cbn. rewrite IH by (intros Q; apply N; right; auto). destruct (here h q i) eqn:E; auto. apply HN in E. exfalso. apply N. left. auto. }
    induction PS as [|q PS IH]; [destruct Ip|]. inversion ND as [|? ? NI ND']; subst. cbn [map]. change (list_sum (?a :: ?l)) with (a + list_sum l). destruct (here h q i) eqn:E.
    + apply HN in E. subst q. rewrite Z; auto.
    + destruct Ip as [->|Ip]; [assert (here h p i = true) by (apply HN; auto); congruence|]. apply IH; auto.
Qed.
Lemma product_le : forall l l', Forall2 le l l' -> product l <= product l'.
Proof. induction 1; cbn; auto. apply Nat.mul_le_mono; auto. Qed.
Lemma sum_product {A} (PS : list A) : forall (cs : list (A -> nat)), cs <> [] ->
  list_sum (map (fun p => product (map (fun c => c p) cs)) PS) <= product (map (fun c => list_sum (map c PS)) cs).
Proof.
  induction cs as [|c cs IH]; intros NE; [congruence|]. destruct cs as [|c' cs].
  - cbn. rewrite Nat.mul_1_r. apply Nat.eq_le_incl. f_equal. apply map_ext. intros; lia.
  - specialize (IH ltac:(discriminate)). set (cs' := c' :: cs) in *. cbn [map product fold_right]. fold (product (map (fun c => list_sum (map c PS)) cs')).
    eapply Nat.le_trans; [|apply Nat.mul_le_mono_l, IH]. clear. generalize cs' as l. intros l. change (fun p => c p * fold_right Nat.mul 1 (map (fun c0 => c0 p) l)) with (fun p => c p * product (map (fun c0 => c0 p) l)).
    set (d := fun p => product (map (fun c0 => c0 p) l)). change (list_sum (map (fun p => c p * d p) PS) <= list_sum (map c PS) * list_sum (map d PS)).
    induction PS as [|p PS IH]; auto. cbn [map list_sum fold_right]. unfold list_sum in *. nia.
Qed.
Definition count {P} (h : heap P) (p : path) (i : nat) : nat := match nodes_at h p i with Some n => n | None => 0 end.
Lemma counts_all {P} root (h : heap P) i : heap_ok root h -> i < length h -> exists L, SerializePsddNodes h [i] = Ok L /\ length L = list_sum (map (fun p => count h p i) (map fst (nodes [] root))).
Proof.
  intros H Li. destruct (serialize_root _ _ _ H Li) as (L & S). exists L. split; [apply S|]. rewrite (split_count h (map fst (nodes [] root)) (nodes_NoDup _ _) L).
  - f_equal. apply map_ext. intros p. unfold count, nodes_at. rewrite (so_eq _ _ _ S). reflexivity.
  - intros j I. apply (so_in _ _ _ S) in I. assert (Lj : j < length h) by (pose proof (reach_le _ _ _ _ H I); lia).
    destruct (vt_of_get _ _ Lj) as (p & V). exists p. split; auto. unfold vt_of in V. destruct (nth_error h j) as [nd|] eqn:En; [|discriminate]. injection V as <-.
    destruct (node_ok_valid _ _ _ _ (H _ _ En)) as (s & Hs). apply nodes_root in Hs. apply (in_map fst) in Hs. exact Hs.
Qed.
Theorem C96_network_size : forall P val d, pexact P val \/ papprox P val d -> forall ords srt gc (fs : network P) (m : mgr P) fnodes z0 m1, Wf m -> fs <> [] ->
  (forall key l, Permutation (srt key l) l) -> load_factors ords 0 fs pone m = Ok (fnodes, z0, m1) ->
  forall r z m', compile_network ords srt fs m = Ok (Some r, z, m') \/ compile_network_dc ords srt gc fs m = Ok (Some r, z, m') \/
    compile_network_with_vtree ords gc fs m = Ok (Some r, z, m') ->
  exists Ls L, Forall2 (fun i l => SerializePsddNodes (m_heap m1) [i] = Ok l) fnodes Ls /\ SerializePsddNodes (m_heap m') [r] = Ok L /\ length L <= product (map (@length nat) Ls).
Proof.
  intros P val d HP ords srt gc fs m fn z0 m1 W NE HS EL r z m' E. pose proof (C96_networks P val d HP ords srt gc fs m fn z0 m1) as PT. destruct (compares P val d HP) as (Hr & Hi & SH).
  destruct (load_factors_wf Hr Hi ords fs 0 pone m fn z0 m1 W EL) as (W1 & X1 & FV & LN).
  destruct (networks_bound Hr Hi [] ords srt gc fs m fn z0 m1 (fun i => (count (m_heap m1) [] i, match elements_at (m_heap m1) [] i with Some w => w | None => 0 end)) SH W HS EL) with (r := r) (z := z) (m' := m')
    as (W' & X' & V & _); auto.
  { eapply Forall_impl; [|exact FV]. cbn beta. intros i V. destruct (counted (m_vt m1) (m_heap m1) [] i (wf_heap _ W1) (vt_of_lt _ _ _ V)) as (n & w & A & B & C & _).
    unfold count. rewrite A, B. split; auto. split; auto. eapply has_one; eauto; [apply W1|reflexivity]. }
  set (PS := map fst (nodes [] (m_vt m))).
  assert (FL : exists Ls, Forall2 (fun i l => SerializePsddNodes (m_heap m1) [i] = Ok l) fn Ls /\ map (@length nat) Ls = map (fun i => list_sum (map (fun p => count (m_heap m1) p i) PS)) fn).
  { clear - FV W1 X1 PS. induction FV as [|i fn V FV (Ls & A & B)]; [exists []; auto|].
    destruct (counts_all (m_vt m1) (m_heap m1) i (wf_heap _ W1) (vt_of_lt _ _ _ V)) as (L & Q1 & Q2). exists (L :: Ls). split; [constructor; auto|]. cbn [map]. rewrite B, Q2, (me_vt _ _ _ X1). reflexivity. }
  destruct FL as (Ls & F1 & F2). destruct (counts_all (m_vt m') (m_heap m') r (wf_heap _ W') (vt_of_lt _ _ _ V)) as (L & Q1 & Q2). exists Ls, L. do 2 (split; [assumption|]).
  rewrite Q2, F2. destruct X' as [VT _]. rewrite VT. fold PS.
  eapply Nat.le_trans; [|rewrite <- (map_map (fun i p => count (m_heap m1) p i) (fun c => list_sum (map c PS)) fn); apply sum_product].
  2: { intros Z. apply map_eq_nil in Z. subst fn. destruct fs; [congruence|discriminate]. }
  assert (G : forall p, In p PS -> count (m_heap m') p r <= product (map (fun c => c p) (map (fun i p => count (m_heap m1) p i) fn))).
  { intros p Ip. apply in_map_iff in Ip as ([p' s] & Ep & Ip). cbn in Ep. subst p'. apply nodes_root in Ip.
    destruct (PT p s W HS Ip EL r z m' E) as (ns & ws & n & w & A1 & _ & A3 & _ & _ & A6 & _). unfold count at 1. rewrite A3. rewrite map_map.
    replace (map (fun i => count (m_heap m1) p i) fn) with ns; auto. clear - A1. induction A1 as [|i k fn ns K A1 IH]; auto. cbn [map]. unfold count at 1. rewrite K, IH. reflexivity. }
  clear - G. induction PS as [|p PS IH]; auto. cbn [map list_sum fold_right]. unfold list_sum in IH. pose proof (G p (or_introl eq_refl)). specialize (IH (fun q I => G q (or_intror I))). lia.
Qed.
Print Assumptions C96_network_size.
(** the two factors of the example: PSDDs of eleven and thirteen nodes, and a network of sixteen *)
Example C96_network_size_nonvacuous : exists Ls L z0 m1 fn r z m', load_factors id_ord 0 [fac_a; fac_b] pone (new_mgr ex_vt) = Ok (fn, z0, m1) /\
  compile_network_with_vtree id_ord 1 [fac_a; fac_b] (new_mgr ex_vt) = Ok (Some r, z, m') /\
  mapM (fun i => SerializePsddNodes (m_heap m1) [i]) fn = Ok Ls /\ map (@length nat) Ls = [11; 13] /\ SerializePsddNodes (m_heap m') [r] = Ok L /\ length L = 16.
Proof.
  assert (A : forall x : res (list nat * Qex * mgr Qex), (do (y, m1) <- x ;; do Ls <- mapM (fun i => SerializePsddNodes (m_heap m1) [i]) (fst y) ;; Ok (map (@length nat) Ls)) = Ok [11; 13] ->
    exists Ls z0 m1 fn, x = Ok (fn, z0, m1) /\ mapM (fun i => SerializePsddNodes (m_heap m1) [i]) fn = Ok Ls /\ map (@length nat) Ls = [11; 13]).
  { intros [[[fn z0] m1]| | |] E; try discriminate. cbn [bind fst] in E. bk E as Ls E1. injection E as E. exists Ls, z0, m1, fn. auto. }
  assert (B : forall x : res (option nat * Qex * mgr Qex), (do (y, m1) <- x ;; match fst y with Some r => do L <- SerializePsddNodes (m_heap m1) [r] ;; Ok (length L) | None => Abort end) = Ok 16 ->
    exists L r z m', x = Ok (Some r, z, m') /\ SerializePsddNodes (m_heap m') [r] = Ok L /\ length L = 16).
  { intros [[[[r|] z] m']| | |] E; try discriminate. cbn [bind fst] in E. bk E as L E1. injection E as E. exists L, r, z, m'. auto. }
  destruct (A (load_factors id_ord 0 [fac_a; fac_b] pone (new_mgr ex_vt))) as (Ls & z0 & m1 & fn & A1 & A2 & A3); [vm_compute; reflexivity|].
  destruct (B (compile_network_with_vtree id_ord 1 [fac_a; fac_b] (new_mgr ex_vt))) as (L & r & z & m' & B1 & B2 & B3); [vm_compute; reflexivity|].
  exists Ls, L, z0, m1, fn, r, z, m'. do 5 (split; [assumption|]). assumption.
Qed.

(** C96.  Where none of a factor's variables lies below a vtree node, its PSDD has exactly one node there, of one element. *)
Theorem C96_untouched : forall P val, pexact P val -> forall ords (fs : network P) (m : mgr P) fnodes z0 m1 p s, Wf m -> subtree (m_vt m) p = Some s ->
  load_factors ords 0 fs pone m = Ok (fnodes, z0, m1) ->
  Forall2 (fun F i => (forall v, In v (leaves s) -> ~ In v (f_scope F)) -> nodes_at (m_heap m1) p i = Some 1 /\ elements_at (m_heap m1) p i = Some 1) fs fnodes.
Proof.
  intros P val HP ords fs m fn z0 m1 p s W Hs E. destruct (compares P val 0%R (or_introl HP)) as (Hr & Hi & _).
  destruct (load_factors_wf Hr Hi ords fs 0 pone m fn z0 m1 W E) as (W1 & X1 & FV & _). pose proof (load_factors_clean HP ords fs 0 pone m fn z0 m1 W E) as C.
  assert (S1 : subtree (m_vt m1) p = Some s) by (rewrite (me_vt _ _ _ X1); auto). clear E. induction C as [|F i fs fn CI C IH]; constructor; inversion FV as [|? ? V FV']; subst; auto.
  intros NO. assert (A : at_most (m_heap m1) i p 1 1). { apply (clean_one HP (f_scope F)); auto. intros (s' & v & Q & I & J). rewrite S1 in Q. injection Q as <-. exact (NO v I J). }
  destruct (counted (m_vt m1) (m_heap m1) p i (wf_heap _ W1) (vt_of_lt _ _ _ V)) as (n & w & K1 & K2 & K3 & K4). destruct (K4 _ _ A) as [L1 L2].
  destruct (has_one (m_vt m1) (m_heap m1) p i n w s (wf_heap _ W1) V S1 K3) as [L3 L4]. rewrite K1, K2. split; f_equal; lia.
Qed.
Print Assumptions C96_untouched.
(** [F] speaks of a variable below [s] *)
Definition speaks {P : pops} (s : vtree) (F : factor P) : bool := existsb (fun v => existsb (N.eqb v) (f_scope F)) (leaves s).
(** C96.  So a compiled network has at every vtree node at most as many nodes as the product over the factors that speak of a variable below it. *)
Theorem C96_local : forall P val, pexact P val -> forall ords srt gc (fs : network P) (m : mgr P) fnodes z0 m1 p s, Wf m ->
  (forall key l, Permutation (srt key l) l) -> subtree (m_vt m) p = Some s -> load_factors ords 0 fs pone m = Ok (fnodes, z0, m1) ->
  forall r z m', compile_network ords srt fs m = Ok (Some r, z, m') \/ compile_network_dc ords srt gc fs m = Ok (Some r, z, m') \/
    compile_network_with_vtree ords gc fs m = Ok (Some r, z, m') ->
  exists ns ws n w, let below := map snd (filter (fun x => speaks s (fst x)) (combine fs fnodes)) in
    Forall2 (fun i n => nodes_at (m_heap m1) p i = Some n) below ns /\ Forall2 (fun i w => elements_at (m_heap m1) p i = Some w) below ws /\
    nodes_at (m_heap m') p r = Some n /\ elements_at (m_heap m') p r = Some w /\ n <= product ns /\ w <= product ws.
Proof.
  intros P val HP ords srt gc fs m fn z0 m1 p s W HS Hs E r z m' EC.
  destruct (C96_networks P val 0%R (or_introl HP) ords srt gc fs m fn z0 m1 p s W HS Hs E r z m' EC) as (ns & ws & n & w & A1 & A2 & A3 & A4 & _ & A6 & A7).
  pose proof (C96_untouched P val HP ords fs m fn z0 m1 p s W Hs E) as U.
  enough (exists ns' ws', let below := map snd (filter (fun x => speaks s (fst x)) (combine fs fn)) in
    Forall2 (fun i n => nodes_at (m_heap m1) p i = Some n) below ns' /\ Forall2 (fun i w => elements_at (m_heap m1) p i = Some w) below ws' /\ product ns' = product ns /\ product ws' = product ws)
    as (ns' & ws' & B1 & B2 & B3 & B4) by (exists ns', ws', n, w; cbv zeta; rewrite B3, B4; auto 6).
  clear - A1 A2 U. revert ns ws A1 A2. induction U as [|F i fs fn HU U IH]; intros ns ws A1 A2; inversion A1 as [|? a ? ns0 K1 A1']; inversion A2 as [|? b ? ws0 K2 A2']; subst; [exists [], []; cbn; auto|].
  destruct (IH ns0 ws0 A1' A2') as (ns' & ws' & B1 & B2 & B3 & B4). cbn [combine filter fst]. destruct (speaks s F) eqn:Q.
  - exists (a :: ns'), (b :: ws'). cbn [map snd]. split; [constructor; auto|]. split; [constructor; auto|]. cbn. fold (product ns') (product ws') (product ns0) (product ws0). rewrite B3, B4. auto.
  - exists ns', ws'. do 2 (split; [assumption|]). destruct HU as [U1 U2].
    { intros v I J. unfold speaks in Q. enough (existsb (fun v => existsb (N.eqb v) (f_scope F)) (leaves s) = true) by congruence. apply existsb_exists. exists v. split; auto. apply existsb_exists. exists v. split; auto. apply N.eqb_refl. }
    assert (a = 1) as -> by congruence. assert (b = 1) as -> by congruence. cbn. fold (product ns0) (product ws0). rewrite B3, B4, !Nat.add_0_r. auto.
Qed.
Print Assumptions C96_local.
(** the second factor of the example does not speak of the variable at the first leaf, and the first does *)
Example C96_local_nonvacuous : subtree ex_vt [false; false] = Some (Leaf 1) /\ map (speaks (Leaf 1)) [fac_a; fac_b] = [true; false] /\
  exists nodes z0 m1 r z m', load_factors id_ord 0 [fac_a; fac_b] pone (new_mgr ex_vt) = Ok (nodes, z0, m1) /\
  compile_network_with_vtree id_ord 1 [fac_a; fac_b] (new_mgr ex_vt) = Ok (Some r, z, m') /\
  map (nodes_at (m_heap m1) [false; false]) nodes = [Some 2; Some 1] /\ nodes_at (m_heap m') [false; false] r = Some 2.
Proof.
  split; [reflexivity|]. split; [reflexivity|]. destruct si_loaded as (nodes & z0 & m1 & A1 & _ & A3 & _). destruct si_compiled as (r & z & m' & B1 & _ & B3 & _).
  exists nodes, z0, m1, r, z, m'. do 3 (split; [assumption|]). assumption.
Qed.

(** C96.  Where all of a factor's variables lie below a vtree node, its PSDD has exactly one node there as well. *)
Theorem C96_within : forall P val, pexact P val -> forall ords (fs : network P) (m : mgr P) fnodes z0 m1 p s, Wf m -> subtree (m_vt m) p = Some s ->
  load_factors ords 0 fs pone m = Ok (fnodes, z0, m1) ->
  Forall2 (fun F i => (forall v, In v (f_scope F) -> In v (leaves s)) -> nodes_at (m_heap m1) p i = Some 1) fs fnodes.
Proof.
  intros P val HP ords fs m fn z0 m1 p s W Hs E. destruct (compares P val 0%R (or_introl HP)) as (Hr & Hi & _).
  destruct (load_factors_wf Hr Hi ords fs 0 pone m fn z0 m1 W E) as (W1 & X1 & FV & _). pose proof (load_factors_clean HP ords fs 0 pone m fn z0 m1 W E) as C.
  assert (S1 : subtree (m_vt m1) p = Some s) by (rewrite (me_vt _ _ _ X1); auto). clear E. induction C as [|F i fs fn CI C IH]; constructor; inversion FV as [|? ? V FV']; subst; auto.
  intros IN. pose proof (clean_within (f_scope F) m1 i W1 CI V p s S1 IN) as U. destruct (serialize_root _ _ i (wf_heap _ W1) (vt_of_lt _ _ _ V)) as (L & SL).
  unfold nodes_at. rewrite (so_eq _ _ _ SL). f_equal.
  assert (K : forall j, In j (filter (here (m_heap m1) p) L) <-> reach (m_heap m1) i j /\ vt_of (m_heap m1) j = Some p).
  { intros j. rewrite filter_In, here_true, (so_in _ _ _ SL). tauto. }
  pose proof (NoDup_filter (here (m_heap m1) p) (so_nodup _ _ _ SL)) as ND. destruct (has_node p (m_vt m1) (m_heap m1) i s (wf_heap _ W1) V S1) as (j & Rj). apply K in Rj.
  destruct (filter (here (m_heap m1) p) L) as [|a [|b l]]; [destruct Rj|reflexivity|]. exfalso. assert (a = b).
  { destruct (proj1 (K a) (or_introl eq_refl)), (proj1 (K b) (or_intror (or_introl eq_refl))). auto. }
  subst. inversion ND as [|? ? N _]. apply N. left. reflexivity.
Qed.
Print Assumptions C96_within.
(** [F] speaks of a variable below [s] and of one that is not below [s] *)
Definition crosses {P : pops} (s : vtree) (F : factor P) : bool := speaks s F && existsb (fun v => negb (existsb (N.eqb v) (leaves s))) (f_scope F).
(** C96.  So a compiled network has at every vtree node at most as many nodes as the product over the factors that have variables on both sides. *)
Theorem C96_crossing : forall P val, pexact P val -> forall ords srt gc (fs : network P) (m : mgr P) fnodes z0 m1 p s, Wf m ->
  (forall key l, Permutation (srt key l) l) -> subtree (m_vt m) p = Some s -> load_factors ords 0 fs pone m = Ok (fnodes, z0, m1) ->
  forall r z m', compile_network ords srt fs m = Ok (Some r, z, m') \/ compile_network_dc ords srt gc fs m = Ok (Some r, z, m') \/
    compile_network_with_vtree ords gc fs m = Ok (Some r, z, m') ->
  exists ns n, Forall2 (fun i n => nodes_at (m_heap m1) p i = Some n) (map snd (filter (fun x => crosses s (fst x)) (combine fs fnodes))) ns /\
    nodes_at (m_heap m') p r = Some n /\ n <= product ns.
Proof.
  intros P val HP ords srt gc fs m fn z0 m1 p s W HS Hs E r z m' EC.
  destruct (C96_networks P val 0%R (or_introl HP) ords srt gc fs m fn z0 m1 p s W HS Hs E r z m' EC) as (ns & ws & n & w & A1 & _ & A3 & _ & _ & A6 & _).
  pose proof (C96_untouched P val HP ords fs m fn z0 m1 p s W Hs E) as U. pose proof (C96_within P val HP ords fs m fn z0 m1 p s W Hs E) as U2.
  enough (exists ns', Forall2 (fun i n => nodes_at (m_heap m1) p i = Some n) (map snd (filter (fun x => crosses s (fst x)) (combine fs fn))) ns' /\ product ns' = product ns)
    as (ns' & B1 & B3) by (exists ns', n; rewrite B3; auto).
  clear - A1 U U2. revert ns A1 U2. induction U as [|F i fs fn HU U IH]; intros ns A1 U2; inversion A1 as [|? a ? ns0 K1 A1']; subst; [exists []; cbn; auto|]. inversion U2 as [|? ? ? ? HW U2']; subst.
  destruct (IH ns0 A1' U2') as (ns' & B1 & B3). cbn [combine filter fst]. destruct (crosses s F) eqn:Q.
  - exists (a :: ns'). cbn [map snd]. split; [constructor; auto|]. cbn. fold (product ns') (product ns0). rewrite B3. auto.
  - exists ns'. split; auto. enough (a = 1) as -> by (cbn; fold (product ns0); rewrite B3, Nat.add_0_r; auto). unfold crosses in Q. apply andb_false_iff in Q as [Q|Q].
    + destruct HU as [U1 _]; [|congruence]. intros v I J. unfold speaks in Q. enough (existsb (fun v => existsb (N.eqb v) (f_scope F)) (leaves s) = true) by congruence.
      apply existsb_exists. exists v. split; auto. apply existsb_exists. exists v. split; auto. apply N.eqb_refl.
    + assert (nodes_at (m_heap m1) p i = Some 1); [|congruence]. apply HW. intros v I. destruct (existsb (N.eqb v) (leaves s)) eqn:X; [apply existsb_exists in X as (u & Iu & X); apply N.eqb_eq in X; congruence|].
      enough (existsb (fun v => negb (existsb (N.eqb v) (leaves s))) (f_scope F) = true) by congruence. apply existsb_exists. exists v. rewrite X. auto.
Qed.
Print Assumptions C96_crossing.
(** at the left child of the root, which has the first two variables, both factors of the example cross; at the first leaf only the first does *)
Example C96_crossing_nonvacuous : map (crosses (VNode (Leaf 1) (Leaf 2))) [fac_a; fac_b] = [true; true] /\ map (crosses (Leaf 1)) [fac_a; fac_b] = [true; false] /\
  map (crosses ex_vt) [fac_a; fac_b] = [false; false] /\ subtree ex_vt [false] = Some (VNode (Leaf 1) (Leaf 2)) /\ (forall v, In v (f_scope fac_b) -> In v (leaves ex_vt)).
Proof. do 4 (split; [reflexivity|]). cbn. intros v I. intuition. Qed.

(** C96.  The PSDD of a factor over n variables has at most 2^(n-1) nodes at each vtree node. *)
Theorem C96_factor_at : forall P val, pexact P val -> forall ords (fs : network P) (m : mgr P) fnodes z0 m1 p, Wf m ->
  load_factors ords 0 fs pone m = Ok (fnodes, z0, m1) ->
  Forall2 (fun F i => exists n, nodes_at (m_heap m1) p i = Some n /\ n <= 2 ^ (length (f_scope F) - 1)) fs fnodes.
Proof.
  intros P val HP ords fs m fn z0 m1 p W E. destruct (compares P val 0%R (or_introl HP)) as (Hr & Hi & _).
  destruct (load_factors_wf Hr Hi ords fs 0 pone m fn z0 m1 W E) as (W1 & _). pose proof (load_factors_few HP ords fs 0 pone m fn z0 m1 W E) as C.
  clear E. induction C as [|F i fs fn [Li H] C IH]; constructor; auto. destruct (serialize_root _ _ i (wf_heap _ W1) Li) as (L & SL).
  unfold nodes_at. rewrite (so_eq _ _ _ SL). eexists. split; [reflexivity|]. apply (H p); [apply NoDup_filter, (so_nodup _ _ _ SL)|].
  intros j I. apply filter_In in I as [I1 I2]. apply here_true in I2. split; auto. apply (so_in _ _ _ SL); auto.
Qed.
Print Assumptions C96_factor_at.
(** the two factors of the example, over two and three variables, at the left child of the root *)
Example C96_factor_at_nonvacuous : map (fun F => 2 ^ (length (f_scope F) - 1)) [fac_a; fac_b] = [2; 4] /\ exists nodes z0 m1, load_factors id_ord 0 [fac_a; fac_b] pone (new_mgr ex_vt) = Ok (nodes, z0, m1) /\
  map (nodes_at (m_heap m1) [false]) nodes = [Some 2; Some 2].
Proof. split; [reflexivity|]. destruct si_loaded as (nodes & z0 & m1 & A & B & _). exists nodes, z0, m1. auto. Qed.

(** C96.  A network has at most V * 2^w nodes, where V is the number of vtree nodes, if at each vtree node the factors with variables on both sides
    have together at most [w] variables, one of each not counted: linear in the vtree, however many factors there are. *)
Theorem C96_linear : forall P val, pexact P val -> forall ords srt gc (fs : network P) (m : mgr P) fnodes z0 m1 w, Wf m ->
  (forall key l, Permutation (srt key l) l) -> load_factors ords 0 fs pone m = Ok (fnodes, z0, m1) ->
  (forall p s, subtree (m_vt m) p = Some s -> list_sum (map (fun F => length (f_scope F) - 1) (filter (crosses s) fs)) <= w) ->
  forall r z m', compile_network ords srt fs m = Ok (Some r, z, m') \/ compile_network_dc ords srt gc fs m = Ok (Some r, z, m') \/
    compile_network_with_vtree ords gc fs m = Ok (Some r, z, m') ->
  exists L, SerializePsddNodes (m_heap m') [r] = Ok L /\ length L <= vsize (m_vt m) * 2 ^ w.
Proof.
  intros P val HP ords srt gc fs m fn z0 m1 w W HS E HK r z m' EC. destruct (compares P val 0%R (or_introl HP)) as (Hr & Hi & SH).
  destruct (load_factors_wf Hr Hi ords fs 0 pone m fn z0 m1 W E) as (W1 & X1 & FV & LN).
  destruct (networks_bound Hr Hi [] ords srt gc fs m fn z0 m1 (fun i => (count (m_heap m1) [] i, match elements_at (m_heap m1) [] i with Some w => w | None => 0 end)) SH W HS E) with (r := r) (z := z) (m' := m')
    as (W' & X' & V & _); auto.
  { eapply Forall_impl; [|exact FV]. cbn beta. intros i V. destruct (counted (m_vt m1) (m_heap m1) [] i (wf_heap _ W1) (vt_of_lt _ _ _ V)) as (n & w0 & A & B & C & _).
    unfold count. rewrite A, B. split; auto. split; auto. eapply has_one; eauto; [apply W1|reflexivity]. }
  destruct (counts_all (m_vt m') (m_heap m') r (wf_heap _ W') (vt_of_lt _ _ _ V)) as (L & Q1 & Q2). exists L. split; auto. rewrite Q2. destruct X' as [VT _]. rewrite VT.
  assert (G : forall p, In p (map fst (nodes [] (m_vt m))) -> count (m_heap m') p r <= 2 ^ w).
  { intros p Ip. apply in_map_iff in Ip as ([p' s] & Ep & Ip). cbn in Ep. subst p'. apply nodes_root in Ip.
    destruct (C96_crossing P val HP ords srt gc fs m fn z0 m1 p s W HS Ip E r z m' EC) as (ns & n & A1 & A3 & A6). unfold count. rewrite A3. eapply Nat.le_trans; [exact A6|].
    eapply Nat.le_trans; [|apply (Nat.pow_le_mono_r 2); [lia|exact (HK p s Ip)]]. pose proof (C96_factor_at P val HP ords fs m fn z0 m1 p W E) as U.
    clear - A1 U. revert ns A1. induction U as [|F i fs fn (n & N1 & N2) U IH]; intros ns A1; cbn [combine filter map] in *; [inversion A1; subst; auto|].
    cbn [fst] in A1. destruct (crosses s F); [|apply IH; auto]. cbn [map snd] in A1. inversion A1 as [|? a ? ns0 K A1']; subst. assert (a = n) as -> by congruence.
    cbn [map product fold_right]. change (list_sum (?a :: ?l)) with (a + list_sum l). rewrite Nat.pow_add_r. apply Nat.mul_le_mono; auto. }
  rewrite <- (nodes_length [] (m_vt m)), <- (map_length fst). clear - G. induction (map fst (nodes [] (m_vt m))) as [|p PS IH]; auto.
  cbn [map length]. change (list_sum (?a :: ?l)) with (a + list_sum l). pose proof (G p (or_introl eq_refl)). specialize (IH (fun q I => G q (or_intror I))). cbn [Nat.mul]. lia.
Qed.
Print Assumptions C96_linear.
(** in the example w = 3, so at most 7 * 8 nodes; there are sixteen *)
Example C96_linear_nonvacuous : (forall p s, subtree ex_vt p = Some s -> list_sum (map (fun F => length (f_scope F) - 1) (filter (crosses s) [fac_a; fac_b])) <= 3) /\
  list_sum (map (fun F => length (f_scope F) - 1) (filter (crosses (VNode (Leaf 1) (Leaf 2))) [fac_a; fac_b])) = 3 /\ vsize ex_vt = 7 /\
  exists nodes z0 m1 r z m', load_factors id_ord 0 [fac_a; fac_b] pone (new_mgr ex_vt) = Ok (nodes, z0, m1) /\
    compile_network_with_vtree id_ord 1 [fac_a; fac_b] (new_mgr ex_vt) = Ok (Some r, z, m').
Proof.
  split; [intros p s _; cbn [filter]; destruct (crosses s fac_a), (crosses s fac_b); cbn; lia|]. do 2 (split; [reflexivity|]).
  destruct si_loaded as (nodes & z0 & m1 & A & _). destruct si_compiled as (r & z & m' & B & _). exists nodes, z0, m1, r, z, m'. auto.
Qed.
