(** Property theorem C77 (hash values of nodes).  [hash_lit], [hash_u64], [hash_u32]: the functions std::hash of the library;
    [CalculateHashValue] is what every node constructor runs.  [grows k m m']: [m'] is [m] with more nodes, each of at most [k] elements. *)
From Verif Require Import Base Param ParamProofs Vtree VtreeProofs Heap Manager HeapProofs SerProofs OrderProofs RepProofs CanonProofs HeapExamples Query Learn Sdd Pgm NodeHash.
Local Open Scope nat_scope.

(** hash_value() of a parameter, psdd_parameter.cpp 52-54 *)
Definition hash_code (a : Lcode) : N := Z.to_N (hv a).

(** C77.  The shifts of the loop are defined exactly for nodes of up to 64 elements. *)
Theorem C77_defined : forall hl h64 h32 hp (nd : node Lcode),
  (elements nd <= 64 -> exists h, CalculateHashValue hl h64 h32 hp nd = Ok h) /\
  (64 < elements nd -> CalculateHashValue hl h64 h32 hp nd = UB).
Proof. exact (@hash_defined Lcode). Qed.
Print Assumptions C77_defined.
(** C77.  Nodes that compare equal have the same hash value (parameters that compare equal have). *)
Theorem C77_equal : forall hl h64 h32 (a b : node Lcode), node_eq a b = true ->
  CalculateHashValue hl h64 h32 hash_code a = CalculateHashValue hl h64 h32 hash_code b.
Proof.
  intros hl h64 h32 a b. apply hash_equal. intros x y E. apply Z.eqb_eq in E. unfold hash_code. rewrite E. reflexivity.
Qed.
Print Assumptions C77_equal.
(** two top nodes that differ in the false parameter only *)
Example C77_equal_nonvacuous : let a := MkN (P := Lcode) [false] 3 (BTop 2 (lc NegInf) (lc NegInf)) in let b := MkN (P := Lcode) [false] 3 (BTop 2 (lc NegInf) (lc PosInf)) in
  node_eq a b = true /\ a <> b.
Proof. split; [reflexivity|]. intros Q. injection Q. discriminate. Qed.

(** C77.  In a history that passes at most 64 elements at a time (also in the PSDDs it loads) and multiplies nothing, the hash value of every
    node is defined. *)
Theorem C77_history_partial : forall t ops (m : mgr Lcode) hl h64 h32 hp, Forall (thin 64) ops -> runs (new_mgr t) ops = Ok m ->
  forall nd, In nd (m_heap m) -> exists h, CalculateHashValue hl h64 h32 hp nd = Ok h.
Proof.
  intros t ops m hl h64 h32 hp F E nd I. destruct (thin_history 64 ops ltac:(lia) _ _ F E) as (_ & l & EL & FL). simpl in EL. rewrite EL in I.
  rewrite Forall_forall in FL. apply hash_defined. auto.
Qed.
Print Assumptions C77_history_partial.
(** C77.  The other ways to make nodes keep them as small as what they are made from: learning and sampling, loading, conversion from an SDD,
    compiling a factor. *)
Theorem C77_constructions_partial : forall (m : mgr Lcode) fl,
  (forall hs ud root L k, SerializePsddNodes hs [root] = Ok L -> bounded hs k L ->
     (forall dc ex n alpha r ud' dc' m', LearnPsddParameters hs ud dc root ex n alpha fl m = Ok (r, ud', dc', m') -> grows (Nat.max 1 k) m m') /\
     (forall target r ud' m', LoadPsddNode hs ud target root fl m = Ok (r, ud', m') -> grows (Nat.max 1 k) m m')) /\
  (forall hs ud roots L k, SerializePsddNodes hs roots = Ok L -> bounded hs k L ->
     (forall (G : dops Lcode) near1 us rs us' ud' m', SampleParametersForMultiplePsdds G near1 hs ud roots fl us m = Ok (rs, us', ud', m') -> grows (Nat.max 1 k) m m')) /\
  (forall sd order root svt target d r d' m' k, sbounded sd k order -> FromSdd sd order root svt fl target d m = Ok (r, d', m') -> grows (Nat.max 1 k) m m') /\
  (forall ord F r z m', compile_factor ord F m = Ok (r, z, m') -> grows 2 m m').
Proof.
  intros m fl. split; [|split; [|split]].
  - intros hs ud root L k S B. split; intros; [eapply learn_grows|eapply load_grows]; eauto.
  - intros hs ud roots L k S B G near1 us rs us' ud' m' E. eapply sample_grows; eauto.
  - intros sd order root svt target d r d' m' k B E. eapply from_sdd_grows; eauto.
  - intros ord F r z m' E. eapply factor_grows; eauto.
Qed.
Print Assumptions C77_constructions_partial.
(** C77.  A product has at most as many elements in a node as there are pairs of elements. *)
Theorem C77_product_partial : forall (m : mgr Lcode) a b fl r m' ka kb, Wf m -> a < length (m_heap m) -> b < length (m_heap m) ->
  (forall i nd, reach (m_heap m) a i -> nth_error (m_heap m) i = Some nd -> elements nd <= ka) ->
  (forall i nd, reach (m_heap m) b i -> nth_error (m_heap m) i = Some nd -> elements nd <= kb) ->
  Multiply m a b fl = Ok (r, m') -> grows (Nat.max 1 (ka * kb)) m m'.
Proof. exact (@product_grows Lcode). Qed.
Print Assumptions C77_product_partial.

(** Two PSDDs, one that tells the sixteen states of four variables apart and one that tells the eight states of three other variables apart. *)
Definition wide_vt := VNode (VNode (VNode (Leaf 1) (VNode (Leaf 2) (VNode (Leaf 3) (Leaf 4)))) (VNode (Leaf 5) (VNode (Leaf 6) (Leaf 7)))) (Leaf 8).
Definition wide_ops : list (@op Qex) :=
  [OLit 1 0; OLit (-1) 0; OLit 2 0; OLit (-2) 0; OLit 3 0; OLit (-3) 0;
   OLit 4 0; OLit (-4) 0; OLit 5 0; OLit (-5) 0; OLit 6 0; OLit (-6) 0;
   OLit 7 0; OLit (-7) 0; OLit 8 0; OLit (-8) 0; ODec [4] [6] [q 1 1] 0; ODec [4] [7] [q 1 1] 0;
   ODec [5] [6] [q 1 1] 0; ODec [5] [7] [q 1 1] 0; ODec [2] [16] [q 1 1] 0; ODec [2] [17] [q 1 1] 0; ODec [2] [18] [q 1 1] 0; ODec [2] [19] [q 1 1] 0;
   ODec [3] [16] [q 1 1] 0; ODec [3] [17] [q 1 1] 0; ODec [3] [18] [q 1 1] 0; ODec [3] [19] [q 1 1] 0; ODec [0] [20] [q 1 1] 0; ODec [0] [21] [q 1 1] 0;
   ODec [0] [22] [q 1 1] 0; ODec [0] [23] [q 1 1] 0; ODec [0] [24] [q 1 1] 0; ODec [0] [25] [q 1 1] 0; ODec [0] [26] [q 1 1] 0; ODec [0] [27] [q 1 1] 0;
   ODec [1] [20] [q 1 1] 0; ODec [1] [21] [q 1 1] 0; ODec [1] [22] [q 1 1] 0; ODec [1] [23] [q 1 1] 0; ODec [1] [24] [q 1 1] 0; ODec [1] [25] [q 1 1] 0;
   ODec [1] [26] [q 1 1] 0; ODec [1] [27] [q 1 1] 0; ODec [10] [12] [q 1 1] 0; ODec [10] [13] [q 1 1] 0; ODec [11] [12] [q 1 1] 0; ODec [11] [13] [q 1 1] 0;
   ODec [8] [44] [q 1 1] 0; ODec [8] [45] [q 1 1] 0; ODec [8] [46] [q 1 1] 0; ODec [8] [47] [q 1 1] 0; ODec [9] [44] [q 1 1] 0; ODec [9] [45] [q 1 1] 0;
   ODec [9] [46] [q 1 1] 0; ODec [9] [47] [q 1 1] 0; OTrue [false; false] 0; OTrue [true; false] 0; ODec [28] [67] [q 1 1] 0; ODec [29] [67] [q 1 1] 0;
   ODec [30] [67] [q 1 1] 0; ODec [31] [67] [q 1 1] 0; ODec [32] [67] [q 1 1] 0; ODec [33] [67] [q 1 1] 0; ODec [34] [67] [q 1 1] 0; ODec [35] [67] [q 1 1] 0;
   ODec [36] [67] [q 1 1] 0; ODec [37] [67] [q 1 1] 0; ODec [38] [67] [q 1 1] 0; ODec [39] [67] [q 1 1] 0; ODec [40] [67] [q 1 1] 0; ODec [41] [67] [q 1 1] 0;
   ODec [42] [67] [q 1 1] 0; ODec [43] [67] [q 1 1] 0; ODec [62] [48] [q 1 1] 0; ODec [62] [49] [q 1 1] 0; ODec [62] [50] [q 1 1] 0; ODec [62] [51] [q 1 1] 0;
   ODec [62] [52] [q 1 1] 0; ODec [62] [53] [q 1 1] 0; ODec [62] [54] [q 1 1] 0; ODec [62] [55] [q 1 1] 0; ODec [68; 69; 70; 71; 72; 73; 74; 75; 76; 77; 78; 79; 80; 81; 82; 83] [14; 14; 14; 14; 14; 14; 14; 14; 14; 14; 14; 14; 14; 14; 14; 14] (repeat (q 1 16) 16) 0; ODec [84; 85; 86; 87; 88; 89; 90; 91] [14; 14; 14; 14; 14; 14; 14; 14] (repeat (q 1 8) 8) 0].
Definition wide_m : mgr Qex := Eval vm_compute in match runs (new_mgr wide_vt) wide_ops with Ok m => m | _ => new_mgr wide_vt end.
Lemma wide_runs : runs (new_mgr wide_vt) wide_ops = Ok wide_m.
Proof. vm_cast_no_check (eq_refl (Ok wide_m)). Qed.
Lemma wide_wf : Wf wide_m.
Proof.
  apply (@runs_wf Qex (@val_peq_refl Qex qval Qex_exact) (@val_plt_irrefl Qex qval Qex_exact) wide_ops (new_mgr wide_vt) wide_m).
  - apply wf_new. vm_compute. repeat constructor; simpl; intuition congruence.
  - exact wide_runs.
Qed.
Lemma wide_small : forall nd, In nd (m_heap wide_m) -> elements nd <= 16.
Proof.
  assert (Q : forallb (fun nd => Nat.leb (elements nd) 16) (m_heap wide_m) = true) by (vm_cast_no_check (eq_refl true)).
  intros nd I. rewrite forallb_forall in Q. apply Nat.leb_le. auto.
Qed.
(** C77, false of products: all nodes have at most sixteen elements, and the product of two of them is a node whose hash value is undefined. *)
Theorem C77_product_refuted : exists (m : mgr Qex) a b k w m' nd, Wf m /\ runs (new_mgr wide_vt) wide_ops = Ok m /\
  (forall nd, In nd (m_heap m) -> elements nd <= 16) /\
  Multiply m a b 0 = Ok ((Some k, w), m') /\ nth_error (m_heap m') k = Some nd /\ elements nd = 128 /\
  forall hl h64 h32 hp, CalculateHashValue hl h64 h32 hp nd = UB.
Proof.
  assert (C : exists w m' nd, Multiply wide_m 92 93 0 = Ok ((Some 222, w), m') /\ nth_error (m_heap m') 222 = Some nd /\ elements nd = 128).
  { assert (Q : match Multiply wide_m 92 93 0 with
                | Ok ((Some k, _), m') => Nat.eqb k 222 && match nth_error (m_heap m') k with Some nd => Nat.eqb (elements nd) 128 | None => false end
                | _ => false
                end = true) by (vm_cast_no_check (eq_refl true)).
    destruct (Multiply wide_m 92 93 0) as [[[[k|] w] m']| | |]; try discriminate. apply andb_true_iff in Q as [Q1 Q2]. apply Nat.eqb_eq in Q1. subst k.
    destruct (nth_error (m_heap m') 222) as [nd|] eqn:E; [|discriminate]. apply Nat.eqb_eq in Q2. exists w, m', nd. auto. }
  destruct C as (w & m' & nd & C1 & C2 & C3). exists wide_m, 92, 93, 222, w, m', nd. split; [exact wide_wf|]. split; [exact wide_runs|]. split; [exact wide_small|].
  split; [exact C1|]. split; [exact C2|]. split; [exact C3|]. intros hl h64 h32 hp. apply hash_defined. lia.
Qed.
Print Assumptions C77_product_refuted.
(** a history with a decision node *)
Example C77_history_nonvacuous : let ops := [OLit 1 0; OLit (-1) 0; OLit 2 0; OLit (-2) 0; ODec [0; 1] [2; 3] [lc NegInf; lc NegInf] 0] : list (@op Lcode) in
  Forall (thin 64) ops /\ exists m, runs (new_mgr (VNode (Leaf 1) (Leaf 2))) ops = Ok m /\ map elements (m_heap m) = [1; 1; 1; 1; 2].
Proof. split; [repeat constructor; simpl; lia|]. eexists. split; reflexivity. Qed.
(** the first of the two PSDDs above, copied *)
Example C77_constructions_nonvacuous : exists L, SerializePsddNodes (m_heap wide_m) [92] = Ok L /\ bounded (m_heap wide_m) 16 L /\ length L = 59 /\
  exists r u m', LoadPsddNode (m_heap wide_m) (fun _ => None) (Some []) 92 1 wide_m = Ok (r, u, m') /\ length (m_heap m') = 153.
Proof.
  assert (Q : match SerializePsddNodes (m_heap wide_m) [92] with Ok L => Nat.eqb (length L) 59 | _ => false end = true) by (vm_cast_no_check (eq_refl true)).
  destruct (SerializePsddNodes (m_heap wide_m) [92]) as [L| | |]; try discriminate. apply Nat.eqb_eq in Q. exists L. split; [reflexivity|]. split; [|split; [exact Q|]].
  - intros i nd _ E. apply wide_small. eapply nth_error_In; eauto.
  - assert (Q2 : match LoadPsddNode (m_heap wide_m) (fun _ => None) (Some []) 92 1 wide_m with Ok (_, _, m') => Nat.eqb (length (m_heap m')) 153 | _ => false end = true)
      by (vm_cast_no_check (eq_refl true)).
    destruct (LoadPsddNode _ _ _ _ _ _) as [[[r u] m']| | |]; try discriminate. apply Nat.eqb_eq in Q2. eauto 6.
Qed.
