(** Statements and examples for the compilation of factors and networks. *)
From Coq Require Import Reals Lra.
From Verif Require Import Base Param ParamProofs Vtree VtreeProofs Spec SpecProofs Heap Manager HeapProofs SerProofs RepProofs OrderProofs CanonProofs
  HeapExamples LoadProofs MulProofs ReplayProofs ManagerExamples Query TreeProofs Pgm PgmLayout PgmProofs PgmNet.
Local Open Scope R_scope.

Section Full.
Context {P : pops} {val : P -> R} (HP : pexact P val).
Notation mgr := (mgr P).
(** A node at the root of the vtree that stands for [t]. *)
Definition root_node (m : mgr) (i : nat) (t : ptree) : Prop :=
  vt_of (m_heap m) i = Some [] /\ Rep val (m_heap m) i t /\ In i (m_live m) /\ conforms (m_vt m) t /\ positive t /\ deterministic t.
Lemma holds_root m i t : Wf m -> holds (val := val) m i t -> root_node m i t.
Proof.
  intros W (A & B & C & D). destruct (node_at_conforms val m i [] t W A) as (s & Hs & CF). simpl in Hs. injection Hs as <-.
  destruct A. repeat (split; [assumption|]). assumption.
Qed.
Lemma factor_full ord F (m : mgr) : (forall k l, Permutation (ord k l) l) -> Inv val 0 m -> (forall v, In v (leaves (m_vt m)) -> v <> 0%N) ->
  good_factor (m_vt m) F -> (exists x, factor_value val F x <> 0) ->
  exists i z m' t, compile_factor ord F m = Ok (i, z, m') /\ Inv val 0 m' /\ mext 0 m m' /\ root_node m' i t /\ 0 < val z /\
    (forall x, weight t x * val z = factor_value val F x) /\ forall x, val z = sum_over (f_scope F) (factor_value val F) x.
Proof.
  intros HO I NZ G (x0 & Hx). destruct (compile_factor_cases HP ord F m HO I NZ G) as [[_ Z]|(i & z & m' & E & I' & X & ST & SM)].
  { exfalso. apply Hx, Z. }
  destruct ST as (Z & t & A1 & A2 & A3 & A4 & A5). exists i, z, m', t. split; auto. split; auto. split; auto. split.
  { apply holds_root; [apply I'|]. split; auto. }
  split; auto.
Qed.
Lemma factor_zero ord F (m : mgr) : (forall k l, Permutation (ord k l) l) -> Inv val 0 m -> (forall v, In v (leaves (m_vt m)) -> v <> 0%N) ->
  good_factor (m_vt m) F -> (forall x, factor_value val F x = 0) -> compile_factor ord F m = UB.
Proof.
  intros HO I NZ G Z0. destruct (compile_factor_cases HP ord F m HO I NZ G) as [[E _]|(i & z & m' & E & I' & X & ST & SM)]; auto.
  exfalso. destruct ST as (Zw & t & A1 & A2 & A3 & A4 & A5). destruct (node_at_conforms val m' i [] t (proj1 I') A1) as (s & Hs & C).
  destruct (base_sat s) with (t := t) as [x Hx]; auto.
  { simpl in Hs. injection Hs as <-. apply (wf_leaves _ (proj1 I')). }
  apply (weight_pos_base t x A2) in Hx. specialize (A5 x). rewrite Z0 in A5. apply Rmult_integral in A5. lra.
Qed.
Lemma network_full ords srt fs (m : mgr) : (forall a b c, Permutation (ords a b c) c) -> sorts srt -> Inv val 0 m ->
  (forall v, In v (leaves (m_vt m)) -> v <> 0%N) -> Forall (good_factor (m_vt m)) fs -> Forall (nonzero (val := val)) fs -> fs <> [] ->
  exists r z m', compile_network ords srt fs m = Ok (r, z, m') /\ Inv val 0 m' /\ mext 0 m m' /\
    ((exists x, network_value val fs x <> 0) -> exists i t, r = Some i /\ root_node m' i t /\ 0 < val z /\
       (forall x, weight t x * val z = network_value val fs x) /\ ((2 <= length fs)%nat -> normalized t)) /\
    ((forall x, network_value val fs x = 0) -> val z = 0).
Proof.
  intros HO HS I NZ G N NE. destruct (compile_network_spec HP ords srt fs m HO HS I NZ G N NE) as (r & z & m' & E & I' & X & O & _).
  exists r, z, m'. split; auto. split; auto. split; auto. destruct O as [(i & t & -> & H & Z & W & NT)|[Z0 G0]]; split.
  - intros _. exists i, t. split; auto. split; [apply holds_root; [apply I'|auto]|]. auto.
  - intros G0. exfalso. destruct H as (A & B & _). destruct (node_at_conforms val m' i [] t (proj1 I') A) as (s & Hs & C).
    destruct (base_sat s) with (t := t) as [x Hx]; auto.
    { simpl in Hs. injection Hs as <-. apply (wf_leaves _ (proj1 I')). }
    apply (weight_pos_base t x B) in Hx. specialize (W x). rewrite G0 in W. apply Rmult_integral in W. lra.
  - intros (x & Hx). exfalso. apply Hx, G0.
  - auto.
Qed.
Definition product_result (fs : network P) (m : mgr) (r : res (option nat * P * mgr)) : Prop :=
  exists i z m' t, r = Ok (Some i, z, m') /\ Inv val 0 m' /\ m_vt m' = m_vt m /\ (exists l, m_heap m' = m_heap m ++ l) /\ root_node m' i t /\
    0 < val z /\ (forall x, weight t x * val z = network_value val fs x) /\ ((2 <= length fs)%nat -> normalized t).
Lemma network_dc_full ords srt gc fs (m : mgr) : (forall a b c, Permutation (ords a b c) c) -> sorts srt -> Inv val 0 m ->
  (forall v, In v (leaves (m_vt m)) -> v <> 0%N) -> Forall (good_factor (m_vt m)) fs -> fs <> [] -> gc <> 0%N ->
  (exists x, network_value val fs x <> 0) -> product_result fs m (compile_network_dc ords srt gc fs m).
Proof.
  intros HO HS I NZ G NE HG N. destruct (compile_network_dc_spec HP ords srt gc fs m HO HS I NZ G NE HG N) as (i & z & m' & t & E & I' & [X1 X2] & H & Z & W & NT & _).
  exists i, z, m', t. split; auto. split; auto. split; auto. split; auto. split; [apply holds_root; [apply I'|auto]|]. auto.
Qed.
Lemma network_with_vtree_full ords gc fs (m : mgr) : (forall a b c, Permutation (ords a b c) c) -> Inv val 0 m ->
  (forall v, In v (leaves (m_vt m)) -> v <> 0%N) -> Forall (good_factor (m_vt m)) fs -> fs <> [] -> gc <> 0%N ->
  (exists x, network_value val fs x <> 0) -> product_result fs m (compile_network_with_vtree ords gc fs m).
Proof.
  intros HO I NZ G NE HG N. destruct (compile_network_with_vtree_spec HP ords gc fs m HO I NZ G NE HG N) as (i & z & m' & t & E & I' & [X1 X2] & H & Z & W & NT & _).
  exists i, z, m', t. split; auto. split; auto. split; auto. split; auto. split; [apply holds_root; [apply I'|auto]|]. auto.
Qed.
(** a factor that is zero everywhere makes every one of them crash *)
Lemma networks_zero ords srt gc fs (m : mgr) : (forall a b c, Permutation (ords a b c) c) -> Inv val 0 m ->
  (forall v, In v (leaves (m_vt m)) -> v <> 0%N) -> Forall (good_factor (m_vt m)) fs -> (exists F, In F fs /\ forall x, factor_value val F x = 0) ->
  compile_network ords srt fs m = UB /\ compile_network_dc ords srt gc fs m = UB /\ compile_network_with_vtree ords gc fs m = UB.
Proof.
  intros HO I NZ G H. pose proof (load_factors_zero HP ords HO fs 0 pone m I NZ G H) as E.
  unfold compile_network, compile_network_dc, compile_network_with_vtree. rewrite E. destruct (serialize_vtree_spec [] (m_vt m)) as (ser & -> & _). auto.
Qed.

(** ** The partition function *)
Lemma sum_over_const vs c x : sum_over vs (fun _ => c) x = 2 ^ length vs * c.
Proof. revert x. induction vs as [|v vs IH]; intros x; simpl; [ring|]. rewrite !IH. ring. Qed.
Lemma partition_many ords srt gc fs (m : mgr) : (forall a b c, Permutation (ords a b c) c) -> sorts srt -> Inv val 0 m ->
  (forall v, In v (leaves (m_vt m)) -> v <> 0%N) -> Forall (good_factor (m_vt m)) fs -> (2 <= length fs)%nat -> gc <> 0%N ->
  (exists x, network_value val fs x <> 0) -> exists i z m', compile_network_dc ords srt gc fs m = Ok (Some i, z, m') /\
    forall x, val z = sum_over (leaves (m_vt m)) (network_value val fs) x.
Proof.
  intros HO HS I NZ G L HG N. destruct (network_dc_full ords srt gc fs m HO HS I NZ G) as (i & z & m' & t & E & I' & EV & _ & RN & Z & W & NT); auto.
  { intros ->. simpl in L. lia. }
  exists i, z, m'. split; auto. intros x. destruct RN as (_ & _ & _ & C & _). rewrite EV in C.
  rewrite (sum_over_ext' _ _ (fun y => val z * weight t y)), sum_over_scal, (normalized_total (m_vt m) t x (wf_leaves _ (proj1 I)) C (NT L)); [ring|].
  intros y. rewrite <- W. ring.
Qed.
Lemma partition_one ords srt gc F (m : mgr) : (forall a b c, Permutation (ords a b c) c) -> sorts srt -> Inv val 0 m ->
  (forall v, In v (leaves (m_vt m)) -> v <> 0%N) -> good_factor (m_vt m) F -> gc <> 0%N ->
  (exists x, factor_value val F x <> 0) -> exists i z m', compile_network_dc ords srt gc [F] m = Ok (Some i, z, m') /\
    forall x, 2 ^ (length (leaves (m_vt m)) - length (f_scope F)) * val z = sum_over (leaves (m_vt m)) (network_value val [F]) x.
Proof.
  intros HO HS I NZ G HG (x0 & Hx0).
  destruct (compile_network_dc_spec HP ords srt gc [F] m HO HS I NZ) as (i & z & m' & t & E & I' & X & H & Z & W & NT & SG); auto.
  { discriminate. }
  { exists x0. unfold network_value. simpl. rewrite Rmult_1_r. auto. }
  exists i, z, m'. split; auto. intros x. set (rest := filter (fun v => negb (existsb (N.eqb v) (f_scope F))) (leaves (m_vt m))).
  pose proof (wf_leaves _ (proj1 I)) as ND.
  assert (Permutation (leaves (m_vt m)) (rest ++ f_scope F)) as PM.
  { apply NoDup_Permutation; auto.
    - apply NoDup_app_intro; [apply NoDup_filter; auto|apply G|].
      intros v Hv Hs. apply filter_In in Hv as [_ Hv]. apply negb_true_iff in Hv. assert (existsb (N.eqb v) (f_scope F) = true); [|congruence].
      apply existsb_exists. exists v. split; auto. apply N.eqb_refl.
    - intros v. rewrite in_app_iff. unfold rest. rewrite filter_In. split.
      + intros Hv. destruct (existsb (N.eqb v) (f_scope F)) eqn:Ex; [right|left; auto]. apply existsb_exists in Ex as (w & Hw & Ew). apply N.eqb_eq in Ew. congruence.
      + intros [[Hv _]|Hv]; auto. apply (gf_vars _ _ G); auto. }
  rewrite (sum_over_perm _ (rest ++ f_scope F)); auto.
  2:{ apply (depends_extensional (f_scope F)). intros a b Hab. unfold network_value. simpl. rewrite (factor_depends F a b Hab). auto. }
  rewrite sum_over_app. rewrite (sum_over_ext' _ _ (fun _ => val z)).
  2:{ intros y. rewrite (SG F eq_refl y). apply sum_over_ext'. intros y'. unfold network_value. simpl. ring. }
  rewrite sum_over_const. do 2 f_equal. rewrite (Permutation_length PM), app_length. lia.
Qed.
End Full.

(** ** Examples *)
(** an insertion sort, as a [std::sort] *)
Fixpoint ins (key : nat -> nat) (a : nat) (l : list nat) : list nat :=
  match l with
  | [] => [a]
  | b :: l' => if Nat.ltb (key a) (key b) then b :: ins key a l' else a :: l
  end.
Definition isort (key : nat -> nat) (l : list nat) : list nat := fold_right (ins key) [] l.
Lemma ins_perm key a l : Permutation (ins key a l) (a :: l).
Proof. induction l as [|b l IH]; simpl; auto. destruct (Nat.ltb _ _); auto. rewrite IH. apply perm_swap. Qed.
Inductive dsorted (key : nat -> nat) : list nat -> Prop :=
| ds_nil : dsorted key []
| ds_cons a l : (forall b, In b l -> (key b <= key a)%nat) -> dsorted key l -> dsorted key (a :: l).
Lemma ins_sorted key a l : dsorted key l -> dsorted key (ins key a l).
Proof.
  induction 1 as [|b l H S IH]; simpl; [constructor; [contradiction|constructor]|].
  destruct (Nat.ltb_spec (key a) (key b)); constructor; auto.
  - intros c Hc. apply (Permutation_in _ (ins_perm key a l)) in Hc. destruct Hc as [<-|Hc]; [lia|auto].
  - intros c [<-|Hc]; [lia|]. specialize (H c Hc). lia.
  - constructor; auto.
Qed.
Lemma dsorted_order key a b l2 l3 : forall l1, dsorted key (l1 ++ a :: l2 ++ b :: l3) -> (key b <= key a)%nat.
Proof.
  induction l1 as [|c l1 IH]; cbn [app]; intros D; inversion D as [|? ? H S]; subst; auto. apply H. apply in_or_app. right. left. auto.
Qed.
Lemma isort_sorts : sorts isort.
Proof.
  intros key l. split.
  - induction l as [|a l IH]; simpl; auto. rewrite ins_perm. auto.
  - assert (dsorted key (isort key l)) as D by (induction l; simpl; [constructor|apply ins_sorted; auto]).
    intros l1 a l2 b l3 E. rewrite E in D. eapply dsorted_order; eauto.
Qed.
Definition id_ord (a b : nat) (c : list N) : list N := c.

(** Two factors over the vtree ((1,2),(3,4)); 3 comes before 1 in the first *)
Definition fac_a : factor Qex := MkF [3; 1]%N [q 1 1; q 2 1; q 0 1; q 3 1].
Definition fac_b : factor Qex := MkF [2; 4; 3]%N [q 1 1; q 1 2; q 1 3; q 1 1; q 0 1; q 0 1; q 0 1; q 5 1].
Lemma fac_good : good_factor ex_vt fac_a /\ good_factor ex_vt fac_b.
Proof.
  split; (split; [repeat constructor; simpl; intuition discriminate|discriminate|intros v; simpl; intuition (subst; auto)|simpl; lia|reflexivity|]); simpl.
  - right; right. split; [|right; left; split; [intros v [<-|[]]; intuition discriminate|exact I]].
    exists [], 1%N, [2%N]. split; auto. split; [auto|]. intros w [<-|[]]. intuition discriminate.
  - right; right. split.
    + exists [1%N], 2%N, []. split; auto. split; [auto|]. intros w [<-|[]]. intuition discriminate.
    + right; right. split; [|exact I]. exists [], 3%N, []. split; [reflexivity|]. split; [simpl; auto|]. intros w [].
Qed.
Lemma new_inv vt : NoDup (leaves vt) -> @Inv Qex qval 0 (new_mgr vt).
Proof. intros H. apply (@tidy_inv Qex qval Qex_exact 0). constructor. exact H. Qed.
Lemma ex_vt_leaves : NoDup (leaves ex_vt) /\ forall v, In v (leaves ex_vt) -> v <> 0%N.
Proof. split; [vm_compute; repeat constructor; simpl; intuition discriminate|]. intros v Hv. vm_compute in Hv. intuition (subst; discriminate). Qed.
Ltac fv := unfold network_value, factor_value, table_value, table_index; simpl; unfold qval; simpl; lra.
Lemma fac_nonzero : Forall (@nonzero Qex qval) [fac_a; fac_b] /\ exists x, @network_value Qex qval [fac_a; fac_b] x <> 0.
Proof.
  assert (exists x, @network_value Qex qval [fac_a; fac_b] x <> 0) as H by (exists (fun _ => true); fv).
  split; auto. destruct H as [x H]. eapply network_nonzero. eauto.
Qed.
(** the parameter z of the result as a number *)
Definition z_of (r : res (option nat * Qex * mgr Qex)) : res (N * BinNums.positive) := do (x, _) <- r ;; match snd x with MkQ a b => Ok (a, b) end.
Lemma fac_product : z_of (compile_network_dc id_ord isort 100 [fac_a; fac_b] (new_mgr ex_vt)) = Ok (47%N, 2%positive).
Proof. vm_compute. reflexivity. Qed.
Lemma fac_product_all : z_of (compile_network id_ord isort [fac_a; fac_b] (new_mgr ex_vt)) = Ok (47%N, 2%positive) /\
  z_of (compile_network_with_vtree id_ord 1 [fac_a; fac_b] (new_mgr ex_vt)) = Ok (47%N, 2%positive).
Proof. vm_compute. auto. Qed.

(** Wrong or missing answers *)
(** three variables, two of them left of the third *)
Definition fac_three : factor Qex := MkF [1; 2; 3]%N (repeat (q 1 1) 8).
Lemma fac_three_aborts : compile_factor (id_ord 0) fac_three (new_mgr ex_vt) = Abort /\ incl (f_scope fac_three) (leaves ex_vt).
Proof. split; [vm_compute; reflexivity|]. intros v. vm_compute. intuition. Qed.
(** a factor that is zero everywhere *)
Definition fac_null : factor Qex := MkF [1]%N [q 0 1; q 0 1].
Lemma fac_null_good : good_factor ex_vt fac_null /\ forall x, @factor_value Qex qval fac_null x = 0.
Proof.
  split.
  - split; [repeat constructor; simpl; intuition discriminate|discriminate|intros v; simpl; intuition (subst; auto)|simpl; lia|reflexivity|]. simpl.
    right; left. split; [intros v [<-|[<-|[]]]; intuition discriminate|]. right; left. split; [intros v [<-|[]]; intuition discriminate|exact I].
  - intros x. unfold factor_value, table_value, table_index, fac_null. simpl. destruct (x 1%N); simpl; unfold qval; simpl; lra.
Qed.
(** factors whose product is zero: each one is satisfiable *)
Definition fac_x : factor Qex := MkF [1]%N [q 0 1; q 1 1].
Definition fac_not_x : factor Qex := MkF [1]%N [q 1 1; q 0 1].
Definition fac_y : factor Qex := MkF [2]%N [q 1 1; q 1 1].
Lemma null_product_crashes : compile_network_dc id_ord isort 100 [fac_x; fac_not_x; fac_y; fac_y] (new_mgr ex_vt) = UB /\
  compile_network_with_vtree id_ord 100 [fac_x; fac_not_x] (new_mgr ex_vt) = Abort /\
  z_of (compile_network id_ord isort [fac_x; fac_not_x; fac_y; fac_y] (new_mgr ex_vt)) = Ok (0%N, 1%positive) /\
  z_of (compile_network_dc id_ord isort 100 [fac_x; fac_not_x] (new_mgr ex_vt)) = Ok (0%N, 1%positive).
Proof. split; [|split; [|split]]; vm_compute; reflexivity. Qed.
Lemma other_crashes : compile_network_dc id_ord isort 0 [fac_x; fac_y] (new_mgr ex_vt) = UB /\
  compile_network_with_vtree id_ord 0 [fac_x; fac_y] (new_mgr ex_vt) = UB /\
  compile_network_dc id_ord isort 100 [] (new_mgr (P := Qex) ex_vt) = UB /\ compile_network_with_vtree id_ord 100 [] (new_mgr (P := Qex) ex_vt) = UB /\
  z_of (compile_network id_ord isort [] (new_mgr ex_vt)) = Ok (1%N, 1%positive).
Proof. split; [|split; [|split; [|split]]]; vm_compute; reflexivity. Qed.
(** one factor 1,1 over variable 2: the answer is 2, the sum over the sixteen instantiations is 16 *)
Lemma single_partition : z_of (compile_network_dc id_ord isort 100 [fac_y] (new_mgr ex_vt)) = Ok (2%N, 1%positive) /\
  forall x, sum_over (leaves ex_vt) (@network_value Qex qval [fac_y]) x = 16.
Proof.
  split; [vm_compute; reflexivity|]. intros x. rewrite (sum_over_ext' _ _ (fun _ => 1)).
  - rewrite sum_over_const. simpl. lra.
  - intros y. unfold network_value, factor_value, table_value, table_index, fac_y. simpl. destruct (y 2%N); simpl; unfold qval; simpl; lra.
Qed.
