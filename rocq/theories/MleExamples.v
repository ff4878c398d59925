(** A concrete case for C88: two equal records, so that half of the parameters of the leaves and of the disjunction are unsupported. *)
From Coq Require Import Reals Lra.
From Verif Require Import Base Param ParamProofs Vtree VtreeProofs Spec SpecProofs Heap Manager HeapProofs SerProofs RepProofs
  OrderProofs CanonProofs HeapExamples LoadProofs MulProofs ReplayProofs ManagerExamples TreeProofs Query QueryProofs MpeProofs SampleProofs
  QueryExamples Learn LearnProofs CountProofs LearnExamples LikeProofs LikeExamples MleProofs.
Local Open Scope R_scope.
Lemma reached_by {P : pops} (val : P -> R) vt (h : heap P) root L recs : heap_ok vt h -> ser_of h root L ->
  forallb (fun j => Nat.eqb (ar h j) 0 || existsb (fun k => existsb (fun x =>
    if in_dec dec2 (j, k) (chosen h (fun i => tree_of val h (length h) i) (S root) x root) then true else false) recs) (seq 0 (ar h j))) L = true -> reached val h root recs 0.
Proof.
  intros HO SO FB i nd ns Hi E NC. set (T := fun i => tree_of val h (length h) i) in *.
  assert (forall i, (i < length h)%nat -> Rep val h i (T i)) as HT by (intros j Hj; apply (tree_of_rep val vt); auto).
  rewrite <- (so_in _ _ _ SO) in Hi. rewrite forallb_forall in FB. specialize (FB i Hi). pose proof (node_counts_length _ _ _ _ _ _ _ NC) as LE.
  assert (ar h i = arity nd) as EA by (unfold ar; rewrite E; auto). pose proof (HO i nd E) as NO. unfold node_ok in NO.
  assert (n_body nd = n_body nd -> match n_body nd with BLit _ => True | _ => ar h i <> 0%nat end) as NZ.
  { rewrite EA. unfold arity. destruct (n_body nd) as [l|v pt pf|es]; auto. destruct NO as (NE & _). destruct es; [congruence|discriminate]. }
  specialize (NZ eq_refl).
  assert (ar h i <> 0%nat -> 0 < rsum (fun k => rn k + 0) ns) as K; [|destruct (n_body nd); auto].
  intros N0. apply Nat.eqb_neq in N0. rewrite N0 in FB. cbn [orb] in FB. apply existsb_exists in FB as (k & Hk & FB). apply in_seq in Hk.
  destruct (nth_error ns k) as [n|] eqn:En; [|apply nth_error_None in En; lia].
  apply rsum_pos; [intros a _; pose proof (rn_nonneg a); lra|]. exists n. split; [eapply nth_error_In; eauto|].
  rewrite (count_cnt val vt h HO T HT root L SO recs i nd ns k n Hi E NC En). apply existsb_exists in FB as (x & Hx & Q). unfold cnt.
  assert (0 < rsum (fun y => if in_dec dec2 (i, k) (pick h T root y) then 1 else 0) recs); [|lra]. apply rsum_pos.
  - intros y _. destruct (in_dec dec2 (i, k) (pick h T root y)); lra.
  - exists x. split; auto. unfold pick. destruct (in_dec dec2 (i, k) (chosen h T (S root) x root)); [lra|discriminate].
Qed.
Definition un_recs : list inst := [rec5; rec5].
Definition un_examples : examples := fun v => Some (map (fun x : inst => x v) un_recs).
Lemma un_reached : @reached Qex qval (m_heap ex_m) 8 un_recs 0.
Proof.
  destruct (@psdd_at_facts Qex qval ex_m 8 ex_vt ex_t8 ex_at8) as (HO & _ & _ & L & SO).
  assert (SerializePsddNodes (m_heap ex_m) [8%nat] = Ok L) as E by apply SO. vm_compute in E. injection E as E. subst L.
  apply (@reached_by Qex qval (m_vt ex_m) (m_heap ex_m) 8 _ un_recs HO SO). vm_compute. reflexivity.
Qed.
Lemma un_fresh : @tops_in Qex qval sums ex_m 7.
Proof.
  intros i nd v pt pf _ E F _. exfalso. assert (forallb (fun nd => negb (N.eqb (n_flag nd) 7)) (m_heap ex_m) = true) as K by (vm_compute; reflexivity).
  rewrite forallb_forall in K. apply nth_error_In in E. apply K in E. rewrite F in E. discriminate.
Qed.
(** the learned parameters: the leaves are (1, 0) or (0, 1) *)
Lemma un_learned : exists r ud dc m', LearnPsddParameters (m_heap ex_m) no_ud ex_dc 8 un_examples 2 pzero 7 ex_m = Ok (r, ud, dc, m') /\
  filter (fun b => match b with BTop _ _ _ => true | _ => false end) (map n_body (skipn (length (m_heap ex_m)) (m_heap m'))) = [BTop 4 (q 0 1) (q 1 1); BTop 3 (q 1 1) (q 0 1)].
Proof. do 4 eexists. split; [vm_compute; reflexivity|]. vm_compute. reflexivity. Qed.
