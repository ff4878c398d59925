(** Concrete cases for C58. *)
From Coq Require Import Reals Lra.
From Verif Require Import Base Param ParamProofs Vtree VtreeProofs Spec SpecProofs Heap Manager HeapProofs SerProofs RepProofs
  OrderProofs CanonProofs HeapExamples LoadProofs MulProofs ReplayProofs ManagerExamples TreeProofs Query QueryProofs MpeProofs SampleProofs
  QueryExamples Learn LearnProofs CountProofs LearnExamples LikeProofs.
Local Open Scope R_scope.

(** the tree of a node, computed *)
Fixpoint tree_of {P : pops} (val : P -> R) (h : heap P) (fuel i : nat) : ptree :=
  match fuel with
  | O => TLit 0
  | S f => match nth_error h i with
           | None => TLit 0
           | Some nd => match n_body nd with
                        | BLit l => TLit l
                        | BTop v a b => TTop v (val a) (val b)
                        | BDec es => TDec (map (fun e => (tree_of val h f (e_prime e), tree_of val h f (e_sub e), val (e_param e))) es)
                        end
           end
  end.
Lemma tree_of_rep {P : pops} (val : P -> R) vt (h : heap P) : heap_ok vt h -> forall fuel i, (i < fuel)%nat -> (i < length h)%nat -> Rep val h i (tree_of val h fuel i).
Proof.
  intros HO. induction fuel as [|f IH]; intros i Hf Hi; [lia|]. simpl. destruct (nth_error h i) as [nd|] eqn:E; [|apply nth_error_None in E; lia].
  destruct (n_body nd) as [l|v a b|es] eqn:Eb.
  - eapply Rep_lit; eauto.
  - eapply Rep_top; eauto.
  - pose proof (HO i nd E) as NO. unfold node_ok in NO. rewrite Eb in NO. destruct NO as (_ & _ & FE). eapply Rep_dec; eauto. clear Eb.
    induction es as [|e es IHe]; [constructor|]. inversion FE as [|? ? (A & B & _) FE']; subst. simpl. constructor; [|apply IHe; auto].
    split; [apply IH; lia|]. split; [apply IH; lia|]. reflexivity.
Qed.
Lemma supported {P : pops} (val : P -> R) vt (h : heap P) root L recs : heap_ok vt h -> ser_of h root L ->
  forallb (fun p => existsb (fun x => if in_dec dec2 p (chosen h (fun i => tree_of val h (length h) i) (S root) x root) then true else false) recs) (params h L) = true ->
  forall i nd ns, reach h root i -> nth_error h i = Some nd -> node_counts val h root recs i nd ns -> Forall (fun n => 0 < rn n) ns.
Proof.
  intros HO SO FB i nd ns Hi E NC. set (T := fun i => tree_of val h (length h) i) in *.
  assert (forall i, (i < length h)%nat -> Rep val h i (T i)) as HT by (intros j Hj; apply (tree_of_rep val vt); auto).
  apply Forall_forall. intros n Hn. apply In_nth_error in Hn as [k Ek]. rewrite <- (so_in _ _ _ SO) in Hi.
  rewrite (count_cnt val vt h HO T HT root L SO recs i nd ns k n Hi E NC Ek).
  rewrite forallb_forall in FB. assert (In (i, k) (params h L)) as Hp.
  { apply params_in. split; auto. unfold ar. rewrite E, <- (node_counts_length _ _ _ _ _ _ _ NC). apply nth_error_Some. congruence. }
  specialize (FB _ Hp). apply existsb_exists in FB as (x & Hx & Q). unfold cnt. apply rsum_pos.
  - intros y _. destruct (in_dec dec2 (i, k) (pick h T root y)); lra.
  - exists x. split; auto. unfold pick. destruct (in_dec dec2 (i, k) (chosen h T (S root) x root)); [lra|discriminate].
Qed.
Definition rec5 : inst := fun v => N.ltb v 4.
Definition ml_recs : list inst := rec5 :: ex_recs.
Definition ml_examples : examples := fun v => Some (map (fun x : inst => x v) ml_recs).
Lemma ml_supported : forall i nd ns, reach (m_heap ex_m) 8 i -> nth_error (m_heap ex_m) i = Some nd -> @node_counts Qex qval (m_heap ex_m) 8 ml_recs i nd ns -> Forall (fun n => 0 < rn n) ns.
Proof.
  destruct (@psdd_at_facts Qex qval ex_m 8 ex_vt ex_t8 ex_at8) as (HO & _ & _ & L & SO).
  assert (SerializePsddNodes (m_heap ex_m) [8%nat] = Ok L) as E by apply SO. vm_compute in E. injection E as E. subst L.
  apply (@supported Qex qval (m_vt ex_m) (m_heap ex_m) 8 _ ml_recs HO SO). vm_compute. reflexivity.
Qed.
