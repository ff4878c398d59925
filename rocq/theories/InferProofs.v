(** What psdd_inference prints. *)
From Coq Require Import Ascii String Reals Lra Sorting.
From Verif Require Import Base Param Vtree VtreeProofs Spec SpecProofs Heap Manager HeapProofs SerProofs RepProofs LoadProofs MulProofs
  TreeProofs Query QueryProofs MpeProofs SampleProofs Sdd SddProofs Text IO Cnf CnfProofs.
Local Open Scope R_scope.

Lemma insert_perm v l : Permutation (insert_N v l) (v :: l).
Proof. induction l as [|w l IH]; simpl; auto. destruct (N.leb v w); auto. rewrite IH. apply perm_swap. Qed.
Lemma sort_perm l : Permutation (sort_N l) l.
Proof. induction l as [|v l IH]; simpl; auto. rewrite insert_perm, IH. auto. Qed.
Lemma insert_sorted v l : StronglySorted N.le l -> StronglySorted N.le (insert_N v l).
Proof.
  induction 1 as [|w l S IH F]; simpl; [repeat constructor|]. destruct (N.leb_spec v w).
  - constructor; [constructor; auto|]. constructor; auto. eapply Forall_impl; [|exact F]. intros; simpl in *; lia.
  - constructor; auto. apply Forall_forall. intros u Hu. eapply Permutation_in in Hu; [|apply insert_perm]. destruct Hu as [<-|Hu]; [lia|].
    rewrite Forall_forall in F. auto.
Qed.
Lemma sort_sorted l : StronglySorted N.le (sort_N l).
Proof. induction l as [|v l IH]; simpl; [constructor|]. apply insert_sorted. auto. Qed.

Section Infer.
Context {P : pops} (val : P -> R) (HP : pexact P val).
(** The answers for the distribution proportional to [g] with total mass [z]: a most probable instantiation with its probability, and
    the probabilities of all variables being (false, true), in increasing order of the variables. *)
Definition answers_for (vt : vtree) (g : inst -> R) (z : R) (mpe mar : bool) (a : answer) : Prop :=
  match a with
  | Unsatisfied => False
  | Answer ma mb => exists vs, Permutation vs (leaves vt) /\ StronglySorted N.le vs /\
      (if mpe then exists x v, ma = Some (map (fun w => (w, x w)) vs, v) /\ g x = val v * z /\ 0 < g x /\ (forall y, g y <= g x)
       else ma = None) /\
      (if mar then exists f : N -> P * P, mb = Some (map (fun w => (w, f w)) vs) /\
         forall v, In v (leaves vt) -> (forall x0, val (snd (f v)) * z = sum_over (leaves vt) (fun y => if y v then g y else 0) x0) /\
                                       (forall x0, val (fst (f v)) * z = sum_over (leaves vt) (fun y => if y v then 0 else g y) x0)
       else mb = None)
  end.
Lemma answers_spec mpe mar dflt r (m : mgr P) t g z : psdd_at val m r (m_vt m) t -> positive t -> normalized t -> deterministic t ->
  0 < z -> (forall x, weight t x * z = g x) -> exists a, answers mpe mar dflt r m = Ok a /\ answers_for (m_vt m) g z mpe mar a.
Proof.
  intros A PO NO DE HZ HG. unfold answers. destruct (variables_under_spec [] (m_vt m)) as (vs & Evs & PM). rewrite Evs. cbn [bind]. cbv zeta.
  destruct (psdd_at_facts val m r _ t A) as (HO & ND & C & L & SO). rewrite (so_eq _ _ _ SO). cbn [bind].
  assert (Permutation (sort_N vs) (leaves (m_vt m))) as PM2 by (rewrite sort_perm; auto).
  assert (exists ma, (if mpe then do x <- GetMPESolution (vsize (m_vt m)) (m_heap m) L (fun _ => None) ;;
             Ok (Some (map (fun v => (v, fst (fst x) v)) (sort_N vs), snd (fst x))) else Ok None) = Ok ma /\
     (if mpe then exists x v, ma = Some (map (fun w => (w, x w)) (sort_N vs), v) /\ g x = val v * z /\ 0 < g x /\ (forall y, g y <= g x)
       else ma = None)) as (ma & E1 & H1).
  { destruct mpe; [|eauto]. destruct (mpe_full val HP m r (m_vt m) t L (fun _ => None) (vsize (m_vt m)) A) as (x & v & ud' & E & W & B & MX & _); auto.
    { apply positive_nonneg. auto. }
    { apply SO. }
    rewrite E. cbn [bind fst snd]. eexists. split; [reflexivity|]. exists x, v. split; auto. rewrite <- !HG, W. split; auto. split.
    - rewrite <- W. apply Rmult_lt_0_compat; auto. apply weight_pos_base; auto.
    - intros y. rewrite <- HG. apply Rmult_le_compat_r; [lra|auto]. }
  assert (exists mb, (if mar then do mg <- GetMarginals (m_heap m) L ;;
             Ok (Some (map (fun v => (v, match mg v with Some p => p | None => dflt end)) (sort_N vs))) else Ok None) = Ok mb /\
     (if mar then exists f : N -> P * P, mb = Some (map (fun w => (w, f w)) (sort_N vs)) /\
         forall v, In v (leaves (m_vt m)) -> (forall x0, val (snd (f v)) * z = sum_over (leaves (m_vt m)) (fun y => if y v then g y else 0) x0) /\
                                       (forall x0, val (fst (f v)) * z = sum_over (leaves (m_vt m)) (fun y => if y v then 0 else g y) x0)
       else mb = None)) as (mb & E2 & H2).
  { destruct mar; [|eauto]. destruct (marg_full val HP m r (m_vt m) t L A NO (so_eq _ _ _ SO)) as (mg & E & M & _).
    rewrite E. cbn [bind]. eexists. split; [reflexivity|]. exists (fun v => match mg v with Some p => p | None => dflt end). split; auto.
    intros v Hv. destruct (M v Hv) as (pf & pt & E' & M1 & M2 & _). rewrite E'. cbn [fst snd]. split; intros y0.
    - rewrite (M1 y0), Rmult_comm, <- sum_over_scal. apply sum_over_ext'. intros y. rewrite <- HG. destruct (y v); ring.
    - rewrite (M2 y0), Rmult_comm, <- sum_over_scal. apply sum_over_ext'. intros y. rewrite <- HG. destruct (y v); ring. }
  rewrite E1. cbn [bind]. rewrite E2. cbn [bind]. eexists. split; [reflexivity|]. simpl. exists (sort_N vs). split; auto. split; [apply sort_sorted|]. auto.
Qed.
Context (rd : text -> option P) (log0 : P) (libs : vtree -> sddlib) (LO : libs_ok libs) (dflt : P * P).
(** The file holds the PSDD [t] of the whole vtree. *)
Definition file_holds (psdd : text) (vt : vtree) (t : ptree) : Prop :=
  exists r m1, ReadPsddFile rd log0 psdd 0 (new_mgr vt) = Ok (Some r, m1) /\ m_vt m1 = vt /\ Inv val 0 m1 /\
    vt_of (m_heap m1) r = Some [] /\ Rep val (m_heap m1) r t.
Theorem inference_no_evidence psdd vt t mpe mar : file_holds psdd vt t -> positive t -> normalized t -> deterministic t ->
  exists a m', Inference rd log0 libs mpe mar dflt psdd None vt = Ok (a, m') /\ answers_for vt (weight t) 1 mpe mar a.
Proof.
  intros (r & m1 & E & EV & I & V & R) PO NO DE. unfold Inference. cbn [bind]. rewrite E. cbn [bind].
  destruct (answers_spec mpe mar dflt r m1 t (weight t) 1) as (a & Ea & Ha); auto; try lra.
  - split; [apply I|]. split; auto. exists []. split; auto.
  - intros x. ring.
  - rewrite Ea. cbn [bind]. rewrite EV in Ha. eauto.
Qed.
Theorem inference_evidence psdd vt t mpe mar cnf cs : file_holds psdd vt t -> positive t -> normalized t -> deterministic t ->
  (forall v, In v (leaves vt) -> v <> 0%N) -> ReadCnf cnf = Ok cs -> in_vtree vt cs ->
  let g x := if cnf_sat cs x then weight t x else 0 in
  ((exists x, cnf_sat cs x = true) -> (forall x, g x = 0) -> exists m', Inference rd log0 libs mpe mar dflt psdd (Some cnf) vt = Ok (Unsatisfied, m')) /\
  ((exists x, 0 < g x) -> exists a m' z, Inference rd log0 libs mpe mar dflt psdd (Some cnf) vt = Ok (a, m') /\
     0 < z /\ (forall x0, z = sum_over (leaves vt) g x0) /\ answers_for vt g z mpe mar a) /\
  ((forall x, cnf_sat cs x = false) -> Inference rd log0 libs mpe mar dflt psdd (Some cnf) vt = UB).
Proof.
  intros (r & m1 & E & EV & I & V & R) PO NO DE NZ EC SC g. unfold Inference. rewrite EC. cbn [bind]. rewrite E. cbn [bind].
  destruct (compile_full val HP libs cs 0 m1 LO I) as [K1 K2]; [rewrite EV; auto|rewrite EV; auto|].
  split; [|split].
  3:{ intros U. rewrite (K1 U). reflexivity. }
  - intros SAT ZERO. destruct (K2 SAT) as (i & m2 & te & E2 & I2 & X2 & Ve & Re & Le & Ce & De & Pe & Be & We & _). rewrite E2. cbn [bind get].
    assert (node_at val m2 r [] t) as Nr by (destruct (node_at_ext val 0%N m1 m2 r [] t X2 (conj V R)); split; auto).
    destruct (multiply_spec val HP 0 m2 i r [] te t I2 (conj Ve Re) Nr Pe PO) as ([o z] & m3 & E3 & I3 & X3 & M).
    rewrite E3. cbn [bind fst].
    pose proof (multiply_null val HP 0 m2 i r [] te t (o, z) m3 I2 (conj Ve Re) Nr Pe PO E3) as [_ NU]. simpl in NU. rewrite NU; [eauto|].
    intros x. rewrite We. specialize (ZERO x). unfold g in ZERO. destruct (cnf_sat cs x); lra.
  - intros [x Hx]. assert (cnf_sat cs x = true) as Sx by (unfold g in Hx; destruct (cnf_sat cs x); auto; lra).
    destruct (K2 (ex_intro _ x Sx)) as (i & m2 & te & E2 & I2 & X2 & Ve & Re & Le & Ce & De & Pe & Be & We & _). rewrite E2. cbn [bind get].
    assert (node_at val m2 r [] t) as Nr by (destruct (node_at_ext val 0%N m1 m2 r [] t X2 (conj V R)); split; auto).
    destruct (multiply_spec val HP 0 m2 i r [] te t I2 (conj Ve Re) Nr Pe PO) as ([o z] & m3 & E3 & I3 & X3 & M).
    rewrite E3. cbn [bind fst].
    pose proof (multiply_null val HP 0 m2 i r [] te t (o, z) m3 I2 (conj Ve Re) Nr Pe PO E3) as [NU _]. simpl in NU.
    destruct o as [j|]; [|exfalso; specialize (NU eq_refl x); rewrite We, Sx in NU; unfold g in Hx; rewrite Sx in Hx; lra].
    destruct M as (t' & [V' R'] & PR & _). simpl in PR, V', R'.
    assert (m_vt m3 = vt) as EV3 by (rewrite (me_vt _ _ _ X3), (me_vt _ _ _ X2); auto).
    assert (forall y, weight t' y * val z = g y) as HG.
    { intros y. rewrite (po_weight _ _ _ _ PR), We. unfold g. destruct (cnf_sat cs y); ring. }
    assert (psdd_at val m3 j (m_vt m3) t') as A by (split; [apply I3|]; split; auto; exists []; split; auto).
    destruct (answers_spec mpe mar dflt j m3 t' g (val z)) as (a & Ea & Ha); auto; try apply PR; auto.
    rewrite Ea. cbn [bind]. exists a, m3, (val z). split; auto. split; [apply PR|]. split; [|rewrite EV3 in Ha; auto].
    intros x0. destruct (psdd_at_facts val m3 j _ t' A) as (_ & ND & C & _). rewrite EV3 in *.
    rewrite (sum_over_ext' _ g (fun y => val z * weight t' y)) by (intros y; rewrite <- HG; ring).
    rewrite sum_over_scal, (normalized_total vt t'); auto; [ring|apply PR].
Qed.
End Infer.
