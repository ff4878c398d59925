(** Products of several trees (C69): the tree that any sequence of multiplications leads to is determined by the factors, whatever their order and
    bracketing, up to the order of the elements. *)
From Coq Require Import Reals Lra.
From Verif Require Import Base Vtree VtreeProofs Spec SpecProofs TreeProofs Heap HeapProofs RepProofs MulProofs.
Local Open Scope R_scope.

Definition wprod (l : list ptree) (x : inst) : R := fold_right (fun t r => weight t x * r) 1 l.
Definition bprod (l : list ptree) (x : inst) : bool := forallb (fun t => base t x) l.
Lemma wprod_app l l' x : wprod (l ++ l') x = wprod l x * wprod l' x.
Proof. induction l as [|t l IH]; simpl; [lra|]. rewrite IH. ring. Qed.
Lemma bprod_app l l' x : bprod (l ++ l') x = bprod l x && bprod l' x.
Proof. apply forallb_app. Qed.
Lemma wprod_perm l l' x : Permutation l l' -> wprod l x = wprod l' x.
Proof. induction 1; simpl; try rewrite IHPermutation; try ring. congruence. Qed.
Lemma bprod_perm l l' x : Permutation l l' -> bprod l x = bprod l' x.
Proof.
  induction 1; simpl; auto; try congruence. destruct (base y x), (base x0 x); auto.
Qed.
(** [t] is the product of the trees [l] up to a factor *)
Definition nsem (l : list ptree) (t : ptree) : Prop :=
  (exists z, 0 < z /\ forall x, weight t x * z = wprod l x) /\ (forall x, base t x = bprod l x).
Lemma nsem_single t : nsem [t] t.
Proof. split; [exists 1; split; [lra|]; intros; simpl; ring|]. intros x. simpl. rewrite andb_true_r. auto. Qed.
Lemma nsem_app l1 t1 l2 t2 t z : nsem l1 t1 -> nsem l2 t2 -> prod_sem t1 t2 t z -> nsem (l1 ++ l2) t.
Proof.
  intros [(z1 & Z1 & W1) B1] [(z2 & Z2 & W2) B2] [Z W B _ _ _]. split.
  - exists (z * (z1 * z2)). split; [apply Rmult_lt_0_compat; auto; apply Rmult_lt_0_compat; auto|]. intros x.
    rewrite wprod_app, <- W1, <- W2, <- Rmult_assoc, W. ring.
  - intros x. rewrite bprod_app, <- B1, <- B2. auto.
Qed.
Lemma nsem_perm l l' t : Permutation l l' -> nsem l t -> nsem l' t.
Proof.
  intros PM [(z & Z & W) B]. split.
  - exists z. split; auto. intros x. rewrite W. apply wprod_perm; auto.
  - intros x. rewrite B. apply bprod_perm; auto.
Qed.

(** The shape of a product of the trees [l] *)
Inductive nstr : list ptree -> ptree -> Prop :=
| ns_lit l z : In (TLit z) l -> Forall (fun t => t = TLit z \/ exists v a b, t = TTop v a b) l -> nstr l (TLit z)
| ns_top l v a b : l <> [] -> Forall (fun t => exists a b, t = TTop v a b) l -> nstr l (TTop v a b)
| ns_dec (fs : list (list (ptree * ptree * R))) gs :
    (forall g, In g gs -> exists c, Forall2 (@In _) c fs /\ nsem (map tp c) (tp g) /\ nsem (map ts c) (ts g) /\ nstr (map tp c) (tp g) /\ nstr (map ts c) (ts g)) ->
    (forall c, Forall2 (@In _) c fs -> (exists x, bprod (map tp c) x = true) -> (exists x, bprod (map ts c) x = true) ->
       exists g, In g gs /\ nsem (map tp c) (tp g) /\ nsem (map ts c) (ts g) /\ nstr (map tp c) (tp g) /\ nstr (map ts c) (ts g)) ->
    nstr (map TDec fs) (TDec gs).

Lemma nstr_single : forall t, nstr [t] t.
Proof.
  induction t as [l|v a b|es IH] using ptree_ind2.
  - constructor; [left; auto|]. constructor; auto.
  - constructor; [discriminate|]. constructor; eauto.
  - rewrite Forall_forall in IH. apply (ns_dec [es]).
    + intros g Hg. exists [g]. split; [constructor; auto|]. simpl. destruct (IH g Hg). auto using nsem_single.
    + intros c F _ _. inversion F as [|g ? c' ? Hg F']; subst. inversion F'; subst. exists g. simpl. destruct (IH g Hg). auto using nsem_single.
Qed.
Lemma map_tdec_inv l fs : l = map TDec fs -> forall t, In t l -> exists es, t = TDec es.
Proof. intros -> t H. apply in_map_iff in H as (es & <- & _). eauto. Qed.
Lemma nstr_app s : NoDup (leaves s) -> forall l1 t1 l2 t2 t, conforms s t1 -> conforms s t2 -> conforms s t -> nstr l1 t1 -> nstr l2 t2 -> smul t1 t2 t -> nstr (l1 ++ l2) t.
Proof.
  induction s as [v|a IHa b IHb]; intros ND l1 t1 l2 t2 t C1 C2 C N1 N2 M; inversion M; subst; simpl in C1, C2, C; try contradiction.
  - inversion N1; subst; inversion N2; subst. constructor; [apply in_or_app; auto|apply Forall_app; auto].
  - inversion N1; subst; inversion N2; subst. constructor; [apply in_or_app; auto|apply Forall_app; split; auto].
    eapply Forall_impl; [|eassumption]. intros t (? & ? & ->). eauto 6.
  - inversion N1; subst; inversion N2; subst. constructor; [apply in_or_app; auto|apply Forall_app; split; auto].
    eapply Forall_impl; [|eassumption]. intros t (? & ? & ->). eauto 6.
  - inversion N1; subst; inversion N2; subst. constructor; [|apply Forall_app; auto]. destruct l1; [congruence|discriminate].
  - simpl in ND. assert (NoDup (leaves a) /\ NoDup (leaves b)) as [NDa NDb] by (destruct (NoDup_app_inv _ _ ND) as (? & ? & _); auto).
    destruct C1 as [_ C1], C2 as [_ C2], C as [_ C]. rewrite Forall_forall in C1, C2, C.
    inversion N1 as [| |fs1 ? A1 B1 E1]; subst. inversion N2 as [| |fs2 ? A2 B2 E2]; subst. rewrite <- map_app.
    assert (forall c1 c2 e f g z1 z2, In e es -> In f fs -> In g gs ->
      nsem (map tp c1) (tp e) /\ nsem (map ts c1) (ts e) /\ nstr (map tp c1) (tp e) /\ nstr (map ts c1) (ts e) ->
      nsem (map tp c2) (tp f) /\ nsem (map ts c2) (ts f) /\ nstr (map tp c2) (tp f) /\ nstr (map ts c2) (ts f) ->
      prod_sem (tp e) (tp f) (tp g) z1 /\ prod_sem (ts e) (ts f) (ts g) z2 /\ smul (tp e) (tp f) (tp g) /\ smul (ts e) (ts f) (ts g) ->
      nsem (map tp (c1 ++ c2)) (tp g) /\ nsem (map ts (c1 ++ c2)) (ts g) /\ nstr (map tp (c1 ++ c2)) (tp g) /\ nstr (map ts (c1 ++ c2)) (ts g)) as K.
    { intros c1 c2 e f g z1 z2 He Hf Hg (S1 & S2 & S3 & S4) (T1 & T2 & T3 & T4) (P1 & P2 & P3 & P4). rewrite !map_app.
      destruct (C1 e He), (C2 f Hf), (C g Hg).
      split; [eapply nsem_app; eauto|]. split; [eapply nsem_app; eauto|].
      split; [apply (IHa NDa _ (tp e) _ (tp f)); auto|apply (IHb NDb _ (ts e) _ (ts f)); auto]. }
    constructor.
    + intros g Hg. destruct (H g Hg) as (e & f & z1 & z2 & He & Hf & PP). destruct (A1 e He) as (c1 & F1 & S1). destruct (A2 f Hf) as (c2 & F2 & S2).
      exists (c1 ++ c2). split; [apply Forall2_app; auto|]. eapply (K c1 c2 e f g z1 z2); eauto.
    + intros c F [x Bx] [y By]. apply Forall2_app_inv_r in F as (c1 & c2 & F1 & F2 & ->).
      rewrite map_app, bprod_app in Bx, By. apply andb_true_iff in Bx as [Bx1 Bx2], By as [By1 By2].
      destruct (B1 c1 F1) as (e & He & S1); eauto. destruct (B2 c2 F2) as (f & Hf & S2); eauto.
      destruct (H0 e f He Hf) as (g & z1 & z2 & Hg & PP).
      { exists x. rewrite (proj2 (proj1 S1)), (proj2 (proj1 S2)), Bx1, Bx2. auto. }
      { exists y. rewrite (proj2 (proj1 (proj2 S1))), (proj2 (proj1 (proj2 S2))), By1, By2. auto. }
      exists g. split; auto. eapply (K c1 c2 e f g z1 z2); eauto.
Qed.
Lemma Forall2_flip' {A B} (R : A -> B -> Prop) l m : Forall2 R l m -> Forall2 (fun b a => R a b) m l.
Proof. induction 1; auto. Qed.
Lemma nstr_perm s : forall l l' t, conforms s t -> Permutation l l' -> nstr l t -> nstr l' t.
Proof.
  induction s as [v|a IHa b IHb]; intros l l' t C PM N; inversion N; subst; simpl in C; try contradiction.
  - constructor; [eapply Permutation_in; eauto|eapply Permutation_Forall; eauto].
  - constructor; [|eapply Permutation_Forall; eauto]. intros ->. apply Permutation_sym, Permutation_nil in PM. auto.
  - destruct C as [_ C]. rewrite Forall_forall in C.
    destruct (Permutation_map_inv _ _ (Permutation_sym PM)) as (fs' & -> & PF). 
    assert (forall c c' g, Permutation c c' -> In g gs -> nsem (map tp c) (tp g) /\ nsem (map ts c) (ts g) /\ nstr (map tp c) (tp g) /\ nstr (map ts c) (ts g) ->
      nsem (map tp c') (tp g) /\ nsem (map ts c') (ts g) /\ nstr (map tp c') (tp g) /\ nstr (map ts c') (ts g)) as K.
    { intros c c' g PC Hg (S1 & S2 & S3 & S4). destruct (C g Hg). pose proof (Permutation_map tp PC). pose proof (Permutation_map ts PC).
      split; [eapply nsem_perm; eauto|]. split; [eapply nsem_perm; eauto|]. split; [eapply IHa; eauto|eapply IHb; eauto]. }
    assert (forall f1 f2 c, Permutation f1 f2 -> Forall2 (@In (ptree * ptree * R)) c f1 -> exists c', Permutation c c' /\ Forall2 (@In _) c' f2) as CH.
    { intros f1 f2 c PM' F. destruct (Forall2_perm (fun f e => In e f) f1 f2 PM' c) as (c' & PC & F'); [apply Forall2_flip'; exact F|].
      exists c'. split; auto. apply Forall2_flip' in F'. exact F'. }
    constructor.
    + intros g Hg. destruct (H g Hg) as (c & F & S). destruct (CH _ fs' c PF F) as (c' & PC & F'). eauto.
    + intros c F [x Bx] [y By]. destruct (CH _ fs c (Permutation_sym PF) F) as (c' & PC & F'). pose proof (Permutation_map tp PC). pose proof (Permutation_map ts PC).
      destruct (H0 c' F') as (g & Hg & S).
      { exists x. rewrite <- Bx. symmetry. apply bprod_perm; auto. }
      { exists y. rewrite <- By. symmetry. apply bprod_perm; auto. }
      exists g. split; auto. eapply K; [apply Permutation_sym; eauto| |]; auto.
Qed.
(** Normalized products are equal as distributions *)
Lemma nsem_fun s l t t' : NoDup (leaves s) -> conforms s t -> conforms s t' -> normalized t -> normalized t' -> nsem l t -> nsem l t' -> forall x, weight t x = weight t' x.
Proof.
  intros ND C C' N N' [(z & Z & W) _] [(z' & Z' & W') _] x.
  assert (z = z') as <-.
  { assert (z * sum_over (leaves s) (weight t) x = z' * sum_over (leaves s) (weight t') x) as E.
    { rewrite <- !sum_over_scal. apply sum_over_ext'. intros y. rewrite Rmult_comm, W, Rmult_comm, W'. auto. }
    rewrite (normalized_total s t x ND C N), (normalized_total s t' x ND C' N') in E. lra. }
  apply (Rmult_eq_reg_r z); [|lra]. rewrite W, W'. auto.
Qed.
