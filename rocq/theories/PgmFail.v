(** When the compiler of factors fails: exactly which factors it can handle (exact parameters). *)
From Coq Require Import Reals Lra Sorting.Sorted Classical_Prop.
From Verif Require Import Base Param Vtree VtreeProofs Spec SpecProofs Heap Manager HeapProofs SerProofs RepProofs MulProofs Pgm PgmLayout PgmProofs.
Local Open Scope R_scope.

(** ** Layouts *)
Lemma vlca_above u q : vlca (u ++ q) q = q.
Proof.
  unfold vlca. rewrite rev_app_distr. transitivity (rev (rev q)); [|apply rev_involutive]. f_equal.
  induction (rev q) as [|b l IH]; simpl; [destruct (rev u); reflexivity|]. rewrite Bool.eqb_reflx. f_equal. exact IH.
Qed.
(** Two paths: one is above the other, or they part *)
Lemma paths_cases : forall p q : path, (exists u, p = u ++ q) \/ (exists u, q = u ++ p) \/ exists u w a b, p = u ++ b :: a /\ q = w ++ negb b :: a.
Proof.
  induction p as [|x p IH] using rev_ind; intros q.
  - right. left. exists q. rewrite app_nil_r. reflexivity.
  - destruct q as [|y q _] using rev_ind.
    + left. exists (p ++ [x]). rewrite app_nil_r. reflexivity.
    + destruct (Bool.bool_dec x y) as [->|NE].
      * destruct (IH q) as [[u E]|[[u E]|(u & w & a & b & E1 & E2)]].
        -- left. exists u. rewrite E, <- app_assoc. reflexivity.
        -- right. left. exists u. rewrite E, <- app_assoc. reflexivity.
        -- right. right. exists u, w, (a ++ [y]), b. rewrite E1, E2, <- !app_assoc. auto.
      * right. right. exists p, q, [], x. split; auto. f_equal. f_equal. destruct x, y; simpl; congruence.
Qed.
Lemma spine_below root L q : spine root L q -> Forall (fun x : path * N => exists u : path, fst x = u ++ q) L.
Proof.
  induction 1 as [p v H|u w a v L H SP IH].
  - constructor; [|constructor]. exists []. reflexivity.
  - constructor; [exists (u ++ [false]); rewrite <- app_assoc; reflexivity|]. eapply Forall_impl; [|exact IH]. intros x [z E].
    exists (z ++ w ++ [true]). rewrite E, <- !app_assoc. reflexivity.
Qed.
Lemma spine_nonempty root L q : spine root L q -> L <> [].
Proof. destruct 1; discriminate. Qed.
Lemma app_last_inv {A} (u w : list A) x y a : u ++ x :: a = w ++ y :: a -> x = y.
Proof.
  intros E. replace (u ++ x :: a) with ((u ++ [x]) ++ a) in E by (rewrite <- app_assoc; reflexivity).
  replace (w ++ y :: a) with ((w ++ [y]) ++ a) in E by (rewrite <- app_assoc; reflexivity).
  apply app_inv_tail, app_inj_tail in E as [_ E]. exact E.
Qed.
Lemma leaf_below root (u q : path) v : subtree root q = Some (Leaf v) -> forall s, subtree root (u ++ q) = Some s -> u = [].
Proof.
  intros H. induction u as [|b u IH]; intros s E; auto. exfalso. cbn [app subtree] in E. destruct (subtree root (u ++ q)) as [t|] eqn:Et; [|discriminate].
  assert (u = []) as -> by (eapply IH; eauto). cbn [app] in Et. rewrite H in Et. injection Et as <-. discriminate.
Qed.
(** Either the leaves hang off a path, or somewhere there are two on the left of a node that has one on its right *)
Definition bad_leaf (root : vtree) (L : list (path * N)) : Prop :=
  exists L1 x L2 q u l r, L = L1 ++ x :: L2 /\ spine root L2 q /\ fst x = u ++ false :: q /\ subtree root q = Some (VNode l r).
Theorem spine_or_bad root L : L <> [] -> StronglySorted (pos_lt root) L -> Forall (fun x => subtree root (fst x) = Some (Leaf (snd x))) L ->
  (exists q, spine root L q) \/ bad_leaf root L.
Proof.
  induction L as [|[px v] L IH]; [congruence|]. intros _ S F. inversion S as [|? ? S' FS]; subst. inversion F as [|? ? Fx F']; subst. cbn [fst snd] in *.
  destruct L as [|y L].
  - left. exists px. constructor. auto.
  - destruct IH as [[q SP]|(L1 & x & L2 & q & u & l & r & E & SP & Ex & Hq)]; [discriminate|auto|auto| |].
    2: { right. exists ((px, v) :: L1), x, L2, q, u, l, r. cbn [app]. rewrite <- E. auto. }
    pose proof (spine_below _ _ _ SP) as B. inversion B as [|? ? [uy Ey] B']; subst. inversion FS as [|? ? Fy _]; subst. unfold pos_lt in Fy. cbn [fst] in Fy.
    inversion F' as [|? ? Hy _]; subst.
    destruct (paths_cases px q) as [[u E]|[[u E]|(u & w & a & b & E1 & E2)]].
    + (* q above px *)
      subst px. inversion SP as [p v0 H|uz w a v0 L' HV SP']; subst.
      * exfalso. assert (u = []) as -> by (eapply leaf_below; eauto). cbn [fst app] in Fy. lia.
      * right. destruct (spine_node _ _ _ _ _ _ HV SP') as (l & r & Ha).
        assert (exists b u', u = u' ++ [b]) as (b & u' & ->).
        { destruct u as [|b u _] using rev_ind; [|eauto]. cbn [app] in Fx. rewrite Ha in Fx. discriminate. }
        destruct b.
        -- exfalso. rewrite <- app_assoc in Fy. cbn [fst app] in Fy. rewrite subtree_app in HV.
           destruct (subtree root (false :: q)) as [s|] eqn:Es; [|discriminate]. cbn [subtree] in Es. rewrite Ha in Es. injection Es as ->.
           pose proof (vpos_split root q s r uz u' _ Ha HV). lia.
        -- exists [], ((u' ++ [false]) ++ q, v), ((uz ++ false :: q, v0) :: L), q, u', l, r. split; auto. split; [exact SP|].
           split; auto. cbn [fst]. rewrite <- app_assoc. reflexivity.
    + (* px above q: px is a leaf *)
      exfalso. subst q. rewrite Ey in Hy. assert (uy ++ u ++ px = (uy ++ u) ++ px) as EA by (rewrite app_assoc; reflexivity). rewrite EA in Hy.
      assert (uy ++ u = []) as Z by exact (leaf_below root (uy ++ u) px v Fx _ Hy). rewrite Ey, EA, Z in Fy. cbn [app] in Fy. lia.
    + destruct b; cbn [negb] in E2.
      * exfalso. subst px q. rewrite Ey in Fy, Hy. rewrite app_assoc in Fy, Hy. rewrite subtree_app in Hy.
        destruct (subtree root (false :: a)) as [s|] eqn:Es; [|discriminate]. cbn [subtree] in Es. destruct (subtree root a) as [[z|l r]|] eqn:Ea; try discriminate.
        injection Es as ->. pose proof (vpos_split root a s r (uy ++ w) u _ Ea Hy). lia.
      * left. exists a. subst px q. econstructor; eauto.
Qed.
(** Leaves that hang off a path are a right-linear layout *)
Lemma right_linear_none S t : (forall v, In v (leaves t) -> ~ In v S) -> right_linear S t.
Proof.
  induction t as [v|l IHl r IHr]; simpl; intros H; auto. left. split; [|apply IHr]; intros; apply H, in_app_iff; auto.
Qed.
Lemma scope_empty S t p : filter (in_scope S) (lpaths p t) = [] -> forall v, In v (leaves t) -> ~ In v S.
Proof.
  intros E v Hv HS. rewrite <- (lpaths_leaves t p) in Hv. apply in_map_iff in Hv as (x & <- & Hx).
  assert (In x (filter (in_scope S) (lpaths p t))) as H by (apply filter_In; split; auto; apply NmemB_In; auto). rewrite E in H. destruct H.
Qed.
Lemma filter_single {A} (f : A -> bool) l x : filter f l = [x] -> exists a b, l = a ++ x :: b /\ (forall y, In y (a ++ b) -> f y = false) /\ f x = true.
Proof.
  induction l as [|y l IH]; simpl; [discriminate|]. destruct (f y) eqn:E.
  - intros H. injection H as -> H. exists [], l. split; auto. split; auto. cbn [app]. intros z Hz. destruct (f z) eqn:Ez; auto.
    assert (In z (filter f l)) as X by (apply filter_In; auto). rewrite H in X. destruct X.
  - intros H. destruct (IH H) as (a & b & -> & N & T). exists (y :: a), b. split; auto. split; auto. intros z [<-|Hz]; auto.
Qed.
Theorem spine_right_linear root S : forall t p q, subtree root p = Some t -> spine root (filter (in_scope S) (lpaths p t)) q -> right_linear S t.
Proof.
  induction t as [v|l IHl r IHr]; intros p q Hp SP; [exact I|]. cbn [lpaths] in SP. rewrite filter_app in SP.
  assert (subtree root (false :: p) = Some l) as Hl by (simpl; rewrite Hp; auto).
  assert (subtree root (true :: p) = Some r) as Hr by (simpl; rewrite Hp; auto).
  destruct (filter (in_scope S) (lpaths (false :: p) l)) as [|x A] eqn:EA.
  { left. split; [eapply scope_empty; eauto|]. eapply IHr; eauto. }
  destruct (filter (in_scope S) (lpaths (true :: p) r)) as [|y B] eqn:EB.
  { right. left. split; [eapply scope_empty; eauto|]. rewrite app_nil_r in SP. rewrite <- EA in SP. eapply IHl; eauto. }
  right. right.
  assert (forall z b t', In z (lpaths (b :: p) t') -> exists u, fst z = u ++ b :: p) as UND.
  { intros [z w] b t' Hz. apply lpaths_nodes in Hz. apply in_nodes_suffix in Hz. exact Hz. }
  assert (forall z, In z (x :: A) -> exists u, fst z = u ++ false :: p) as UA.
  { intros z Hz. rewrite <- EA in Hz. apply filter_In in Hz as [Hz _]. eapply UND; eauto. }
  assert (forall z, In z (y :: B) -> exists u, fst z = u ++ true :: p) as UB.
  { intros z Hz. rewrite <- EB in Hz. apply filter_In in Hz as [Hz _]. eapply UND; eauto. }
  cbn [app] in SP. inversion SP as [? ? ? E1|u w a v L HV SP' E1 E2]; subst; [destruct A; discriminate|].
  pose proof (spine_below _ _ _ SP') as BL. rewrite Forall_forall in BL.
  destruct (UA _ (or_introl eq_refl)) as [ux Ex]. cbn [fst] in Ex.
  destruct (UB y (or_introl eq_refl)) as [uy Ey]. destruct (BL y) as [uy' Ey']; [apply in_app_iff; right; left; auto|].
  (* q is p *)
  assert (q = p) as ->.
  { destruct (paths_cases q p) as [[z E]|[[z E]|(z & z' & c & b & E & E')]].
    - destruct z as [|b z _] using rev_ind; [exact E|exfalso]. subst q. rewrite <- !app_assoc in Ex, Ey'. cbn [app] in *.
      destruct b.
      + replace (u ++ false :: z ++ true :: p) with ((u ++ false :: z) ++ true :: p) in Ex by (rewrite <- app_assoc; reflexivity).
        apply app_last_inv in Ex. discriminate.
      + rewrite Ey in Ey'. replace (uy' ++ w ++ true :: z ++ false :: p) with ((uy' ++ w ++ true :: z) ++ false :: p) in Ey' by (rewrite <- !app_assoc; reflexivity).
        apply app_last_inv in Ey'. discriminate.
    - destruct z as [|b z _] using rev_ind; [symmetry; exact E|exfalso]. subst p. rewrite <- !app_assoc in Ex, Ey. cbn [app] in *.
      replace (ux ++ false :: z ++ b :: q) with ((ux ++ false :: z) ++ b :: q) in Ex by (rewrite <- app_assoc; reflexivity).
      apply app_last_inv in Ex. subst b. rewrite Ey in Ey'.
      replace (uy ++ true :: z ++ false :: q) with ((uy ++ true :: z) ++ false :: q) in Ey' by (rewrite <- app_assoc; reflexivity).
      replace (uy' ++ w ++ true :: q) with ((uy' ++ w) ++ true :: q) in Ey' by (rewrite <- app_assoc; reflexivity).
      apply app_last_inv in Ey'. discriminate.
    - exfalso. subst q p. 
      replace (u ++ false :: z ++ b :: c) with ((u ++ false :: z) ++ b :: c) in Ex by (rewrite <- app_assoc; reflexivity).
      replace (ux ++ false :: z' ++ negb b :: c) with ((ux ++ false :: z') ++ negb b :: c) in Ex by (rewrite <- app_assoc; reflexivity).
      apply app_last_inv in Ex. destruct b; discriminate. }
  assert (A = []) as ->.
  { destruct A as [|z A]; auto. exfalso. destruct (UA z) as [uz Ez]; [right; left; auto|]. destruct (BL z) as [uz' Ez']; [left; auto|]. rewrite Ez in Ez'.
    replace (uz' ++ w ++ true :: p) with ((uz' ++ w) ++ true :: p) in Ez' by (rewrite <- app_assoc; reflexivity). apply app_last_inv in Ez'. discriminate. }
  cbn [app] in SP'. rewrite <- EB in SP'. split; [|eapply IHr; eauto].
  destruct (filter_single _ _ _ EA) as (a1 & b1 & E & N & T). exists (map snd a1), v, (map snd b1).
  split; [rewrite <- (lpaths_leaves l (false :: p)), E, map_app; reflexivity|]. split; [apply NmemB_In; exact T|].
  intros z Hz. rewrite <- map_app in Hz. apply in_map_iff in Hz as (y0 & <- & Hy0). apply NmemB_false. apply (N _ Hy0).
Qed.

Section Fail.
Context {P : pops} {val : P -> R} (HP : pexact P val).
Notation mgr := (mgr P). Notation node_at := (node_at val). Notation Inv := (Inv val).

(** ** One context *)
Lemma conformed_bad m q l r u l0 tl s ts primes subs params : Inv 0%N m -> subtree (m_vt m) q = Some (VNode l r) ->
  node_at m l0 (u ++ false :: q) tl -> node_at m s q ts -> GetConformedPsddDecisionNode m (l0 :: primes) (s :: subs) params 0 = Abort.
Proof.
  intros I Hq A B. unfold GetConformedPsddDecisionNode, conformed_with. cbn [hd_error get bind]. rewrite (proj1 A), (proj1 B). cbn [get bind].
  replace (u ++ false :: q) with ((u ++ [false]) ++ q) by (rewrite <- app_assoc; reflexivity). rewrite vlca_above, !(vkid_node _ _ _ _ _ Hq). cbn [conform_loop].
  destruct (normalize_with_spec val HP 0 (get_true gt_fuel) (get_true_spec val HP 0 1) u (false :: q) l0 [] m tl I (tm_ok_nil val m) A) as (i & tm' & m' & E & I' & X & T & _).
  rewrite E. cbn [bind]. unfold normalize_with at 1. pose proof (node_at_ext val _ _ _ _ _ _ X B) as B'. rewrite (proj1 B'). cbn [get bind].
  rewrite (norm_loop_abort val HP 0 (get_true gt_fuel) (Some (true :: q)) (get_true_spec val HP 0 1) q (S (length q)) s tm' m' ts); auto.
  intros v [w Ew] X0. injection X0 as X0. subst v. apply (f_equal (@length bool)) in Ew. rewrite app_length in Ew. simpl in Ew. lia.
Qed.
Lemma cond_node_bad m v q l r u pos neg sp sn fp fn : Inv 0%N m -> subtree (m_vt m) q = Some (VNode l r) -> subtree (m_vt m) (u ++ false :: q) = Some (Leaf v) ->
  stands (val := val) m q sp pos fp -> stands (val := val) m q sn neg fn -> 0 < val pos + val neg -> cond_node v pos neg sp sn m = Abort.
Proof.
  intros I Hq HV SP SN G. unfold cond_node. pose proof (val_nonneg HP pos) as Gp. pose proof (val_nonneg HP neg) as Gn. pose proof (val_add HP pos neg) as EA.
  assert (forall z o f, 0 < val z -> stands (val := val) m q o z f -> exists i t, o = Some i /\ node_at m i q t) as S0.
  { intros z o f Ez H. destruct o as [i|]; simpl in H; [destruct H as (_ & t & At & _); eauto|destruct H; lra]. }
  destruct (peq (padd pos neg) pzero) eqn:E0; [apply (peq_zero_true HP) in E0; lra|]. clear E0.
  destruct (peq pos pzero) eqn:E1; [|destruct (peq neg pzero) eqn:E2].
  - apply (peq_zero_true HP) in E1. destruct (S0 neg sn fn) as (s & t & -> & As); [lra|auto|].
    destruct (literal_spec val HP 0 m (- Z.of_N v) (u ++ false :: q) I) as (i & m1 & E & I1 & X1 & L1 & A1 & _); [rewrite lit_var_neg; exact HV|].
    rewrite E. cbn [bind get]. rewrite (conformed_bad m1 q l r u i (TLit (- Z.of_N v)) s t [] [] [pone] I1); auto.
    + rewrite (me_vt _ _ _ X1). exact Hq.
    + eapply node_at_ext; eauto.
  - apply (peq_zero_true HP) in E2. destruct (S0 pos sp fp) as (s & t & -> & As); [lra|auto|].
    destruct (literal_spec val HP 0 m (Z.of_N v) (u ++ false :: q) I) as (i & m1 & E & I1 & X1 & L1 & A1 & _); [rewrite lit_var_pos; exact HV|].
    rewrite E. cbn [bind get]. rewrite (conformed_bad m1 q l r u i (TLit (Z.of_N v)) s t [] [] [pone] I1); auto.
    + rewrite (me_vt _ _ _ X1). exact Hq.
    + eapply node_at_ext; eauto.
  - apply (peq_zero_false HP) in E1, E2. destruct (S0 pos sp fp) as (s & t & -> & As); [lra|auto|]. destruct (S0 neg sn fn) as (s2 & t2 & -> & As2); [lra|auto|].
    destruct (literal_spec val HP 0 m (Z.of_N v) (u ++ false :: q) I) as (i & m1 & E & I1 & X1 & L1 & A1 & _); [rewrite lit_var_pos; exact HV|].
    rewrite E. cbn [bind get].
    destruct (literal_spec val HP 0 m1 (- Z.of_N v) (u ++ false :: q) I1) as (i2 & m2 & E2' & I2 & X2 & L2 & A2 & _); [rewrite lit_var_neg, (me_vt _ _ _ X1); exact HV|].
    rewrite E2'. cbn [bind get]. rewrite (conformed_bad m2 q l r u i (TLit (Z.of_N v)) s t [i2] [s2] _ I2); auto.
    + rewrite (me_vt _ _ _ X2), (me_vt _ _ _ X1). exact Hq.
    + eapply node_at_ext; eauto.
    + eapply node_at_ext; [exact X2|]. eapply node_at_ext; eauto.
Qed.
Lemma cond_node_zero m v pos neg sp sn : val pos = 0 -> val neg = 0 -> cond_node v pos neg sp sn m = Ok (None, pzero, m).
Proof.
  intros A B. unfold cond_node. assert (peq (padd pos neg) pzero = true) as ->; auto. apply (val_eq HP). rewrite (val_add HP), (val_zero HP). lra.
Qed.

(** ** A level *)
Lemma abort_loop {A} (key : A -> N) (step : ncache * zcache * mgr -> A -> res (ncache * zcache * mgr)) (f : N -> mgr -> res (option nat * P * mgr)) m0 ks :
  (forall nc zc m k, step (nc, zc, m) k = match Nlookup (key k) nc with
       | Some _ => Ok (nc, zc, m)
       | None => do (x, m1) <- f (key k) m ;; Ok ((key k, fst x) :: nc, (key k, snd x) :: zc, m1)
       end) ->
  (forall k, In k ks -> f (key k) m0 = Ok (None, pzero, m0) \/ f (key k) m0 = Abort) -> (exists k, In k ks /\ f (key k) m0 = Abort) ->
  foldM step ks ([], [], m0) = Abort.
Proof.
  intros HS HF HA.
  enough (forall l nc zc, (forall k, In k l -> In k ks) -> (forall c, In c (map fst nc) -> f c m0 <> Abort) -> (exists k, In k l /\ f (key k) m0 = Abort) ->
    foldM step l (nc, zc, m0) = Abort) as G.
  { apply (G ks [] []); auto. }
  induction l as [|k l IH]; intros nc zc HI HN (k0 & H0 & E0); [destruct H0|]. cbn [foldM]. rewrite HS. destruct (Nlookup (key k) nc) as [o|] eqn:EL.
  - cbn [bind]. apply IH; auto; [intros; apply HI; right; auto|]. destruct H0 as [->|H0]; eauto. exfalso. apply (HN (key k0)); auto.
    destruct (in_dec N.eq_dec (key k0) (map fst nc)) as [|NI]; auto. apply Nlookup_none in NI. congruence.
  - destruct (HF k (HI k (or_introl eq_refl))) as [E|E]; rewrite E; cbn [bind fst snd]; auto. apply IH; [intros; apply HI; right; auto| |].
    + cbn [map fst]. intros c [<-|H]; [congruence|auto].
    + destruct H0 as [->|H0]; [congruence|eauto].
Qed.
Section Table.
Context (table : list P) (n : nat) (HT : N.of_nat (length table) = (2 ^ N.of_nat n)%N).
Notation tv := (table_value val table).
Notation tsum := (tsum (val := val) table).
Lemma tv_nonneg c : 0 <= tv c.
Proof. unfold table_value. destruct (nth_error table (N.to_nat c)); [apply (val_nonneg HP)|lra]. Qed.
Lemma tsum_nonneg D : forall c, 0 <= tsum D c.
Proof. induction D as [|[j v] D IH]; intros c; simpl; [apply tv_nonneg|]. pose proof (IH (N.setbit c j)). pose proof (IH c). lra. Qed.
Lemma tsum_positive D : forall c i, NoDup (map fst D) -> Forall (fun jv => N.testbit c (fst jv) = false) D -> (forall b, ~ In b (map fst D) -> N.testbit i b = N.testbit c b) ->
  0 < tv i -> 0 < tsum D c.
Proof.
  induction D as [|[j v] D IH]; intros c i ND F H T.
  - simpl. assert (i = c) as <-; auto. apply N.bits_inj. intros b. apply H. intros [].
  - cbn [PgmProofs.tsum]. cbn [map fst] in *. inversion ND as [|? ? NI ND']; subst. inversion F as [|? ? F1 F2]; subst. cbn [fst] in F1.
    pose proof (tsum_nonneg D (N.setbit c j)). pose proof (tsum_nonneg D c). destruct (N.testbit i j) eqn:Ej.
    + assert (0 < tsum D (N.setbit c j)); [|lra]. apply (IH _ i); auto.
      * rewrite Forall_forall in *. intros jv Hjv. rewrite clear_set_neq; auto. intros ->. apply NI, in_map, Hjv.
      * intros b Hb. destruct (N.eq_dec j b) as [<-|NE]; [rewrite N.setbit_eq; auto|]. rewrite clear_set_neq by auto. apply H. intros [X|X]; auto.
    + assert (0 < tsum D c); [|lra]. apply (IH _ i); auto. intros b Hb. destruct (N.eq_dec j b) as [<-|NE]; [congruence|]. apply H. intros [X|X]; auto.
Qed.
Lemma dom_level D (nc : ncache) (zc : zcache) m q (ord : nat -> list N -> list N) k j v : (forall i ks, Permutation (ord i ks) ks) -> caches (val := val) table m q D (ctx n D) nc zc ->
  forall c, ctx n ((j, v) :: D) c <-> exists k0, In k0 (ord k (map fst nc)) /\ c = N.clearbit k0 j.
Proof.
  intros HO C c. split.
  - intros [Hc F]. inversion F as [|? ? F1 F2]; subst. simpl in F1. exists c. split; [|symmetry; apply clearbit_id; auto].
    eapply Permutation_in; [apply Permutation_sym, HO|]. apply (ca_dom _ _ _ _ _ _ _ C). split; auto.
  - intros (k0 & Hk & ->). apply (Permutation_in _ (HO _ _)), (ca_dom _ _ _ _ _ _ _ C) in Hk. destruct Hk as [Hk F].
    split; [apply clearbit_lt; auto|]. constructor.
    + simpl. rewrite testbit_clear, N.eqb_refl. apply andb_false_r.
    + eapply Forall_impl; [|exact F]. intros jv Hjv. simpl in *. rewrite testbit_clear, Hjv. reflexivity.
Qed.
Lemma ctx_set D j v c : (j < N.of_nat n)%N -> ~ In j (map fst D) -> ctx n ((j, v) :: D) c -> ctx n D c /\ ctx n D (N.setbit c j).
Proof.
  intros Hj NI [Hc F]. inversion F as [|? ? F1 F2]; subst. split; [split; auto|]. split; [apply setbit_lt; auto|].
  rewrite Forall_forall in *. intros jv Hjv. rewrite clear_set_neq; auto. intros E. apply NI. rewrite E. apply in_map, Hjv.
Qed.
Lemma level_bad m v j u q l r D nc zc ord k : Inv 0%N m -> subtree (m_vt m) q = Some (VNode l r) -> subtree (m_vt m) (u ++ false :: q) = Some (Leaf v) ->
  (j < n)%nat -> (n <= 31)%nat -> NoDup (N.of_nat j :: map fst D) -> (forall i ks, Permutation (ord i ks) ks) -> caches (val := val) table m q D (ctx n D) nc zc ->
  (exists i, 0 < tv i) -> level_step ord (k, nc, zc, m) (v, j) = Abort.
Proof.
  intros I Hq HV Hj Hn ND HO C (i & Ti). unfold level_step, loc_bit. cbn [fst snd]. rewrite (proj2 (Nat.ltb_lt j 31)) by lia. cbn [bind].
  set (jj := N.of_nat j) in *. pose proof (dom_level D nc zc m q ord k jj v HO C) as DOM.
  inversion ND as [|? ? NI ND']; subst.
  assert (forall c, ctx n ((jj, v) :: D) c -> exists sn neg sp pos, at_ c nc = Ok sn /\ at_ c zc = Ok neg /\ at_ (N.setbit c jj) nc = Ok sp /\ at_ (N.setbit c jj) zc = Ok pos /\
     entry_ok (val := val) table m q D c sn neg /\ entry_ok (val := val) table m q D (N.setbit c jj) sp pos) as GET.
  { intros c CX. destruct (ctx_set D jj v c) as [C1 C2]; auto; [unfold jj; lia|].
    destruct (cache_get _ _ _ _ _ _ _ _ C C1) as (sn & neg & E1 & E2 & EO1). destruct (cache_get _ _ _ _ _ _ _ _ C C2) as (sp & pos & E3 & E4 & EO2).
    exists sn, neg, sp, pos. do 4 (split; [assumption|]). split; assumption. }
  rewrite (abort_loop (fun k0 => N.clearbit k0 jj) (cond_step nc zc v jj)
    (fun c m => do neg <- at_ c zc ;; do pos <- at_ (N.setbit c jj) zc ;; do sn <- at_ c nc ;; do sp <- at_ (N.setbit c jj) nc ;; cond_node v pos neg sp sn m) m); auto.
  - intros nc0 zc0 m0 k0. unfold cond_step. destruct (Nlookup _ nc0); auto.
    destruct (at_ (N.clearbit k0 jj) zc); cbn [bind]; auto. destruct (at_ (N.setbit (N.clearbit k0 jj) jj) zc); cbn [bind]; auto.
    destruct (at_ (N.clearbit k0 jj) nc); cbn [bind]; auto. destruct (at_ (N.setbit (N.clearbit k0 jj) jj) nc); cbn [bind]; auto.
  - intros k0 Hk. assert (ctx n ((jj, v) :: D) (N.clearbit k0 jj)) as CX by (apply DOM; eauto).
    destruct (GET _ CX) as (sn & neg & sp & pos & E1 & E2 & E3 & E4 & [V1 S1] & [V2 S2]). rewrite E2. cbn [bind]. rewrite E4. cbn [bind]. rewrite E1. cbn [bind]. rewrite E3. cbn [bind].
    destruct (Rle_lt_dec (val pos + val neg) 0) as [Z|G].
    + left. pose proof (val_nonneg HP pos). pose proof (val_nonneg HP neg). apply cond_node_zero; lra.
    + right. eapply cond_node_bad; eauto.
  - (* a context that is not zero *)
    set (c := fold_right (fun jv c => N.clearbit c (fst jv)) i ((jj, v) :: D)).
    assert (forall b, N.testbit c b = N.testbit i b && negb (existsb (N.eqb b) (map fst ((jj, v) :: D)))) as TB.
    { intros b. unfold c. clear. induction ((jj, v) :: D) as [|[a w] l IH]; cbn [fold_right map fst existsb]; [rewrite andb_true_r; auto|].
      rewrite testbit_clear, IH. rewrite (N.eqb_sym a b). destruct (N.testbit i b), (N.eqb b a), (existsb (N.eqb b) (map fst l)); reflexivity. }
    assert (forall b, In b (map fst ((jj, v) :: D)) -> N.testbit c b = false) as T1.
    { intros b Hb. rewrite TB. assert (existsb (N.eqb b) (map fst ((jj, v) :: D)) = true) as -> by (apply existsb_exists; exists b; split; auto; apply N.eqb_refl). apply andb_false_r. }
    assert (forall b, ~ In b (map fst ((jj, v) :: D)) -> N.testbit i b = N.testbit c b) as T2.
    { intros b Hb. rewrite TB. destruct (existsb (N.eqb b) (map fst ((jj, v) :: D))) eqn:EE; [|rewrite andb_true_r; auto]. exfalso.
      apply existsb_exists in EE as (b' & Hb' & Eb). apply N.eqb_eq in Eb. subst b'. auto. }
    assert (i < 2 ^ N.of_nat n)%N as Li.
    { destruct (N.lt_ge_cases i (2 ^ N.of_nat n)) as [H|H]; auto. exfalso. unfold table_value in Ti. destruct (nth_error table (N.to_nat i)) eqn:En; [|lra].
      assert (N.to_nat i < length table)%nat by (apply nth_error_Some; congruence). lia. }
    assert (ctx n ((jj, v) :: D) c) as CX.
    { split.
      - apply lt_pow2. intros b Hb. rewrite TB, (proj1 (lt_pow2 _ _) Li b Hb). reflexivity.
      - apply Forall_forall. intros jv Hjv. apply T1, in_map, Hjv. }
    destruct (proj1 (DOM c) CX) as (k0 & Hk & Ek). exists k0. split; auto. rewrite <- Ek.
    destruct (GET _ CX) as (sn & neg & sp & pos & E1 & E2 & E3 & E4 & [V1 S1] & [V2 S2]). rewrite E2. cbn [bind]. rewrite E4. cbn [bind]. rewrite E1. cbn [bind]. rewrite E3. cbn [bind].
    eapply cond_node_bad; eauto. rewrite V1, V2. change (0 < tsum ((jj, v) :: D) c). apply (tsum_positive _ _ i); auto. apply CX.
Qed.
(** everything is zero: the layout does not matter *)
Lemma level_zero m v j q q' D nc zc ord k : Inv 0%N m -> (j < n)%nat -> (n <= 31)%nat -> ~ In (N.of_nat j) (map fst D) -> (forall i ks, Permutation (ord i ks) ks) ->
  caches (val := val) table m q D (ctx n D) nc zc -> (forall i, tv i = 0) ->
  exists nc' zc' m', level_step ord (k, nc, zc, m) (v, j) = Ok (S k, nc', zc', m') /\ Inv 0%N m' /\ mext 0%N m m' /\
    caches (val := val) table m' q' ((N.of_nat j, v) :: D) (ctx n ((N.of_nat j, v) :: D)) nc' zc'.
Proof.
  intros I Hj Hn NI HO C Z. unfold level_step, loc_bit. cbn [fst snd]. rewrite (proj2 (Nat.ltb_lt j 31)) by lia. cbn [bind].
  set (jj := N.of_nat j) in *. pose proof (dom_level D nc zc m q ord k jj v HO C) as DOM.
  assert (forall D c, tsum D c = 0) as Z2.
  { intros D0. induction D0 as [|[a w] D0 IH]; intros c; simpl; auto. rewrite !IH. lra. }
  destruct (cache_loop (val := val) table (fun k0 => N.clearbit k0 jj) (cond_step nc zc v jj)
    (fun c m => do neg <- at_ c zc ;; do pos <- at_ (N.setbit c jj) zc ;; do sn <- at_ c nc ;; do sp <- at_ (N.setbit c jj) nc ;; cond_node v pos neg sp sn m)
    m q' ((jj, v) :: D) (ord k (map fst nc))) as (nc' & zc' & m' & E & I' & X' & C').
  - intros nc0 zc0 m0 k0. unfold cond_step. destruct (Nlookup _ nc0); auto.
    destruct (at_ (N.clearbit k0 jj) zc); cbn [bind]; auto. destruct (at_ (N.setbit (N.clearbit k0 jj) jj) zc); cbn [bind]; auto.
    destruct (at_ (N.clearbit k0 jj) nc); cbn [bind]; auto. destruct (at_ (N.setbit (N.clearbit k0 jj) jj) nc); cbn [bind]; auto.
  - intros k0 m0 Hk X0 I0. assert (ctx n ((jj, v) :: D) (N.clearbit k0 jj)) as CX by (apply DOM; eauto).
    destruct (ctx_set D jj v (N.clearbit k0 jj)) as [C1 C2]; auto; [unfold jj; lia|].
    destruct (cache_get _ _ _ _ _ _ _ _ C C1) as (sn & neg & E1 & E2 & V1 & _). destruct (cache_get _ _ _ _ _ _ _ _ C C2) as (sp & pos & E3 & E4 & V2 & _).
    rewrite E2. cbn [bind]. rewrite E4. cbn [bind]. rewrite E1. cbn [bind]. rewrite E3. cbn [bind]. rewrite cond_node_zero by (rewrite ?V1, ?V2; apply Z2).
    exists None, pzero, m0. split; auto. split; auto. split; [apply mext_refl|]. split; [rewrite Z2; apply (val_zero HP)|]. split; [apply (val_zero HP)|]. intros x. apply Z.
  - exact I.
  - rewrite E. cbn [bind fst snd]. exists nc', zc', m'. split; auto. split; auto. split; auto.
    eapply caches_dom; [|exact C']. intros c. symmetry. apply DOM.
Qed.
Context (scope : list N).
Notation jv := (fun x : path * N => (N.of_nat (idx scope (snd x)), snd x)).
Lemma jv_new (L : list (path * N)) v : In v scope -> Forall (fun x => In (snd x) scope) L -> ~ In v (map snd L) -> ~ In (N.of_nat (idx scope v)) (map fst (map jv L)).
Proof.
  intros Hv F NI X. rewrite map_map in X. apply in_map_iff in X as ([q' v'] & Ev & Hx). cbn [fst snd] in Ev. apply Nat2N.inj in Ev.
  rewrite Forall_forall in F. pose proof (F _ Hx) as G1. apply idx_inj in Ev; auto. cbn [snd] in *. subst v'. apply NI, in_map_iff. exists (q', v). auto.
Qed.
Lemma jv_nodup (L : list (path * N)) : Forall (fun x => In (snd x) scope) L -> NoDup (map snd L) -> NoDup (map fst (map jv L)).
Proof.
  induction L as [|x L IH]; intros F ND; cbn [map fst]; [constructor|]. inversion F as [|? ? F1 F2]; subst. cbn [map] in ND. inversion ND as [|? ? NI ND']; subst.
  constructor; auto. apply (jv_new L (snd x)); auto.
Qed.
Lemma levels_zero ord m L q : (forall i ks, Permutation (ord i ks) ks) -> (n <= 31)%nat -> n = length scope -> Inv 0%N m -> L <> [] ->
  Forall (fun x => subtree (m_vt m) (fst x) = Some (Leaf (snd x))) L ->
  Forall (fun x => In (snd x) scope /\ snd x <> 0%N) L -> NoDup (map snd L) -> (forall i, tv i = 0) ->
  exists k nc zc m', run_levels table ord (map (fun x => (snd x, idx scope (snd x))) (rev L)) m = Ok (k, nc, zc, m') /\ Inv 0%N m' /\ mext 0%N m m' /\
    caches (val := val) table m' q (map jv L) (ctx n (map jv L)) nc zc.
Proof.
  intros HO Hn En I NE. assert (n <= length scope /\ length scope <= n)%nat as [En1 En2] by lia. clear En. revert q. induction L as [|[p v] L IH]; intros q FL F ND Z; [congruence|].
  inversion F as [|? ? [F1 F2] F3]; subst. inversion FL as [|? ? HV FL']; subst. cbn [fst snd] in *. pose proof (idx_lt _ _ F1) as Lt.
  destruct L as [|y L].
  - cbn [rev app map]. unfold run_levels. cbn [snd fst].
    unfold loc_bit. rewrite (proj2 (Nat.ltb_lt (idx scope v) 31)) by lia. cbn [bind].
    destruct (term_loop HP table n HT m v (idx scope v) p I F2 HV) as (nc & zc & m' & E & I' & X' & C); [lia|].
    rewrite E. cbn [bind fst snd foldM]. exists 0%nat, nc, zc, m'. split; auto. split; auto. split; auto.
    destruct C as [C1 C2 C3 C4]. split; auto. intros c o H. destruct (C4 c o H) as (z & Ez & V & S). exists z. split; auto. split; auto.
    destruct o as [i|]; [|exact S]. exfalso. destruct S as [S _]. rewrite V in S. cbn [PgmProofs.tsum] in S. rewrite !Z in S. lra.
  - cbn [map] in ND. inversion ND as [|? ? NI ND']; subst.
    destruct (IH ltac:(discriminate) q FL' F3 ND' Z) as (k & nc & zc & m1 & E & I1 & X1 & C1).
    remember (y :: L) as L0. cbn [rev]. rewrite map_app. cbn [map snd]. rewrite run_levels_snoc.
    2: { intros X. apply map_eq_nil in X. apply (f_equal (@rev _)) in X. rewrite rev_involutive in X. simpl in X. congruence. }
    rewrite E. cbn [bind].
    destruct (level_zero m1 v (idx scope v) q q (map jv L0) nc zc ord k) as (nc' & zc' & m2 & E2 & I2 & X2 & C2); auto; try lia.
    + apply jv_new; auto. eapply Forall_impl; [|exact F3]. intros a [Ha _]; exact Ha. subst L0. exact NI.
    + exists (S k), nc', zc', m2. split; auto. split; auto. split; auto. eapply mext_trans; eauto.
Qed.
Lemma levels_bad ord m L : (forall i ks, Permutation (ord i ks) ks) -> (n <= 31)%nat -> n = length scope -> Inv 0%N m -> bad_leaf (m_vt m) L ->
  Forall (fun x => subtree (m_vt m) (fst x) = Some (Leaf (snd x))) L ->
  Forall (fun x => In (snd x) scope /\ snd x <> 0%N) L -> NoDup (map snd L) -> (exists i, 0 < tv i) ->
  run_levels table ord (map (fun x => (snd x, idx scope (snd x))) (rev L)) m = Abort.
Proof.
  intros HO Hn En I (L1 & x & L2 & q & u & l & r & -> & SP & Ex & Hq) FL F ND T.
  assert (n <= length scope /\ length scope <= n)%nat as [En1 En2] by lia. clear En.
  induction L1 as [|y L1 IH].
  - cbn [app] in *. inversion F as [|? ? [F1 F2] F3]; subst. inversion FL as [|? ? HV FL']; subst. cbn [map] in ND. inversion ND as [|? ? NI ND']; subst.
    destruct (levels_spec HP table n HT scope ord m L2 q) as (k & nc & zc & m1 & E & I1 & X1 & C1); auto; try lia.
    cbn [rev]. rewrite map_app. cbn [map snd]. rewrite run_levels_snoc.
    2: { intros X. apply map_eq_nil in X. apply (f_equal (@rev _)) in X. rewrite rev_involutive in X. simpl in X. subst L2. inversion SP. }
    rewrite E. cbn [bind]. pose proof (idx_lt _ _ F1) as Lt.
    assert (Forall (fun x => In (snd x) scope) L2) as F4 by (eapply Forall_impl; [|exact F3]; intros a [Ha _]; exact Ha).
    eapply level_bad; eauto; try lia.
    + rewrite (me_vt _ _ _ X1). exact Hq.
    + rewrite (me_vt _ _ _ X1), <- Ex. exact HV.
    + constructor; [apply jv_new; auto|apply jv_nodup; auto].
  - cbn [app] in *. inversion F as [|? ? _ F3]; subst. inversion FL as [|? ? _ FL']; subst. cbn [map] in ND. inversion ND as [|? ? _ ND']; subst.
    cbn [rev]. rewrite map_app. cbn [map snd]. rewrite run_levels_snoc.
    2: { intros X. apply map_eq_nil in X. apply (f_equal (@rev _)) in X. rewrite rev_involutive in X. simpl in X. destruct L1; discriminate. }
    rewrite IH; auto.
Qed.
End Table.

(** ** compile_factor *)
(** the end of compile_factor, after the levels *)
Definition finish (st : nat * ncache * zcache * mgr) : res (nat * P * mgr) :=
  let '(_, nc, zc, m2) := st in
  do _ <- assert (Nat.eqb (length nc) 1) ;;
  do r <- at_ 0%N nc ;;
  do z <- at_ 0%N zc ;;
  do i <- get r ;;
  do (j, m3) <- NormalizePsddNode (Some []) i 0 m2 ;;
  Ok (j, z, m3).
Notation pairs scope l := (map (fun x : path * N => (snd x, idx scope (snd x))) l).
Lemma compile_general ord (F : factor P) m ser : SerializeVtree [] (m_vt m) = Ok ser ->
  compile_factor ord F m = (do _ <- assert (Nat.eqb (length (leaf_v_nodes ser (rev (f_scope F)))) (length (f_scope F))) ;;
    do st <- run_levels (f_table F) ord (pairs (rev (f_scope F)) (sort_pos (m_vt m) (leaf_v_nodes ser (rev (f_scope F))))) m ;; finish st).
Proof.
  intros Eser. unfold compile_factor. rewrite Eser. cbn [bind].
  set (L := sort_pos (m_vt m) (leaf_v_nodes ser (rev (f_scope F)))).
  assert (Permutation L (leaf_v_nodes ser (rev (f_scope F)))) as PL by apply sort_pos_perm.
  assert (Forall (fun x : path * N => In (snd x) (rev (f_scope F))) L) as FS.
  { apply Forall_forall. intros [q v] Hx. apply (Permutation_in _ PL), in_leaf_v_nodes in Hx. apply Hx. }
  rewrite (locs_map _ _ FS), combine_map, map_length, <- (Permutation_length PL), rev_length. destruct (assert _); cbn [bind]; auto.
  destruct (pairs (rev (f_scope F)) L) as [|[v j] rest]; cbn [run_levels]; auto. destruct (loc_bit j) as [loc| | |]; cbn [bind]; auto.
  destruct (foldM (term_step (f_table F) v loc) (seq 0 (length (f_table F))) ([], [], m)) as [[c m1]| | |]; cbn [bind]; auto.
Qed.

(** ** Success implies the conditions on scope and table *)
Definition clr (js : list N) (i : N) : N := fold_left N.clearbit js i.
Lemma clr_testbit js : forall i b, N.testbit (clr js i) b = N.testbit i b && negb (existsb (N.eqb b) js).
Proof.
  induction js as [|j js IH]; intros i b; cbn [clr fold_left existsb]; [rewrite andb_true_r; auto|]. fold (clr js (N.clearbit i j)). rewrite IH, testbit_clear, (N.eqb_sym j b).
  destruct (N.testbit i b), (N.eqb b j), (existsb (N.eqb b) js); reflexivity.
Qed.
Lemma set_clear a j : N.testbit a j = true -> N.setbit (N.clearbit a j) j = a.
Proof.
  intros H. apply N.bits_inj. intros k. destruct (N.eq_dec j k) as [<-|NE]; [rewrite N.setbit_eq; auto|]. rewrite N.setbit_neq, N.clearbit_neq; auto.
Qed.
Lemma at_in {V} k (c : list (N * V)) v : at_ k c = Ok v -> In k (map fst c).
Proof. unfold at_. destruct (Nlookup k c) eqn:E; [|discriminate]. intros _. destruct (in_dec N.eq_dec k (map fst c)) as [|NI]; auto. apply Nlookup_none in NI. congruence. Qed.
Lemma lookup_in {V} k (c : list (N * V)) v : Nlookup k c = Some v -> In k (map fst c).
Proof. intros E. apply (at_in k c v). unfold at_. rewrite E. reflexivity. Qed.
Lemma term_keys (table : list P) v loc m nc zc m' : foldM (term_step table v loc) (seq 0 (length table)) ([], [], m) = Ok (nc, zc, m') ->
  (forall k, (k < length table)%nat -> In (N.clearbit (N.of_nat k) loc) (map fst nc)) /\
  (forall c, In c (map fst nc) -> N.testbit c loc = false /\ (N.to_nat c < length table)%nat /\ (N.to_nat (N.setbit c loc) < length table)%nat).
Proof.
  intros H.
  enough (forall l (nc0 : ncache) (zc0 : zcache) m0, foldM (term_step table v loc) l (nc0, zc0, m0) = Ok (nc, zc, m') ->
    (forall c, In c (map fst nc0) -> N.testbit c loc = false /\ (N.to_nat c < length table)%nat /\ (N.to_nat (N.setbit c loc) < length table)%nat) ->
    (forall k, In k l -> In (N.clearbit (N.of_nat k) loc) (map fst nc)) /\ (forall c, In c (map fst nc0) -> In c (map fst nc)) /\
    (forall c, In c (map fst nc) -> N.testbit c loc = false /\ (N.to_nat c < length table)%nat /\ (N.to_nat (N.setbit c loc) < length table)%nat)) as G.
  { destruct (G _ _ _ _ H) as (A & _ & B); [intros c []|]. split; auto. intros k Hk. apply A. apply in_seq. lia. }
  clear H. induction l as [|k l IH]; intros nc0 zc0 m0 H I0.
  - cbn [foldM] in H. injection H as <- <- <-. split; [intros k []|]. auto.
  - cbn [foldM] in H. unfold term_step in H at 1. destruct (Nlookup (N.clearbit (N.of_nat k) loc) nc0) as [o|] eqn:EL.
    + cbn [bind] in H. destruct (IH _ _ _ H I0) as (A & B & C). split; auto. intros k0 [<-|Hk]; auto. apply B. eapply lookup_in; eauto.
    + destruct (nth_error table (N.to_nat (N.clearbit (N.of_nat k) loc))) eqn:E1; cbn [get bind] in H; [|discriminate].
      destruct (nth_error table (N.to_nat (N.setbit (N.clearbit (N.of_nat k) loc) loc))) eqn:E2; cbn [get bind] in H; [|discriminate].
      match type of H with context [term_node ?a ?b ?c ?d] => destruct (term_node a b c d) as [[x m1]| | |] end; cbn [bind] in H; try discriminate.
      destruct (IH _ _ _ H) as (A & B & C).
      { cbn [map fst]. intros cc [<-|Hc]; auto. split; [rewrite testbit_clear, N.eqb_refl; apply andb_false_r|].
        split; apply nth_error_Some; congruence. }
      split; [|split; auto].
      * intros k0 [<-|Hk]; auto. apply B. left. reflexivity.
      * intros cc Hc. apply B. right. exact Hc.
Qed.
Lemma cond_keys (nc : ncache) (zc : @zcache P) v loc ks m nc' zc' m' : foldM (cond_step nc zc v loc) ks ([], [], m) = Ok (nc', zc', m') ->
  (forall k, In k ks -> In (N.clearbit k loc) (map fst nc')) /\
  (forall c, In c (map fst nc') -> In c (map fst nc) /\ In (N.setbit c loc) (map fst nc) /\ exists k, In k ks /\ c = N.clearbit k loc).
Proof.
  intros H.
  enough (forall l (nc0 : ncache) (zc0 : zcache) m0, (forall k, In k l -> In k ks) -> foldM (cond_step nc zc v loc) l (nc0, zc0, m0) = Ok (nc', zc', m') ->
    (forall c, In c (map fst nc0) -> In c (map fst nc) /\ In (N.setbit c loc) (map fst nc) /\ exists k, In k ks /\ c = N.clearbit k loc) ->
    (forall k, In k l -> In (N.clearbit k loc) (map fst nc')) /\ (forall c, In c (map fst nc0) -> In c (map fst nc')) /\
    (forall c, In c (map fst nc') -> In c (map fst nc) /\ In (N.setbit c loc) (map fst nc) /\ exists k, In k ks /\ c = N.clearbit k loc)) as G.
  { destruct (G ks [] [] m (fun k h => h) H) as (A & _ & B); [intros c []|]. split; auto. }
  clear H. induction l as [|k l IH]; intros nc0 zc0 m0 HI H I0.
  - cbn [foldM] in H. injection H as <- <- <-. split; [intros k []|]. auto.
  - cbn [foldM] in H. unfold cond_step in H at 1. destruct (Nlookup (N.clearbit k loc) nc0) as [o|] eqn:EL.
    + cbn [bind] in H. destruct (IH _ _ _ (fun k h => HI k (or_intror h)) H I0) as (A & B & C). split; auto. intros k0 [<-|Hk]; auto. apply B. eapply lookup_in; eauto.
    + destruct (at_ (N.clearbit k loc) zc) eqn:E1; cbn [bind] in H; try discriminate.
      destruct (at_ (N.setbit (N.clearbit k loc) loc) zc) eqn:E2; cbn [bind] in H; try discriminate.
      destruct (at_ (N.clearbit k loc) nc) eqn:E3; cbn [bind] in H; try discriminate.
      destruct (at_ (N.setbit (N.clearbit k loc) loc) nc) eqn:E4; cbn [bind] in H; try discriminate.
      match type of H with context [cond_node ?a ?b ?c ?d ?e ?f] => destruct (cond_node a b c d e f) as [[x m1]| | |] end; cbn [bind] in H; try discriminate.
      destruct (IH _ _ _ (fun k h => HI k (or_intror h)) H) as (A & B & C).
      { cbn [map fst]. intros cc [<-|Hc]; auto. split; [eapply at_in; eauto|]. split; [eapply at_in; eauto|]. exists k. split; auto. apply HI. left. reflexivity. }
      split; [|split; auto].
      * intros k0 [<-|Hk]; auto. apply B. left. reflexivity.
      * intros cc Hc. apply B. right. exact Hc.
Qed.
Lemma loc_bit_ok j loc : loc_bit j = Ok loc -> loc = N.of_nat j /\ (j < 31)%nat.
Proof. unfold loc_bit. destruct (Nat.ltb_spec j 31); [|discriminate]. intros E. injection E as <-. auto. Qed.
Lemma run_keys (table : list P) (ord : nat -> list N -> list N) (HO : forall i ks, Permutation (ord i ks) ks) l m : forall k nc zc m', run_levels table ord l m = Ok (k, nc, zc, m') -> nc <> [] ->
  let js := map (fun x => N.of_nat (snd x)) l in
  NoDup js /\ Forall (fun x => (snd x < 31)%nat) l /\ (forall c j, In c (map fst nc) -> In j js -> N.testbit c j = false) /\
  (forall i, (i < N.of_nat (length table))%N <-> In (clr js i) (map fst nc)).
Proof.
  induction l as [|[v j] l IH] using rev_ind; intros k nc zc m' H NE js; [discriminate|].
  destruct l as [|y l'].
  - clear IH. cbn [app] in *. cbn [run_levels] in H. destruct (loc_bit j) as [loc| | |] eqn:EJ; cbn [bind] in H; try discriminate.
    apply loc_bit_ok in EJ as [-> EJ].
    destruct (foldM (term_step table v (N.of_nat j)) (seq 0 (length table)) ([], [], m)) as [[[nc0 zc0] m0]| | |] eqn:EF; cbn [bind foldM fst snd] in H; try discriminate.
    injection H as <- <- <- <-. apply term_keys in EF as [A B]. unfold js. cbn [map snd]. split; [repeat constructor; auto|]. split; [constructor; [exact EJ|constructor]|]. split.
    + intros c j0 Hc [<-|[]]. apply B, Hc.
    + intros i. cbn [clr fold_left]. split.
      * intros Hi. specialize (A (N.to_nat i)). rewrite N2Nat.id in A. apply A. lia.
      * intros Hi. destruct (B _ Hi) as (B1 & B2 & B3). destruct (N.testbit i (N.of_nat j)) eqn:E.
        -- rewrite set_clear in B3 by auto. lia.
        -- rewrite clearbit_id in B2 by auto. lia.
  - remember (y :: l') as l. rewrite run_levels_snoc in H by (subst l; discriminate).
    destruct (run_levels table ord l m) as [[[[k0 nc0] zc0] m0]| | |] eqn:E0; cbn [bind] in H; try discriminate.
    unfold level_step in H. cbn [fst snd] in H. destruct (loc_bit j) as [loc| | |] eqn:EJ; cbn [bind] in H; try discriminate.
    apply loc_bit_ok in EJ as [-> EJ].
    destruct (foldM (cond_step nc0 zc0 v (N.of_nat j)) (ord k0 (map fst nc0)) ([], [], m0)) as [[[nc1 zc1] m1]| | |] eqn:EF; cbn [bind fst snd] in H; try discriminate.
    injection H as <- <- <- <-. apply cond_keys in EF as [A B].
    assert (exists c, In c (map fst nc1)) as [c0 Hc0] by (destruct nc1 as [|[c o] r]; [congruence|]; exists c; left; reflexivity).
    destruct (B _ Hc0) as (B1 & B2 & _).
    destruct (IH _ _ _ _ eq_refl) as (I1 & I2 & I3 & I4); [intros ->; destruct B1|].
    assert (js = map (fun x => N.of_nat (snd x)) l ++ [N.of_nat j]) as EJS by (unfold js; rewrite map_app; reflexivity). rewrite EJS. clear js EJS.
    set (js := map (fun x : N * nat => N.of_nat (snd x)) l) in *.
    split; [|split; [|split]].
    + apply NoDup_app_intro; auto; [repeat constructor; auto|]. intros x Hx [<-|[]]. pose proof (I3 _ _ B2 Hx) as T. rewrite N.setbit_eq in T. discriminate.
    + apply Forall_app. split; auto.
    + intros c j0 Hc Hj. destruct (B c Hc) as (B3 & _ & kk & _ & Ek). apply in_app_or in Hj as [Hj|[<-|[]]]; auto. rewrite Ek, testbit_clear, N.eqb_refl. apply andb_false_r.
    + intros i. rewrite I4. unfold clr. rewrite fold_left_app. cbn [fold_left]. fold (clr js i). split.
      * intros Hi. apply A. eapply Permutation_in; [apply Permutation_sym, HO|exact Hi].
      * intros Hi. destruct (B _ Hi) as (B3 & B4 & _). destruct (N.testbit (clr js i) (N.of_nat j)) eqn:E.
        -- rewrite set_clear in B4 by auto. exact B4.
        -- rewrite clearbit_id in B3 by auto. exact B3.
Qed.
Theorem factor_ok_conditions ord (F : factor P) m r : (forall i ks, Permutation (ord i ks) ks) -> compile_factor ord F m = Ok r ->
  NoDup (f_scope F) /\ f_scope F <> [] /\ incl (f_scope F) (leaves (m_vt m)) /\ (length (f_scope F) <= 31)%nat /\
  N.of_nat (length (f_table F)) = (2 ^ N.of_nat (length (f_scope F)))%N.
Proof.
  intros HO H. destruct (serialize_vtree_spec [] (m_vt m)) as (ser & Eser & PS & _). rewrite (compile_general ord F m ser Eser) in H.
  set (scope := rev (f_scope F)) in *. set (L := sort_pos (m_vt m) (leaf_v_nodes ser scope)) in *.
  assert (Permutation L (leaf_v_nodes ser scope)) as PL by apply sort_pos_perm.
  assert (length scope = length (f_scope F)) as EN by apply rev_length.
  destruct (Nat.eqb (length (leaf_v_nodes ser scope)) (length (f_scope F))) eqn:EA; cbn [assert bind] in H; [|discriminate]. apply Nat.eqb_eq in EA.
  rewrite <- (Permutation_length PL) in EA.
  destruct (run_levels (f_table F) ord (pairs scope L) m) as [[[[k nc] zc] m1]| | |] eqn:ER; cbn [bind finish] in H; try discriminate.
  assert (L <> []) as NL by (intros E; rewrite E in ER; discriminate).
  destruct (Nat.eqb (length nc) 1) eqn:E1; cbn [assert bind] in H; [|discriminate]. apply Nat.eqb_eq in E1.
  destruct nc as [|[c0 o] [|]]; try discriminate. destruct (at_ 0%N [(c0, o)]) as [r0| | |] eqn:E2; cbn [bind] in H; try discriminate. clear H.
  apply at_in in E2 as [E2|[]]. cbn [fst] in E2. subst c0.
  destruct (run_keys _ _ HO _ _ _ _ _ _ ER) as (J1 & J2 & J3 & J4); [discriminate|]. cbn [map fst] in J4. clear ER J3.
  assert (forall x, In x L -> In (snd x) scope /\ In (snd x) (leaves (m_vt m))) as HL.
  { intros [q v] Hx. apply (Permutation_in _ PL), in_leaf_v_nodes in Hx as [H1 H2]. split; auto. apply (Permutation_in _ PS) in H1.
    rewrite <- (lpaths_leaves (m_vt m) []). apply in_map_iff. exists (q, v). split; auto. apply lpaths_nodes, H1. }
  rewrite map_map in J1, J4. cbn [snd] in J1, J4.
  assert (NoDup (map (fun x => idx scope (snd x)) L)) as JN.
  { rewrite <- (map_map (fun x => idx scope (snd x)) N.of_nat) in J1. apply NoDup_map_inv in J1. exact J1. }
  assert (forall b, (b < length scope)%nat -> exists x, In x L /\ idx scope (snd x) = b) as JB.
  { intros b Hb. assert (In b (map (fun x => idx scope (snd x)) L)) as HB.
    { apply (NoDup_length_incl (l' := seq 0 (length scope)) JN); [rewrite map_length, seq_length; lia| |apply in_seq; lia].
      intros a Ha. apply in_map_iff in Ha as (x & <- & Hx). apply in_seq. pose proof (idx_lt _ _ (proj1 (HL x Hx))). lia. }
    apply in_map_iff in HB as (x & Ex & Hx). eauto. }
  assert (NoDup scope) as NS.
  { apply NoDup_nth_error. intros i j Hi E. destruct (JB i Hi) as (x & Hx & <-). pose proof (idx_nth _ _ (proj1 (HL x Hx))) as Ei. rewrite Ei in E.
    assert (j < length scope)%nat as Hj by (apply nth_error_Some; congruence). destruct (JB j Hj) as (y & Hy & <-). rewrite (idx_nth _ _ (proj1 (HL y Hy))) in E. congruence. }
  split; [apply NoDup_rev in NS; unfold scope in NS; rewrite rev_involutive in NS; exact NS|].
  split; [intros E; apply NL; assert (length L = 0)%nat as E0 by (rewrite EA, E; reflexivity); destruct L; [auto|discriminate]|].
  split; [|split].
  - intros v Hv. assert (In v scope) as Hv' by (unfold scope; rewrite <- in_rev; exact Hv). destruct (JB _ (idx_lt _ _ Hv')) as (x & Hx & Ex).
    apply idx_inj in Ex; auto; [|apply HL; auto]. rewrite <- Ex. apply HL, Hx.
  - destruct (le_lt_dec (length (f_scope F)) 31) as [|G]; auto. exfalso. destruct (JB 31%nat) as (x & Hx & Ex); [lia|].
    rewrite Forall_forall in J2. specialize (J2 (snd x, idx scope (snd x))). cbn [snd] in J2. rewrite Ex in J2. assert (31 < 31)%nat; [|lia]. apply J2.
    apply in_map_iff. exists x. rewrite Ex. auto.
  - set (n := length (f_scope F)) in *. assert (forall i, (i < N.of_nat (length (f_table F)))%N <-> (i < 2 ^ N.of_nat n)%N) as EQ.
    { intros i. rewrite J4, lt_pow2. split.
      - intros [E|[]] b Hb. assert (N.testbit (clr (map (fun x : path * N => N.of_nat (idx scope (snd x))) L) i) b = false) as T by (rewrite <- E; apply N.bits_0).
        rewrite clr_testbit in T. destruct (existsb _ _) eqn:EB; [|rewrite andb_true_r in T; exact T]. exfalso.
        apply existsb_exists in EB as (b' & Hb' & Eb). apply N.eqb_eq in Eb. subst b'. apply in_map_iff in Hb' as (x & <- & Hx).
        pose proof (idx_lt _ _ (proj1 (HL x Hx))). lia.
      - intros HB. left. symmetry. apply N.bits_inj. intros b. rewrite clr_testbit, N.bits_0. destruct (N.lt_ge_cases b (N.of_nat n)) as [Hb|Hb]; [|rewrite HB; auto].
        destruct (JB (N.to_nat b)) as (x & Hx & Ex); [lia|]. assert (existsb (N.eqb b) (map (fun x : path * N => N.of_nat (idx scope (snd x))) L) = true) as ->; [|apply andb_false_r].
        apply existsb_exists. exists b. split; [|apply N.eqb_refl]. apply in_map_iff. exists x. rewrite Ex, N2Nat.id. auto. }
    destruct (N.lt_trichotomy (N.of_nat (length (f_table F))) (2 ^ N.of_nat n)) as [X|[X|X]]; auto; exfalso; apply EQ in X; lia.
Qed.

(** ** The failures *)
Lemma index_onto scope i : NoDup scope -> (i < 2 ^ N.of_nat (length scope))%N -> exists x, table_index scope x = i.
Proof.
  intros ND Hi. exists (fun v => N.testbit i (N.of_nat (idx (rev scope) v))). apply N.bits_inj. intros b. rewrite <- (N2Nat.id b), table_index_testbit.
  destruct (nth_error (rev scope) (N.to_nat b)) as [v|] eqn:E.
  - assert (In v (rev scope)) as Hv by (eapply nth_error_In; eauto). f_equal. f_equal.
    apply (proj1 (NoDup_nth_error (rev scope)) (NoDup_rev ND)); [apply idx_lt; auto|]. rewrite idx_nth; auto.
  - apply nth_error_None in E. rewrite rev_length in E. symmetry. apply (proj1 (lt_pow2 _ _) Hi). lia.
Qed.
Lemma table_zero (F : factor P) : NoDup (f_scope F) -> N.of_nat (length (f_table F)) = (2 ^ N.of_nat (length (f_scope F)))%N ->
  (forall x, factor_value val F x = 0) -> forall i, table_value val (f_table F) i = 0.
Proof.
  intros ND ET Z i. destruct (N.lt_ge_cases i (N.of_nat (length (f_table F)))) as [Hi|Hi].
  - rewrite ET in Hi. destruct (index_onto _ _ ND Hi) as [x <-]. apply Z.
  - unfold table_value. rewrite (proj2 (nth_error_None _ _)); auto. lia.
Qed.
Lemma scope_setup (F : factor P) (m : mgr) ser : SerializeVtree [] (m_vt m) = Ok ser -> NoDup (leaves (m_vt m)) -> NoDup (f_scope F) ->
  let L := filter (in_scope (f_scope F)) (lpaths [] (m_vt m)) in
  sort_pos (m_vt m) (leaf_v_nodes ser (rev (f_scope F))) = rev L /\ NoDup (map snd L) /\
  (forall v, In v (map snd L) <-> In v (f_scope F) /\ In v (leaves (m_vt m))) /\
  StronglySorted (pos_lt (m_vt m)) L /\ Forall (fun x => subtree (m_vt m) (fst x) = Some (Leaf (snd x))) L.
Proof.
  intros Eser NDv ND L. split; [|split; [|split; [|split]]].
  - rewrite (scope_order (m_vt m) (rev (f_scope F)) (NoDup_rev ND) ser Eser). f_equal. apply filter_ext. intros [q v]. unfold in_scope. simpl.
    destruct (NmemB v (f_scope F)) eqn:E.
    + apply NmemB_In. rewrite <- in_rev. apply NmemB_In, E.
    + apply NmemB_false. rewrite <- in_rev. apply NmemB_false, E.
  - unfold L. rewrite <- (lpaths_leaves (m_vt m) []) in NDv. clear - NDv.
    induction (lpaths [] (m_vt m)) as [|a l IH]; simpl in *; [constructor|]. inversion NDv as [|? ? NI ND']; subst.
    destruct (in_scope (f_scope F) a); simpl; auto. constructor; auto. intros H. apply NI. apply in_map_iff in H as (b & E & Hb).
    apply filter_In in Hb as [Hb _]. rewrite <- E. apply in_map, Hb.
  - intros v. unfold L. rewrite in_map_iff. split.
    + intros ([q v'] & <- & H). apply filter_In in H as [H1 H]. split; [apply NmemB_In, H|]. rewrite <- (lpaths_leaves (m_vt m) []). apply in_map, H1.
    + intros [H Hv]. rewrite <- (lpaths_leaves (m_vt m) []) in Hv. apply in_map_iff in Hv as ([q v'] & <- & Hq).
      exists (q, v'). split; auto. apply filter_In. split; auto. apply NmemB_In, H.
  - unfold L. pose proof (lpaths_sorted (m_vt m) (m_vt m) [] eq_refl) as S. clear - S. induction S as [|a l S IH F0]; simpl; [constructor|].
    destruct (in_scope (f_scope F) a); auto. constructor; auto. rewrite Forall_forall in *. intros y Hy. apply filter_In in Hy as [Hy _]. auto.
  - apply Forall_forall. intros [q v] H. apply filter_In in H as [H _]. apply lpaths_subtree, H.
Qed.
Theorem factor_empty ord (F : factor P) m : f_scope F = [] -> compile_factor ord F m = UB.
Proof.
  intros E. destruct (serialize_vtree_spec [] (m_vt m)) as (ser & Eser & _). rewrite (compile_general ord F m ser Eser), E. reflexivity.
Qed.
Theorem factor_foreign ord (F : factor P) m : Inv 0%N m -> NoDup (f_scope F) -> ~ incl (f_scope F) (leaves (m_vt m)) -> compile_factor ord F m = Abort.
Proof.
  intros I ND NI. destruct (serialize_vtree_spec [] (m_vt m)) as (ser & Eser & _). rewrite (compile_general ord F m ser Eser).
  destruct (scope_setup F m ser Eser (wf_leaves _ (proj1 I)) ND) as (EL & NDL & HI & _).
  rewrite <- (Permutation_length (sort_pos_perm (m_vt m) (leaf_v_nodes ser (rev (f_scope F))))), EL, rev_length. set (L := filter (in_scope (f_scope F)) (lpaths [] (m_vt m))) in *.
  destruct (Nat.eqb_spec (length L) (length (f_scope F))) as [E|E]; auto. exfalso. apply NI. intros v Hv.
  apply HI. apply (NoDup_length_incl (l' := f_scope F) NDL); auto; [rewrite map_length; lia|]. intros w Hw. apply HI, Hw.
Qed.
(** What is common to the two failures of a factor whose scope and table are as they should be *)
Lemma compile_known ord (F : factor P) m : Inv 0%N m -> NoDup (f_scope F) -> incl (f_scope F) (leaves (m_vt m)) ->
  let L := filter (in_scope (f_scope F)) (lpaths [] (m_vt m)) in
  compile_factor ord F m = do st <- run_levels (f_table F) ord (pairs (rev (f_scope F)) (rev L)) m ;; finish st.
Proof.
  intros I ND HI. destruct (serialize_vtree_spec [] (m_vt m)) as (ser & Eser & _). rewrite (compile_general ord F m ser Eser).
  destruct (scope_setup F m ser Eser (wf_leaves _ (proj1 I)) ND) as (EL & NDL & HV & _).
  rewrite <- (Permutation_length (sort_pos_perm (m_vt m) (leaf_v_nodes ser (rev (f_scope F))))), EL, rev_length. set (L := filter (in_scope (f_scope F)) (lpaths [] (m_vt m))) in *.
  assert (Permutation (map snd L) (f_scope F)) as PM. { apply NoDup_Permutation; auto. intros v. rewrite HV. split; [tauto|auto]. }
  rewrite <- (map_length snd L), (Permutation_length PM), Nat.eqb_refl. reflexivity.
Qed.
Theorem factor_null ord (F : factor P) m : (forall i ks, Permutation (ord i ks) ks) -> Inv 0%N m -> (forall v, In v (leaves (m_vt m)) -> v <> 0%N) ->
  NoDup (f_scope F) -> incl (f_scope F) (leaves (m_vt m)) -> (length (f_scope F) <= 31)%nat ->
  N.of_nat (length (f_table F)) = (2 ^ N.of_nat (length (f_scope F)))%N -> (forall x, factor_value val F x = 0) -> compile_factor ord F m = UB.
Proof.
  intros HO I NZ ND HI HN HT Z. destruct (f_scope F) as [|v0 vs0] eqn:EF; [apply factor_empty; auto|]. rewrite <- EF in *.
  rewrite (compile_known ord F m I ND HI). cbv zeta. destruct (serialize_vtree_spec [] (m_vt m)) as (ser & Eser & _).
  destruct (scope_setup F m ser Eser (wf_leaves _ (proj1 I)) ND) as (_ & NDL & HV & _ & FL). set (L := filter (in_scope (f_scope F)) (lpaths [] (m_vt m))) in *.
  assert (L <> []) as NE. { intros E. assert (In v0 (map snd L)) as X; [|rewrite E in X; destruct X]. apply HV. assert (In v0 (f_scope F)) by (rewrite EF; left; auto). auto. }
  destruct (levels_zero (f_table F) (length (f_scope F)) HT (rev (f_scope F)) ord m L []) as (k & nc & zc & m1 & E1 & I1 & X1 & C1); auto.
  { rewrite rev_length. reflexivity. }
  { apply Forall_forall. intros x Hx. assert (In (snd x) (map snd L)) as Hs by (apply in_map, Hx). apply HV in Hs as [H1 H2]. rewrite <- in_rev. auto. }
  { apply table_zero; auto. }
  rewrite E1. cbn [bind finish]. set (D := map (fun x : path * N => (N.of_nat (idx (rev (f_scope F)) (snd x)), snd x)) L) in *.
  assert (ctx (length (f_scope F)) D 0%N) as D0.
  { split; [apply N.neq_0_lt_0, N.pow_nonzero; discriminate|]. apply Forall_forall. intros; apply N.bits_0. }
  assert (forall c, ctx (length (f_scope F)) D c -> c = 0%N) as DOM.
  { intros c [H1 H2]. apply N.bits_inj. intros b. rewrite N.bits_0. destruct (N.lt_ge_cases b (N.of_nat (length (f_scope F)))) as [Hb|Hb]; [|apply (proj1 (lt_pow2 _ _) H1); exact Hb].
    rewrite Forall_forall in H2. destruct (nth_error (rev (f_scope F)) (N.to_nat b)) as [w|] eqn:Ew; [|apply nth_error_None in Ew; rewrite rev_length in Ew; lia].
    assert (In w (rev (f_scope F))) as Hw by (eapply nth_error_In; eauto).
    assert (idx (rev (f_scope F)) w = N.to_nat b) as Ei.
    { apply (proj1 (NoDup_nth_error (rev (f_scope F))) (NoDup_rev ND)); [apply idx_lt; auto|]. rewrite idx_nth by auto. auto. }
    assert (In w (map snd L)) as Hw' by (apply HV; apply in_rev in Hw; auto). apply in_map_iff in Hw' as ([qw w'] & Ew' & Hw'). simpl in Ew'. subst w'.
    assert (In (b, w) D) as HD by (apply in_map_iff; exists (qw, w); simpl; rewrite Ei, N2Nat.id; auto). apply (H2 _ HD). }
  assert (length nc = 1)%nat as EN.
  { rewrite <- (map_length fst). rewrite (Permutation_length (l' := [0%N])); auto. apply NoDup_Permutation.
    - apply C1.
    - repeat constructor. auto.
    - intros c0. rewrite (ca_dom _ _ _ _ _ _ _ C1). simpl. split; [intros H; left; symmetry; auto|]. intros [<-|[]]; auto. }
  rewrite EN. cbn [Nat.eqb assert bind].
  destruct (cache_get _ _ _ _ _ _ _ _ C1 D0) as (o & z & Eo & Ez & Vz & ST). rewrite Eo. cbn [bind]. rewrite Ez. cbn [bind].
  destruct o as [i|]; [|reflexivity]. exfalso. destruct ST as [G _]. rewrite Vz in G.
  assert (forall D c, PgmProofs.tsum (val := val) (f_table F) D c = 0) as Z2.
  { intros D1. induction D1 as [|[a w] D1 IH]; intros c; simpl; [apply table_zero; auto|]. rewrite !IH. lra. }
  rewrite Z2 in G. lra.
Qed.
Theorem factor_abort ord (F : factor P) m : (forall i ks, Permutation (ord i ks) ks) -> Inv 0%N m -> (forall v, In v (leaves (m_vt m)) -> v <> 0%N) ->
  NoDup (f_scope F) -> incl (f_scope F) (leaves (m_vt m)) -> (length (f_scope F) <= 31)%nat ->
  N.of_nat (length (f_table F)) = (2 ^ N.of_nat (length (f_scope F)))%N -> (exists x, factor_value val F x <> 0) -> ~ right_linear (f_scope F) (m_vt m) ->
  compile_factor ord F m = Abort.
Proof.
  intros HO I NZ ND HI HN HT [x0 Hx0] NR. rewrite (compile_known ord F m I ND HI). cbv zeta. destruct (serialize_vtree_spec [] (m_vt m)) as (ser & Eser & _).
  destruct (scope_setup F m ser Eser (wf_leaves _ (proj1 I)) ND) as (_ & NDL & HV & SL & FL). set (L := filter (in_scope (f_scope F)) (lpaths [] (m_vt m))) in *.
  assert (L <> []) as NE.
  { intros E. apply NR, right_linear_none. intros v Hv Hs. assert (In v (map snd L)) as X by (apply HV; auto). rewrite E in X. destruct X. }
  destruct (spine_or_bad (m_vt m) L NE SL FL) as [[q SP]|B].
  - exfalso. apply NR. eapply (spine_right_linear (m_vt m) (f_scope F) (m_vt m) []); eauto.
  - rewrite (levels_bad (f_table F) (length (f_scope F)) HT (rev (f_scope F)) ord m L); auto.
    + rewrite rev_length. reflexivity.
    + apply Forall_forall. intros x Hx. assert (In (snd x) (map snd L)) as Hs by (apply in_map, Hx). apply HV in Hs as [H1 H2]. rewrite <- in_rev. auto.
    + exists (table_index (f_scope F) x0). pose proof (tv_nonneg (f_table F) (table_index (f_scope F) x0)) as G. unfold factor_value in Hx0. lra.
Qed.
Theorem factor_exactly ord (F : factor P) m : (forall i ks, Permutation (ord i ks) ks) -> Inv 0%N m -> (forall v, In v (leaves (m_vt m)) -> v <> 0%N) ->
  ((exists r, compile_factor ord F m = Ok r) <-> good_factor (m_vt m) F /\ exists x, factor_value val F x <> 0).
Proof.
  intros HO I NZ. split.
  - intros [r H]. destruct (factor_ok_conditions ord F m r HO H) as (G1 & G2 & G3 & G4 & G5).
    assert (exists x, factor_value val F x <> 0) as NZF.
    { apply NNPP. intros N0. rewrite factor_null in H; auto; [discriminate|]. intros x. apply NNPP. intros X. apply N0. eauto. }
    split; auto. split; auto. apply NNPP. intros NR. rewrite factor_abort in H; auto. discriminate.
  - intros [G [x Hx]]. destruct (compile_factor_cases HP ord F m HO I NZ G) as [[_ Z]|(i & z & m' & E & _)]; [rewrite Z in Hx; lra|eauto].
Qed.
End Fail.
