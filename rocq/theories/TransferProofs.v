(** Two kinds of parameters with the same arithmetic and different comparisons: an operation that succeeds with the first kind does
    the same with the second, provided that the comparisons agree on the parameters stored in the resulting manager (C66). *)
From Verif Require Import Base Param Vtree VtreeProofs Heap Manager HeapProofs SerProofs OrderProofs ReplayProofs.

(** [f] translates the first kind, whose comparison is exact, into the second. *)
Record phom (P P' : pops) (f : P -> P') : Prop := {
  h_zero : f pzero = pzero;
  h_one : f pone = pone;
  h_nat : forall n, f (pnat n) = pnat n;
  h_add : forall a b, f (padd a b) = padd (f a) (f b);
  h_mul : forall a b, f (pmul a b) = pmul (f a) (f b);
  h_div : forall a b, peq b pzero = false -> f (pdiv a b) = pdiv (f a) (f b);
  h_div0 : forall a b : P, peq b pzero = true -> pdiv a b = pzero;
  h_eq : forall a b : P, peq a b = true <-> a = b;
  h_tri : forall a b : P, plt a b = false -> plt b a = false -> a = b;
}.
Arguments h_zero {P P' f}. Arguments h_one {P P' f}. Arguments h_nat {P P' f}. Arguments h_add {P P' f}. Arguments h_mul {P P' f}.
Arguments h_div {P P' f}. Arguments h_div0 {P P' f}. Arguments h_eq {P P' f}. Arguments h_tri {P P' f}.

(** The parameters of a node that the unique table compares, and all of them *)
Definition cparams {P : pops} (nd : node P) : list P :=
  match n_body nd with BLit _ => [] | BTop _ pt _ => [pt] | BDec es => map e_param es end.
Definition nparams {P : pops} (nd : node P) : list P :=
  match n_body nd with BLit _ => [] | BTop _ pt pf => [pt; pf] | BDec es => map e_param es end.

Section Maps.
Context {P P' : pops} (f : P -> P').
Definition mape (e : elem P) : elem P' := MkE (e_prime e) (e_sub e) (f (e_param e)).
Definition mapb (b : body P) : body P' :=
  match b with BLit l => BLit l | BTop v pt pf => BTop v (f pt) (f pf) | BDec es => BDec (map mape es) end.
Definition mapn (nd : node P) : node P' := MkN (n_vt nd) (n_flag nd) (mapb (n_body nd)).
Definition maph (h : heap P) : heap P' := map mapn h.
Definition mapm (m : mgr P) : mgr P' := MkM (m_vt m) (maph (m_heap m)) (m_live m).
(** The comparisons agree on the parameters of the heap. *)
Definition sep (h : heap P) : Prop :=
  (forall a b, In a (flat_map cparams h) -> In b (flat_map cparams h) -> peq (f a) (f b) = peq a b /\ plt (f a) (f b) = plt a b) /\
  (forall a, In a (flat_map nparams h) -> peq (f a) pzero = peq a pzero).
Definition mapo (o : @op P) : @op P' :=
  match o with
  | OTop v fl pt pf => OTop v fl (f pt) (f pf)
  | OLit l fl => OLit l fl
  | ODec ps ss ws fl => ODec ps ss (map f ws) fl
  | OTrue p fl => OTrue p fl
  | ONorm target i fl => ONorm target i fl
  | OLoad hs ud target root fl => OLoad (maph hs) ud target root fl
  | OMul a b fl => OMul a b fl
  | OGc used => OGc used
  | OGcFlags flags => OGcFlags flags
  end.
End Maps.

Section Transfer.
Context {P P' : pops} (f : P -> P') (H : phom P P' f).
Notation mapm := (mapm f). Notation maph := (maph f). Notation mapn := (mapn f). Notation mape := (mape f). Notation sep := (sep f).

Lemma flat_sub {A B} (g : A -> list B) (l l' : list A) x : incl l l' -> In x (flat_map g l) -> In x (flat_map g l').
Proof. intros I. rewrite !in_flat_map. intros (y & Y & G). eauto. Qed.
Lemma sep_sub h h' : incl h h' -> sep h' -> sep h.
Proof.
  intros I [A B]. split.
  - intros a b Ha Hb. apply A; eapply flat_sub; eauto.
  - intros a Ha. apply B. eapply flat_sub; eauto.
Qed.
Lemma grow_incl (m m' : mgr P) : grow m m' -> incl (m_heap m) (m_heap m').
Proof. intros (_ & (l & ->) & _). apply incl_appl, incl_refl. Qed.
Lemma sep_grow (m m' : mgr P) : grow m m' -> sep (m_heap m') -> sep (m_heap m).
Proof. intros G. apply sep_sub, grow_incl. auto. Qed.

Lemma maph_nth h i : nth_error (maph h) i = option_map mapn (nth_error h i).
Proof. apply nth_error_map. Qed.
Lemma maph_vt h i : vt_of (maph h) i = vt_of h i.
Proof. unfold vt_of. rewrite maph_nth. destruct (nth_error h i); reflexivity. Qed.
Lemma map_slot t a b : same_slot t (mapn a) (mapn b) = same_slot t a b.
Proof. unfold same_slot, mapn. simpl. destruct (n_body a), (n_body b); reflexivity. Qed.

(** ** The comparator *)
Definition agree (la lb : list P) : Prop := forall a b, In a la -> In b lb ->
  peq (f a) (f b) = peq a b /\ plt (f a) (f b) = plt a b.
Lemma elems_less_map : forall a b, agree (map e_param a) (map e_param b) -> elems_less (map mape a) (map mape b) = elems_less a b.
Proof.
  induction a as [|x a IH]; intros [|y b] A; try reflexivity. cbn [map elems_less]. simpl e_prime. simpl e_sub. simpl e_param.
  destruct (A (e_param x) (e_param y)) as [-> ->]; [left; auto..|]. rewrite IH; [reflexivity|].
  intros u w Hu Hw. apply A; right; auto.
Qed.
Lemma node_less_map a b : agree (cparams a) (cparams b) -> node_less (mapn a) (mapn b) = node_less a b.
Proof.
  intros A. unfold node_less, mapn, cparams in *. simpl. destruct (negb (N.eqb (n_flag a) (n_flag b))); [reflexivity|].
  destruct (n_body a) as [l|v pt pf|es], (n_body b) as [l'|v' pt' pf'|es']; simpl; try reflexivity.
  - destruct (A pt pt') as [_ ->]; [left; auto..|]. reflexivity.
  - apply elems_less_map. exact A.
Qed.
Lemma equiv_map a b : agree (cparams a) (cparams b) -> agree (cparams b) (cparams a) -> equiv (mapn a) (mapn b) = equiv a b.
Proof. intros A B. unfold equiv. rewrite !node_less_map; auto. Qed.
Lemma elems_less_params : forall a b : list (elem P), elems_less a b = false -> elems_less b a = false -> map e_param a = map e_param b.
Proof.
  induction a as [|x a IH]; intros [|y b] A B; try discriminate; auto. cbn [elems_less] in A, B.
  destruct (Nat.eqb_spec (e_prime x) (e_prime y)) as [Ep|Np].
  2: { simpl in A. destruct (Nat.eqb_spec (e_prime y) (e_prime x)) as [E|_]; [congruence|]. simpl in B.
       apply Nat.ltb_ge in A, B. exfalso. apply Np. lia. }
  rewrite Ep, Nat.eqb_refl in B. simpl in A, B.
  destruct (Nat.eqb_spec (e_sub x) (e_sub y)) as [Es|Ns].
  2: { simpl in A. destruct (Nat.eqb_spec (e_sub y) (e_sub x)) as [E|_]; [congruence|]. simpl in B.
       apply Nat.ltb_ge in A, B. exfalso. apply Ns. lia. }
  rewrite Es, Nat.eqb_refl in B. simpl in A, B.
  destruct (peq (e_param x) (e_param y)) eqn:Eq.
  - apply (h_eq H) in Eq. assert (peq (e_param y) (e_param x) = true) as Eq' by (apply (h_eq H); auto). rewrite Eq' in B. simpl in A, B.
    simpl. rewrite (IH b A B), Eq. reflexivity.
  - destruct (peq (e_param y) (e_param x)) eqn:Eq'; [apply (h_eq H) in Eq'; symmetry in Eq'; apply (h_eq H) in Eq'; congruence|].
    simpl in A, B. apply (h_tri H) in A; auto. apply (h_eq H) in A. congruence.
Qed.
Lemma equiv_params t (a b : node P) : same_slot t a b = true -> equiv a b = true -> cparams a = cparams b.
Proof.
  unfold same_slot, equiv, node_less, cparams. intros S E. apply andb_true_iff in S as [_ S]. apply andb_true_iff in E as [E1 E2].
  apply negb_true_iff in E1, E2. destruct (N.eqb_spec (n_flag a) (n_flag b)) as [Ef|Nf].
  2: { simpl in E1. destruct (N.eqb_spec (n_flag b) (n_flag a)) as [E|_]; [congruence|]. simpl in E2.
       apply N.ltb_ge in E1, E2. exfalso. apply Nf. lia. }
  rewrite Ef, N.eqb_refl in E2. simpl in E1, E2.
  destruct (n_body a) as [l|v pt pf|es], (n_body b) as [l'|v' pt' pf'|es']; try discriminate; auto.
  - destruct (N.eqb_spec v v') as [Ev|Nv].
    2: { simpl in E1. destruct (N.eqb_spec v' v) as [E|_]; [congruence|]. simpl in E2.
         apply N.ltb_ge in E1, E2. exfalso. apply Nv. lia. }
    rewrite Ev, N.eqb_refl in E2. simpl in E1, E2. rewrite (h_tri H _ _ E1 E2). reflexivity.
  - apply elems_less_params; auto.
Qed.

(** ** Interning *)
Lemma unique_grow (m : mgr P) nd i m1 : GetUniqueNode m nd = (i, m1) -> grow m m1.
Proof.
  unfold GetUniqueNode. intros E. destruct (find _ (m_live m)); injection E as <- <-; [apply grow_refl|].
  split; [reflexivity|]. split; [eexists; reflexivity|]. apply incl_appl, incl_refl.
Qed.
Lemma unique_params (m : mgr P) nd i m1 : GetUniqueNode m nd = (i, m1) ->
  exists b, nth_error (m_heap m1) i = Some b /\ same_slot (m_vt m) nd b = true /\ cparams b = cparams nd /\ (b = nd \/ m1 = m).
Proof.
  unfold GetUniqueNode. intros E. destruct (find _ (m_live m)) as [j|] eqn:F; injection E as <- <-.
  - apply find_some in F as [_ F]. destruct (nth_error (m_heap m) j) as [b|] eqn:Ej; [|discriminate]. apply andb_true_iff in F as [S Q].
    exists b. repeat split; auto. symmetry. eapply equiv_params; eauto.
  - exists nd. simpl. rewrite nth_error_app2, Nat.sub_diag by auto. repeat split; auto.
    unfold same_slot. rewrite Nat.eqb_refl. destruct (n_body nd); reflexivity.
Qed.
Lemma find_ext' {A} (g g' : A -> bool) l : (forall x, g x = g' x) -> find g l = find g' l.
Proof. intros E. induction l as [|a l IH]; simpl; auto. rewrite E, IH. reflexivity. Qed.
Lemma unique_map (m : mgr P) nd i m1 : GetUniqueNode m nd = (i, m1) -> sep (m_heap m1) -> GetUniqueNode (mapm m) (mapn nd) = (i, mapm m1).
Proof.
  intros E [S _]. pose proof (unique_grow _ _ _ _ E) as G. destruct (unique_params _ _ _ _ E) as (b & Eb & _ & Cb & _).
  assert (forall c, In c (m_heap m) -> agree (cparams nd) (cparams c) /\ agree (cparams c) (cparams nd)) as A.
  { intros c Hc. assert (forall x, In x (cparams nd) -> In x (flat_map cparams (m_heap m1))) as A1.
    { intros x Hx. apply in_flat_map. exists b. split; [eapply nth_error_In; eauto|]. rewrite Cb. auto. }
    assert (forall x, In x (cparams c) -> In x (flat_map cparams (m_heap m1))) as A2.
    { intros x Hx. apply in_flat_map. exists c. split; auto. eapply grow_incl; eauto. }
    split; intros x y Hx Hy; apply S; auto. }
  unfold GetUniqueNode in E |- *. cbn [mapm m_heap m_vt m_live TransferProofs.mapm].
  rewrite (find_ext' _ (fun i => match nth_error (m_heap m) i with Some b => same_slot (m_vt m) nd b && equiv nd b | None => false end)).
  - destruct (find _ (m_live m)) as [j|]; injection E as <- <-; [reflexivity|]. unfold TransferProofs.mapm, TransferProofs.maph. simpl.
    rewrite map_length, map_app. reflexivity.
  - intros j. rewrite maph_nth. destruct (nth_error (m_heap m) j) as [c|] eqn:Ec; [|reflexivity]. cbn [option_map].
    rewrite map_slot. destruct (A c) as [A1 A2]; [eapply nth_error_In; eauto|]. rewrite equiv_map; auto.
Qed.

(** ** Programs *)
Definition sim {X} (F : mgr P -> res (X * mgr P)) (F' : mgr P' -> res (X * mgr P')) : Prop :=
  forall m x m1, F m = Ok (x, m1) -> grow m m1 /\ (sep (m_heap m1) -> F' (mapm m) = Ok (x, mapm m1)).
Lemma sim_ret {X} (x : X) : sim (fun m => Ok (x, m)) (fun m => Ok (x, m)).
Proof. intros m y m1 E. injection E as <- <-. split; [apply grow_refl|reflexivity]. Qed.
Lemma sim_fail {X} (F : mgr P -> res (X * mgr P)) F' : (forall m y, F m <> Ok y) -> sim F F'.
Proof. intros NE m x m1 E. exfalso. eapply NE; eauto. Qed.
Lemma sim_bind {X Y} (F : mgr P -> res (X * mgr P)) F' (k : X -> mgr P -> res (Y * mgr P)) k' : sim F F' -> (forall x, sim (k x) (k' x)) ->
  sim (fun m => do (x, m1) <- F m ;; k x m1) (fun m => do (x, m1) <- F' m ;; k' x m1).
Proof.
  intros SF SK m y m1 E. bk E as [x m2] E1. destruct (SF _ _ _ E1) as [G1 B1]. destruct (SK _ _ _ _ E) as [G2 B2].
  split; [eapply grow_trans; eauto|]. intros S. rewrite B1 by (eapply sep_grow; eauto). cbn [bind]. auto.
Qed.
Lemma sim_read {X Y Y'} (my : Y -> Y') (r : mgr P -> res Y) (r' : mgr P' -> res Y') (k : Y -> mgr P -> res (X * mgr P)) k' :
  (forall m y, r m = Ok y -> r' (mapm m) = Ok (my y)) -> (forall y, sim (k y) (k' (my y))) ->
  sim (fun m => do y <- r m ;; k y m) (fun m => do y <- r' m ;; k' y m).
Proof.
  intros R SK m x m1 E. bk E as y E1. destruct (SK _ _ _ _ E) as [G B]. split; auto. intros S. rewrite (R _ _ E1). cbn [bind]. auto.
Qed.
Lemma sim_vt {X} (F : vtree -> mgr P -> res (X * mgr P)) (F' : vtree -> mgr P' -> res (X * mgr P')) : (forall t, sim (F t) (F' t)) ->
  sim (fun m => F (m_vt m) m) (fun m => F' (m_vt m) m).
Proof. intros S m x m1 E. destruct (S _ _ _ _ E) as [G B]. split; auto. Qed.
Lemma sim_ext {X} (F G : mgr P -> res (X * mgr P)) F' G' : (forall m, F m = G m) -> (forall m, F' m = G' m) -> sim F F' -> sim G G'.
Proof. intros E E' S m x m1 EG. rewrite <- E in EG. destruct (S _ _ _ EG) as [A B]. split; auto. intros Q. rewrite <- E'. auto. Qed.
Lemma sim_unique nd : sim (fun m => Ok (GetUniqueNode m nd)) (fun m => Ok (GetUniqueNode m (mapn nd))).
Proof.
  intros m i m1 E. injection E as E. split; [eapply unique_grow; eauto|]. intros S. f_equal. eapply unique_map; eauto.
Qed.
Ltac fail_case := apply sim_fail; intros; discriminate.

Lemma sim_literal l fl : sim (fun m => GetPsddLiteralNode m l fl) (fun m => GetPsddLiteralNode m l fl).
Proof.
  unfold GetPsddLiteralNode.
  apply (sim_vt (fun t m => match leaf_path t (Z.abs_N l) with None => Abort | Some p => Ok (GetUniqueNode m (MkN p fl (BLit l))) end)
    (fun t m => match leaf_path t (Z.abs_N l) with None => Abort | Some p => Ok (GetUniqueNode m (MkN p fl (BLit l))) end)).
  intros t. destruct (leaf_path t (Z.abs_N l)) as [p|]; [|fail_case]. exact (sim_unique (MkN p fl (BLit l))).
Qed.
Lemma sim_top v fl pt pf : sim (fun m => GetPsddTopNode m v fl pt pf) (fun m => GetPsddTopNode m v fl (f pt) (f pf)).
Proof.
  unfold GetPsddTopNode.
  apply (sim_vt (fun t m => match leaf_path t v with None => Abort | Some p => Ok (GetUniqueNode m (MkN p fl (BTop v pt pf))) end)
    (fun t m => match leaf_path t v with None => Abort | Some p => Ok (GetUniqueNode m (MkN p fl (BTop v (f pt) (f pf)))) end)).
  intros t. destruct (leaf_path t v) as [p|]; [|fail_case]. exact (sim_unique (MkN p fl (BTop v pt pf))).
Qed.
Lemma param_at_map params k w : param_at params k = Ok w -> param_at (map f params) k = Ok (f w).
Proof.
  unfold param_at. destruct params as [|a l]; [intros E; injection E as <-; rewrite (h_zero H); reflexivity|]. cbn [map].
  change (f a :: map f l) with (map f (a :: l)). rewrite nth_error_map. destruct (nth_error (a :: l) k); [|discriminate].
  intros E. injection E as <-. reflexivity.
Qed.
Lemma mk_elems_map params : forall primes subs k es, mk_elems params k primes subs = Ok es -> mk_elems (map f params) k primes subs = Ok (map mape es).
Proof.
  induction primes as [|p primes IH]; intros [|s subs] k es E; simpl in E |- *; try discriminate.
  - injection E as <-. reflexivity.
  - bk E as w Ew. bk E as es' Ee. injection E as <-. rewrite (param_at_map _ _ _ Ew). cbn [bind]. rewrite (IH _ _ _ Ee). reflexivity.
Qed.
Lemma insert_map e l : map mape (insert_elem e l) = insert_elem (mape e) (map mape l).
Proof. induction l as [|x l IH]; simpl; auto. destruct (Nat.leb (e_prime e) (e_prime x)); simpl; [reflexivity|]. rewrite IH. reflexivity. Qed.
Lemma sort_map l : map mape (sort_elems l) = sort_elems (map mape l).
Proof. unfold sort_elems. induction l as [|x l IH]; simpl; auto. rewrite insert_map, IH. reflexivity. Qed.
Lemma sim_new_dec p fl primes subs params : sim (fun m => new_dec m p fl primes subs params) (fun m => new_dec m p fl primes subs (map f params)).
Proof.
  unfold new_dec. destruct (mk_elems params 0 primes subs) as [es| | |] eqn:E; [|fail_case..]. cbn [bind].
  rewrite (mk_elems_map _ _ _ _ _ E). cbn [bind]. rewrite <- sort_map. exact (sim_unique (MkN p fl (BDec (sort_elems es)))).
Qed.

(** ** True nodes, normalisation, conformed decision nodes *)
Definition gt_sim (gt : @gt_type P) (gt' : @gt_type P') : Prop := forall p fl tm, sim (gt p fl tm) (gt' p fl tm).
Lemma one_map : [pone] = map f [pone].
Proof. simpl. rewrite (h_one H). reflexivity. Qed.
Lemma sim_norm_loop gt gt' : gt_sim gt gt' -> forall fuel target fl cur tm, sim (norm_loop gt fuel target fl cur tm) (norm_loop gt' fuel target fl cur tm).
Proof.
  intros Rg fuel. induction fuel as [|fu IH]; intros target fl cur tm m x m1 E; [discriminate|]. cbn [norm_loop] in E |- *.
  bk E as nd E0. cbn [TransferProofs.mapm m_heap]. rewrite maph_nth.
  destruct (nth_error (m_heap m) cur) as [nd'|]; [|discriminate]. injection E0 as ->. cbn [option_map get bind TransferProofs.mapn n_vt].
  destruct (opath_eqb (n_vt nd) target); [injection E as <- <-; split; [apply grow_refl|reflexivity]|].
  rewrite one_map. destruct (n_vt nd) as [|[|] parent]; [discriminate| |].
  - bk E as [[t tm2] m2] E1. bk E as [nx m3] E2.
    destruct (Rg _ _ _ _ _ _ E1) as [G1 B1]. destruct (sim_new_dec _ _ _ _ _ _ _ _ E2) as [G2 B2]. destruct (IH _ _ _ _ _ _ _ E) as [G3 B3].
    split; [eapply grow_trans; [|eapply grow_trans]; eauto|]. intros S. pose proof (sep_grow _ _ G3 S) as S3. pose proof (sep_grow _ _ G2 S3) as S2.
    fold (mapm m). rewrite B1 by auto. cbn [bind]. rewrite B2 by auto. cbn [bind]. auto.
  - bk E as [[t tm2] m2] E1. bk E as [nx m3] E2.
    destruct (Rg _ _ _ _ _ _ E1) as [G1 B1]. destruct (sim_new_dec _ _ _ _ _ _ _ _ E2) as [G2 B2]. destruct (IH _ _ _ _ _ _ _ E) as [G3 B3].
    split; [eapply grow_trans; [|eapply grow_trans]; eauto|]. intros S. pose proof (sep_grow _ _ G3 S) as S3. pose proof (sep_grow _ _ G2 S3) as S2.
    fold (mapm m). rewrite B1 by auto. cbn [bind]. rewrite B2 by auto. cbn [bind]. auto.
Qed.
Lemma read_vt_of i : forall m y, get (vt_of (m_heap m) i) = Ok y -> get (vt_of (m_heap (mapm m)) i) = Ok y.
Proof. intros m y. cbn [TransferProofs.mapm m_heap]. rewrite maph_vt. auto. Qed.
Lemma sim_normalize_with gt gt' target fl cur tm : gt_sim gt gt' -> sim (normalize_with gt target fl cur tm) (normalize_with gt' target fl cur tm).
Proof.
  intros Rg. unfold normalize_with. apply (sim_read (fun v => v) (fun m => get (vt_of (m_heap m) cur)) (fun m => get (vt_of (m_heap m) cur))
    (fun vt m => norm_loop gt (S (length vt)) target fl cur tm m) (fun vt m => norm_loop gt' (S (length vt)) target fl cur tm m)).
  - apply read_vt_of.
  - intros vt. apply sim_norm_loop; auto.
Qed.
Lemma sim_conform_loop gt gt' left right fl : gt_sim gt gt' -> forall primes subs tm,
  sim (conform_loop gt left right fl primes subs tm) (conform_loop gt' left right fl primes subs tm).
Proof.
  intros Rg primes. induction primes as [|p primes IH]; intros subs tm; [apply sim_ret|].
  destruct subs as [|s subs]; [fail_case|]. cbn [conform_loop].
  refine (sim_bind _ _ (fun x m1 => let '(p', tm1) := x in
          do (y, m2) <- normalize_with gt right fl s tm1 m1 ;;
          let '(s', tm2) := y in
          do (z, m3) <- conform_loop gt left right fl primes subs tm2 m2 ;;
          let '(ps, ss) := z in
          Ok (p' :: ps, s' :: ss, m3)) (fun x m1 => let '(p', tm1) := x in
          do (y, m2) <- normalize_with gt' right fl s tm1 m1 ;;
          let '(s', tm2) := y in
          do (z, m3) <- conform_loop gt' left right fl primes subs tm2 m2 ;;
          let '(ps, ss) := z in
          Ok (p' :: ps, s' :: ss, m3)) (sim_normalize_with _ _ left fl p tm Rg) _). intros [p' tm1].
  refine (sim_bind _ _ (fun y m2 => 
          let '(s', tm2) := y in
          do (z, m3) <- conform_loop gt left right fl primes subs tm2 m2 ;;
          let '(ps, ss) := z in
          Ok (p' :: ps, s' :: ss, m3)) (fun y m2 => 
          let '(s', tm2) := y in
          do (z, m3) <- conform_loop gt' left right fl primes subs tm2 m2 ;;
          let '(ps, ss) := z in
          Ok (p' :: ps, s' :: ss, m3)) (sim_normalize_with _ _ right fl s tm1 Rg) _). intros [s' tm2].
  refine (sim_bind _ _ (fun z m3 => let '(ps, ss) := z in Ok (p' :: ps, s' :: ss, m3)) (fun z m3 => let '(ps, ss) := z in Ok (p' :: ps, s' :: ss, m3)) (IH _ _) _).
  intros [ps ss]. apply sim_ret.
Qed.
Lemma sim_conformed_with gt gt' primes subs params fl : gt_sim gt gt' ->
  sim (fun m => conformed_with gt m primes subs params fl) (fun m => conformed_with gt' m primes subs (map f params) fl).
Proof.
  intros Rg. unfold conformed_with. destruct (hd_error primes) as [p0|]; [|fail_case].
  destruct (hd_error subs) as [s0|]; [|fail_case]. cbn [get bind]. intros m x m1 E. bk E as vp E1. bk E as vs E2.
  rewrite (read_vt_of _ _ _ E1). cbn [bind]. rewrite (read_vt_of _ _ _ E2). cbn [bind]. cbn [TransferProofs.mapm m_vt].
  bk E as [[ps ss] m2] E3. destruct (sim_conform_loop _ _ _ _ _ Rg _ _ _ _ _ _ E3) as [G1 B1]. destruct (sim_new_dec _ _ _ _ _ _ _ _ E) as [G2 B2].
  split; [eapply grow_trans; eauto|]. intros S. fold (mapm m). rewrite B1 by (eapply sep_grow; eauto). cbn [bind]. auto.
Qed.
Lemma sim_foldM {S A} (step : S * mgr P -> A -> res (S * mgr P)) step' : (forall s a, sim (fun m => step (s, m) a) (fun m => step' (s, m) a)) ->
  forall l s, sim (fun m => foldM step l (s, m)) (fun m => foldM step' l (s, m)).
Proof.
  intros R l. induction l as [|a l IH]; intros s; [apply sim_ret|]. cbn [foldM]. intros m x m1 E. bk E as [s' m2] E1.
  destruct (R s a m s' m2 E1) as [G1 B1]. destruct (IH s' m2 x m1 E) as [G2 B2]. split; [eapply grow_trans; eauto|].
  intros S0. rewrite B1 by (eapply sep_grow; eauto). cbn [bind]. auto.
Qed.
Lemma sim_true_step gt gt' fl tm x : gt_sim gt gt' -> sim (fun m => true_step gt fl (tm, m) x) (fun m => true_step gt' fl (tm, m) x).
Proof.
  intros Rg. destruct x as [p t]. intros m y m1 E. unfold true_step in E |- *. cbn [TransferProofs.mapm m_vt]. destruct t as [v|a b].
  - bk E as [i m2] E1. injection E as <- <-. destruct (sim_top _ _ _ _ _ _ _ E1) as [G B]. split; auto. intros S. rewrite <- (h_one H).
    fold (mapm m). rewrite B by auto. reflexivity.
  - destruct (nlookup (vpos (m_vt m) (false :: p)) tm) as [l|]; [|discriminate]. destruct (nlookup (vpos (m_vt m) (true :: p)) tm) as [r|]; [|discriminate].
    bk E as [i m2] E1. injection E as <- <-. destruct (sim_conformed_with _ _ _ _ _ _ Rg _ _ _ E1) as [G B]. split; auto. intros S. rewrite one_map.
    fold (mapm m). rewrite B by auto. reflexivity.
Qed.
Lemma sim_get_true fuel : gt_sim (get_true fuel) (get_true fuel).
Proof.
  induction fuel as [|fu IH]; intros p fl tm m x m1 E; [discriminate|]. cbn [get_true] in E |- *. cbn [TransferProofs.mapm m_vt].
  destruct (nlookup (vpos (m_vt m) p) tm); [injection E as <- <-; split; [apply grow_refl|reflexivity]|].
  bk E as t Et. bk E as ser Es. bk E as [tm1 m2] E1.
  destruct (sim_foldM (true_step (get_true fu) fl) (true_step (get_true fu) fl)) with (l := rev ser) (s := tm) (m := m) (x := tm1) (m1 := m2) as [G B]; auto.
  { intros. apply sim_true_step. auto. }
  destruct (nlookup (vpos (m_vt m) p) tm1) as [i|] eqn:El; [|discriminate]. injection E as <- <-. split; auto. intros S.
  rewrite Et. cbn [bind]. rewrite Es. cbn [bind]. fold (mapm m). rewrite B by auto. cbn [bind]. rewrite El. reflexivity.
Qed.
Lemma sim_fst {A B} (F : mgr P -> res (A * B * mgr P)) F' : sim F F' -> sim (fun m => do (x, m1) <- F m ;; Ok (fst x, m1)) (fun m => do (x, m1) <- F' m ;; Ok (fst x, m1)).
Proof. intros R. apply (sim_bind F F' (fun x m1 => Ok (fst x, m1)) (fun x m1 => Ok (fst x, m1))); auto. intros. apply sim_ret. Qed.
Theorem sim_GetTrueNode p fl : sim (GetTrueNode p fl) (GetTrueNode p fl).
Proof. apply sim_fst, sim_get_true. Qed.
Theorem sim_Normalize target cur fl : sim (NormalizePsddNode target cur fl) (NormalizePsddNode target cur fl).
Proof. apply sim_fst, sim_normalize_with, sim_get_true. Qed.
Theorem sim_Conformed primes subs params fl :
  sim (fun m => GetConformedPsddDecisionNode m primes subs params fl) (fun m => GetConformedPsddDecisionNode m primes subs (map f params) fl).
Proof. apply sim_conformed_with, sim_get_true. Qed.

(** ** Serialisation and loading *)
Lemma children_map nd : children (mapn nd) = children nd.
Proof. unfold children, TransferProofs.mapn. simpl. destruct (n_body nd); simpl; auto. rewrite !map_map. reflexivity. Qed.
Lemma ser_loop_map h : forall fuel k r, ser_loop fuel (maph h) k r = ser_loop fuel h k r.
Proof.
  induction fuel as [|fu IH]; intros k r; simpl; destruct (nth_error r k); auto. rewrite maph_nth.
  destruct (nth_error h n) as [nd|]; auto. cbn [option_map get bind]. rewrite children_map. apply IH.
Qed.
Lemma serialize_map h roots : SerializePsddNodes (maph h) roots = SerializePsddNodes h roots.
Proof. unfold SerializePsddNodes. rewrite ser_loop_map. unfold TransferProofs.maph. rewrite map_length. reflexivity. Qed.
Lemma cover_loop_map h : forall fuel q cov, cover_loop fuel (maph h) q cov = cover_loop fuel h q cov.
Proof.
  induction fuel as [|fu IH]; intros [|i q] cov; simpl; auto. rewrite maph_nth.
  destruct (nth_error h i) as [nd|]; auto. cbn [option_map get bind]. rewrite children_map. destruct (fold_left cover_push (children nd) (q, cov)). apply IH.
Qed.
Lemma covered_map h roots : GetCoveredPsddNodes (maph h) roots = GetCoveredPsddNodes h roots.
Proof.
  unfold GetCoveredPsddNodes. destruct (fold_left cover_push roots ([], [])). rewrite cover_loop_map. unfold TransferProofs.maph. rewrite map_length. reflexivity.
Qed.
Lemma mapM_map {A B C} (g : B -> res C) (h : A -> B) l : mapM g (map h l) = mapM (fun a => g (h a)) l.
Proof. induction l as [|a l IH]; simpl; auto. destruct (g (h a)); auto. cbn [bind]. rewrite IH. reflexivity. Qed.
Lemma sim_load_step (hs : heap P) fl ud i : sim (fun m => load_step hs fl (ud, m) i) (fun m => load_step (maph hs) fl (ud, m) i).
Proof.
  intros m x m1 E. unfold load_step in E |- *. rewrite maph_nth. destruct (nth_error hs i) as [nd|]; [|discriminate]. cbn [option_map get bind] in E |- *.
  cbn [TransferProofs.mapn n_body]. destruct (n_body nd) as [l|v pt pf|es]; cbn [mapb].
  - bk E as [j m2] E1. injection E as <- <-. destruct (sim_literal _ _ _ _ _ E1) as [G B]. split; auto. intros S. rewrite B by auto. reflexivity.
  - bk E as [j m2] E1. injection E as <- <-. destruct (sim_top _ _ _ _ _ _ _ E1) as [G B]. split; auto. intros S. rewrite B by auto. reflexivity.
  - bk E as ps Ep. bk E as ss Es. bk E as [j m2] E1. injection E as <- <-. destruct (sim_Conformed _ _ _ _ _ _ _ E1) as [G B]. split; auto.
    intros S. rewrite !mapM_map. cbn [TransferProofs.mape e_prime e_sub]. rewrite Ep. cbn [bind]. rewrite Es. cbn [bind].
    rewrite map_map. cbn [TransferProofs.mape e_param]. rewrite map_map in B. rewrite B by auto. reflexivity.
Qed.
Theorem sim_Load (hs : heap P) ud target root fl : sim (LoadPsddNode hs ud target root fl) (LoadPsddNode (maph hs) ud target root fl).
Proof.
  intros m x m1 E. unfold LoadPsddNode in E |- *. bk E as ser Es. rewrite serialize_map, Es. cbn [bind]. bk E as [ud1 m2] E1. bk E as r Er. bk E as [j m3] E2.
  injection E as <- <-.
  destruct (sim_foldM (load_step hs fl) (load_step (maph hs) fl)) with (l := rev ser) (s := ud) (m := m) (x := ud1) (m1 := m2) as [G B]; auto.
  { intros. apply sim_load_step. }
  destruct (sim_Normalize _ _ _ _ _ _ E2) as [G2 B2]. split; [eapply grow_trans; eauto|]. intros S. rewrite B by (eapply sep_grow; eauto). cbn [bind].
  rewrite Er. cbn [bind]. rewrite B2 by auto. reflexivity.
Qed.
(** ** Multiply *)
Definition mapr (r : @mres P) : @mres P' := (fst r, f (snd r)).
Definition mapc (c : @mcache P) : @mcache P' := map (fun x => (fst x, mapr (snd x))) c.
Definition msim (rec : nat -> nat -> mgr P * @mcache P -> res (@mres P * (mgr P * @mcache P)))
  (rec' : nat -> nat -> mgr P' * @mcache P' -> res (@mres P' * (mgr P' * @mcache P'))) : Prop :=
  forall a b m c r m1 c1, rec a b (m, c) = Ok (r, (m1, c1)) ->
    grow m m1 /\ (sep (m_heap m1) -> rec' a b (mapm m, mapc c) = Ok (mapr r, (mapm m1, mapc c1))).
Lemma cache_pos_map m i p : cache_pos m i = Ok p -> cache_pos (mapm m) i = Ok p.
Proof. unfold cache_pos. intros E. bk E as v Ev. rewrite (read_vt_of _ _ _ Ev). cbn [bind]. exact E. Qed.
Lemma cache_update_map m c a b r c1 : cache_update m c a b r = Ok c1 -> cache_update (mapm m) (mapc c) a b (mapr r) = Ok (mapc c1).
Proof. unfold cache_update. intros E. bk E as p Ep. injection E as <-. rewrite (cache_pos_map _ _ _ Ep). reflexivity. Qed.
Lemma alookup_map k c : alookup key_eqb k (mapc c) = option_map mapr (alookup key_eqb k c).
Proof. induction c as [|[k' r] c IH]; simpl; auto. destruct (key_eqb k k'); auto. Qed.
Lemma mape_eq a b w : mape (MkE a b w) = MkE a b (f w).
Proof. reflexivity. Qed.
Lemma msim_pairs rec rec' : msim rec rec' -> forall l acc part m c acc' part' m1 c1,
  foldM (mul_pair rec) l (acc, part, (m, c)) = Ok (acc', part', (m1, c1)) ->
  grow m m1 /\ (sep (m_heap m1) -> foldM (mul_pair rec') (map (fun ab => (mape (fst ab), mape (snd ab))) l) (map mape acc, f part, (mapm m, mapc c)) =
    Ok (map mape acc', f part', (mapm m1, mapc c1))).
Proof.
  intros R l. induction l as [|[a b] l IH]; intros acc part m c acc' part' m1 c1 E.
  - cbn [foldM] in E. injection E as <- <- <- <-. split; [apply grow_refl|reflexivity].
  - cbn [foldM map fst snd] in E |- *. bk E as [[acc0 part0] [m0 c0]] E0. destruct (IH _ _ _ _ _ _ _ _ E) as [G2 B2].
    assert (grow m m0 /\ (sep (m_heap m0) -> mul_pair rec' (map mape acc, f part, (mapm m, mapc c)) (mape a, mape b) =
      Ok (map mape acc0, f part0, (mapm m0, mapc c0)))) as [G1 B1].
    { unfold mul_pair in E0 |- *. bk E0 as [pr [m3 c3]] E1. destruct (R _ _ _ _ _ _ _ E1) as [G3 B3]. cbn [TransferProofs.mape e_prime e_sub].
      destruct (fst pr) as [pi|] eqn:Epr.
      - bk E0 as [sr [m4 c4]] E2. destruct (R _ _ _ _ _ _ _ E2) as [G4 B4].
        assert (m0 = m4 /\ c0 = c4) as [-> ->] by (destruct (fst sr); injection E0; auto).
        split; [eapply grow_trans; eauto|]. intros S. rewrite B3 by (eapply sep_grow; eauto). cbn [bind mapr fst snd]. rewrite Epr.
        rewrite B4 by auto. cbn [bind mapr fst snd]. destruct (fst sr); injection E0 as <- <-; [|reflexivity].
        cbn [TransferProofs.mape e_param]. rewrite !(h_add H), !(h_mul H), map_app. cbn [map]. rewrite mape_eq, !(h_mul H). reflexivity.
      - injection E0 as <- <- <- <-. split; auto. intros S. rewrite B3 by auto. cbn [bind mapr fst snd]. rewrite Epr. reflexivity. }
    split; [eapply grow_trans; eauto|]. intros S. rewrite B1 by (eapply sep_grow; eauto). cbn [bind]. auto.
Qed.
Lemma list_prod_map la lb : list_prod (map mape la) (map mape lb) = map (fun ab => (mape (fst ab), mape (snd ab))) (list_prod la lb).
Proof.
  induction la as [|a la IH]; simpl; auto. rewrite IH, map_app. f_equal. rewrite !map_map. reflexivity.
Qed.
(** The parameters handed to a decision node are found in the heap. *)
Lemma mk_elems_all (params : list P) : forall primes subs k es, mk_elems params k primes subs = Ok es -> params <> [] ->
  map e_param es = firstn (length primes) (skipn k params).
Proof.
  induction primes as [|p primes IH]; intros [|s subs] k es E NE; simpl in E; try discriminate.
  - injection E as <-. reflexivity.
  - bk E as w Ew. bk E as es' Ee. injection E as <-. cbn [map e_param length]. rewrite (IH _ _ _ Ee NE).
    unfold param_at in Ew. destruct params as [|w0 ps]; [congruence|]. remember (w0 :: ps) as l.
    destruct (nth_error l k) as [w'|] eqn:En; [|discriminate]. injection Ew as ->.
    clear - En. revert k En. induction l as [|y l IHl]; intros [|k] En; simpl in En; try discriminate; simpl.
    + injection En as ->. reflexivity.
    + apply IHl. auto.
Qed.
Lemma conform_loop_length gt left right fl : forall primes subs tm m ps ss m1, @conform_loop P gt left right fl primes subs tm m = Ok (ps, ss, m1) ->
  length ps = length primes.
Proof.
  induction primes as [|p primes IH]; intros [|s subs] tm m ps ss m1 E; simpl in E; try discriminate.
  - injection E as <- <- <-. reflexivity.
  - injection E as <- <- <-. reflexivity.
  - bk E as [[p' tm1] m2] E1. bk E as [[s' tm2] m3] E2. bk E as [[ps' ss'] m4] E3. injection E as <- <- <-. simpl. f_equal. eauto.
Qed.
Lemma conformed_params m primes subs params fl i m1 : @GetConformedPsddDecisionNode P m primes subs params fl = Ok (i, m1) ->
  length params = length primes -> forall w, In w params -> In w (flat_map nparams (m_heap m1)).
Proof.
  intros E L w Hw. unfold GetConformedPsddDecisionNode, conformed_with in E. bk E as p0 E1. bk E as s0 E2. bk E as vp E3. bk E as vs E4.
  bk E as [[ps ss] m2] E5. apply conform_loop_length in E5. unfold new_dec in E. bk E as es Ee. injection E as E.
  destruct (unique_params _ _ _ _ E) as (b & Eb & S & C & _). apply in_flat_map. exists b. split; [eapply nth_error_In; eauto|].
  unfold same_slot in S. simpl in S. apply andb_true_iff in S as [_ S]. unfold cparams in C. simpl in C. unfold nparams.
  destruct (n_body b) as [|v pt pf|es']; try discriminate. rewrite C.
  apply Permutation_in with (l := map e_param es); [apply Permutation_map, Permutation_sym, sort_elems_perm|].
  rewrite (mk_elems_all _ _ _ _ _ Ee); [|destruct params; [destruct Hw|discriminate]]. rewrite E5, <- L, firstn_all. exact Hw.
Qed.
Lemma eq_zero (a b : P) : a = b -> peq a pzero = false -> peq b pzero = false.
Proof. intros ->. auto. Qed.
Lemma div_nonzero a b : peq (pdiv a b) (@pzero P) = false -> peq b pzero = false.
Proof.
  intros E. destruct (peq b pzero) eqn:E0; auto. rewrite (h_div0 H) in E by auto.
  assert (peq (@pzero P) pzero = true) by (apply (h_eq H); auto). congruence.
Qed.
Lemma msim_multiply fl : forall fuel, msim (multiply_with_cache fuel fl) (multiply_with_cache fuel fl).
Proof.
  induction fuel as [|fu IH]; intros a b m c r m1 c1 E; [discriminate|]. cbn [multiply_with_cache] in E |- *.
  bk E as pos E0. rewrite (cache_pos_map _ _ _ E0). cbn [bind]. rewrite alookup_map. destruct (alookup key_eqb (pos, a, b) c) as [r0|].
  { injection E as <- <- <-. split; [apply grow_refl|reflexivity]. }
  cbn [option_map]. bk E as na Ea. bk E as nb Eb. bk E as u0 Ev.
  cbn [TransferProofs.mapm m_heap m_vt]. rewrite !maph_nth.
  destruct (nth_error (m_heap m) a) as [na'|]; [|discriminate]. injection Ea as ->.
  destruct (nth_error (m_heap m) b) as [nb'|]; [|discriminate]. injection Eb as ->.
  cbn [option_map get bind TransferProofs.mapn n_vt n_body]. rewrite Ev. cbn [bind].
  replace (MkM (m_vt m) (maph (m_heap m)) (m_live m)) with (mapm m) by reflexivity.
  destruct (n_body na) as [la|va pta pfa|ea] eqn:Ba, (n_body nb) as [lb|vb ptb pfb|eb] eqn:Bb; try discriminate; cbn [mapb].
  - bk E as u1 Eu. rewrite Eu. cbn [bind]. destruct (Z.eqb la lb).
    + bk E as [i m3] E1. bk E as c3 E2. injection E as <- <- <-. destruct (sim_literal la fl _ _ _ E1) as [G1 B1].
      split; auto. intros S. rewrite B1 by auto. cbn [bind]. pose proof (cache_update_map _ _ _ _ _ _ E2) as U. unfold mapr in U. cbn [fst snd] in U.
      rewrite (h_one H) in U. rewrite U. cbn [bind]. unfold mapr. cbn [fst snd]. rewrite (h_one H). reflexivity.
    + bk E as c3 E2. injection E as <- <- <-. split; [apply grow_refl|]. intros S.
      pose proof (cache_update_map _ _ _ _ _ _ E2) as U. unfold mapr in U. cbn [fst snd] in U.
      rewrite (h_zero H) in U. rewrite U. cbn [bind]. unfold mapr. cbn [fst snd]. rewrite (h_zero H). reflexivity.
  - bk E as u1 Eu. rewrite Eu. cbn [bind]. bk E as [i m3] E1. bk E as c3 E2. injection E as <- <- <-. destruct (sim_literal la fl _ _ _ E1) as [G1 B1].
    split; auto. intros S. rewrite B1 by auto. cbn [bind]. pose proof (cache_update_map _ _ _ _ _ _ E2) as U. unfold mapr in U |- *. cbn [fst snd] in U |- *.
    destruct (lit_sign la); rewrite U; reflexivity.
  - bk E as u1 Eu. rewrite Eu. cbn [bind]. bk E as [i m3] E1. bk E as c3 E2. injection E as <- <- <-. destruct (sim_literal lb fl _ _ _ E1) as [G1 B1].
    split; auto. intros S. rewrite B1 by auto. cbn [bind]. pose proof (cache_update_map _ _ _ _ _ _ E2) as U. unfold mapr in U |- *. cbn [fst snd] in U |- *.
    destruct (lit_sign lb); rewrite U; reflexivity.
  - bk E as u1 Eu. rewrite Eu. cbn [bind]. bk E as [i m3] E1. bk E as nd En. destruct (n_body nd) as [|v' t' f'|] eqn:Bn; try discriminate.
    bk E as u2 Eu2. bk E as u3 Eu3. bk E as c3 E2. injection E as <- <- <-.
    destruct (sim_top va fl _ _ _ _ _ E1) as [G1 B1]. split; auto. intros S.
    destruct (nth_error (m_heap m3) i) as [nd'|] eqn:En'; [|discriminate]. injection En as ->.
    assert (peq (padd (pmul pta ptb) (pmul pfa pfb)) pzero = false) as NZ.
    { apply (div_nonzero (pmul pta ptb)). destruct (peq t' pzero) eqn:Et; [discriminate|]. refine (eq_zero t' _ _ Et).
      unfold GetPsddTopNode in E1. destruct (leaf_path (m_vt m) va) as [lp|]; [|discriminate]. injection E1 as E1.
      destruct (unique_params _ _ _ _ E1) as (b' & Eb' & _ & Cb & _). rewrite En' in Eb'. injection Eb' as <-.
      unfold cparams in Cb. rewrite Bn in Cb. simpl in Cb. congruence. }
    rewrite <- !(h_mul H), <- (h_add H), <- !(h_div H) by auto. rewrite B1 by auto. cbn [bind].
    replace (nth_error (m_heap (mapm m3)) i) with (Some (mapn nd)) by (cbn [TransferProofs.mapm m_heap]; rewrite maph_nth, En'; reflexivity).
    cbn [option_map get bind TransferProofs.mapn n_body]. rewrite Bn. cbn [mapb].
    assert (forall w, In w [t'; f'] -> peq (f w) pzero = peq w pzero) as Z.
    { intros w Hw. apply S. apply in_flat_map. exists nd. split; [eapply nth_error_In; eauto|]. unfold nparams. rewrite Bn. exact Hw. }
    rewrite !Z by (simpl; auto). rewrite Eu2. cbn [bind]. rewrite Eu3. cbn [bind].
    pose proof (cache_update_map _ _ _ _ _ _ E2) as U. unfold mapr in U |- *. cbn [fst snd] in U |- *. rewrite U. reflexivity.
  - bk E as [[acc part] [m3 c3]] E1. destruct (msim_pairs _ _ IH _ _ _ _ _ _ _ _ _ E1) as [G1 B1]. rewrite list_prod_map.
    cbn [map] in B1. rewrite (h_zero H) in B1. destruct acc as [|e0 acc].
    + bk E as c4 E2. injection E as <- <- <-. split; auto. intros S. rewrite B1 by auto. cbn [bind map].
      pose proof (cache_update_map _ _ _ _ _ _ E2) as U. unfold mapr in U |- *. cbn [fst snd] in U |- *. rewrite (h_zero H) in U |- *. rewrite U. reflexivity.
    + bk E as u1 Eu. bk E as [i m4] E2. bk E as c4 E3. injection E as <- <- <-.
      destruct (sim_Conformed _ _ _ fl _ _ _ E2) as [G2 B2]. split; [eapply grow_trans; eauto|]. intros S.
      rewrite B1 by (eapply sep_grow; eauto). cbn [bind]. remember (e0 :: acc) as es eqn:Hes.
      assert (forall A (x y : A), match map mape es with [] => x | _ :: _ => y end = y) as MM by (intros; rewrite Hes; reflexivity).
      rewrite MM. clear MM.
      assert (forallb (fun w => negb (peq w pzero)) (map (fun e => pdiv (e_param e) part) es) = true) as NZ.
      { destruct (forallb (fun w => negb (peq w pzero)) (map (fun e => pdiv (e_param e) part) es)); [reflexivity|discriminate]. }
      rewrite forallb_forall in NZ.
      assert (peq part pzero = false) as PZ.
      { apply (div_nonzero (e_param e0)). apply negb_true_iff. apply NZ. rewrite Hes. left. reflexivity. }
      assert (map (fun e => pdiv (e_param e) (f part)) (map mape es) = map f (map (fun e => pdiv (e_param e) part) es)) as PM.
      { rewrite !map_map. apply map_ext. intros e. cbn [TransferProofs.mape e_param]. rewrite (h_div H) by auto. reflexivity. }
      rewrite PM. assert (forallb (fun w => negb (peq w pzero)) (map f (map (fun e => pdiv (e_param e) part) es)) = true) as ->.
      { apply forallb_forall. intros w' Hw'. apply in_map_iff in Hw' as (w & <- & Hw). destruct S as [_ S]. rewrite S; [apply NZ; auto|].
        eapply conformed_params; eauto. rewrite !map_length. reflexivity. }
      cbn [assert bind]. rewrite !map_map. cbn [TransferProofs.mape e_prime e_sub]. rewrite map_map in B2. change (map (fun x : elem P => e_prime x) es) with (map e_prime es). change (map (fun x : elem P => e_sub x) es) with (map e_sub es). rewrite B2 by auto. cbn [bind].
      pose proof (cache_update_map _ _ _ _ _ _ E3) as U. unfold mapr in U |- *. cbn [fst snd] in U |- *. rewrite U. reflexivity.
Qed.
Theorem sim_Multiply m a b fl r m1 : Multiply m a b fl = Ok (r, m1) ->
  grow m m1 /\ (sep (m_heap m1) -> Multiply (mapm m) a b fl = Ok (mapr r, mapm m1)).
Proof.
  unfold Multiply. intros E. bk E as [r0 [m0 c0]] E1. injection E as <- <-.
  destruct (msim_multiply fl _ _ _ _ _ _ _ _ E1) as [G B]. split; auto. intros S. pose proof (B S) as B'. cbn [mapc map] in B'. cbv [mcache mres] in B' |- *. rewrite B'. reflexivity.
Qed.

(** ** Histories *)
Definition prefix (m m' : mgr P) : Prop := exists l, m_heap m' = m_heap m ++ l.
Lemma grow_prefix m m' : grow m m' -> prefix m m'.
Proof. intros (_ & A & _). exact A. Qed.
Theorem step_transfer m o m1 : step m o = Ok m1 -> prefix m m1 /\ (sep (m_heap m1) -> step (mapm m) (mapo f o) = Ok (mapm m1)).
Proof.
  intros E. destruct o as [v fl pt pf|l fl|ps ss ws fl|p fl|tg i fl|hs ud tg r fl|a b fl|used|flags]; cbn [step mapo] in E |- *.
  - bk E as [i m2] E1. injection E as <-. destruct (sim_top _ _ _ _ _ _ _ E1) as [G B]. split; [apply grow_prefix; auto|]. intros S. rewrite B by auto. reflexivity.
  - bk E as [i m2] E1. injection E as <-. destruct (sim_literal _ _ _ _ _ E1) as [G B]. split; [apply grow_prefix; auto|]. intros S. rewrite B by auto. reflexivity.
  - bk E as [i m2] E1. injection E as <-. destruct (sim_Conformed _ _ _ _ _ _ _ E1) as [G B]. split; [apply grow_prefix; auto|]. intros S. rewrite B by auto. reflexivity.
  - bk E as [i m2] E1. injection E as <-. destruct (sim_GetTrueNode _ _ _ _ _ E1) as [G B]. split; [apply grow_prefix; auto|]. intros S. rewrite B by auto. reflexivity.
  - bk E as [j m2] E1. injection E as <-. destruct (sim_Normalize _ _ _ _ _ _ E1) as [G B]. split; [apply grow_prefix; auto|]. intros S. rewrite B by auto. reflexivity.
  - bk E as [[j u] m2] E1. injection E as <-. destruct (sim_Load _ _ _ _ _ _ _ _ E1) as [G B]. split; [apply grow_prefix; auto|]. intros S. rewrite B by auto. reflexivity.
  - bk E as [r m2] E1. injection E as <-. destruct (sim_Multiply _ _ _ _ _ _ E1) as [G B]. split; [apply grow_prefix; auto|]. intros S. rewrite B by auto. reflexivity.
  - unfold DeleteUnusedPsddNodes in E |- *. bk E as c Ec. injection E as <-. split; [exists []; rewrite app_nil_r; reflexivity|]. intros S.
    cbn [TransferProofs.mapm m_heap]. rewrite covered_map, Ec. reflexivity.
  - injection E as <-. split; [exists []; rewrite app_nil_r; reflexivity|]. intros S. unfold DeletePsddNodesWithoutFlagIndexes, TransferProofs.mapm. simpl.
    do 2 f_equal. apply filter_ext. intros i. rewrite maph_nth. destruct (nth_error (m_heap m) i); reflexivity.
Qed.
Lemma prefix_incl m m' : prefix m m' -> incl (m_heap m) (m_heap m').
Proof. intros (l & ->). apply incl_appl, incl_refl. Qed.
Theorem runs_transfer ops : forall m m1, runs m ops = Ok m1 -> prefix m m1 /\ (sep (m_heap m1) -> runs (mapm m) (map (mapo f) ops) = Ok (mapm m1)).
Proof.
  unfold runs. induction ops as [|o ops IH]; intros m m1 E; cbn [foldM map] in E |- *.
  - injection E as <-. split; [exists []; rewrite app_nil_r; reflexivity|reflexivity].
  - bk E as m2 E1. destruct (step_transfer _ _ _ E1) as [G1 B1]. destruct (IH _ _ E) as [G2 B2]. split.
    + destruct G1 as [l1 G1], G2 as [l2 G2]. exists (l1 ++ l2). rewrite G2, G1, app_assoc. reflexivity.
    + intros S. rewrite B1; [cbn [bind]; auto|]. eapply sep_sub; [apply prefix_incl; eauto|auto].
Qed.

End Transfer.
