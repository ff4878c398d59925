(** GetMarginals with rounded arithmetic (C61). *)
From Coq Require Import Reals Lra Psatz.
From Verif Require Import Base Param ParamProofs Vtree VtreeProofs Spec SpecProofs Heap Manager HeapProofs SerProofs RepProofs LoadProofs
  MulProofs TreeProofs Query QueryProofs MpeProofs SampleProofs Round RoundProofs RoundEval.
Local Open Scope R_scope.

(** parameters of every node sum to one up to a factor [exp dl] *)
Definition norm_near (dl : R) : ptree -> Prop :=
  all_nodes (fun t => match t with TLit _ => True | TTop _ a b => close dl (a + b) 1 | TDec es => close dl (rsum (@tw) es) 1 end).
Lemma norm_near_tops dl t : norm_near dl t -> tops_near dl t.
Proof.
  unfold norm_near, tops_near. induction t as [l|v a b|es IH] using ptree_ind2; intros H; auto.
  apply all_nodes_dec in H as [_ H]. apply all_nodes_dec. split; auto. rewrite Forall_forall in *. intros e He. destruct (H e He), (IH e He). auto.
Qed.
Lemma normalized_near dl t : 0 <= dl -> normalized t -> norm_near dl t.
Proof.
  intros D. unfold normalized, norm_near. induction t as [l|v a b|es IH] using ptree_ind2; intros H; auto.
  - simpl in *. destruct H as [-> _]. split; auto. apply close_refl; lra.
  - apply all_nodes_dec in H as [H0 H]. apply all_nodes_dec. split.
    + rewrite H0. apply close_refl; lra.
    + rewrite Forall_forall in *. intros e He. destruct (H e He), (IH e He). auto.
Qed.
Lemma close_rsum {A} c (f g : A -> R) l : 0 <= c -> (forall a, In a l -> close c (f a) (g a)) -> close c (rsum f l) (rsum g l).
Proof.
  intros C. induction l as [|a l IH]; intros H; [apply close_refl; simpl; lra|]. rewrite !rsum_cons. apply close_add; [apply H; left; auto|apply IH; intros; apply H; right; auto].
Qed.
Lemma vsize_pos s : (1 <= vsize s)%nat.
Proof. destruct s; simpl; lia. Qed.
Lemma vdl n m dl : 0 <= dl -> (n <= m)%nat -> INR n * dl <= INR m * dl.
Proof. intros D H. apply Rmult_le_compat_r; auto. apply le_INR; auto. Qed.
Lemma tmarg_nonneg v s t : nonneg t -> 0 <= tmarg v s t.
Proof.
  induction t as [l|w a b|es IH] using ptree_ind2; intros N; simpl.
  - destruct (_ && _); lra.
  - unfold nonneg in N. simpl in N. destruct N as [[A B] _]. destruct (N.eqb w v), s; lra.
  - apply rsum_nonneg. intros e He. destruct (nonneg_elem es e N He) as (N1 & N2 & N3). rewrite Forall_forall in IH. destruct (IH e He) as [I1 I2].
    apply Rmult_le_pos; [|exact N3]. apply Rplus_le_le_0_compat; auto.
Qed.
Lemma close_scal_l e x y w : 0 <= w -> close e x y -> close e (w * x) (w * y).
Proof. intros W H. rewrite !(Rmult_comm w). apply close_mul_r; auto. Qed.
(** the two marginals of a variable add up to one *)
Lemma tmarg_near vt dl : 0 <= dl -> NoDup (leaves vt) -> forall t v, conforms vt t -> nonneg t -> norm_near dl t -> In v (leaves vt) ->
  close (INR (vsize vt) * dl) (tmarg v true t + tmarg v false t) 1.
Proof.
  intros D. induction vt as [w|a IHa b IHb]; intros ND t v C N T I; destruct t as [l|w' p q|es]; simpl in C; try contradiction.
  - subst w. destruct I as [<-|[]]. simpl. rewrite N.eqb_refl. simpl. destruct (Z.ltb 0 l); simpl; (eapply close_weaken; [| | |apply (close_refl 0); lra]; lra) || (split; pose proof (exp_ineq1_le (1 * dl)); lra).
  - subst w'. destruct I as [<-|[]]. simpl. rewrite N.eqb_refl, Rmult_1_l. unfold norm_near in T. simpl in T. apply T.
  - pose proof (fun e He => nonneg_elem es e N He) as NE.
    apply conforms_dec in C as [_ C]. rewrite Forall_forall in C. apply all_nodes_dec in T as [T0 T]. rewrite Forall_forall in T.
    simpl in ND. destruct (leaves_disjoint a b ND) as (NDa & NDb & DJ). cbn [tmarg].
    assert (0 <= INR (vsize a) * dl) as Pa by (apply Rmult_le_pos; auto; apply pos_INR). assert (0 <= INR (vsize b) * dl) as Pb by (apply Rmult_le_pos; auto; apply pos_INR).
    replace (INR (vsize (VNode a b)) * dl) with (INR (vsize a) * dl + INR (vsize b) * dl + dl) by (cbn [vsize]; rewrite !plus_INR; change (INR 1) with 1; ring).
    eapply close_trans; [|exact T0].
    rewrite <- rsum_plus. apply close_rsum; [lra|]. intros e He. destruct (C e He) as [C1 C2], (T e He) as [T1 T2], (NE e He) as (N1 & N2 & N3). fold (tp e) (ts e) (tw e).
    assert (close (INR (vsize a) * dl + INR (vsize b) * dl) (tmarg v true (tp e) + tmarg v true (ts e) + (tmarg v false (tp e) + tmarg v false (ts e))) 1) as K.
    { pose proof (tmarg_nonneg v true _ N1). pose proof (tmarg_nonneg v true _ N2). pose proof (tmarg_nonneg v false _ N1). pose proof (tmarg_nonneg v false _ N2).
      simpl in I. apply in_app_iff in I as [I|I].
      - rewrite !(tmarg_out b _ v _ C2 (DJ v I)). rewrite !Rplus_0_r. eapply close_weaken; [| | |apply (IHa NDa _ v C1 N1 T1 I)]; lra.
      - assert (~ In v (leaves a)) as NI by (intros G; eapply DJ; eauto). rewrite !(tmarg_out a _ v _ C1 NI). rewrite !Rplus_0_l.
        eapply close_weaken; [| | |apply (IHb NDb _ v C2 N2 T2 I)]; lra. }
    replace ((tmarg v true (tp e) + tmarg v true (ts e)) * tw e + (tmarg v false (tp e) + tmarg v false (ts e)) * tw e) with
      (tw e * (tmarg v true (tp e) + tmarg v true (ts e) + (tmarg v false (tp e) + tmarg v false (ts e)))) by ring.
    rewrite <- (Rmult_1_r (tw e)) at 2. apply close_scal_l; auto.
Qed.
Lemma tev_out_near vt dl : 0 <= dl -> forall t mask x, conforms vt t -> nonneg t -> norm_near dl t -> (forall v, In v (leaves vt) -> mask v = false) ->
  close (INR (vsize vt) * dl) (tev mask x t) 1.
Proof.
  intros D. induction vt as [w|a IHa b IHb]; intros t mask x C N T M; destruct t as [l|w' p q|es]; simpl in C; try contradiction.
  - subst. simpl. rewrite M by (left; auto). rewrite Rmult_1_l. apply close_refl; lra.
  - subst. simpl. rewrite M by (left; auto). rewrite Rmult_1_l. apply close_refl; lra.
  - pose proof (fun e He => nonneg_elem es e N He) as NE.
    destruct C as [_ C]. rewrite Forall_forall in C. apply all_nodes_dec in T as [T0 T]. rewrite Forall_forall in T. cbn [tev].
    assert (0 <= INR (vsize a) * dl) as Pa by (apply Rmult_le_pos; auto; apply pos_INR). assert (0 <= INR (vsize b) * dl) as Pb by (apply Rmult_le_pos; auto; apply pos_INR).
    replace (INR (vsize (VNode a b)) * dl) with (INR (vsize a) * dl + INR (vsize b) * dl + dl) by (cbn [vsize]; rewrite !plus_INR; change (INR 1) with 1; ring).
    eapply close_trans; [|exact T0].
    apply close_rsum; [lra|]. intros e He. destruct (C e He) as [C1 C2], (T e He) as [T1 T2], (NE e He) as (N1 & N2 & N3). fold (tp e) (ts e) (tw e).
    rewrite <- (Rmult_1_l (tw e)) at 2. apply close_mul_r; auto. rewrite <- (Rmult_1_r 1).
    apply close_mul; try lra; try (eapply range_nonneg; apply tev_range; auto).
    + apply (IHa _ mask x C1 N1 T1). intros; apply M; simpl; apply in_app_iff; auto.
    + apply (IHb _ mask x C2 N2 T2). intros; apply M; simpl; apply in_app_iff; auto.
Qed.
Lemma tmarg_tev_near vt dl : 0 <= dl -> NoDup (leaves vt) -> forall t v s, conforms vt t -> nonneg t -> norm_near dl t -> In v (leaves vt) ->
  close (INR (vsize vt) * dl) (tmarg v s t) (tev (only v) (fun _ => s) t).
Proof.
  intros D. induction vt as [w|a IHa b IHb]; intros ND t v s C N T I.
  - assert (tmarg v s t = tev (only v) (fun _ => s) t) as ->.
    { destruct t as [l|w' p q|es]; simpl in C; try contradiction; subst; destruct I as [<-|[]]; simpl; unfold only, lit_sat; rewrite N.eqb_refl; simpl; auto. destruct s, (Z.ltb 0 l); reflexivity. }
    apply close_refl; [simpl; lra|]. eapply range_nonneg, tev_range; auto.
  - destruct t as [l|w' p q|es]; simpl in C; try contradiction. pose proof (fun e He => nonneg_elem es e N He) as NE.
    destruct C as [_ C]. rewrite Forall_forall in C. apply all_nodes_dec in T as [T0 T]. rewrite Forall_forall in T.
    simpl in ND. destruct (leaves_disjoint a b ND) as (NDa & NDb & DJ). cbn [tmarg tev].
    assert (0 <= INR (vsize a) * dl) as Pa by (apply Rmult_le_pos; auto; apply pos_INR). assert (0 <= INR (vsize b) * dl) as Pb by (apply Rmult_le_pos; auto; apply pos_INR).
    replace (INR (vsize (VNode a b)) * dl) with (INR (vsize a) * dl + INR (vsize b) * dl + dl) by (cbn [vsize]; rewrite !plus_INR; change (INR 1) with 1; ring).
    apply close_rsum; [lra|]. intros e He. destruct (C e He) as [C1 C2], (T e He) as [T1 T2], (NE e He) as (N1 & N2 & N3). fold (tp e) (ts e) (tw e).
    apply close_mul_r; auto.
    pose proof (tmarg_nonneg v s _ N1). pose proof (tmarg_nonneg v s _ N2).
    pose proof (range_nonneg _ _ (tev_range (only v) (fun _ => s) _ N1)). pose proof (range_nonneg _ _ (tev_range (only v) (fun _ => s) _ N2)).
    simpl in I. apply in_app_iff in I as [I|I].
    + rewrite (tmarg_out b _ v s C2 (DJ v I)). replace (tmarg v s (tp e) + 0) with (tmarg v s (tp e) * 1) by ring.
      eapply close_weaken; [| | |apply close_mul; [| | | |apply (IHa NDa _ v s C1 N1 T1 I)|apply close_sym, (tev_out_near b dl D _ (only v) (fun _ => s) C2 N2 T2)]]; auto; try lra; try nra.
      intros w Hw. unfold only. apply N.eqb_neq. intros ->. eapply DJ; eauto.
    + assert (~ In v (leaves a)) as NI by (intros G; eapply DJ; eauto). rewrite (tmarg_out a _ v s C1 NI). replace (0 + tmarg v s (ts e)) with (1 * tmarg v s (ts e)) by ring.
      eapply close_weaken; [| | |apply close_mul; [| | | |apply close_sym, (tev_out_near a dl D _ (only v) (fun _ => s) C1 N1 T1)|apply (IHb NDb _ v s C2 N2 T2 I)]]; auto; try lra; try nra.
      intros w Hw. unfold only. apply N.eqb_neq. intros ->. tauto.
Qed.

Section RMarg.
Context {P : pops} (val : P -> R) (B e d : R) (HP : pround P val B e d).
Notation heap := (heap P). Notation mgr := (mgr P). Notation node := (node P).
Notation Rep := (Rep val).
Lemma accumulate (a x w : P) l u : (val a = 0 \/ exp (- l) <= val a) -> (val x * val w = 0 \/ exp (- l) <= val x * val w) -> val a + val x * val w <= exp u ->
  range B (val x) -> range B (val w) -> 0 <= l -> 0 <= u -> l + 2 * e <= B -> u + 2 * e <= B ->
  close (2 * e) (val a + val x * val w) (val (padd a (pmul x w))) /\ (val (padd a (pmul x w)) = 0 \/ exp (- (l + 2 * e)) <= val (padd a (pmul x w))).
Proof.
  intros La Lx U Rx Rw Hl Hu Bl Bu. pose proof (rd_e HP) as E0. pose proof (rd_nonneg HP) as V0. pose proof (V0 a) as A0. pose proof (V0 x) as X0. pose proof (V0 w) as W0.
  assert (0 <= val x * val w) as XW by (apply Rmult_le_pos; auto).
  assert (exp (- B) <= exp (- l)) as M1 by (apply exp_mono; lra). assert (exp u <= exp B) as M2 by (apply exp_mono; lra).
  assert (range B (val a)) as Ra by (destruct La; [left; auto|right; split; lra]).
  assert (range B (val x * val w)) as Rxw by (destruct Lx; [left; auto|right; split; lra]).
  pose proof (rd_mul HP x w Rx Rw Rxw) as C1. set (y := val (pmul x w)) in *. pose proof (V0 (pmul x w)) as Y0. fold y in Y0.
  assert (close e (val a + val x * val w) (val a + y)) as C2 by (apply close_add; auto; apply close_refl; auto).
  assert (val a + y <= exp (u + e)) as U2. { rewrite (Rplus_comm u), exp_plus. destruct C2 as [C2 _]. eapply Rle_trans; [exact C2|]. apply Rmult_le_compat_l; [left; apply exp_pos|auto]. }
  assert (exp (u + e) <= exp B) as M3 by (apply exp_mono; lra).
  assert (y = 0 \/ exp (- (l + e)) <= y) as Ly.
  { destruct Lx as [Lx|Lx]; [left|right].
    - destruct C1 as [C1 _]. rewrite Lx, Rmult_0_r in C1. lra.
    - destruct C1 as [_ C1]. apply Rmult_le_reg_l with (exp e); [apply exp_pos|]. rewrite <- exp_plus. replace (e + - (l + e)) with (- l) by ring. lra. }
  assert (exp (- B) <= exp (- (l + e))) as M4 by (apply exp_mono; lra). assert (exp (- (l + e)) <= exp (- l)) as M5 by (apply exp_mono; lra).
  assert (val a + y = 0 \/ exp (- (l + e)) <= val a + y) as Ls.
  { destruct Ly as [Ly|Ly]; [|right; lra]. rewrite Ly, Rplus_0_r. destruct La; [left; auto|right; lra]. }
  assert (close e (val a + y) (val (padd a (pmul x w)))) as C3.
  { apply (rd_add HP); fold y; auto; [destruct Ly; [left; auto|right; split; lra]|destruct Ls; [left; auto|right; split; lra]]. }
  replace (2 * e) with (e + e) by ring. split; [eapply close_trans; eauto|].
  destruct Ls as [Ls|Ls]; [left|right].
  - destruct C3 as [C3 _]. rewrite Ls, Rmult_0_r in C3. pose proof (V0 (padd a (pmul x w))). lra.
  - destruct C3 as [_ C3]. apply Rmult_le_reg_l with (exp e); [apply exp_pos|]. rewrite <- exp_plus. replace (e + - (l + (e + e))) with (- (l + e)) by ring. lra.
Qed.
Lemma accumulate1 (a x : P) l u : (val a = 0 \/ exp (- l) <= val a) -> (val x = 0 \/ exp (- l) <= val x) -> val a + val x <= exp u ->
  0 <= l -> 0 <= u -> l + e <= B -> u + e <= B ->
  close e (val a + val x) (val (padd a x)) /\ (val (padd a x) = 0 \/ exp (- (l + e)) <= val (padd a x)).
Proof.
  intros La Lx U Hl Hu Bl Bu. pose proof (rd_e HP) as E0. pose proof (rd_nonneg HP) as V0. pose proof (V0 a) as A0. pose proof (V0 x) as X0.
  assert (exp (- B) <= exp (- l)) as M1 by (apply exp_mono; lra). assert (exp u <= exp B) as M2 by (apply exp_mono; lra).
  assert (range B (val a)) as Ra by (destruct La; [left; auto|right; split; lra]).
  assert (range B (val x)) as Rx by (destruct Lx; [left; auto|right; split; lra]).
  assert (val a + val x = 0 \/ exp (- l) <= val a + val x) as Ls by (destruct La as [La|La]; [destruct Lx; [left|right]; lra|right; lra]).
  assert (close e (val a + val x) (val (padd a x))) as C3. { apply (rd_add HP); auto. destruct Ls; [left; auto|right; split; lra]. }
  split; auto. destruct Ls as [Ls|Ls]; [left|right].
  - destruct C3 as [C3 _]. rewrite Ls, Rmult_0_r in C3. pose proof (V0 (padd a x)). lra.
  - destruct C3 as [_ C3]. apply Rmult_le_reg_l with (exp e); [apply exp_pos|]. rewrite <- exp_plus. replace (e + - (l + e)) with (- l) by ring. lra.
Qed.
Context (vroot : vtree) (h : heap) (HO : heap_ok vroot h) (root : nat) (L : list nat) (SO : ser_of h root L).
Context (T : nat -> ptree) (HT : forall i, (i < length h)%nat -> Rep h i (T i)).
Context (c0 : R) (C0 : 0 <= c0).
Context (HS : forall j, In j L -> exists v, close c0 (tmarg v true (T j) + tmarg v false (T j)) 1).
Context (HV : forall v, tmarg v true (T root) + tmarg v false (T root) <= exp c0).
Context (HN : forall j, In j L -> nonneg (T j) /\ mag (T j) <= mag (T root)).
Notation dval := (dval val). Notation mass := (fun v s => mass val L v T s). Notation got := (fun v s => got val v s).
Definition low (l : R) (k : nat) (r : R) : Prop := r = 0 \/ exp (- (l + INR k * e)) <= r.
Lemma low_weaken l k l' k' r : l <= l' -> (k <= k')%nat -> low l k r -> low l' k' r.
Proof. intros H1 H2 [H|H]; [left; auto|right]. eapply Rle_trans; [apply exp_mono|exact H]. pose proof (ke_le val B e d HP k k' H2). lra. Qed.
Lemma dval_nonneg ds p : 0 <= dval ds p.
Proof. unfold MpeProofs.dval. destruct (nth_error ds p); [apply (rd_nonneg HP)|lra]. Qed.
Lemma tm_nonneg v s p : 0 <= match nth_error L p with Some i => tmarg v s (T i) | None => 0 end.
Proof. destruct (nth_error L p) eqn:E; [|lra]. apply tmarg_nonneg, HN. eapply nth_error_In; eauto. Qed.
Lemma mass_nonneg v s ds ps : 0 <= mass v s ds ps.
Proof. unfold MpeProofs.mass. apply rsum_nonneg. intros p _. apply Rmult_le_pos; [apply dval_nonneg|apply tm_nonneg]. Qed.
Lemma mass_ge v s ds ps p c : NoDup ps -> In p ps -> nth_error L p = Some c -> dval ds p * tmarg v s (T c) <= mass v s ds ps.
Proof.
  intros ND I E. unfold MpeProofs.mass. apply in_split in I as (p1 & p2 & ->). rewrite rsum_app, rsum_cons, E.
  assert (forall l, 0 <= rsum (fun p => dval ds p * match nth_error L p with Some i => tmarg v s (T i) | None => 0 end) l) as K.
  { intros l. apply rsum_nonneg. intros q _. apply Rmult_le_pos; [apply dval_nonneg|apply tm_nonneg]. }
  pose proof (K p1). pose proof (K p2). lra.
Qed.
Lemma got_nonneg v s mg : 0 <= got v s mg.
Proof. unfold MpeProofs.got. destruct (mg v) as [[f t]|]; [|lra]. destruct s; apply (rd_nonneg HP). Qed.
(** a value that reaches node [c] is at most the whole *)
Lemma cap k r c (X : N -> bool -> R) : In c L -> 0 <= r -> (forall v s, close (INR k * e) (tmarg v s (T root)) (X v s)) -> (forall v s, r * tmarg v s (T c) <= X v s) ->
  r <= exp (INR k * e + 2 * c0).
Proof.
  intros Ic R0 HX HR. destruct (HS c Ic) as [v [H _]]. pose proof (HV v) as HVv. destruct (HX v true) as [X1 _]. destruct (HX v false) as [X2 _].
  pose proof (HR v true). pose proof (HR v false).
  set (S := tmarg v true (T c) + tmarg v false (T c)) in *. set (S0 := tmarg v true (T root) + tmarg v false (T root)) in *.
  assert (r * S <= exp (INR k * e) * S0) as K by (unfold S, S0; lra). pose proof (exp_pos (INR k * e)). pose proof (exp_pos c0).
  assert (1 <= exp c0 * S) as K1 by exact H.
  replace (2 * c0) with (c0 + c0) by ring. rewrite !exp_plus.
  apply Rle_trans with (exp c0 * (r * S)); [nra|]. apply Rle_trans with (exp c0 * (exp (INR k * e) * exp c0)); [|right; ring].
  apply Rmult_le_compat_l; [lra|]. eapply Rle_trans; [exact K|]. apply Rmult_le_compat_l; lra.
Qed.
Lemma rpush k dd w ds c p ps i (X : N -> bool -> R) : nth_error L p = Some c -> NoDup ps -> In p ps -> length ds = length L ->
  (forall v s, 0 <= X v s) -> (forall v s, close (INR k * e) (tmarg v s (T root)) (X v s + mass v s ds ps + val dd * val w * tmarg v s (T c))) ->
  (forall q j, In q ps -> nth_error L q = Some j -> low (mag (T root) - mag (T j)) k (dval ds q)) ->
  low (mag (T root) - mag (T i)) k (val dd) -> lg (val w) + mag (T c) <= mag (T i) -> In i L -> range B (val dd) -> range B (val w) ->
  mag (T root) + INR (k + 2) * e + 2 * c0 <= B ->
  exists ds', marg_push (marg_index L) dd w ds c = Ok ds' /\ length ds' = length L /\
    (forall v s, close (INR (k + 2) * e) (tmarg v s (T root)) (X v s + mass v s ds' ps)) /\
    (forall q j, In q ps -> nth_error L q = Some j -> low (mag (T root) - mag (T j)) (k + 2) (dval ds' q)).
Proof.
  intros Ep ND Ip HL X0 HX LO Ld LG Ii Rd Rw HB. pose proof (rd_e HP) as E0. pose proof (rd_nonneg HP) as V0. pose proof (ke_nonneg val B e d HP k) as K0.
  unfold marg_push. rewrite (marg_index_spec h root L SO _ _ Ep). cbn [get bind].
  assert (p < length ds)%nat as Hp by (rewrite HL; apply nth_error_Some; congruence).
  destruct (nth_error ds p) as [old|] eqn:Eo; [|apply nth_error_None in Eo; lia]. cbn [get bind].
  assert (dval ds p = val old) as DO by (unfold MpeProofs.dval; rewrite Eo; auto).
  pose proof (nth_error_In _ _ Ep) as Ic. destruct (HN c Ic) as [Nc Mc]. destruct (HN i Ii) as [Ni Mi]. pose proof (mag_nonneg (T c)) as Gc.
  rewrite (ke_plus e) in HB. change (INR 2) with 2 in HB.
  assert (0 <= val dd * val w) as DW by (apply Rmult_le_pos; auto).
  destruct (accumulate old dd w (mag (T root) - mag (T c) + INR k * e) (INR k * e + 2 * c0)) as [CL LW]; auto; try lra.
  { rewrite <- DO. apply (LO p c Ip Ep). }
  { destruct Ld as [Ld|Ld]; [left; rewrite Ld; ring|]. pose proof (range_lg (val w) (V0 w)) as [Rl|[Rl _]]; [left; rewrite Rl; ring|right].
    replace (- (mag (T root) - mag (T c) + INR k * e)) with (- (mag (T root) - mag (T i) + INR k * e) + (mag (T c) - mag (T i))) by ring. rewrite exp_plus.
    apply Rmult_le_compat; auto; try (left; apply exp_pos). eapply Rle_trans; [apply exp_mono|exact Rl]. lra. }
  { apply (cap k _ c (fun v s => X v s + mass v s ds ps + val dd * val w * tmarg v s (T c)) Ic); auto; [pose proof (V0 old); lra|].
    intros v s. rewrite <- DO. pose proof (mass_ge v s ds ps p c ND Ip Ep). specialize (X0 v s). lra. }
  set (new := padd old (pmul dd w)) in *.
  eexists. split; [reflexivity|]. split; [rewrite upd_nth_length; auto|]. split.
  - intros v s. rewrite (ke_plus e). change (INR 2) with 2. eapply close_trans; [apply (HX v s)|].
    rewrite (mass_upd val L v T s ds p new ps ND Hp Ip), Ep, DO.
    pose proof (mass_ge v s ds ps p c ND Ip Ep) as MG. rewrite DO in MG. pose proof (tmarg_nonneg v s _ Nc) as TN. specialize (X0 v s).
    replace (X v s + mass v s ds ps + val dd * val w * tmarg v s (T c)) with ((X v s + (mass v s ds ps - val old * tmarg v s (T c))) + (val old + val dd * val w) * tmarg v s (T c)) by ring.
    replace (X v s + (mass v s ds ps + (val new - val old) * tmarg v s (T c))) with ((X v s + (mass v s ds ps - val old * tmarg v s (T c))) + val new * tmarg v s (T c)) by ring.
    apply close_add; [apply close_refl; lra|apply close_mul_r; auto].
  - intros q j Iq Eq. unfold MpeProofs.dval. rewrite nth_upd_nth by auto. destruct (Nat.eqb q p) eqn:Q.
    + apply Nat.eqb_eq in Q. subst q. rewrite Ep in Eq. injection Eq as <-. unfold low. rewrite (ke_plus e). change (INR 2) with 2.
      replace (mag (T root) - mag (T c) + (INR k * e + 2 * e)) with (mag (T root) - mag (T c) + INR k * e + 2 * e) by ring. exact LW.
    + eapply low_weaken; [right; reflexivity| |apply (LO q j Iq Eq)]. lia.
Qed.
Lemma relems dd ps i : NoDup ps -> In i L -> range B (val dd) -> forall es ds k (X : N -> bool -> R), length ds = length L ->
  (forall g, In g es -> (exists p, nth_error L p = Some (e_prime g) /\ In p ps) /\ (exists p, nth_error L p = Some (e_sub g) /\ In p ps) /\
     range B (val (e_param g)) /\ lg (val (e_param g)) + mag (T (e_prime g)) <= mag (T i) /\ lg (val (e_param g)) + mag (T (e_sub g)) <= mag (T i)) ->
  (forall v s, 0 <= X v s) ->
  (forall v s, close (INR k * e) (tmarg v s (T root)) (X v s + mass v s ds ps + val dd * rsum (fun g => (tmarg v s (T (e_prime g)) + tmarg v s (T (e_sub g))) * val (e_param g)) es)) ->
  (forall q j, In q ps -> nth_error L q = Some j -> low (mag (T root) - mag (T j)) k (dval ds q)) -> low (mag (T root) - mag (T i)) k (val dd) ->
  mag (T root) + INR (k + 4 * length es) * e + 2 * c0 <= B ->
  exists ds', foldM (fun ds g => do ds1 <- marg_push (marg_index L) dd (e_param g) ds (e_prime g) ;; marg_push (marg_index L) dd (e_param g) ds1 (e_sub g)) es ds = Ok ds' /\
    length ds' = length L /\ (forall v s, close (INR (k + 4 * length es) * e) (tmarg v s (T root)) (X v s + mass v s ds' ps)) /\
    (forall q j, In q ps -> nth_error L q = Some j -> low (mag (T root) - mag (T j)) (k + 4 * length es) (dval ds' q)).
Proof.
  intros ND Ii Rd. pose proof (rd_nonneg HP) as V0. pose proof (V0 dd) as D0. induction es as [|g es IH]; intros ds k X HL HE X0 HX LO Ld HB.
  - exists ds. split; auto. split; auto. cbn [length]. rewrite Nat.mul_0_r, Nat.add_0_r. split; auto. intros v s. specialize (HX v s). simpl in HX. rewrite Rmult_0_r, Rplus_0_r in HX. exact HX.
  - destruct (HE g (or_introl eq_refl)) as ((p & Ep & Ip) & (p' & Ep' & Ip') & Rg & M1 & M2). cbn [foldM].
    pose proof (V0 (e_param g)) as W0.
    assert (forall v s l, incl l (g :: es) -> 0 <= rsum (fun g => (tmarg v s (T (e_prime g)) + tmarg v s (T (e_sub g))) * val (e_param g)) l) as RN.
    { intros v s l Il. apply rsum_nonneg. intros g' Hg'. destruct (HE g' (Il _ Hg')) as ((q & Eq & _) & (q' & Eq' & _) & _). apply Rmult_le_pos; auto.
      apply Rplus_le_le_0_compat; apply tmarg_nonneg, HN; eapply nth_error_In; eauto. }
    assert (0 <= val dd * val (e_param g)) as DW by (apply Rmult_le_pos; auto).
    assert (forall j v s, In j L -> 0 <= tmarg v s (T j)) as TN by (intros j v s Hj; apply tmarg_nonneg, HN; auto).
    pose proof (nth_error_In _ _ Ep) as Jp. pose proof (nth_error_In _ _ Ep') as Js.
    cbn [length] in HB. pose proof (ke_le val B e d HP (k + 2) (k + 4 * S (length es))) as KE1. pose proof (ke_le val B e d HP (k + 2 + 2) (k + 4 * S (length es))) as KE2.
    destruct (rpush k dd (e_param g) ds (e_prime g) p ps i (fun v s => X v s + val dd * val (e_param g) * tmarg v s (T (e_sub g)) + val dd * rsum (fun g => (tmarg v s (T (e_prime g)) + tmarg v s (T (e_sub g))) * val (e_param g)) es))
      as (ds1 & E1 & L1 & C1 & O1); auto.
    { intros v s. specialize (X0 v s). pose proof (RN v s es (fun a Ha => or_intror Ha)). pose proof (TN _ v s Js). 
      assert (0 <= val dd * val (e_param g) * tmarg v s (T (e_sub g))) by (apply Rmult_le_pos; auto). assert (0 <= val dd * rsum (fun g => (tmarg v s (T (e_prime g)) + tmarg v s (T (e_sub g))) * val (e_param g)) es) by (apply Rmult_le_pos; auto). lra. }
    { intros v s. specialize (HX v s). rewrite rsum_cons in HX. match goal with |- close _ _ ?r => match type of HX with close _ _ ?l => replace r with l by ring end end. exact HX. }
    { specialize (KE1 ltac:(lia)). lra. }
    rewrite E1. cbn [bind].
    destruct (rpush (k + 2) dd (e_param g) ds1 (e_sub g) p' ps i (fun v s => X v s + val dd * rsum (fun g => (tmarg v s (T (e_prime g)) + tmarg v s (T (e_sub g))) * val (e_param g)) es))
      as (ds2 & E2 & L2 & C2 & O2); auto.
    { intros v s. specialize (X0 v s). pose proof (RN v s es (fun a Ha => or_intror Ha)).
      assert (0 <= val dd * rsum (fun g => (tmarg v s (T (e_prime g)) + tmarg v s (T (e_sub g))) * val (e_param g)) es) by (apply Rmult_le_pos; auto). lra. }
    { intros v s. specialize (C1 v s). cbn beta in C1. match goal with |- close _ _ ?r => match type of C1 with close _ _ ?l => replace r with l by ring end end. exact C1. }
    { eapply low_weaken; [right; reflexivity| |exact Ld]. lia. }
    { specialize (KE2 ltac:(lia)). lra. }
    rewrite E2. cbn [bind].
    destruct (IH ds2 (k + 2 + 2)%nat X L2) as (ds' & E' & L' & C' & O'); auto.
    { intros g' Hg'. apply HE. right; auto. }
    { intros v s. specialize (C2 v s). cbn beta in C2. match goal with |- close _ _ ?r => match type of C2 with close _ _ ?l => replace r with l by ring end end. exact C2. }
    { eapply low_weaken; [right; reflexivity| |exact Ld]. lia. }
    { replace (k + 2 + 2 + 4 * length es)%nat with (k + 4 * S (length es))%nat by lia. exact HB. }
    exists ds'. split; auto. split; auto. cbn [length]. replace (k + 4 * S (length es))%nat with (k + 2 + 2 + 4 * length es)%nat by lia. auto.
Qed.
Definition wk (i : nat) : nat := match option_map (@n_body P) (nth_error h i) with Some (BDec es) => (4 * length es)%nat | _ => 2%nat end.
Definition work (l : list nat) : nat := fold_right (fun i n => (wk i + n)%nat) 0%nat l.
Lemma work_app l1 l2 : work (l1 ++ l2) = (work l1 + work l2)%nat.
Proof. induction l1; simpl; lia. Qed.
Definition leaf_of (v : N) (i : nat) : Prop := match option_map (@n_body P) (nth_error h i) with Some (BLit l) => lit_var l = v | Some (BTop w _ _) => w = v | _ => False end.
Lemma rmarg_fold : mag (T root) + INR (work L) * e + 2 * c0 <= B ->
  exists ds mg, foldM (marg_step h (marg_index L)) L (pone :: map (fun _ => pzero) (tl L), fun _ => None) = Ok (ds, mg) /\
    (forall v s, close (INR (work L) * e) (tmarg v s (T root)) (got v s mg)) /\
    (forall v f t, mg v = Some (f, t) -> low (mag (T root)) (work L) (val f) /\ low (mag (T root)) (work L) (val t)) /\
    (forall v, mg v = None <-> forall i, In i L -> ~ leaf_of v i).
Proof.
  intros HB. pose proof (rd_e HP) as E0. pose proof (rd_nonneg HP) as V0. pose proof (ke_nonneg val B e d HP) as K0.
  pose (init := (@pone P :: map (fun _ => pzero) (tl L), fun _ : N => @None (P * P))).
  destruct (so_head _ _ _ SO) as [l0 El0]. assert (In root L) as Ir by (eapply root_in; eauto).
  destruct (top_down (marg_step h (marg_index L)) (fun L1 st => let '(ds, mg) := st in let ps := seq (length L1) (length L - length L1) in
     length ds = length L /\
     (forall v s, close (INR (work L1) * e) (tmarg v s (T root)) (got v s mg + mass v s ds ps)) /\
     (forall q j, In q ps -> nth_error L q = Some j -> low (mag (T root) - mag (T j)) (work L1) (dval ds q)) /\
     (forall v f t, mg v = Some (f, t) -> low (mag (T root)) (work L1) (val f) /\ low (mag (T root)) (work L1) (val t)) /\
     (forall v, mg v = None <-> forall i, In i L1 -> ~ leaf_of v i)) L init)
     as ([ds mg] & E & HL & HM & _ & HG & HNo).
  - intros L1 i L2 [ds mg] EL (HL & HM & HLo & HG & HNo).
    assert (nth_error L (length L1) = Some i) as Ei by (rewrite EL, nth_error_app2, Nat.sub_diag; auto).
    assert (In i L) as Ii by (eapply nth_error_In; eauto).
    assert (i < length h)%nat as Hi by (eapply ser_lt; eauto).
    pose proof (HT i Hi) as HR. destruct (HN i Ii) as [Ni Mi]. pose proof (mag_nonneg (T i)) as Gi.
    assert (exists x, nth_error ds (length L1) = Some x) as [x Ed].
    { destruct (nth_error ds (length L1)) eqn:G; eauto. apply nth_error_None in G. rewrite HL, EL, app_length in G. simpl in G. lia. }
    assert (length L - length L1 = S (length L2))%nat as ES by (rewrite EL, app_length; simpl; lia).
    assert (length L - length (L1 ++ [i]) = length L2)%nat as ES' by (rewrite EL, !app_length; simpl; lia).
    assert (length (L1 ++ [i]) = S (length L1)) as EL1 by (rewrite app_length; simpl; lia).
    rewrite ES in HM, HLo. cbn [seq] in HM, HLo. set (k := work L1) in *. set (ps := seq (S (length L1)) (length L2)) in *.
    assert (NoDup (length L1 :: ps)) as NDP by (unfold ps; change (length L1 :: seq (S (length L1)) (length L2)) with (seq (length L1) (S (length L2))); apply seq_NoDup).
    assert (NoDup ps) as NDps by (inversion NDP; auto).
    assert (dval ds (length L1) = val x) as Dd by (unfold MpeProofs.dval; rewrite Ed; auto).
    assert (low (mag (T root) - mag (T i)) k (val x)) as Lx by (rewrite <- Dd; apply HLo; [left; auto|auto]).
    assert (forall v s, mass v s ds (length L1 :: ps) = val x * tmarg v s (T i) + mass v s ds ps) as MC.
    { intros v s. unfold MpeProofs.mass at 1. rewrite rsum_cons, Ei, Dd. reflexivity. }
    assert (work (L1 ++ [i]) = k + wk i)%nat as WK by (rewrite work_app; simpl; fold k; lia).
    assert (work L = k + wk i + work L2)%nat as WL by (rewrite EL, work_app; simpl; fold k; lia).
    assert (mag (T root) + INR (k + wk i) * e + 2 * c0 <= B) as HB' by (pose proof (ke_le val B e d HP (k + wk i) (work L)); specialize (H ltac:(lia)); lra).
    assert (val x <= exp (INR k * e + 2 * c0)) as Ux.
    { apply (cap k (val x) i (fun v s => got v s mg + mass v s ds (length L1 :: ps)) Ii (V0 x) HM). intros v s. rewrite MC. pose proof (got_nonneg v s mg). pose proof (mass_nonneg v s ds ps). simpl. lra. }
    assert (INR (k + wk i) * e = INR k * e + INR (wk i) * e) as KS by apply ke_plus. pose proof (K0 (wk i)) as K1. pose proof (K0 k) as K2.
    assert (range B (val x)) as Rx. { destruct Lx as [Lx|Lx]; [left; auto|right]. split; [eapply Rle_trans; [apply exp_mono|exact Lx]|eapply Rle_trans; [exact Ux|apply exp_mono]]; lra. }
    assert (forall v s, got v s mg + (val x * tmarg v s (T i)) <= exp (INR k * e + c0)) as Ug.
    { intros v s. destruct (HM v s) as [U _]. rewrite MC in U. pose proof (mass_nonneg v s ds ps). pose proof (HV v) as HVv.
      pose proof (tmarg_nonneg v true (T root) (proj1 (HN root Ir))). pose proof (tmarg_nonneg v false (T root) (proj1 (HN root Ir))).
      assert (tmarg v s (T root) <= exp c0) as Q by (destruct s; lra). rewrite exp_plus. eapply Rle_trans; [|apply Rmult_le_compat_l; [left; apply exp_pos|exact Q]]. simpl in *. lra. }
    assert (forall v s, low (mag (T root)) k (got v s mg)) as Lg.
    { intros v s. unfold MpeProofs.got. destruct (mg v) as [[f t]|] eqn:Em; [|left; auto]. destruct (HG v f t Em). destruct s; auto. }
    rewrite ES', EL1, WK. unfold marg_step, node_of.
    destruct (nth_error h i) as [nd|] eqn:En; [|apply nth_error_None in En; lia].
    assert (forall v, (forall j, In j (L1 ++ [i]) -> ~ leaf_of v j) <-> (forall j, In j L1 -> ~ leaf_of v j) /\ ~ leaf_of v i) as LN.
    { intros v. split; [intros H; split; [intros j Hj; apply H, in_app_iff; auto|apply H, in_app_iff; right; left; auto]|].
      intros [H1 H2] j Hj. apply in_app_iff in Hj as [Hj|[<-|[]]]; auto. }
    cbn [get bind]. rewrite (marg_index_spec h root L SO _ _ Ei). cbn [get bind]. rewrite Ed. cbn [get bind].
    inversion HR as [j nd' l E1 E2 Q0 Q|j nd' w pt pf E1 E2 Q0 Q|j nd' es tes E1 E2 E3 Q0 Q]; rewrite En in E1; injection E1 as <-; rewrite E2.
    + (* literal *)
      assert (wk i = 2%nat) as W2 by (unfold wk; rewrite En; simpl; rewrite E2; auto). rewrite W2 in *. change (INR 2) with 2 in *.
      assert (forall s, tmarg (lit_var l) s (T i) = if Bool.eqb (Z.ltb 0 l) s then 1 else 0) as TV by (intros s; rewrite <- Q; cbn [tmarg]; unfold lit_var; rewrite N.eqb_refl; reflexivity).
      assert (forall v s, v <> lit_var l -> tmarg v s (T i) = 0) as TO.
      { intros v s Nv. rewrite <- Q. cbn [tmarg]. unfold lit_var in Nv. destruct (N.eqb (Z.abs_N l) v) eqn:G; auto. apply N.eqb_eq in G. congruence. }
      set (o := marg_find mg (lit_var l)). set (a := if lit_sign l then snd o else fst o).
      assert (val a = got (lit_var l) (lit_sign l) mg) as VA.
      { unfold a, o, marg_find, MpeProofs.got. destruct (mg (lit_var l)) as [[f t]|]; destruct (lit_sign l); simpl; auto; apply (rd_zero HP). }
      destruct (accumulate1 a x (mag (T root) + INR k * e) (INR k * e + c0)) as [CL LW]; try lra.
      { rewrite VA. apply Lg. }
      { eapply (low_weaken _ k _ k); [| |exact Lx]; auto. lra. }
      { rewrite VA. specialize (Ug (lit_var l) (lit_sign l)). rewrite TV in Ug. unfold lit_sign in Ug at 2. rewrite eqb_reflx in Ug. lra. }
      assert ((if lit_sign l then (fst o, padd (snd o) x) else (padd (fst o) x, snd o)) = (if lit_sign l then (fst o, padd a x) else (padd a x, snd o))) as -> by (unfold a; destruct (lit_sign l); auto).
      eexists. split; [reflexivity|]. split; auto. split; [|split; [|split]].
      * intros v s. rewrite KS. destruct (N.eq_dec v (lit_var l)) as [->|Nv].
        -- unfold MpeProofs.got at 1. rewrite vset_same. specialize (HM (lit_var l) s). rewrite MC, TV in HM. replace (2 * e) with (e + e) by ring.
           destruct (Bool.eqb (Z.ltb 0 l) s) eqn:Q1.
           ++ apply eqb_prop in Q1. assert (s = lit_sign l) as -> by (unfold lit_sign; auto).
              assert ((if lit_sign l then (fst o, padd a x) else (padd a x, snd o)) = (if lit_sign l then fst o else padd a x, if lit_sign l then padd a x else snd o)) as -> by (destruct (lit_sign l); auto).
              replace (val (if lit_sign l then padd a x else snd o)) with (if lit_sign l then val (padd a x) else val (snd o)) by (destruct (lit_sign l); auto).
              replace (if lit_sign l then if lit_sign l then val (padd a x) else val (snd o) else val (if lit_sign l then fst o else padd a x)) with (val (padd a x)) by (destruct (lit_sign l); auto).
              eapply close_trans; [exact HM|]. cbn beta. rewrite <- VA. replace (val a + (val x * 1 + mass (lit_var l) (lit_sign l) ds ps)) with (val a + val x + mass (lit_var l) (lit_sign l) ds ps) by ring.
              apply close_add; [|apply close_refl; [lra|apply mass_nonneg]]. eapply close_weaken; [| | |exact CL]; auto; [lra|]. pose proof (V0 a). pose proof (V0 x). lra.
           ++ assert (s = negb (lit_sign l)) as -> by (unfold lit_sign; destruct s, (Z.ltb 0 l); auto; discriminate).
              assert ((let '(f, t) := (if lit_sign l then (fst o, padd a x) else (padd a x, snd o)) in if negb (lit_sign l) then val t else val f) = got (lit_var l) (negb (lit_sign l)) mg) as QQ.
              { unfold o, marg_find, MpeProofs.got. destruct (lit_sign l); simpl; destruct (mg (lit_var l)) as [[f t]|]; simpl; auto; apply (rd_zero HP). }
              destruct (if lit_sign l then (fst o, padd a x) else (padd a x, snd o)) as [f1 t1]. rewrite QQ.
              eapply close_weaken; [| | |cbn beta in HM; rewrite Rmult_0_r, Rplus_0_l in HM; exact HM]; [lra|apply tmarg_nonneg, HN; auto|].
              apply Rplus_le_le_0_compat; [apply got_nonneg|apply mass_nonneg].
        -- unfold MpeProofs.got at 1. rewrite vset_other by congruence. fold (MpeProofs.got val v s mg). specialize (HM v s). rewrite MC, (TO v s Nv), Rmult_0_r, Rplus_0_l in HM.
           eapply close_weaken; [| | |exact HM]; [lra|apply tmarg_nonneg, HN; auto|]. apply Rplus_le_le_0_compat; [apply got_nonneg|apply mass_nonneg].
      * intros q j' Iq Eq. eapply low_weaken; [right; reflexivity| |apply HLo; [right; exact Iq|exact Eq]]. lia.
      * intros v f t Em. destruct (N.eq_dec v (lit_var l)) as [->|Nv].
        -- rewrite vset_same in Em. injection Em as Em.
           assert (low (mag (T root)) (k + 2) (val (padd a x))) as LW'.
           { destruct LW as [LW|LW]; [left; auto|right]. rewrite KS. eapply Rle_trans; [apply exp_mono|exact LW]. lra. }
           assert (low (mag (T root)) (k + 2) (val (if lit_sign l then fst o else snd o))) as LO'.
           { eapply (low_weaken _ k); [right; reflexivity|lia|]. specialize (Lg (lit_var l) (negb (lit_sign l))). unfold o, marg_find. unfold MpeProofs.got in Lg.
             destruct (mg (lit_var l)) as [[f' t']|]; destruct (lit_sign l); simpl in *; auto; left; apply (rd_zero HP). }
           destruct (lit_sign l); injection Em as <- <-; auto.
        -- rewrite vset_other in Em by congruence. destruct (HG v f t Em). split; (eapply (low_weaken _ k); [right; reflexivity|lia|auto]).
      * intros v. rewrite LN. unfold leaf_of at 2. rewrite En. simpl. rewrite E2. destruct (N.eq_dec v (lit_var l)) as [->|Nv].
        -- rewrite vset_same. split; [discriminate|]. intros [_ G]. exfalso. apply G. reflexivity.
        -- rewrite vset_other by congruence. rewrite HNo. split; [intros G; split; auto|intros [G _]; auto].
    + (* top *)
      assert (wk i = 2%nat) as W2 by (unfold wk; rewrite En; simpl; rewrite E2; auto). rewrite W2 in *. change (INR 2) with 2 in *.
      assert (forall s, tmarg w s (T i) = if s then val pt else val pf) as TV by (intros s; rewrite <- Q; cbn [tmarg]; rewrite N.eqb_refl; reflexivity).
      assert (forall v s, v <> w -> tmarg v s (T i) = 0) as TO.
      { intros v s Nv. rewrite <- Q. cbn [tmarg]. destruct (N.eqb w v) eqn:G; auto. apply N.eqb_eq in G. congruence. }
      assert (lg (val pt) <= mag (T i) /\ lg (val pf) <= mag (T i)) as [G1 G2]. { rewrite <- Q. cbn [mag]. split; [apply Rmax_l|apply Rmax_r]. }
      set (o := marg_find mg w).
      assert (forall s : bool, val (if s then snd o else fst o) = got w s mg) as VA.
      { intros s. unfold o, marg_find, MpeProofs.got. destruct (mg w) as [[f t]|]; destruct s; simpl; auto; apply (rd_zero HP). }
      assert (forall (s : bool), let a := (if s then snd o else fst o) in let y := (if s then pt else pf) in
        close (2 * e) (val a + val x * val y) (val (padd a (pmul x y))) /\ low (mag (T root)) (k + 2) (val (padd a (pmul x y)))) as AC.
      { intros s a y. assert (lg (val y) <= mag (T i)) as Gy by (unfold y; destruct s; auto).
        destruct (accumulate a x y (mag (T root) + INR k * e) (INR k * e + c0)) as [CL LW]; auto; try lra.
        - unfold a. rewrite VA. apply Lg.
        - destruct Lx as [Lx|Lx]; [left; rewrite Lx; ring|]. pose proof (range_lg (val y) (V0 y)) as [Rl|[Rl _]]; [left; rewrite Rl; ring|right].
          replace (- (mag (T root) + INR k * e)) with (- (mag (T root) - mag (T i) + INR k * e) + - mag (T i)) by ring. rewrite exp_plus.
          apply Rmult_le_compat; auto; try (left; apply exp_pos). eapply Rle_trans; [apply exp_mono|exact Rl]. lra.
        - unfold a. rewrite VA. specialize (Ug w s). rewrite TV in Ug. unfold y. destruct s; exact Ug.
        - eapply range_weaken; [|apply range_lg; auto]. lra.
        - split; auto. destruct LW as [LW|LW]; [left; auto|right]. rewrite KS. eapply Rle_trans; [apply exp_mono|exact LW]. lra. }
      pose proof (AC true) as [CT LT]. pose proof (AC false) as [CF LF]. cbn beta iota in CT, LT, CF, LF.
      eexists. split; [reflexivity|]. split; auto. split; [|split; [|split]].
      * intros v s. rewrite KS. destruct (N.eq_dec v w) as [->|Nv].
        -- unfold MpeProofs.got at 1. rewrite vset_same. specialize (HM w s). rewrite MC, TV in HM. eapply close_trans; [exact HM|]. cbn beta. rewrite <- VA.
           destruct s.
           ++ replace (val (snd o) + (val x * val pt + mass w true ds ps)) with (val (snd o) + val x * val pt + mass w true ds ps) by ring.
              apply close_add; auto. apply close_refl; [lra|apply mass_nonneg].
           ++ replace (val (fst o) + (val x * val pf + mass w false ds ps)) with (val (fst o) + val x * val pf + mass w false ds ps) by ring.
              apply close_add; auto. apply close_refl; [lra|apply mass_nonneg].
        -- unfold MpeProofs.got at 1. rewrite vset_other by congruence. fold (MpeProofs.got val v s mg). specialize (HM v s). rewrite MC, (TO v s Nv), Rmult_0_r, Rplus_0_l in HM.
           eapply close_weaken; [| | |exact HM]; [lra|apply tmarg_nonneg, HN; auto|]. apply Rplus_le_le_0_compat; [apply got_nonneg|apply mass_nonneg].
      * intros q j' Iq Eq. eapply low_weaken; [right; reflexivity| |apply HLo; [right; exact Iq|exact Eq]]. lia.
      * intros v f t Em. destruct (N.eq_dec v w) as [->|Nv].
        -- rewrite vset_same in Em. injection Em as <- <-. auto.
        -- rewrite vset_other in Em by congruence. destruct (HG v f t Em). split; (eapply (low_weaken _ k); [right; reflexivity|lia|auto]).
      * intros v. rewrite LN. unfold leaf_of at 2. rewrite En. simpl. rewrite E2. destruct (N.eq_dec v w) as [->|Nv].
        -- rewrite vset_same. split; [discriminate|]. intros [_ G]. exfalso. apply G. reflexivity.
        -- rewrite vset_other by congruence. rewrite HNo. split; [intros G; split; auto|intros [G _]; auto].
    + (* decision *)
      assert (wk i = 4 * length es)%nat as W4 by (unfold wk; rewrite En; simpl; rewrite E2; auto).
      assert (forall c, In c L2 -> exists p, nth_error L p = Some c /\ In p ps) as PO.
      { intros c Hc. apply In_nth_error in Hc as [p Hp]. exists (length L1 + S p)%nat. split.
        - rewrite EL, nth_error_app2 by lia. replace (length L1 + S p - length L1)%nat with (S p) by lia. auto.
        - apply in_seq. assert (p < length L2)%nat by (apply nth_error_Some; congruence). lia. }
      assert (forall v s, rsum (fun g => (tmarg v s (T (e_prime g)) + tmarg v s (T (e_sub g))) * val (e_param g)) es = tmarg v s (T i)) as RS.
      { intros v s. rewrite <- Q. cbn [tmarg]. clear - E3 HT. induction E3 as [|g te es tes (A & A' & C) F IH]; auto. cbn [rsum fold_right]. unfold rsum in IH. rewrite IH. fold (tp te) (ts te) (tw te).
        rewrite (Rep_fun val h (tp te) _ _ A (HT _ (Rep_lt val _ _ _ A))), (Rep_fun val h (ts te) _ _ A' (HT _ (Rep_lt val _ _ _ A'))), <- C. reflexivity. }
      assert (forall g, In g es -> exists te, In te tes /\ ElemRep val h g te) as ET.
      { clear - E3. induction E3 as [|g tg es tes HH F IH]; intros k []; [subst; exists tg; split; [left; auto|exact HH]|].
        destruct (IH _ H) as (t' & H1 & H2). exists t'. split; [right; auto|auto]. }
      rewrite W4 in *.
      destruct (relems x ps i NDps Ii Rx es ds k (fun v s => got v s mg) HL) as (ds' & E' & L' & M' & O'); auto.
      { intros g Hg. destruct (ser_elem h root L SO L1 i L2 nd es g EL En E2 Hg). split; [apply PO; auto|]. split; [apply PO; auto|].
        destruct (ET g Hg) as (te & Ite & A1 & A2 & A3).
        rewrite <- (Rep_fun val h (tp te) _ _ A1 (HT _ (Rep_lt val _ _ _ A1))), <- (Rep_fun val h (ts te) _ _ A2 (HT _ (Rep_lt val _ _ _ A2))), <- A3.
        pose proof (mag_elem tes te Ite) as ME. rewrite Q in ME. pose proof (ln_len tes). pose proof (mag_nonneg (tp te)). pose proof (mag_nonneg (ts te)).
        split; [|split; lra]. eapply range_weaken; [|apply range_lg; rewrite A3; auto]. lra. }
      { intros v s. apply got_nonneg. }
      { intros v s. rewrite RS. specialize (HM v s). rewrite MC in HM. replace (got v s mg + mass v s ds ps + val x * tmarg v s (T i)) with (got v s mg + (val x * tmarg v s (T i) + mass v s ds ps)) by ring. exact HM. }
      { intros q j' Iq Eq. apply HLo; [right; exact Iq|exact Eq]. }
      rewrite E'. cbn [bind]. eexists. split; [reflexivity|]. split; auto. split; [auto|]. split; [auto|]. split.
      * intros v f t Em. destruct (HG v f t Em). split; (eapply (low_weaken _ k); [right; reflexivity|lia|auto]).
      * intros v. rewrite LN. unfold leaf_of at 2. rewrite En. simpl. rewrite E2. rewrite HNo. split; [intros G; split; auto|intros [G _]; auto].
  - unfold init. split; [rewrite El0; simpl; rewrite map_length; auto|]. cbn [length work fold_right]. rewrite Nat.sub_0_r.
    assert (forall q, dval (pone :: map (fun _ => pzero) l0) (S q) = 0) as D0.
    { intros q. unfold MpeProofs.dval. cbn [nth_error]. rewrite nth_error_map. destruct (nth_error l0 q); simpl; auto. apply (rd_zero HP). }
    assert (dval (pone :: map (fun _ => pzero) l0) 0 = 1) as D1 by (unfold MpeProofs.dval; simpl; apply (rd_one HP)).
    split; [|split; [|split]].
    + intros v s. change (INR 0) with 0. rewrite Rmult_0_l. unfold MpeProofs.got, MpeProofs.mass. rewrite El0. cbn [length seq tl]. rewrite rsum_cons. cbn [nth_error]. rewrite D1.
      rewrite (rsum_ext _ (fun _ => 0)). 
      * rewrite rsum_0. replace (0 + (1 * tmarg v s (T root) + 0)) with (tmarg v s (T root)) by ring. apply close_refl; [lra|apply tmarg_nonneg, HN; auto].
      * intros p Hp. apply in_seq in Hp. destruct p as [|p]; [lia|]. rewrite D0. ring.
    + intros q j Iq Eq. rewrite El0 in *. cbn [tl]. destruct q as [|q]; [|left; apply D0]. rewrite D1. right. injection Eq as <-. change (INR 0) with 0. rewrite <- exp_0. apply exp_mono. lra.
    + intros v f t Em. discriminate.
    + intros v. split; auto.
  - exists ds, mg. split; auto. split; auto. intros v s. specialize (HM v s). rewrite Nat.sub_diag in HM. unfold MpeProofs.mass in HM. simpl in HM. rewrite Rplus_0_r in HM. exact HM.
Qed.
End RMarg.

Section RMargFull.
Context {P : pops} (val : P -> R) (B e d : R) (HP : pround P val B e d).
Notation Rep := (Rep val).
Lemma reach_mag (h : heap P) i j : reach h i j -> forall t u, Rep h i t -> Rep h j u -> mag u <= mag t.
Proof.
  induction 1 as [i|i nd c j E Hc _ IH]; intros t u Rt Ru.
  - rewrite (Rep_fun val h t i u Rt Ru). lra.
  - inversion Rt as [k nd' l E1 E2|k nd' w pt pf E1 E2|k nd' es tes E1 E2 E3]; subst; rewrite E in E1; injection E1 as <-; unfold children in Hc; rewrite E2 in Hc; try contradiction.
    assert (exists g, In g es /\ (c = e_prime g \/ c = e_sub g)) as (g & Hg & Hg2).
    { apply in_app_iff in Hc as [Hc|Hc]; apply in_map_iff in Hc as (g & <- & Hg); exists g; auto. }
    clear E E2 Rt.
    assert (exists tg, In tg tes /\ ElemRep val h g tg) as (tg & Itg & A1 & A2 & _).
    { clear Hc. induction E3 as [|g' tg' es tes HH F IHf]; [destruct Hg|]. destruct Hg as [->|Hg]; [exists tg'; split; [left; auto|exact HH]|]. destruct (IHf Hg) as (t' & H1 & H2). exists t'. split; [right; auto|auto]. }
    pose proof (mag_elem tes tg Itg) as ME. pose proof (ln_len tes). pose proof (mag_nonneg (tp tg)). pose proof (mag_nonneg (ts tg)). pose proof (lg_nonneg (tw tg)).
    destruct Hg2; subst c; [pose proof (IH _ _ A1 Ru)|pose proof (IH _ _ A2 Ru)]; lra.
Qed.
Lemma sub_vsize root u : forall p s l, subtree root p = Some s -> subtree root (u ++ p) = Some l -> (vsize l <= vsize s)%nat.
Proof.
  induction u as [|b u IH]; intros p s l S1 S2; simpl in S2; [rewrite S1 in S2; injection S2 as ->; auto|].
  destruct (subtree root (u ++ p)) as [[v|x y]|] eqn:E; try discriminate. specialize (IH _ _ _ S1 E). simpl in IH. destruct b; injection S2 as <-; lia.
Qed.
Lemma node_subtree root (h : heap P) i nd : heap_ok root h -> nth_error h i = Some nd -> exists s, subtree root (n_vt nd) = Some s.
Proof. intros HO E. specialize (HO _ _ E). unfold node_ok in HO. destruct (n_body nd); eauto. destruct HO as (_ & (x & y & HO) & _). eauto. Qed.
Lemma leaves_nonempty s : exists v, In v (leaves s).
Proof. induction s as [v|a [v IH] b _]; [exists v; left; auto|exists v; simpl; apply in_app_iff; auto]. Qed.
Theorem round_marginals (m : mgr P) i s t L dl : psdd_at val m i s t -> norm_near dl t -> 0 <= dl -> SerializePsddNodes (m_heap m) [i] = Ok L ->
  mag t + INR (2 * work (m_heap m) L + 2) * e + 2 * (INR (vsize s) * dl) <= B ->
  exists mg, GetMarginals (m_heap m) L = Ok mg /\
    (forall v, In v (leaves s) -> exists pf pt, mg v = Some (pf, pt) /\
       forall x0, close (INR (2 * work (m_heap m) L + 2) * e + 3 * (INR (vsize s) * dl)) (sum_over (leaves s) (fun y => if y v then weight t y else 0) x0) (val pt) /\
                  close (INR (2 * work (m_heap m) L + 2) * e + 3 * (INR (vsize s) * dl)) (sum_over (leaves s) (fun y => if y v then 0 else weight t y) x0) (val pf)) /\
    (forall v, ~ In v (leaves s) -> mg v = None).
Proof.
  intros A NN D EL HB. destruct (psdd_at_facts val _ _ _ _ A) as (HO & ND & C & L' & SO). pose proof (so_eq _ _ _ SO) as Q. rewrite EL in Q. injection Q as <-.
  destruct A as (W & HR & p & V & S). destruct (rep_choice val _ _ HO) as [T HT].
  assert (T i = t) as ET by (eapply Rep_fun; [apply HT; eapply Rep_lt; eauto|auto]). pose proof (Rep_nonneg_r val B e d HP _ _ _ HR) as N0.
  set (c0 := INR (vsize s) * dl) in *. assert (0 <= c0) as C0 by (apply Rmult_le_pos; auto; apply pos_INR).
  pose proof (rd_e HP) as E0. pose proof (rd_nonneg HP) as V0. set (K := work (m_heap m) L) in *.
  pose proof (ke_nonneg val B e d HP K) as K0. assert (INR (2 * K + 2) * e = 2 * (INR K * e) + 2 * e) as KE by (rewrite plus_INR, mult_INR; simpl; ring).
  pose proof (mag_nonneg t) as G0.
  assert (forall v, tmarg v true t + tmarg v false t <= exp c0) as HV.
  { intros v. destruct (in_dec N.eq_dec v (leaves s)) as [I|I].
    - destruct (tmarg_near s dl D ND t v C N0 NN I) as [_ H]. fold c0 in H. lra.
    - rewrite !(tmarg_out s t v _ C I). pose proof (exp_pos c0). lra. }
  destruct (rmarg_fold val B e d HP _ (m_heap m) HO i L SO T HT c0 C0) as (ds & mg & E & G & LG & NO).
  { intros j Hj. pose proof (ser_lt _ _ HO i L SO j Hj) as Lj. apply (so_in _ _ _ SO) in Hj. destruct (reach_vt _ _ _ _ HO Hj p V) as [u Hu].
    destruct (nth_error (m_heap m) j) as [nd|] eqn:Ej; [|apply nth_error_None in Ej; lia]. destruct (node_subtree _ _ _ _ HO Ej) as [sj Sj].
    assert (n_vt nd = u ++ p) as Vn by (unfold vt_of in Hu; rewrite Ej in Hu; injection Hu; auto). rewrite Vn in Sj.
    destruct (leaves_nonempty sj) as [v Iv]. exists v.
    assert (NoDup (leaves sj)) as NDj by (refine (subtree_nodup (m_vt m) _ _ _ Sj); apply W).
    assert (conforms sj (T j)) as Cj by (eapply Rep_conforms; eauto).
    pose proof (tmarg_near sj dl D NDj (T j) v Cj (Rep_nonneg_r val B e d HP _ _ _ (HT j Lj)) (reach_all_nodes val _ _ _ _ _ _ Hj HR (HT j Lj) NN) Iv) as H.
    eapply close_weaken; [| | |exact H]; [apply vdl; auto; eapply sub_vsize; eauto| |lra].
    pose proof (Rep_nonneg_r val B e d HP _ _ _ (HT j Lj)) as Nj. pose proof (tmarg_nonneg v true _ Nj). pose proof (tmarg_nonneg v false _ Nj). lra. }
  { rewrite ET. exact HV. }
  { intros j Hj. pose proof (ser_lt _ _ HO i L SO j Hj) as Lj. apply (so_in _ _ _ SO) in Hj. split; [eapply Rep_nonneg_r; eauto|]. rewrite ET. eapply reach_mag; eauto. }
  { rewrite ET. fold K. lra. }
  rewrite ET in G, LG. fold K in G, LG. destruct (so_head _ _ _ SO) as [l0 El0]. rewrite El0 in E |- *. unfold GetMarginals. cbn [tl] in E. rewrite E. cbn [bind snd]. eexists. split; [reflexivity|]. split.
  - intros v Hv. pose proof (G v true) as G1. pose proof (G v false) as G2. unfold got in G1, G2. pose proof (tmarg_near s dl D ND t v C N0 NN Hv) as TN. fold c0 in TN.
    pose proof (tmarg_nonneg v true t N0) as T1. pose proof (tmarg_nonneg v false t N0) as T2.
    destruct (mg v) as [[f tt]|] eqn:Em.
    2:{ exfalso. destruct G1 as [_ G1], G2 as [_ G2]. destruct TN as [TN _]. rewrite Rmult_0_r in *. pose proof (exp_pos c0). nra. }
    destruct (LG v f tt Em) as [Lf Lt]. clear LG NO G.
    assert (close (INR K * e + c0) (val f + val tt) 1) as SUM.
    { eapply close_trans; [|exact TN]. apply close_sym. rewrite (Rplus_comm (val f)). apply close_add; auto. }
    set (z := padd f tt). pose proof (V0 f) as F0. pose proof (V0 tt) as TT0.
    assert (exp (INR K * e + c0) <= exp B) as M1 by (apply exp_mono; lra). assert (exp (- B) <= exp (- (INR K * e + c0))) as M2 by (apply exp_mono; lra).
    assert (exp (- (INR K * e + c0)) <= val f + val tt <= exp (INR K * e + c0)) as [S1 S2].
    { destruct SUM as [H1 H2]. split; [|lra]. apply Rmult_le_reg_l with (exp (INR K * e + c0)); [apply exp_pos|]. rewrite <- exp_plus, Rplus_opp_r, exp_0. lra. }
    assert (forall a, low e (mag t) K (val a) -> val a <= val f + val tt -> range B (val a)) as RA.
    { intros a [La|La] Ua; [left; auto|right]. split; [eapply Rle_trans; [apply exp_mono|exact La]|]; lra. }
    assert (close e (val f + val tt) (val z)) as CZ. { apply (rd_add HP); [apply RA; auto; lra|apply RA; auto; lra|right; lra]. }
    assert (close (e + (INR K * e + c0)) (val z) 1) as CZ1 by (eapply close_trans; [apply close_sym; exact CZ|exact SUM]).
    assert (exp (- (e + (INR K * e + c0))) <= val z <= exp (e + (INR K * e + c0))) as [Z1 Z2].
    { destruct CZ1 as [H1 H2]. split; [|lra]. apply Rmult_le_reg_l with (exp (e + (INR K * e + c0))); [apply exp_pos|]. rewrite <- exp_plus, Rplus_opp_r, exp_0. lra. }
    assert (0 < val z) as Z0 by (pose proof (exp_pos (- (e + (INR K * e + c0)))); lra).
    assert (exp (e + (INR K * e + c0)) <= exp B) as M3 by (apply exp_mono; lra). assert (exp (- B) <= exp (- (e + (INR K * e + c0)))) as M4 by (apply exp_mono; lra).
    assert (forall a x, low e (mag t) K (val a) -> val a <= val f + val tt -> 0 <= x -> close (INR K * e) x (val a) -> close (INR (2 * K + 2) * e + c0) x (val (pdiv a z))) as DV.
    { intros a x La Ua X0 Ca.
      assert (close (INR K * e + (e + (INR K * e + c0))) x (val a / val z)) as CD.
      { replace x with (x * 1) by ring. unfold Rdiv. apply close_mul; auto; [lra|left; apply Rinv_0_lt_compat; auto|].
        destruct CZ1 as [H1 H2]. split.
        - apply Rmult_le_reg_l with (val z); auto. rewrite Rinv_r by lra. rewrite Rmult_1_r, Rmult_comm. exact H1.
        - apply Rmult_le_reg_l with (val z); auto. rewrite (Rmult_comm (exp _)), <- Rmult_assoc, Rinv_r by lra. lra. }
      assert (range B (val a / val z)) as RD.
      { destruct La as [La|La]; [left; rewrite La; unfold Rdiv; ring|right]. unfold Rdiv. split.
        - apply Rle_trans with (exp (- (mag t + INR K * e)) * exp (- (e + (INR K * e + c0)))); [rewrite <- exp_plus; apply exp_mono; lra|].
          apply Rmult_le_compat; try (left; apply exp_pos); auto. rewrite exp_Ropp. apply Rinv_le_contravar; auto.
        - apply Rle_trans with (exp (INR K * e + c0) * exp (e + (INR K * e + c0))); [|rewrite <- exp_plus; apply exp_mono; lra].
          apply Rmult_le_compat; [apply V0|left; apply Rinv_0_lt_compat; auto|lra|].
          apply Rmult_le_reg_l with (val z); auto. rewrite Rinv_r by lra. destruct CZ1 as [H1 _]. rewrite Rmult_comm. exact H1. }
      replace (INR (2 * K + 2) * e + c0) with (INR K * e + (e + (INR K * e + c0)) + e) by (rewrite KE; ring).
      eapply close_trans; [exact CD|]. apply (rd_div HP); auto; [right; lra|lra]. }
    exists (pdiv f z), (pdiv tt z). split; auto. intros x0.
    assert (forall b, close (c0 + c0) (tmarg v b t) (sum_over (leaves s) (masked (leaves s) (only v) (fun _ => b) (weight t)) x0)) as MS.
    { intros b. eapply close_trans; [apply (tmarg_tev_near s dl D ND t v b C N0 NN Hv)|].
      eapply close_weaken; [| | |apply (tev_near s dl D ND t (only v) (fun _ => b) x0 C N0 (norm_near_tops dl t NN))].
      - apply vdl; auto. clear. induction s; simpl; auto. rewrite app_length. lia.
      - eapply range_nonneg, tev_range; auto.
      - apply sum_over_nonneg. intros y. apply masked_nonneg. auto. }
    assert (forall b y, agreesb (leaves s) (only v) (fun _ => b) y = Bool.eqb (y v) b) as AG.
    { intros b y. apply eq_true_iff_eq. rewrite agreesb_spec, eqb_true_iff. unfold agrees, only. split.
      - intros H. apply H; auto. apply N.eqb_refl.
      - intros H w _ Ew. apply N.eqb_eq in Ew. subst w. auto. }
    replace (INR (2 * K + 2) * e + 3 * c0) with ((c0 + c0) + (INR (2 * K + 2) * e + c0)) by ring. split.
    + eapply close_trans; [|apply (DV tt (tmarg v true t)); auto; lra]. apply close_sym.
      erewrite sum_over_ext'; [apply (MS true)|]. intros y. unfold masked. rewrite AG. destruct (y v); reflexivity.
    + eapply close_trans; [|apply (DV f (tmarg v false t)); auto; lra]. apply close_sym.
      erewrite sum_over_ext'; [apply (MS false)|]. intros y. unfold masked. rewrite AG. destruct (y v); reflexivity.
  - intros v Hv. assert (mg v = None) as ->; auto. apply NO. intros j Hj LJ. unfold leaf_of in LJ.
    apply (so_in _ _ _ SO) in Hj. destruct (reach_vt _ _ _ _ HO Hj p V) as [u Hu].
    destruct (nth_error (m_heap m) j) as [nd|] eqn:Ej; [|exact LJ]. unfold vt_of in Hu. rewrite Ej in Hu. injection Hu as Hu. pose proof (HO _ _ Ej) as NK. unfold node_ok in NK. rewrite Hu in NK. simpl in LJ.
    destruct (n_body nd) as [l|w pt pf|es]; [|subst w|contradiction]; apply Hv.
    + rewrite <- LJ. apply (subtree_leaves _ _ _ _ _ S NK). left; reflexivity.
    + apply (subtree_leaves _ _ _ _ _ S NK). left; reflexivity.
Qed.
End RMargFull.
