(** The six-decimal texts of parameters and what reading them back gives (C35). *)
From Coq Require Import Ascii String Reals Lra Psatz DecimalN.
From Verif Require Import Base Param ParamProofs Vtree VtreeProofs Spec SpecProofs Heap Manager HeapProofs SerProofs RepProofs LoadProofs Text IO IOProofs.

(** ** Digits *)
Lemma digit_val_char d : (d < 10)%N -> digit_val (digit_char d) = Some d.
Proof.
  intros H. assert (d = 0 \/ d = 1 \/ d = 2 \/ d = 3 \/ d = 4 \/ d = 5 \/ d = 6 \/ d = 7 \/ d = 8 \/ d = 9)%N as C by lia.
  repeat (destruct C as [->|C]; [reflexivity|]). subst. reflexivity.
Qed.
Lemma dec_of_app a : forall acc b, dec_of acc (a ++ b) = match dec_of acc a with Some n => dec_of n b | None => None end.
Proof. induction a as [|c a IH]; intros acc b; simpl; auto. destruct (digit_val c); auto. Qed.
Lemma dec_of_pad k : forall acc n, (n < 10 ^ N.of_nat k)%N -> dec_of acc (pad k n) = Some (acc * 10 ^ N.of_nat k + n)%N.
Proof.
  induction k as [|k IH]; intros acc n H.
  - simpl in *. f_equal. lia.
  - rewrite Nat2N.inj_succ, N.pow_succ_r' in *. simpl. rewrite dec_of_app.
    rewrite IH by (apply N.div_lt_upper_bound; lia). simpl.
    rewrite digit_val_char by (apply N.mod_upper_bound; lia). f_equal.
    pose proof (N.div_mod n 10 ltac:(lia)) as D. set (q := (n / 10)%N) in *. set (r := (n mod 10)%N) in *.
    transitivity (acc * (10 * 10 ^ N.of_nat k) + (10 * q + r))%N; [ring|]. rewrite <- D. reflexivity.
Qed.
Lemma of_uint_acc u : forall p, dec_of (Npos p) (digits u) = Some (Npos (Pos.of_uint_acc u p)).
Proof.
  induction u; intros p; [reflexivity|..]; cbn [Pos.of_uint_acc]; rewrite <- IHu; cbn [digits dec_of];
    (match goal with |- context [digit_val ?c] => let d := eval vm_compute in (digit_val c) in change (digit_val c) with d end);
    cbv iota; f_equal; lia.
Qed.
Lemma of_uint_digits u : dec_of 0 (digits u) = Some (N.of_uint u).
Proof.
  unfold N.of_uint. induction u; simpl; auto; apply (of_uint_acc u).
Qed.
Lemma dec_of_show n : dec_of 0 (show_N n) = Some n.
Proof. unfold show_N. rewrite of_uint_digits, DecimalN.Unsigned.of_to. reflexivity. Qed.
Lemma pad_length k : forall n, List.length (pad k n) = k.
Proof. induction k as [|k IH]; intros n; simpl; auto. rewrite app_length, IH. simpl. lia. Qed.
Lemma digit_char_dot d : (d < 10)%N -> Ascii.eqb (digit_char d) "." = false /\ plain (digit_char d).
Proof.
  intros H. assert (d = 0 \/ d = 1 \/ d = 2 \/ d = 3 \/ d = 4 \/ d = 5 \/ d = 6 \/ d = 7 \/ d = 8 \/ d = 9)%N as C by lia.
  repeat (destruct C as [->|C]; [split; reflexivity|]). subst. split; reflexivity.
Qed.
Lemma pad_plain k : forall n, Forall plain (pad k n).
Proof.
  induction k as [|k IH]; intros n; simpl; [constructor|]. apply Forall_app. split; auto.
  constructor; [|constructor]. apply digit_char_dot, N.mod_upper_bound. lia.
Qed.
Lemma split_dot_digits u : forall rest, split_dot (digits u ++ "."%char :: rest) = (digits u, rest).
Proof. induction u; intros rest; simpl; auto; rewrite IHu; reflexivity. Qed.

(** ** fixed6 is read back as the nearest multiple of a millionth *)
Local Open Scope R_scope.
Lemma Rabs_le_inv x a : Rabs x <= a -> - a <= x <= a.
Proof. intros H. pose proof (Rle_abs x). pose proof (Rle_abs (- x)). rewrite Rabs_Ropp in *. lra. Qed.
Definition rnd6 (r : R) : R :=
  let v := IZR (nearest (Rabs r * 1000000)) / 1000000 in if Rlt_dec r 0 then - v else v.
Lemma nearest_spec x : Rabs (IZR (nearest x) - x) <= / 2.
Proof.
  unfold nearest. destruct (base_Int_part (x + / 2)) as [H1 H2]. apply Rabs_le. lra.
Qed.
Lemma nearest_nonneg x : 0 <= x -> (0 <= nearest x)%Z.
Proof. intros H. unfold nearest. apply Int_part_nonneg. lra. Qed.
Lemma nearest_Z z : nearest (IZR z) = z.
Proof.
  pose proof (nearest_spec (IZR z)) as H. rewrite <- minus_IZR in H.
  assert (Rabs (IZR (nearest (IZR z) - z)) < 1) as H' by lra. rewrite <- abs_IZR in H'. apply lt_IZR in H'. lia.
Qed.
Lemma rnd6_close r : Rabs (rnd6 r - r) <= / 2000000.
Proof.
  unfold rnd6. pose proof (nearest_spec (Rabs r * 1000000)) as H. set (z := IZR (nearest (Rabs r * 1000000))) in *.
  apply Rabs_le_inv in H. destruct (Rlt_dec r 0) as [L|L].
  - rewrite (Rabs_left r L) in H. apply Rabs_le. lra.
  - rewrite Rabs_right in H by lra. apply Rabs_le. lra.
Qed.
(** Numbers with at most six decimals are unchanged. *)
Lemma rnd6_exact k : rnd6 (IZR k / 1000000) = IZR k / 1000000.
Proof.
  unfold rnd6. assert (Rabs (IZR k / 1000000) * 1000000 = IZR (Z.abs k)) as ->.
  { unfold Rdiv. rewrite Rabs_mult, <- abs_IZR, (Rabs_right (/ 1000000)) by lra. field. }
  rewrite nearest_Z. destruct (Rlt_dec (IZR k / 1000000) 0) as [L|L].
  - assert (IZR k < 0) as L' by lra. apply lt_IZR in L'. rewrite Z.abs_neq, opp_IZR by lia. lra.
  - assert (0 <= IZR k) as L' by lra. apply le_IZR in L'. rewrite Z.abs_eq by lia. reflexivity.
Qed.
Definition no_exp (c : ascii) : Prop := c <> "e"%char /\ c <> "E"%char.
Lemma split_exp_none s : Forall no_exp s -> split_exp s = (s, None).
Proof.
  induction 1 as [|c s (N1 & N2) F IH]; [reflexivity|]. cbn [split_exp]. destruct (Ascii.eqb_spec c "e"); [congruence|]. destruct (Ascii.eqb_spec c "E"); [congruence|].
  cbn [orb]. rewrite IH. reflexivity.
Qed.
Lemma digits_no_exp u : Forall no_exp (digits u).
Proof. induction u; simpl; constructor; auto; split; discriminate. Qed.
Lemma pad_no_exp k : forall n, Forall no_exp (pad k n).
Proof.
  induction k as [|k IH]; intros n; [constructor|]. cbn [pad]. apply Forall_app. split; auto. constructor; [|constructor].
  assert (n mod 10 < 10)%N as L by (apply N.mod_upper_bound; lia). unfold digit_char. revert L. generalize (n mod 10)%N. intros d L.
  assert (d = 0 \/ d = 1 \/ d = 2 \/ d = 3 \/ d = 4 \/ d = 5 \/ d = 6 \/ d = 7 \/ d = 8 \/ d = 9)%N as K by lia.
  repeat destruct K as [->|K]; [..|subst d]; split; discriminate.
Qed.
Lemma fixed6_no_exp r : Forall no_exp (fixed6 r).
Proof.
  unfold fixed6. cbv zeta. apply Forall_app. split; [destruct (Rlt_dec r 0); repeat constructor; discriminate|].
  apply Forall_app. split; [apply digits_no_exp|]. constructor; [split; discriminate|apply pad_no_exp].
Qed.
Lemma rd_fixed6 r : rd_dec (fixed6 r) = Some (rnd6 r).
Proof.
  unfold rd_dec. rewrite split_exp_none by apply fixed6_no_exp.
  unfold fixed6, rnd6. pose proof (nearest_nonneg (Rabs r * 1000000)) as NN.
  assert (0 <= nearest (Rabs r * 1000000))%Z as Hz by (apply NN; pose proof (Rabs_pos r); nra). clear NN.
  set (zz := nearest (Rabs r * 1000000)) in *. set (z := Z.to_N zz).
  assert (rd_unsigned (show_N (z / 1000000)%N ++ "."%char :: pad 6 (z mod 1000000)%N) = Some (IZR zz / 1000000)) as E.
  { unfold rd_unsigned. unfold show_N at 1. rewrite split_dot_digits. fold (show_N (z / 1000000)%N).
    destruct (show_N_head (z / 1000000)%N) as (c & s & E & _). destruct (show_N (z / 1000000)%N ++ pad 6 (z mod 1000000)%N) eqn:E'.
    { rewrite E in E'. discriminate. } rewrite <- E'. rewrite dec_of_app, dec_of_show, dec_of_pad.
    2:{ apply N.mod_upper_bound. lia. }
    rewrite pad_length. f_equal. change (10 ^ N.of_nat 6)%N with 1000000%N.
    replace (z / 1000000 * 1000000 + z mod 1000000)%N with z. 2:{ pose proof (N.div_mod z 1000000 ltac:(lia)). lia. }
    unfold z. rewrite Z2N.id by auto. simpl. field. }
  destruct (show_N_head (z / 1000000)%N) as (c & s & E1 & P1 & P2 & P3).
  destruct (Rlt_dec r 0) as [L|L].
  - cbn [app rd_signed]. cbn [Ascii.eqb Bool.eqb]. cbv iota. rewrite E. reflexivity.
  - cbn [app]. rewrite E1 in *. cbn [app] in *. unfold rd_signed. rewrite P2, P3. exact E.
Qed.
Lemma fixed6_plain r : Forall plain (fixed6 r).
Proof.
  unfold fixed6. cbv zeta. apply Forall_app. split.
  - destruct (Rlt_dec r 0); repeat constructor.
  - apply Forall_app. split; [apply show_N_plain|]. constructor; [reflexivity|apply pad_plain].
Qed.
Lemma show_xr_plain x : Forall plain (show_xr x).
Proof. destruct x; [apply fixed6_plain|..]; repeat constructor. Qed.
Lemma show_xr_ne x : show_xr x <> [].
Proof. destruct x as [r| | |]; try discriminate. unfold show_xr, fixed6. cbv zeta. destruct (Rlt_dec r 0); [discriminate|]. destruct (show_N _); discriminate. Qed.
Definition rnd_log (a : lnum) : lnum := match a with lz => lz | lf r => lf (rnd6 r) end.
Lemma rd_show_log r : rd_log (show_log (lf r)) = Some (rnd_log (lf r)).
Proof. unfold rd_log, show_log. cbn [lx show_xr]. rewrite rd_fixed6. reflexivity. Qed.
(** Zero prints as "-inf", which operator>> does not accept. *)
Lemma rd_show_zero : rd_log (show_log lz) = None.
Proof. reflexivity. Qed.

(** ** How far the distribution can move *)
(** [near e a b]: the quotient of a and b is between exp(-e) and exp(e). *)
Definition near (e a b : R) : Prop := a * exp (- e) <= b <= a * exp e.
Lemma near_mul e f a b c d : 0 <= a -> 0 <= c -> near e a b -> near f c d -> near (e + f) (a * c) (b * d).
Proof.
  unfold near. intros Ha Hc [H1 H2] [H3 H4]. rewrite Ropp_plus_distr, !exp_plus.
  pose proof (exp_pos (- e)). pose proof (exp_pos (- f)). pose proof (exp_pos e). pose proof (exp_pos f).
  assert (0 <= a * exp (- e)) by nra. assert (0 <= c * exp (- f)) by nra.
  split.
  - replace (a * c * (exp (- e) * exp (- f))) with ((a * exp (- e)) * (c * exp (- f))) by ring. apply Rmult_le_compat; lra.
  - replace (a * c * (exp e * exp f)) with ((a * exp e) * (c * exp f)) by ring. apply Rmult_le_compat; lra.
Qed.
Lemma near_add e a b c d : near e a b -> near e c d -> near e (a + c) (b + d).
Proof. unfold near. intros [H1 H2] [H3 H4]. split; nra. Qed.
Lemma near_weaken e f a b : 0 <= a -> e <= f -> near e a b -> near f a b.
Proof.
  unfold near. intros Ha L [H1 H2]. assert (exp e <= exp f) by (destruct L as [L| ->]; [left; apply exp_increasing; auto|right; auto]).
  assert (exp (- f) <= exp (- e)) by (destruct L as [L| ->]; [left; apply exp_increasing; lra|right; auto]). split; nra.
Qed.
Lemma near_one a : near 0 a a.
Proof. unfold near. rewrite Ropp_0, exp_0. lra. Qed.
Lemma near_rnd r : near (/ 2000000) (exp r) (exp (rnd6 r)).
Proof.
  pose proof (rnd6_close r) as H. apply Rabs_le_inv in H. unfold near. rewrite <- !exp_plus.
  assert (forall x y, x <= y -> exp x <= exp y) as M by (intros x y [L| ->]; [left; apply exp_increasing; auto|right; auto]).
  split; apply M; lra.
Qed.
(** Two trees with the same structure and close parameters *)
Inductive close : ptree -> ptree -> Prop :=
| cl_lit l : close (TLit l) (TLit l)
| cl_top v a b a' b' : 0 <= a -> 0 <= b -> near (/ 2000000) a a' -> near (/ 2000000) b b' -> close (TTop v a b) (TTop v a' b')
| cl_dec es es' : Forall2 (fun e e' => close (tp e) (tp e') /\ close (ts e) (ts e') /\ 0 <= tw e /\ near (/ 2000000) (tw e) (tw e')) es es' ->
    close (TDec es) (TDec es').
Lemma close_dec_inv es t' : close (TDec es) t' -> exists es', t' = TDec es' /\
  Forall2 (fun e e' => close (tp e) (tp e') /\ close (ts e) (ts e') /\ 0 <= tw e /\ near (/ 2000000) (tw e) (tw e')) es es'.
Proof. intros H. inversion H; subst. eauto. Qed.
Lemma near_wnonneg e a b : 0 <= a -> near e a b -> 0 <= b.
Proof. unfold near. intros H [H1 H2]. pose proof (exp_pos (- e)). nra. Qed.
Lemma close_near t : forall s t', conforms s t -> close t t' -> forall x,
  0 <= weight t x /\ near (INR (vsize s) / 2000000) (weight t x) (weight t' x).
Proof.
  induction t as [z|v a b|es IH] using ptree_ind2; intros s t' CF H x.
  - inversion H; subst. simpl. split; [destruct (lit_sat z x); lra|]. eapply near_weaken; [destruct (lit_sat z x); lra| |apply near_one].
    pose proof (pos_INR (vsize s)). lra.
  - inversion H; subst. destruct s as [w|l r]; [|destruct CF]. simpl. destruct (x v).
    + split; auto. eapply near_weaken; eauto. lra.
    + split; auto. eapply near_weaken; eauto. lra.
  - apply close_dec_inv in H as (es' & -> & F). destruct s as [w|l r]; [destruct CF|]. destruct CF as [_ CF].
    rewrite !weight_dec. induction F as [|e e' es es' (A & B & C & D) F IHF].
    + simpl. split; [lra|]. unfold near. lra.
    + inversion IH as [|? ? [I1 I2] I3]; inversion CF as [|? ? [C1 C2] C3]; subst.
      destruct (IHF I3 C3) as [J1 J2]. simpl rsum.
      destruct (I1 _ _ C1 A x) as [K1 K2]. destruct (I2 _ _ C2 B x) as [K3 K4].
      assert (0 <= tw e * weight (tp e) x) by nra.
      assert (near (INR (vsize (VNode l r)) / 2000000) (tw e * weight (tp e) x * weight (ts e) x) (tw e' * weight (tp e') x * weight (ts e') x)) as N1.
      { eapply near_weaken; [nra| |eapply near_mul; [| |eapply near_mul; [| |exact D|exact K2]|exact K4]]; auto.
        simpl. rewrite !plus_INR. simpl. lra. }
      replace (weight (tp e) x * weight (ts e) x * tw e) with (tw e * weight (tp e) x * weight (ts e) x) by ring.
      replace (weight (tp e') x * weight (ts e') x * tw e') with (tw e' * weight (tp e') x * weight (ts e') x) by ring.
      split; [nra|]. apply near_add; auto.
Qed.
Lemma close_base t : forall t', close t t' -> forall x, base t' x = base t x.
Proof.
  induction t as [z|v a b|es IH] using ptree_ind2; intros t' H x.
  - inversion H; subst. reflexivity.
  - inversion H; subst. reflexivity.
  - apply close_dec_inv in H as (es' & -> & F). rewrite !base_dec. induction F as [|e e' es es' (A & B & _) F IHF]; [reflexivity|].
    inversion IH as [|? ? [I1 I2] I3]; subst. simpl. rewrite IHF, (I1 _ A), (I2 _ B) by auto. reflexivity.
Qed.

Lemma close_det t : forall t', close t t' -> deterministic t -> deterministic t'.
Proof.
  induction t as [z|v a b|es IH] using ptree_ind2; intros t' H D.
  - inversion H; subst. auto.
  - inversion H; subst. split; exact Logic.I.
  - apply close_dec_inv in H as (es' & -> & F). apply all_nodes_dec in D as [D1 D2]. apply all_nodes_dec. split.
    + clear D2 IH. induction F as [|e e' es es' (A & B & C) F IHF]; [constructor|]. inversion D1 as [|? ? F1 F2]; subst. constructor; auto.
      clear - A F F1. induction F as [|d d' es es' (A' & _) F IH]; [constructor|]. inversion F1; subst. constructor; auto.
      intros x. rewrite (close_base _ _ A), (close_base _ _ A'). auto.
    + clear D1. induction F as [|e e' es es' (A & B & C) F IHF]; [constructor|].
      inversion IH as [|? ? [I1 I2] I3]; inversion D2 as [|? ? [N3 N4] N5]; subst. constructor; auto. split; [exact (I1 _ A N3)|exact (I2 _ B N4)].
Qed.

(** ** The code's format *)
Definition nonzero_params (hs : heap Lexact) (root : nat) : Prop :=
  forall i nd a, reach hs root i -> nth_error hs i = Some nd -> In a (params nd) -> a <> lz.
Lemma near_rnd_log (a : lnum) : a <> lz -> near (/ 2000000) (lval a) (lval (rnd_log a)).
Proof. destruct a; [congruence|]. intros _. apply near_rnd. Qed.
Lemma lval_nonneg a : 0 <= lval a.
Proof. destruct a; simpl; [lra|]. left. apply exp_pos. Qed.
Lemma rep_close (hs : heap Lexact) : forall t i tr, nonzero_params hs i -> @Rep Lexact lval hs i t -> @Rep Lexact (@vr Lexact lval rnd_log) hs i tr -> close t tr.
Proof.
  induction t as [z|v a b|es IH] using ptree_ind2; intros i tr NZ H1 H2.
  - apply Rep_lit_inv in H1 as (nd & E & Eb). inversion H2; subst; assert (nd0 = nd) by congruence; subst; rewrite Eb in *; try discriminate.
    match goal with H : BLit _ = BLit _ |- _ => injection H as -> end. constructor.
  - apply Rep_top_inv in H1 as (nd & pt & pf & E & Eb & -> & ->). inversion H2; subst; assert (nd0 = nd) by congruence; subst; rewrite Eb in *; try discriminate.
    match goal with H : BTop _ _ _ = BTop _ _ _ |- _ => injection H as -> -> -> end.
    assert (forall a, In a (params nd) -> a <> lz) as Z by (intros a; apply (NZ i nd a); auto; constructor).
    unfold params in Z. rewrite Eb in Z. constructor; try apply lval_nonneg; apply near_rnd_log; apply Z; simpl; auto.
  - apply Rep_dec_inv in H1 as (nd & els & E & Eb & F). inversion H2 as [? nd' ? E' Eb'|? nd' ? ? ? E' Eb'|? nd' els' tes' E' Eb' F']; subst; assert (nd' = nd) by congruence; subst; rewrite Eb in *; try discriminate.
    injection Eb' as <-. constructor.
    assert (forall e, In e els -> e_param e <> lz) as Z.
    { intros e He. apply (NZ i nd); auto; [constructor|]. unfold params. rewrite Eb. apply in_map. auto. }
    assert (forall e, In e els -> nonzero_params hs (e_prime e) /\ nonzero_params hs (e_sub e)) as ZC.
    { intros e He. split; intros j ndj a Hj; apply NZ; (eapply reach_step; [exact E| |exact Hj]); unfold children; rewrite Eb;
        apply in_app_iff; [left|right]; apply in_map; auto. }
    clear E Eb E' H2 NZ. revert tes' F'. induction F as [|e te els tes (A & B & C) F IHF]; intros tes' F'; inversion F' as [|? te' ? tes'' (A' & B' & C') F'']; subst; constructor.
    + inversion IH as [|? ? [I1 I2] I3]; subst. destruct (ZC e (or_introl eq_refl)) as [Z1 Z2].
      split; [exact (I1 _ _ Z1 A A')|]. split; [exact (I2 _ _ Z2 B B')|]. rewrite C, C'. split; [apply lval_nonneg|]. apply near_rnd_log, Z. left; auto.
    + inversion IH; subst. apply IHF; auto; intros e' He'; [apply Z|apply ZC]; right; auto.
Qed.

Theorem write_read_code sroot (hs : heap Lexact) ud root q0 s t (m : mgr Lexact) fl pb :
  heap_ok sroot hs -> vt_of hs root = Some q0 -> subtree sroot q0 = Some s -> fits sroot hs ->
  nonzero_params hs root -> @Rep Lexact lval hs root t ->
  (* top nodes that are read back with the same true parameter have the same false parameter *)
  (forall i j ni nj v a b a' b', (reach hs root i /\ nth_error hs i = Some ni /\ n_body ni = BTop v a b) ->
     (reach hs root j /\ nth_error hs j = Some nj /\ n_body nj = BTop v a' b') -> rnd_log a = rnd_log a' -> rnd_log b = rnd_log b') ->
  subtree (m_vt m) pb = Some s -> Wf m ->
  (* the manager has no top node with that flag *)
  (forall i nd v a b, In i (m_live m) -> nth_error (m_heap m) i = Some nd -> n_flag nd = fl -> n_body nd <> BTop v a b) ->
  exists content ud' j m' t',
    @WritePsddToFile Lexact show_log sroot hs ud root = Ok (content, ud') /\
    (forall i, reach hs root i -> ud' i = 0%N) /\ (forall i, ~ reach hs root i -> ud' i = ud i) /\
    @ReadPsddFile Lexact rd_log log0_log content fl m = Ok (Some j, m') /\
    Wf m' /\ mext fl m m' /\ @node_at Lexact lval m' j pb t' /\ flag_of (m_heap m') j = Some fl /\ In j (m_live m') /\
    (forall x, base t' x = base t x) /\
    (forall x, near (INR (vsize s) / 2000000) (weight t x) (weight t' x)) /\
    (deterministic t -> deterministic t').
Proof.
  intros HO Hq0 Hs FT NZ Rt FN Sm W NT.
  set (T := fun v x y => exists i nd a b, reach hs root i /\ nth_error hs i = Some nd /\ n_body nd = BTop v a b /\ x = lval (rnd_log a) /\ y = lval (rnd_log b)).
  assert (forall a b, lval a = lval b -> a = b) as INJ.
  { intros [|r] [|r'] H; simpl in H; auto; try (pose proof (exp_pos r'); lra); try (pose proof (exp_pos r); lra). apply exp_inv in H. congruence. }
  assert (forall v a b b', T v a b -> T v a b' -> b = b') as Tfun.
  { intros v x y y' (i & ni & a & b & R1 & E1 & B1 & -> & ->) (j & nj & a' & b' & R2 & E2 & B2 & EQ & ->). f_equal.
    apply (FN i j ni nj v a b a' b'); auto. }
  destruct (@Rep_exists Lexact (@vr Lexact lval rnd_log) sroot hs HO root) as [tr Rtr]. { eapply vt_of_lt; eauto. }
  assert (tops_T T tr) as TT.
  { assert (forall t0 i, reach hs root i -> @Rep Lexact (@vr Lexact lval rnd_log) hs i t0 -> tops_T T t0) as K.
    { induction t0 as [z|v a b|es IH] using ptree_ind2; intros i RI H.
      - split; auto; exact Logic.I.
      - apply Rep_top_inv in H as (nd & pt & pf & E & Eb & -> & ->). split; auto. exists i, nd, pt, pf. auto.
      - apply Rep_dec_inv in H as (nd & els & E & Eb & F). apply all_nodes_dec. split; [exact Logic.I|].
        assert (forall e, In e els -> reach hs root (e_prime e) /\ reach hs root (e_sub e)) as RC.
        { intros e He. split; (eapply reach_snoc; [exact RI|exact E|]); unfold children; rewrite Eb; apply in_app_iff; [left|right]; apply in_map; auto. }
        clear E Eb. induction F as [|e te els tes (A & B & C) F IHF]; constructor; inversion IH as [|? ? [I1 I2] I3]; subst.
        + destruct (RC e (or_introl eq_refl)). split; [exact (I1 (e_prime e) ltac:(tauto) A)|exact (I2 (e_sub e) ltac:(tauto) B)].
        + apply IHF; auto. intros e' He'. apply RC. right; auto. }
    apply (K tr root); auto. constructor. }
  assert (@InvT Lexact lval T fl m) as I.
  { split; auto. intros i nd v pt pf H1 H2 H3 H4. exfalso. eapply NT; eauto. }
  destruct (@write_read Lexact lval Lexact_exact show_log rd_log log0_log rnd_log (fun a => show_xr_plain (lx a)) (fun a => show_xr_ne (lx a)) T Tfun
     sroot hs ud root q0 s tr m fl pb HO Hq0 Hs FT) as (content & ud' & j & m' & t' & H1 & H2 & H3 & H4 & H5 & H6 & H7 & H8 & H9 & H10); auto.
  { intros i nd a RI E Ha. destruct a as [|r]; [exfalso; eapply NZ; eauto|]. apply rd_show_log. }
  pose proof (rep_close hs t root tr NZ Rt Rtr) as CL. pose proof (shuffled_like _ _ H8) as LK.
  exists content, ud', j, m', t'. do 4 (split; [auto|]). split; [apply H5|]. split; [auto|]. split; [auto|]. split; [auto|]. split; [auto|].
  assert (conforms s t) as CF.
  { exact (@Rep_conforms Lexact lval sroot hs HO t root q0 s Rt Hq0 Hs). }
  split; [intros x; rewrite (lk_base _ _ LK); apply close_base; auto|]. split.
  - intros x. rewrite (lk_weight _ _ LK). eapply close_near; eauto.
  - intros D. apply (lk_det _ _ LK). eapply close_det; eauto.
Qed.
