(** The network of NearCertain.v with a second factor that is not nearly certain: both kinds of comparison give the product (C87). *)
From Coq Require Import Reals Lra Permutation.
From Verif Require Import Base Param ParamProofs Vtree VtreeProofs Spec SpecProofs Heap Manager HeapProofs SerProofs RepProofs OrderProofs Pgm PgmProofs PgmNet PgmExamples QueryExamples
  ApproxExamples TransferProofs TransferOps TransferCode NearCertain.
Local Notation two := (VNode (Leaf 1) (Leaf 2)).
Local Ltac run := cbv -[padd peq plt pmul pdiv pzero pone].
Local Open Scope nat_scope.
Section Run.
Context {P : pops} (ord : nat -> list N -> list N).
Definition kp_second (a b c d : P) : mgr P := MkM two (m_heap (nc_first a b) ++ [MkN [false] 0 (BTop 1 c d); MkN [true] 0 (BTop 2 pone pone); MkN [] 0 (BDec [MkE 3 4 pone])]) [0; 1; 2; 3; 4; 5].
Definition kp_last (a b c d w : P) : mgr P := MkM two (m_heap (kp_second a b c d) ++ [MkN [] 0 (BDec [MkE 3 0 w])]) [0; 1; 2; 3; 4; 5; 6].
Lemma run_second_kept (a b p q : P) : let c := pdiv p (padd p q) in peq (padd p q) pzero = false -> peq p pzero = false -> peq q pzero = false ->
  plt c pone = true -> plt pone a = false -> plt a pone = true ->
  compile_factor ord (MkF [1%N] [q; p]) (nc_first a b) = Ok (5, padd p q, kp_second a b c (pdiv q (padd p q))).
Proof.
  intros c Z1 Z2 Z3 S1 D1 D2. unfold c in *. clear c. run. rewrite Z1, Z2, Z3. run. rewrite ?S1. run. rewrite ?D1, ?D2. run. reflexivity.
Qed.
Lemma run_product_kept (a b c d : P) : let sa := padd (pmul pone c) (pmul pone d) in
  let sb := padd (pmul a pone) (pmul b pone) in let w := pmul (pmul (pmul pone pone) sa) sb in let n := padd pzero w in
  pdiv (pmul pone c) sa = c -> pdiv (pmul a pone) sb = a -> plt a a = false -> plt c c = false -> plt c pone = true ->
  peq c pzero = false -> peq d pzero = false -> peq a pzero = false -> peq b pzero = false -> peq (pdiv w n) pzero = false ->
  Multiply (kp_second a b c d) 2 5 0 = Ok ((Some 6, n), kp_last a b c d (pdiv w n)).
Proof.
  intros sa sb w n E0 E1 A1 C1 C2 Z0 Z1 Z2 Z3 Z4. unfold n, w, sb, sa in *. clear n w sb sa.
  run. rewrite !E0, ?C2, ?C1. run. rewrite ?Z0, ?Z1. run. rewrite ?E1, ?A1. run. rewrite ?Z2, ?Z3. run. rewrite Z4. run. reflexivity.
Qed.
Lemma run_order_kept srt (x0 x1 p q a b c d : P) : sorts srt ->
  compilation_order srt (kp_second a b c d) [MkF [2%N] [x0; x1]; MkF [1%N] [q; p]] [2; 5] = Ok [2; 5].
Proof.
  intros S. unfold compilation_order.
  replace (SerializeVtree [] (m_vt (kp_second a b c d))) with (Ok [([], two); ([false], Leaf 1); ([true], Leaf 2)]) by reflexivity.
  cbn [bind]. match goal with |- context [mapM ?f ?l] => replace (mapM f l) with (Ok [2; 0]) by reflexivity end. cbn [bind].
  change (seq 0 (length [2; 5])) with [0; 1].
  match goal with |- context [srt ?k _] => set (key := k) end. destruct (S key [0; 1]) as [PE SO].
  assert (srt key [0; 1] = [0; 1]) as ->; [|reflexivity].
  apply Permutation_sym, Permutation_length_2_inv in PE as [PE|PE]; auto. rewrite PE in SO.
  specialize (SO [] 1 [] 0 [] eq_refl). unfold key in SO. simpl in SO. lia.
Qed.
End Run.
Local Open Scope R_scope.
Lemma cl_add a b : 0 < a -> 0 < b -> padd (cl a) (cl b) = cl (a + b).
Proof. intros A B. apply cl_of; [lra|]. rewrite (val_add Lexact_arith), !cl_val; auto. Qed.
Lemma cl_mul a b : 0 < a -> 0 < b -> pmul (cl a) (cl b) = cl (a * b).
Proof. intros A B. apply cl_of; [nra|]. rewrite (val_mul Lexact_arith), !cl_val; auto. Qed.
Lemma cl_div a b : 0 < a -> 0 < b -> pdiv (cl a) (cl b) = cl (a / b).
Proof. intros A B. apply cl_of; [apply Rdiv_lt_0_compat; auto|]. rewrite (val_div Lexact_arith); rewrite !cl_val; auto. lra. Qed.
Lemma cl_one : @pone Lexact = cl 1.
Proof. exact (cl_of pone 1 Rlt_0_1 (val_one Lexact_arith)). Qed.
Lemma cl_nonzero r : 0 < r -> peq (cl r) pzero = false.
Proof. intros H. apply not_true_iff_false. intros E. apply (val_eq Lexact_exact) in E. rewrite (val_zero Lexact_arith), cl_val in E; lra. Qed.
Lemma cl_lt a b : 0 < a -> 0 < b -> a < b -> plt (cl a) (cl b) = true.
Proof. intros A B L. apply (val_lt Lexact_exact). rewrite !cl_val; auto. Qed.
Lemma cl_ge a b : 0 < a -> 0 < b -> b <= a -> plt (cl a) (cl b) = false.
Proof. intros A B L. apply not_true_iff_false. intros E. apply (val_lt Lexact_exact) in E. rewrite !cl_val in E; lra. Qed.
Definition kept_net : network Lexact := [MkF [2%N] [cl 2; cl 1]; MkF [1%N] [cl 3; cl 1]].
Definition kept_mgr : mgr Lexact := kp_last (cl (1 / 3)) (cl (2 / 3)) (cl (1 / 4)) (cl (3 / 4)) (cl 1).
Lemma kept_load ords : load_factors ords 0 kept_net pone (new_mgr two) = Ok ([2; 5]%nat, cl 12, kp_second (cl (1 / 3)) (cl (2 / 3)) (cl (1 / 4)) (cl (3 / 4))).
Proof.
  unfold kept_net. cbn [load_factors].
  rewrite run_first; rewrite ?cl_add by lra; try (apply cl_nonzero; lra). rewrite !cl_div by lra. replace (1 + 2) with 3 by lra. cbn [bind fst snd].
  rewrite run_second_kept; rewrite ?cl_add by lra; try (apply cl_nonzero; lra); rewrite ?cl_div by lra; rewrite ?cl_one;
    try (apply cl_lt; lra); try (apply cl_ge; lra).
  replace (1 + 3) with 4 by lra. cbn [bind fst snd]. rewrite !cl_mul by lra. do 4 f_equal. lra.
Qed.
Lemma kept_product : Multiply (kp_second (cl (1 / 3)) (cl (2 / 3)) (cl (1 / 4)) (cl (3 / 4))) 2 5 0 = Ok ((Some 6%nat, cl 1), kept_mgr).
Proof.
  pose proof (@run_product_kept Lexact (cl (1 / 3)) (cl (2 / 3)) (cl (1 / 4)) (cl (3 / 4))) as R. cbv zeta in R. rewrite cl_one in R.
  rewrite !cl_mul in R by lra. rewrite !(cl_add (1 * (1 / 4)) (1 * (3 / 4))), !(cl_add (1 / 3 * 1) (2 / 3 * 1)) in R by lra.
  replace (1 * (1 / 4) + 1 * (3 / 4)) with 1 in R by lra. replace (1 / 3 * 1 + 2 / 3 * 1) with 1 in R by lra.
  rewrite !cl_mul in R by lra. replace (1 * 1 * 1 * 1) with 1 in R by lra.
  assert (padd pzero (cl 1) = cl 1) as PZ by (apply cl_of; [lra|]; rewrite (val_add Lexact_arith), (val_zero Lexact_arith), cl_val; lra).
  rewrite PZ, !cl_div in R by lra. replace (1 * (1 / 4) / 1) with (1 / 4) in R by lra. replace (1 / 3 * 1 / 1) with (1 / 3) in R by lra. replace (1 / 1) with 1 in R by lra.
  rewrite R; try reflexivity; try (apply cl_nonzero; lra); try (apply cl_lt; lra); try (apply cl_ge; lra).
Qed.
Lemma kept_run ords srt gc : sorts srt -> gc <> 0%N -> exists z m, compile_network_dc ords srt gc kept_net (new_mgr two) = Ok (Some 6%nat, z, m) /\ m_heap m = m_heap kept_mgr.
Proof.
  intros S G. unfold compile_network_dc. rewrite kept_load. cbn [bind fst snd]. unfold kept_net at 1. rewrite run_order_kept by auto. cbn [bind length map].
  destruct (run_queue gc (cl 12) 5 6 (cl 1) _ _ G kept_product eq_refl) as (m2 & E & EV & EH & EL).
  { eexists. split; [reflexivity|]. simpl. auto 10. }
  { simpl. auto 10. }
  rewrite E. cbn [bind fst snd hd_error get]. eexists _, m2. split; [reflexivity|]. exact EH.
Qed.
Lemma cl_apart a b : 0 < a -> 0 < b -> a <= b * (9 / 10) -> apart (cl a) (cl b) /\ apart (cl b) (cl a).
Proof.
  intros A B L. assert (ln a <= ln b - / 20) as LL.
  { apply Rle_trans with (ln (b * (9 / 10))); [apply ln_below; auto|]. rewrite ln_mult by lra.
    assert (ln (9 / 10) <= - / 20); [|lra]. rewrite <- (ln_exp (- / 20)). apply ln_below; [lra|]. pose proof (exp_ineq1_le (- / 20)). lra. }
  unfold apart. rewrite !cl_val by auto. split; right; right; right; [rewrite Rabs_left by lra|rewrite Rabs_right by lra]; lra.
Qed.
Lemma kept_apart : stored_apart_t (m_heap kept_mgr).
Proof.
  assert (forall a b, In a [cl (1 / 4); cl (1 / 3); cl 1] -> In b [cl (1 / 4); cl (1 / 3); cl 1] -> apart a b) as A.
  { intros a b [<-|[<-|[<-|[]]]] [<-|[<-|[<-|[]]]]; try (left; reflexivity); first [refine (proj1 (cl_apart _ _ _ _ _)); lra|refine (proj2 (cl_apart _ _ _ _ _)); lra]. }
  intros a b Ha Hb. apply A; [clear Hb b|clear Ha a];
    match goal with H : In ?x _ |- _ => cbn [kept_mgr kp_last kp_second nc_first m_heap app flat_map cparams n_body map e_param] in H; rewrite ?cl_one in H; simpl In in H |- *; tauto end.
Qed.
Lemma kept_good : Forall (good_factor two) kept_net.
Proof.
  repeat (apply Forall_cons || apply Forall_nil); (split; [repeat constructor; simpl; intuition discriminate|discriminate|intros v; simpl; intuition (subst; auto)|simpl; lia|reflexivity|]);
  simpl.
  - left. split; [intros v [<-|[]]; intuition discriminate|exact I].
  - right; left. split; [intros v [<-|[]]; intuition discriminate|exact I].
Qed.
(** The heap with the other comparison stands for the same trees. *)
Lemma Rep_trunc (h : heap Lexact) : forall i t, @Rep Lexact lval h i t -> @Rep Ltrunc lval (maph trunc_of h) i t.
Proof.
  fix IH 3. intros i t R. destruct R as [i nd l E B|i nd v pt pf E B|i nd es tes E B F].
  - eapply Rep_lit with (nd := mapn trunc_of nd); [rewrite maph_nth, E; reflexivity|]. unfold mapn. simpl. rewrite B. reflexivity.
  - apply (@Rep_top Ltrunc lval _ i (mapn trunc_of nd) v (trunc_of pt) (trunc_of pf)); [rewrite maph_nth, E; reflexivity|]. unfold mapn. simpl. rewrite B. reflexivity.
  - eapply Rep_dec with (nd := mapn trunc_of nd) (es := map (mape trunc_of) es); [rewrite maph_nth, E; reflexivity|unfold mapn; simpl; rewrite B; reflexivity|].
    clear E B. induction F as [|e te es tes (A & B & C) F IHF]; simpl; constructor; auto.
Qed.
Theorem far_dc ords srt gc (fs : network Lexact) (m : mgr Lexact) : (forall a b c, Permutation (ords a b c) c) -> sorts srt -> @Inv Lexact lval 0 m ->
  (forall v, In v (leaves (m_vt m)) -> v <> 0%N) -> Forall (good_factor (m_vt m)) fs -> fs <> [] -> gc <> 0%N ->
  (exists x, @network_value Lexact lval fs x <> 0) ->
  exists i z m' t, compile_network_dc ords srt gc fs m = Ok (Some i, z, m') /\
    (forall x, weight t x * lval z = @network_value Lexact lval fs x) /\ positive t /\ deterministic t /\ conforms (m_vt m) t /\
    (stored_apart_t (m_heap m') ->
      @compile_network_dc Ltrunc ords srt gc (map (mapf trunc_of) fs) (mapm trunc_of m) = Ok (Some i, z, mapm trunc_of m') /\
      @Rep Ltrunc lval (m_heap (mapm trunc_of m')) i t).
Proof.
  intros HO HS I NZ G NE GC X. destruct (network_dc_full Lexact_exact ords srt gc fs m HO HS I NZ G NE GC X) as (i & z & m' & t & E & I' & EV & PH & RN & ZP & W & NO).
  exists i, z, m', t. split; auto. split; auto. destruct RN as (R1 & R2 & R3 & R4 & R5 & R6). rewrite EV in R4. split; auto. split; auto. split; auto. intros S. split.
  - exact (proj2 (sim_compile_network_dc trunc_of trunc_hom trunc_zero ords srt gc fs m _ m' E) (stored_sep_t _ S)).
  - apply Rep_trunc. auto.
Qed.
