(** Networks whose tables are numbers of moderate size: compilation with the comparison of class PsddParameter itself (C66, C87).
    That a parameter is zero is tested for the entries of the tables and for their sums only. *)
From Verif Require Import Base Param Vtree VtreeProofs Heap Manager Pgm HeapProofs SerProofs OrderProofs ReplayProofs TransferProofs TransferOps.

Section Net.
Context {P P' : pops} (f : P -> P') (H : phom P P' f).
(** [D k]: the sums of at most 2^k entries; up to the level [K] the second comparison recognises zero among them. *)
Context (D : nat -> P -> Prop) (K : nat).
Context (D_test : forall k a, k <= K -> D k a -> peq (f a) pzero = peq a pzero).
Context (D_add : forall k a b, D k a -> D k b -> D (S k) (padd a b)).
Context (D_up : forall k a, D k a -> D (S k) a).
Context (D_zero : forall k, D k pzero).
Notation mapm := (mapm f). Notation sep := (sep f). Notation mapf := (mapf f). Notation mapz := (mapz f). Notation mapt := (mapt f).
Notation mapcz := (mapcz f). Notation maplz := (maplz f). Notation mapiz := (mapiz f). Notation maplp := (maplp f).

Definition simq {X X'} (Q : X -> Prop) (mx : X -> X') (F : mgr P -> res (X * mgr P)) (F' : mgr P' -> res (X' * mgr P')) : Prop :=
  forall m x m1, F m = Ok (x, m1) -> Q x /\ grow m m1 /\ (sep (m_heap m1) -> F' (mapm m) = Ok (mx x, mapm m1)).
Lemma simq_foldM {S S' A} (Q : S -> Prop) (ms : S -> S') (step : S * mgr P -> A -> res (S * mgr P)) step' :
  (forall s a, Q s -> simq Q ms (fun m => step (s, m) a) (fun m => step' (ms s, m) a)) ->
  forall l s, Q s -> simq Q ms (fun m => foldM step l (s, m)) (fun m => foldM step' l (ms s, m)).
Proof.
  intros R l. induction l as [|a l IH]; intros s QS m x m1 E; cbn [foldM] in E |- *.
  - injection E as <- <-. split; [auto|split; [apply grow_refl|reflexivity]].
  - bk E as [s' m2] E1. destruct (R s a QS m s' m2 E1) as (Q1 & G1 & B1). destruct (IH s' Q1 m2 x m1 E) as (Q2 & G2 & B2).
    split; [auto|]. split; [eapply grow_trans; eauto|]. intros S0. rewrite B1 by (eapply sep_grow; eauto). cbn [bind]. auto.
Qed.
Lemma sim_term_node' k v pos neg : S k <= K -> D k pos -> D k neg ->
  simq (fun x => D (S k) (snd x)) mapt (term_node v pos neg) (term_node v (f pos) (f neg)).
Proof.
  intros LK DP DN m x m1 E. unfold term_node in E |- *. rewrite <- (h_add H), (D_test (S k) (padd pos neg)), (D_test k pos), (D_test k neg) by (auto; lia).
  destruct (peq (padd pos neg) pzero) eqn:En.
  { injection E as <- <-. split; [apply D_zero|split; [apply grow_refl|]]. unfold TransferOps.mapt. cbn [fst snd]. rewrite (h_zero H). reflexivity. }
  destruct (peq pos pzero).
  { bk E as [i m2] E1. injection E as <- <-. destruct (sim_literal f H _ _ _ _ _ E1) as [G B]. split; [cbn; auto|]. split; auto. intros S. rewrite B by auto. reflexivity. }
  destruct (peq neg pzero).
  { bk E as [i m2] E1. injection E as <- <-. destruct (sim_literal f H _ _ _ _ _ E1) as [G B]. split; [cbn; auto|]. split; auto. intros S. rewrite B by auto. reflexivity. }
  bk E as [i m2] E1. injection E as <- <-. destruct (sim_top f H _ _ _ _ _ _ _ E1) as [G B]. split; [cbn; auto|]. split; auto. intros S.
  rewrite <- !(h_div H) by auto. rewrite B by auto. reflexivity.
Qed.
Definition zD (k : nat) (zc : @zcache P) : Prop := Forall (fun x => D k (snd x)) zc.
Lemma zD_at k c zc z : zD k zc -> at_ c zc = Ok z -> D k z.
Proof.
  unfold at_. intros A E. destruct (Nlookup c zc) as [w|] eqn:El; [|discriminate]. injection E as <-.
  induction A as [|[c' w'] zc A0 A IH]; [discriminate|]. simpl in El. destruct (N.eqb c c'); [injection El as <-; exact A0 | exact (IH El)].
Qed.
Lemma sim_term_step' table v loc k : 1 <= K -> Forall (D 0) table -> forall c, zD 1 (snd c) ->
  simq (fun c => zD 1 (snd c)) mapcz (fun m => term_step table v loc (c, m) k) (fun m => term_step (map f table) v loc (mapcz c, m) k).
Proof.
  intros LK DT [nc zc] ZC m x m1 E. unfold term_step in E |- *. cbn [TransferOps.mapcz fst snd] in *.
  destruct (Nlookup (N.clearbit (N.of_nat k) loc) nc); [injection E as <- <-; split; [auto|split; [apply grow_refl|reflexivity]]|].
  bk E as neg En. bk E as pos Ep. bk E as [y m2] E1. injection E as <- <-. rewrite !nth_error_map.
  destruct (nth_error table (N.to_nat (N.clearbit (N.of_nat k) loc))) eqn:N1; [|discriminate]. injection En as ->. cbn [option_map get bind].
  destruct (nth_error table (N.to_nat (N.setbit (N.clearbit (N.of_nat k) loc) loc))) eqn:N2; [|discriminate]. injection Ep as ->. cbn [option_map get bind].
  rewrite Forall_forall in DT. apply nth_error_In in N1, N2.
  destruct (sim_term_node' 0 v pos neg LK (DT _ N2) (DT _ N1) _ _ _ E1) as (Q & G & B).
  split; [constructor; auto|]. split; auto. intros S. rewrite B by auto. reflexivity.
Qed.
Lemma sim_cond_node' k v pos neg sp sn : S k <= K -> D k pos -> D k neg ->
  simq (fun x => D (S k) (snd x)) mapt (cond_node v pos neg sp sn) (cond_node v (f pos) (f neg) sp sn).
Proof.
  intros LK DP DN m x m1 E. unfold cond_node in E |- *. rewrite <- (h_add H), (D_test (S k) (padd pos neg)), (D_test k pos), (D_test k neg) by (auto; lia).
  destruct (peq (padd pos neg) pzero) eqn:En.
  { injection E as <- <-. split; [apply D_zero|split; [apply grow_refl|]]. unfold TransferOps.mapt. cbn [fst snd]. rewrite (h_zero H). reflexivity. }
  destruct (peq pos pzero).
  { bk E as [ln m2] E1. bk E as s Es. bk E as [i m3] E2. injection E as <- <-. destruct (sim_literal f H _ _ _ _ _ E1) as [G B].
    destruct (sim_Conformed f H _ _ _ _ _ _ _ E2) as [G2 B2]. split; [cbn; auto|]. split; [eapply grow_trans; eauto|]. intros S. rewrite B by (eapply sep_grow; eauto). cbn [bind].
    rewrite Es. cbn [bind]. rewrite (one_map f H), B2 by auto. reflexivity. }
  destruct (peq neg pzero).
  { bk E as [lp m2] E1. bk E as s Es. bk E as [i m3] E2. injection E as <- <-. destruct (sim_literal f H _ _ _ _ _ E1) as [G B].
    destruct (sim_Conformed f H _ _ _ _ _ _ _ E2) as [G2 B2]. split; [cbn; auto|]. split; [eapply grow_trans; eauto|]. intros S. rewrite B by (eapply sep_grow; eauto). cbn [bind].
    rewrite Es. cbn [bind]. rewrite (one_map f H), B2 by auto. reflexivity. }
  bk E as [lp m2] E1. bk E as [ln m3] E2. bk E as s1 Es1. bk E as s2 Es2. bk E as [i m4] E3. injection E as <- <-.
  destruct (sim_literal f H _ _ _ _ _ E1) as [G B]. destruct (sim_literal f H _ _ _ _ _ E2) as [G2 B2].
  destruct (sim_Conformed f H _ _ _ _ _ _ _ E3) as [G3 B3]. split; [cbn; auto|]. split; [eapply grow_trans; [|eapply grow_trans]; eauto|]. intros S.
  pose proof (sep_grow f _ _ G3 S) as S3. pose proof (sep_grow f _ _ G2 S3) as S2.
  rewrite B by auto. cbn [bind]. rewrite B2 by auto. cbn [bind]. rewrite Es1. cbn [bind]. rewrite Es2. cbn [bind].
  rewrite <- !(h_div H) by auto. cbn [map] in B3. rewrite B3 by auto. reflexivity.
Qed.
Lemma sim_cond_step' k nc zc v loc last : S k <= K -> zD k zc -> forall c, zD (S k) (snd c) ->
  simq (fun c => zD (S k) (snd c)) mapcz (fun m => cond_step nc zc v loc (c, m) last) (fun m => cond_step nc (mapz zc) v loc (mapcz c, m) last).
Proof.
  intros LK ZC [nc' zc'] ZC' m x m1 E. unfold cond_step in E |- *. cbn [TransferOps.mapcz fst snd] in *.
  destruct (Nlookup (N.clearbit last loc) nc'); [injection E as <- <-; split; [auto|split; [apply grow_refl|reflexivity]]|].
  bk E as neg En. bk E as pos Ep. bk E as sn Esn. bk E as sp Esp. bk E as [y m2] E1. injection E as <- <-.
  destruct (sim_cond_node' k v pos neg sp sn LK (zD_at _ _ _ _ ZC Ep) (zD_at _ _ _ _ ZC En) _ _ _ E1) as (Q & G & B).
  split; [constructor; auto|]. split; auto. intros S. rewrite (at_map f _ _ _ En). cbn [bind]. rewrite (at_map f _ _ _ Ep). cbn [bind].
  rewrite Esn. cbn [bind]. rewrite Esp. cbn [bind]. rewrite B by auto. reflexivity.
Qed.
Lemma sim_level_step' ord x k c : S k <= K -> zD k (snd c) ->
  simq (fun c => zD (S k) (snd c)) maplz (fun m => level_step ord (c, m) x) (fun m => level_step ord (maplz c, m) x).
Proof.
  intros LK ZC. destruct c as [[j nc] zc]. intros m y m1 E. unfold level_step in E |- *. cbn [TransferOps.maplz fst snd] in *. bk E as loc El. rewrite El. cbn [bind].
  bk E as [c m2] E1. injection E as <- <-.
  destruct (simq_foldM (fun c => zD (S k) (snd c)) mapcz (cond_step nc zc (fst x) loc) (cond_step nc (mapz zc) (fst x) loc)
              (fun c a Q => sim_cond_step' k nc zc (fst x) loc a LK ZC c Q) _ ([], []) (Forall_nil _) _ _ _ E1) as (Q & G & B).
  split; [exact Q|]. split; auto. intros S. pose proof (B S) as B'. unfold TransferOps.mapcz, TransferOps.mapz, ncache, zcache in *. cbn [fst snd map] in *. rewrite B'. reflexivity.
Qed.
Lemma sim_levels ord : forall rest k c, k + length rest <= K -> zD k (snd c) ->
  simq (fun c => zD (k + length rest) (snd c)) maplz (fun m => foldM (level_step ord) rest (c, m)) (fun m => foldM (level_step ord) rest (maplz c, m)).
Proof.
  induction rest as [|x rest IH]; intros k c LK ZC m y m1 E; cbn [foldM length] in *.
  - injection E as <- <-. rewrite Nat.add_0_r. split; [auto|split; [apply grow_refl|reflexivity]].
  - bk E as [c' m2] E1. destruct (sim_level_step' ord x k c ltac:(lia) ZC _ _ _ E1) as (Q1 & G1 & B1).
    replace (k + S (length rest)) with (S k + length rest) in * by lia.
    destruct (IH (S k) c' LK Q1 _ _ _ E) as (Q2 & G2 & B2). split; [auto|]. split; [eapply grow_trans; eauto|].
    intros S0. rewrite B1 by (eapply sep_grow; eauto). cbn [bind]. auto.
Qed.
Definition moderate_factor (F : factor P) : Prop := Forall (D 0) (f_table F) /\ length (f_scope F) <= K.
Theorem sim_compile_factor' ord F : moderate_factor F -> simx f mapiz (compile_factor ord F) (compile_factor ord (mapf F)).
Proof.
  intros [DT LK] m x m1 E. unfold compile_factor in E |- *. cbn [TransferOps.mapf f_scope f_table]. cbn [TransferProofs.mapm m_vt].
  replace (MkM (m_vt m) (maph f (m_heap m)) (m_live m)) with (mapm m) by reflexivity.
  bk E as ser Es. rewrite Es. cbn [bind]. bk E as u Eu. rewrite Eu. cbn [bind].
  match goal with |- _ /\ (_ -> match combine ?A ?B with _ => _ end = _) => assert (length (combine A B) <= K) as LC end.
  { rewrite combine_length. match type of Eu with assert ?b = _ => destruct b eqn:Eb; [|discriminate] end. apply Nat.eqb_eq in Eb. rewrite Eb, rev_length. lia. }
  match type of LC with length ?X <= _ => destruct X as [|[v l] rest] end; [discriminate|]. cbn [length] in LC.
  bk E as loc El. rewrite El. cbn [bind]. bk E as [c m2] E1. bk E as [[[k nc] zc] m3] E2. bk E as u2 Eu2. bk E as r Er. bk E as z Ez. bk E as i Ei.
  bk E as [j m4] E3. injection E as <- <-.
  destruct (simq_foldM (fun c => zD 1 (snd c)) mapcz (term_step (f_table F) v loc) (term_step (map f (f_table F)) v loc)
              (fun c a Q => sim_term_step' (f_table F) v loc a ltac:(lia) DT c Q) _ ([], []) (Forall_nil _) _ _ _ E1) as (Q1 & G1 & B1).
  destruct (sim_levels ord rest 1 (0, fst c, snd c) LC Q1 _ _ _ E2) as (_ & G2 & B2).
  destruct (sim_Normalize f H _ _ _ _ _ _ E3) as [G3 B3]. split; [eapply grow_trans; [|eapply grow_trans]; eauto|]. intros S.
  pose proof (sep_grow f _ _ G3 S) as S3. pose proof (sep_grow f _ _ G2 S3) as S2. pose proof (B1 S2) as B1'. pose proof (B2 S3) as B2'.
  rewrite map_length. unfold TransferOps.mapcz, TransferOps.maplz, TransferOps.mapz, ncache, zcache in *. cbn [fst snd map] in B1', B2'. rewrite B1'. cbn [bind fst snd].
  rewrite B2'. cbn [bind]. rewrite Eu2. cbn [bind]. rewrite Er. cbn [bind]. pose proof (at_map f _ _ _ Ez) as Az. unfold TransferOps.mapz in Az. rewrite Az. cbn [bind].
  rewrite Ei. cbn [bind]. rewrite B3 by auto. reflexivity.
Qed.
Lemma sim_load_factors' ords : forall fs k z, Forall moderate_factor fs -> simx f maplp (load_factors ords k fs z) (load_factors ords k (map mapf fs) (f z)).
Proof.
  induction fs as [|F fs IH]; intros k z MF m x m1 E; cbn [load_factors map] in E |- *.
  - injection E as <- <-. split; [apply grow_refl|reflexivity].
  - inversion MF as [|? ? MF1 MF2]; subst. bk E as [y m2] E1. bk E as [w m3] E2. injection E as <- <-. destruct (sim_compile_factor' _ _ MF1 _ _ _ E1) as [G1 B1].
    destruct (IH _ _ MF2 _ _ _ E2) as [G2 B2]. split; [eapply grow_trans; eauto|]. intros S. rewrite B1 by (eapply sep_grow; eauto). cbn [bind TransferOps.mapiz fst snd].
    rewrite <- (h_mul H), B2 by auto. reflexivity.
Qed.
Context (fs : network P) (MF : Forall moderate_factor fs).
Theorem sim_compile_network' ords srt : simx f mapt (compile_network ords srt fs) (compile_network ords srt (map mapf fs)).
Proof.
  intros m x m1 E. unfold compile_network in E |- *. bk E as [y m2] E1. bk E as order Eo.
  destruct (sim_load_factors' _ _ _ _ MF _ _ _ E1) as [G1 B1].
  destruct (simx_foldM f mapt (fun a => a) seq_step seq_step (sim_seq_step f H) _ _ _ _ _ E) as [G2 B2]. split; [eapply grow_trans; eauto|]. intros S.
  pose proof (B1 (sep_grow f _ _ G2 S)) as B1'. rewrite (h_one H) in B1'. rewrite B1'. cbn [bind TransferOps.maplp fst snd]. rewrite (order_map f _ _ _ _ _ Eo). cbn [bind].
  pose proof (B2 S) as B2'. rewrite map_id in B2'. exact B2'.
Qed.
Theorem sim_compile_network_dc' ords srt gc : simp f mapt (compile_network_dc ords srt gc fs) (compile_network_dc ords srt gc (map mapf fs)).
Proof.
  intros m x m1 E. unfold compile_network_dc in E |- *. bk E as [y m2] E1. bk E as order Eo. bk E as [w m3] E2. bk E as r Er. injection E as <- <-.
  destruct (sim_load_factors' _ _ _ _ MF _ _ _ E1) as [G1 B1]. destruct (sim_queue_loop f H _ _ _ _ _ _ _ _ E2) as [G2 B2].
  split; [eapply prefix_trans; [apply grow_prefix|]; eauto|]. intros S.
  pose proof (B1 (sep_prefix f _ _ G2 S)) as B1'. rewrite (h_one H) in B1'. rewrite B1'. cbn [bind TransferOps.maplp fst snd]. rewrite (order_map f _ _ _ _ _ Eo). cbn [bind].
  rewrite B2 by auto. cbn [bind mapq fst snd]. rewrite Er. reflexivity.
Qed.
Theorem sim_compile_network_with_vtree' ords gc :
  simp f mapt (compile_network_with_vtree ords gc fs) (compile_network_with_vtree ords gc (map mapf fs)).
Proof.
  intros m x m1 E. unfold compile_network_with_vtree in E |- *. cbn [TransferProofs.mapm m_vt].
  replace (MkM (m_vt m) (maph f (m_heap m)) (m_live m)) with (mapm m) by reflexivity.
  bk E as ser Es. rewrite Es. cbn [bind]. bk E as [y m2] E1. bk E as ps Ep. bk E as [[[out proc] z] m3] E2. bk E as [w m4] E3. bk E as r Er. injection E as <- <-.
  destruct (sim_load_factors' _ _ _ _ MF _ _ _ E1) as [G1 B1].
  destruct (simx_foldM f (mapbs f) (fun a => a) _ _ (sim_bucket_step f H _ _) _ _ _ _ _ E2) as [G2 B2].
  destruct (sim_queue_loop f H _ _ _ _ _ _ _ _ E3) as [G3 B3].
  assert (prefix m2 m4) as G23 by (eapply prefix_trans; [apply grow_prefix|]; eauto).
  split; [eapply prefix_trans; [apply grow_prefix|]; eauto|]. intros S.
  pose proof (B1 (sep_prefix f _ _ G23 S)) as B1'. rewrite (h_one H) in B1'. rewrite B1'. cbn [bind TransferOps.maplp fst snd].
  rewrite mapM_map. rewrite (mapM_ext (fun a => attach (m_vt m) (mapf a)) (attach (m_vt m))) by reflexivity. rewrite Ep. cbn [bind].
  pose proof (B2 (sep_prefix f _ _ G3 S)) as B2'. rewrite map_id in B2'. unfold mapbs in B2'. cbn [fst snd] in B2'. rewrite B2'. cbn [bind].
  rewrite B3 by auto. cbn [bind mapq fst snd]. rewrite Er. reflexivity.
Qed.
End Net.
