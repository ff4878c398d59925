(** Examples for the SDD conversions. *)
From Coq Require Import Reals Lra.
From Verif Require Import Base Param ParamProofs Vtree VtreeProofs Spec SpecProofs Heap Manager HeapProofs SerProofs RepProofs OrderProofs CanonProofs
  HeapExamples LoadProofs MulProofs ReplayProofs ManagerExamples TreeProofs Query QueryProofs SampleProofs QueryExamples Sdd SddProofs.

(** the SDD (x1 and x2 and x3) or not x1, over the vtree of the other examples; the PSDD's variables are 11 to 14 *)
Definition sx : sdd := fun n => nth_error
  [MkS [false; false] (SLit 1); MkS [false; false] (SLit (-1)); MkS [true; false] (SLit 2); MkS [true; false] (SLit (-2));
   MkS [false; true] (SLit 3); MkS [] STrue; MkS [] SFalse; MkS [false] (SDec [(0, 2); (1, 6)]%nat); MkS [false] (SDec [(0, 3); (1, 6)]%nat);
   MkS [] (SDec [(7, 4); (1, 5); (8, 6)]%nat)] n.
Definition st7 := XD [false] [(XL [false; false] 1, XL [true; false] 2); (XL [false; false] (-1), XF)].
Definition st8 := XD [false] [(XL [false; false] 1, XL [true; false] (-2)); (XL [false; false] (-1), XF)].
Definition st9 := XD [] [(st7, XL [false; true] 3); (XL [false; false] (-1), XT); (st8, XF)].
Definition fx (v : N) : option N := Some (v + 10)%N.
Ltac srep := repeat (first [eapply SRep_true; reflexivity | eapply SRep_false; reflexivity | eapply SRep_lit; reflexivity
  | eapply SRep_dec; [reflexivity|] | apply Forall2_cons | apply Forall2_nil | split]).
Lemma st9_rep : SRep sx 9 st9.
Proof. unfold st9, st7, st8. srep. Qed.
Lemma seq_prefix k : forall L1 n L2, seq 0 k = L1 ++ n :: L2 -> forall c, (c < n)%nat -> In c L1.
Proof.
  intros L1 n L2 E c Hc.
  assert (n = length L1) as ->.
  { assert (nth (length L1) (seq 0 k) 0%nat = n) as A by (rewrite E, app_nth2, Nat.sub_diag by lia; auto).
    rewrite seq_nth in A; [lia|]. rewrite <- (seq_length k 0), E, app_length. simpl. lia. }
  assert (nth c (seq 0 k) 0%nat = c) as A.
  { rewrite seq_nth; [lia|]. rewrite <- (seq_length k 0), E, app_length. simpl. lia. }
  rewrite E, app_nth1 in A by auto. rewrite <- A. apply nth_In. auto.
Qed.
Ltac sr := first [apply sreach_refl | eapply sreach_step; [reflexivity | simpl; auto 10 | solve [left; reflexivity | right; reflexivity] | ] ].
Lemma sreach_snoc sd r c k e es p : sd c = Some (MkS p (SDec es)) -> In e es -> k = fst e \/ k = snd e -> sreach sd r c -> sreach sd r k.
Proof.
  intros H1 H2 H3 H4. induction H4 as [n0|n0 p0 es0 e0 c0 k0 A1 A2 A3 A4 IH].
  - eapply sreach_step; [exact H1|exact H2|exact H3|apply sreach_refl].
  - eapply sreach_step; [exact A1|exact A2|exact A3|auto].
Qed.
Lemma sx_topo : topo_order sx 9 (seq 0 10).
Proof.
  split; [simpl; auto 20|]. split.
  - intros n Hn.
    assert (forall c k e es p, sx c = Some (MkS p (SDec es)) -> In e es -> k = fst e \/ k = snd e -> sreach sx 9 c -> sreach sx 9 k) as B.
    { intros c k e es p H1 H2 H3 H4. eapply sreach_snoc; eauto. }
    assert (sreach sx 9 7) as R7 by (eapply (B 9 7 (7, 4))%nat; try reflexivity; simpl; auto; apply sreach_refl).
    assert (sreach sx 9 8) as R8 by (eapply (B 9 8 (8, 6))%nat; try reflexivity; simpl; auto; apply sreach_refl).
    apply in_seq in Hn. destruct n as [|[|[|[|[|[|[|[|[|[|n]]]]]]]]]]; try lia; auto; [..|apply sreach_refl].
    + eapply (B 7 0 (0, 2))%nat; try reflexivity; simpl; auto.
    + eapply (B 9 1 (1, 5))%nat; try reflexivity; simpl; auto; apply sreach_refl.
    + eapply (B 7 2 (0, 2))%nat; try reflexivity; simpl; auto.
    + eapply (B 8 3 (0, 3))%nat; try reflexivity; simpl; auto.
    + eapply (B 9 4 (7, 4))%nat; try reflexivity; simpl; auto; apply sreach_refl.
    + eapply (B 9 5 (1, 5))%nat; try reflexivity; simpl; auto; apply sreach_refl.
    + eapply (B 9 6 (8, 6))%nat; try reflexivity; simpl; auto; apply sreach_refl.
  - intros L1 n L2 p es e E Hn He. pose proof (seq_prefix 10 L1 n L2 E) as K.
    assert (fst e < n /\ snd e < n)%nat as [A B].
    { unfold sx in Hn. destruct n as [|[|[|[|[|[|[|[|[|[|n]]]]]]]]]]; try discriminate; try (destruct n; discriminate); injection Hn as <- <-; simpl in He;
        repeat (destruct He as [<-|He]; [simpl; lia|]); destruct He. }
    split; right; apply K; auto.
Qed.
Lemma st9_wf : swf ex_vt st9.
Proof.
  assert (forall l1 l2 x, l1 = (- l2)%Z -> l1 <> 0%Z -> lit_sat l1 x && lit_sat l2 x = false) as LL.
  { intros l1 l2 x -> N. unfold lit_sat. replace (Z.abs_N (- l2)) with (Z.abs_N l2) by lia. destruct (x (Z.abs_N l2)); destruct (Z.ltb 0 (- l2)) eqn:A, (Z.ltb 0 l2) eqn:B; auto; lia. }
  assert (swf ex_vt st7 /\ swf ex_vt st8) as [W7 W8].
  { split; apply swf_dec; (split; [do 2 eexists; reflexivity|]); (split; [repeat constructor; simpl; auto; discriminate|]);
      (split; [repeat constructor; simpl; auto; try (exists []; reflexivity); right; right; exists []; reflexivity|]);
      (split; [constructor; simpl; discriminate|]);
      (constructor; [|constructor; constructor]); (constructor; [|constructor]); intros x; apply LL; simpl; lia. }
  apply swf_dec. split; [do 2 eexists; reflexivity|]. split.
  { apply Forall_cons; [split; [exact W7|split; [reflexivity|discriminate]]|]. apply Forall_cons; [split; [split; [reflexivity|discriminate]|exact I]|].
    apply Forall_cons; [split; [exact W8|exact I]|apply Forall_nil]. }
  split.
  { apply Forall_cons; [split; [exists []; reflexivity|right; right; exists [false]; reflexivity]|].
    apply Forall_cons; [split; [exists [false]; reflexivity|left; reflexivity]|].
    apply Forall_cons; [split; [exists []; reflexivity|right; left; reflexivity]|apply Forall_nil]. }
  split; [constructor; simpl; discriminate|].
  constructor; [|constructor; [|constructor; constructor]].
  - constructor; [|constructor; [|constructor]]; intros x; simpl; unfold lit_sat; simpl; destruct (x 1%N), (x 2%N); reflexivity.
  - constructor; [|constructor]. intros x; simpl; unfold lit_sat; simpl; destruct (x 1%N), (x 2%N); reflexivity.
Qed.
Definition px : vtree := match rename_vtree fx ex_vt with Some t => t | None => ex_vt end.
Lemma px_inv : @Inv Qex qval 0 (new_mgr px).
Proof. apply (@tidy_inv Qex qval Qex_exact 0). constructor. vm_compute. repeat constructor; simpl; intuition congruence. Qed.
Definition all_true : inst := fun _ => true.
