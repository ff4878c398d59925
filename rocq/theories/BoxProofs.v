(** The draws for which DirectSample returns an instantiation (C57): a finite set of boxes whose volumes add up to its weight. *)
From Coq Require Import Reals Lra FunctionalExtensionality.
From Verif Require Import Base Param ParamProofs Vtree VtreeProofs Spec SpecProofs Heap Manager HeapProofs SerProofs RepProofs LoadProofs TreeProofs
  Query QueryProofs MpeProofs SampleProofs.
Local Open Scope R_scope.

(** A box: one interval [lo, hi) per draw. *)
Definition box := list (R * R).
Definition inside (b : box) (d : list R) : Prop := Forall2 (fun iv u => fst iv <= u < snd iv) b d.
Definition starts (b : box) (us : list R) : Prop := exists d r, us = d ++ r /\ inside b d.
Definition volume (b : box) : R := fold_right (fun iv v => (snd iv - fst iv) * v) 1 b.
Definition same_on (vs : list N) (x y : inst) : bool := forallb (fun v => Bool.eqb (x v) (y v)) vs.

Definition join (c w : R) (bp bs : box * inst) : box * inst := ((c, c + w) :: fst bp ++ fst bs, fun v => snd bp v || snd bs v).
Fixpoint boxes (t : ptree) : list (box * inst) :=
  match t with
  | TLit l => [([], fun v => N.eqb v (Z.abs_N l) && Z.ltb 0 l)]
  | TTop v a b => [([(0, a)], fun w => N.eqb w v); ([(a, a + b)], fun _ => false)]
  | TDec es =>
      (fix go (c : R) (es : list telem) : list (box * inst) :=
         match es with
         | [] => []
         | (p, s, w) :: es' => flat_map (fun bp => map (join c w bp) (boxes s)) (boxes p) ++ go (c + w) es'
         end) 0 es
  end.
Fixpoint dec_boxes (c : R) (es : list telem) : list (box * inst) :=
  match es with
  | [] => []
  | e :: es' => flat_map (fun bp => map (join c (tw e) bp) (boxes (ts e))) (boxes (tp e)) ++ dec_boxes (c + tw e) es'
  end.
Lemma boxes_dec es : boxes (TDec es) = dec_boxes 0 es.
Proof.
  simpl. generalize 0. induction es as [|[[p s] w] es IH]; intros c; auto. simpl. rewrite IH. reflexivity.
Qed.
Lemma in_dec_boxes es b y : forall c, In (b, y) (dec_boxes c es) <->
  exists k e bp bs, nth_error es k = Some e /\ In bp (boxes (tp e)) /\ In bs (boxes (ts e)) /\ (b, y) = join (c + rsum tw (firstn k es)) (tw e) bp bs.
Proof.
  induction es as [|e es IH]; intros c.
  - simpl. split; [intros []|]. intros ([|k] & e & ? & ? & H & _); discriminate.
  - cbn [dec_boxes]. rewrite in_app_iff, in_flat_map, IH. split.
    + intros [(bp & H1 & H2)|(k & e' & bp & bs & A & B & C & D)].
      * apply in_map_iff in H2 as (bs & H2 & H3). exists 0%nat, e, bp, bs. simpl. rewrite Rplus_0_r. auto.
      * exists (S k), e', bp, bs. simpl. rewrite <- Rplus_assoc. auto.
    + intros ([|k] & e' & bp & bs & A & B & C & D); simpl in A.
      * injection A as <-. left. exists bp. split; auto. apply in_map_iff. exists bs. split; auto. rewrite D. simpl. rewrite Rplus_0_r. auto.
      * right. exists k, e', bp, bs. rewrite D. simpl. rewrite Rplus_assoc. auto.
Qed.
(** ** The boxes are the draws *)
Lemma sampled_box vt : forall t us rest y, conforms vt t -> normalized t -> (forall u, In u us -> 0 <= u < 1) -> sampled t us rest y ->
  exists b d, In (b, y) (boxes t) /\ us = d ++ rest /\ inside b d.
Proof.
  intros t us rest y _. revert us rest y. intros us rest y N U S. revert N. unfold normalized. induction S as [l us|v a b u us H|v a b u us H|es k e u us us1 us2 y1 y2 K L1 L2 S1 IH1 S2 IH2]; intros N.
  - exists [], []. simpl. repeat split; auto. constructor.
  - exists [(0, a)], [u]. simpl. split; auto. split; auto. constructor; [|constructor]. simpl. specialize (U u (or_introl eq_refl)). lra.
  - exists [(a, a + b)], [u]. simpl. split; auto. split; auto. constructor; [|constructor]. simpl. specialize (U u (or_introl eq_refl)). simpl in N. lra.
  - apply all_nodes_dec in N as [_ N]. rewrite Forall_forall in N. destruct (N e (nth_error_In _ _ K)) as [Np Ns].
    destruct IH1 as (b1 & d1 & I1 & -> & H1); [intros w Hw; apply U; right; auto|exact Np|].
    destruct IH2 as (b2 & d2 & I2 & -> & H2); [intros w Hw; apply U; right; apply in_or_app; auto|exact Ns|].
    exists ((rsum tw (firstn k es), rsum tw (firstn k es) + tw e) :: b1 ++ b2), (u :: d1 ++ d2). rewrite boxes_dec. split; [|split].
    + apply in_dec_boxes. exists k, e, (b1, y1), (b2, y2). unfold join. simpl. rewrite Rplus_0_l. auto.
    + simpl. rewrite app_assoc. auto.
    + constructor; [simpl; lra|]. apply Forall2_app; auto.
Qed.
Definition apart (B1 B2 : box * inst) : Prop := forall us, starts (fst B1) us -> starts (fst B2) us -> False.
Lemma inside_length b d : inside b d -> length d = length b.
Proof. intros H. induction H; simpl; auto. Qed.
Lemma starts_app b1 b2 us : starts (b1 ++ b2) us -> exists d r, us = d ++ r /\ inside b1 d /\ starts b2 r.
Proof.
  intros (d & r & -> & H). apply Forall2_app_inv_l in H as (d1 & d2 & H1 & H2 & ->). exists d1, (d2 ++ r). rewrite app_assoc. split; auto.
  split; auto. exists d2, r. auto.
Qed.
Lemma app_len_inj {A} (a b c d : list A) : length a = length c -> a ++ b = c ++ d -> a = c /\ b = d.
Proof.
  revert c. induction a as [|x a IH]; destruct c as [|y c]; simpl; intros L E; try discriminate; auto.
  injection L as L. injection E as -> E. destruct (IH c L E) as [-> ->]. auto.
Qed.
Lemma fop_app {A} (Q : A -> A -> Prop) l1 l2 : ForallOrdPairs Q l1 -> ForallOrdPairs Q l2 -> (forall a b, In a l1 -> In b l2 -> Q a b) -> ForallOrdPairs Q (l1 ++ l2).
Proof.
  intros H1 H2 H. induction H1 as [|a l1 F H1 IH]; auto. simpl. constructor.
  - apply Forall_app. split; auto. apply Forall_forall. intros b Hb. apply H; auto. left; auto.
  - apply IH. intros x y Hx Hy. apply H; auto. right; auto.
Qed.
Lemma fop_map {A B} (Q : B -> B -> Prop) (f : A -> B) l : ForallOrdPairs (fun a b => Q (f a) (f b)) l -> ForallOrdPairs Q (map f l).
Proof. intros H. induction H as [|a l F H IH]; simpl; constructor; auto. clear - F. induction F; simpl; constructor; auto. Qed.
Lemma fop_impl {A} (Q Q' : A -> A -> Prop) l : (forall a b, Q a b -> Q' a b) -> ForallOrdPairs Q l -> ForallOrdPairs Q' l.
Proof. intros I H. induction H as [|a l F H IH]; constructor; auto. eapply Forall_impl; [intros b; apply I|exact F]. Qed.
Lemma boxes_apart t : nonneg t -> ForallOrdPairs apart (boxes t).
Proof.
  unfold nonneg. induction t as [l|v a b|es IH] using ptree_ind2; intros NN.
  - simpl. repeat constructor.
  - simpl. constructor; [|repeat constructor]. constructor; [|constructor]. intros us (d & r & -> & H) (d' & r' & E & H').
    inversion H as [|? u ? d1 Hu _]; subst. inversion H' as [|? u' ? d1' Hu' _]; subst. injection E as -> _. simpl in *. lra.
  - rewrite boxes_dec. apply all_nodes_dec in NN as [NW NN]. generalize 0.
    induction es as [|e es IHes]; intros c; [constructor|]. inversion IH as [|? ? [IP IS] IH']; inversion NW as [|? ? W NW']; inversion NN as [|? ? [N1 N2] NN']; subst.
    cbn [dec_boxes]. apply fop_app; auto.
    + specialize (IP N1). specialize (IS N2). induction IP as [|bp l F IP IHl]; [constructor|]. cbn [flat_map]. apply fop_app; auto.
      * apply fop_map. eapply fop_impl; [|exact IS]. intros B1 B2 A us S1 S2. unfold join in S1, S2. cbn [fst] in S1, S2.
        destruct S1 as (d & r & -> & S1). inversion S1 as [|? u ? d1 _ S1']; subst.
        apply Forall2_app_inv_l in S1' as (x1 & x2 & X1 & X2 & ->).
        destruct S2 as (d' & r' & E & S2). inversion S2 as [|? u' ? d1' _ S2']; subst. apply Forall2_app_inv_l in S2' as (y1 & y2 & Y1 & Y2 & ->).
        simpl in E. injection E as _ E. rewrite <- !app_assoc in E.
        apply app_len_inj in E as [_ E]; [|rewrite (inside_length _ _ X1), (inside_length _ _ Y1); auto].
        apply (A (x2 ++ r)); [exists x2, r; auto|exists y2, r'; auto].
      * intros B1 B2 H1 H2 us S1 S2. apply in_map_iff in H1 as (bs1 & <- & _). apply in_flat_map in H2 as (bp2 & Hb & H2). apply in_map_iff in H2 as (bs2 & <- & _).
        unfold join in S1, S2. cbn [fst] in S1, S2. rewrite Forall_forall in F. apply (F bp2 Hb (tl us)).
        -- destruct S1 as (d & r & -> & S1). inversion S1 as [|? u ? d1 _ S1']; subst. apply Forall2_app_inv_l in S1' as (x1 & x2 & X1 & X2 & ->).
           exists x1, (x2 ++ r). simpl. rewrite app_assoc. auto.
        -- clear S1. destruct S2 as (d & r & -> & S1). inversion S1 as [|? u ? d1 _ S1']; subst. apply Forall2_app_inv_l in S1' as (x1 & x2 & X1 & X2 & ->).
           exists x1, (x2 ++ r). simpl. rewrite app_assoc. auto.
    + intros B1 [b2 y2] H1 H2 us S1 S2. apply in_flat_map in H1 as (bp & _ & H1). apply in_map_iff in H1 as (bs & <- & _).
      apply in_dec_boxes in H2 as (k & e' & bp' & bs' & _ & _ & _ & H2). unfold join in *. injection H2 as -> _. cbn [fst] in *.
      destruct S1 as (d & r & -> & S1). inversion S1 as [|? u ? d1 [_ U1] _]; subst.
      destruct S2 as (d' & r' & E & S2). inversion S2 as [|? u' ? d1' [U2 _] _]; subst. simpl in E. injection E as <- _. simpl in U1, U2.
      assert (0 <= rsum tw (firstn k es)). { apply rsum_nonneg. intros a Ha. rewrite Forall_forall in NW'. apply NW'. rewrite <- (firstn_skipn k es). apply in_or_app; auto. }
      lra.
Qed.
(** ** Their volumes *)
Lemma volume_app b1 b2 : volume (b1 ++ b2) = volume b1 * volume b2.
Proof. unfold volume. induction b1 as [|iv b1 IH]; simpl; [lra|]. rewrite IH. ring. Qed.
Lemma same_on_app vs ws x y : same_on (vs ++ ws) x y = same_on vs x y && same_on ws x y.
Proof. apply forallb_app. Qed.
Definition part (vs : list N) (x : inst) (B : box * inst) : R := if same_on vs x (snd B) then volume (fst B) else 0.
Lemma boxes_in vt : forall t B, conforms vt t -> In B (boxes t) -> forall v, snd B v = true -> In v (leaves vt).
Proof.
  induction vt as [v|l IHl r IHr]; intros t B C H w Hw.
  - destruct t; simpl in C; try contradiction; simpl in H.
    + destruct H as [<-|[]]. simpl in Hw. apply andb_true_iff in Hw as [Hw _]. apply N.eqb_eq in Hw. left. congruence.
    + destruct H as [<-|[<-|[]]]; simpl in Hw; [|discriminate]. apply N.eqb_eq in Hw. left. congruence.
  - destruct t as [| |es]; simpl in C; try contradiction. destruct C as [_ C]. rewrite boxes_dec in H. destruct B as [b y]. apply in_dec_boxes in H as (k & e & bp & bs & K & Bp & Bs & E).
    injection E as _ ->. rewrite Forall_forall in C. destruct (C e (nth_error_In _ _ K)) as [C1 C2]. simpl. apply in_or_app. simpl in Hw.
    apply orb_true_iff in Hw as [Hw|Hw]; [left; eapply IHl; eauto|right; eapply IHr; eauto].
Qed.
Lemma same_on_join l r x (y1 y2 : inst) : NoDup (leaves l ++ leaves r) -> (forall v, y1 v = true -> In v (leaves l)) -> (forall v, y2 v = true -> In v (leaves r)) ->
  same_on (leaves l ++ leaves r) x (fun v => y1 v || y2 v) = same_on (leaves l) x y1 && same_on (leaves r) x y2.
Proof.
  intros ND Y1 Y2. rewrite same_on_app. assert (forall v, In v (leaves l) -> In v (leaves r) -> False) as DJ.
  { intros v A B. clear - ND A B. induction (leaves l) as [|a vs IH]; [contradiction|]. simpl in ND. inversion ND; subst. destruct A as [->|A]; [|auto]. apply H1. apply in_or_app; auto. }
  assert (forall vs (y y' : inst), (forall v, In v vs -> y v = y' v) -> same_on vs x y = same_on vs x y') as EX.
  { intros vs y y' H. unfold same_on. induction vs as [|v vs IH]; auto. simpl. rewrite (H v), IH; auto; [intros w Hw; apply H; right; auto|left; auto]. }
  f_equal; apply EX; intros v Hv.
  - destruct (y2 v) eqn:E; [exfalso; eauto|apply orb_false_r].
  - destruct (y1 v) eqn:E; [exfalso; eauto|reflexivity].
Qed.
Lemma boxes_weight vt : NoDup (leaves vt) -> forall t x, conforms vt t -> rsum (part (leaves vt) x) (boxes t) = weight t x.
Proof.
  induction vt as [v|l IHl r IHr]; intros ND t x C.
  - destruct t as [z|w a b|]; simpl in C; try contradiction; unfold part; simpl.
    + subst v. unfold lit_sat. rewrite N.eqb_refl, andb_true_r. simpl. destruct (Bool.eqb _ _); lra.
    + subst w. rewrite N.eqb_refl, !andb_true_r. destruct (x v); simpl; lra.
  - destruct t as [| |es]; simpl in C; try contradiction. destruct C as [_ C]. rewrite boxes_dec. cbn [leaves].
    cbn [leaves] in ND. destruct (leaves_disjoint l r ND) as (ND1 & ND2 & _).
    cbn [weight]. change (rsum (part (leaves l ++ leaves r) x) (dec_boxes 0 es) = rsum (fun e => weight (tp e) x * weight (ts e) x * tw e) es).
    generalize 0. induction es as [|e es IH]; intros c; [reflexivity|]. inversion C as [|? ? [C1 C2] C']; subst.
    cbn [dec_boxes]. rewrite rsum_app, IH, rsum_cons by auto. f_equal.
    rewrite <- (IHl ND1 (tp e) x C1), <- (IHr ND2 (ts e) x C2).
    assert (forall Bp, In Bp (boxes (tp e)) -> forall v, snd Bp v = true -> In v (leaves l)) as Y1 by (intros; eapply boxes_in; eauto).
    assert (forall Bs, In Bs (boxes (ts e)) -> forall v, snd Bs v = true -> In v (leaves r)) as Y2 by (intros; eapply boxes_in; eauto).
    induction (boxes (tp e)) as [|bp bps IHp]; [simpl; ring|]. cbn [flat_map]. rewrite rsum_app, IHp, rsum_cons by (intros; eapply Y1; eauto; right; auto).
    rewrite !Rmult_plus_distr_r. f_equal. rewrite SpecProofs.rsum_map.
    rewrite (rsum_ext _ (fun bs => (part (leaves l) x bp * tw e) * part (leaves r) x bs)).
    { rewrite rsum_scal. ring. }
    intros bs Hbs. unfold part, join. cbn [fst snd]. rewrite same_on_join; [|auto|apply Y1; left; auto|apply Y2; auto].
    destruct (same_on (leaves l) x (snd bp)), (same_on (leaves r) x (snd bs)); simpl; try ring.
    change (fold_right _ 1 (fst bp ++ fst bs)) with (volume (fst bp ++ fst bs)). rewrite volume_app. ring.
Qed.
Lemma boxes_wide t : nonneg t -> normalized t -> forall B iv, In B (boxes t) -> In iv (fst B) -> 0 <= fst iv <= snd iv /\ snd iv <= 1.
Proof.
  unfold nonneg, normalized. induction t as [l|v a b|es IH] using ptree_ind2; intros NN N B iv HB Hi.
  - simpl in HB. destruct HB as [<-|[]]. contradiction.
  - destruct NN as [NN _], N as [N _]. simpl in HB, NN, N. destruct HB as [<-|[<-|[]]]; simpl in Hi; destruct Hi as [<-|[]]; simpl; lra.
  - rewrite boxes_dec in HB. destruct B as [bx y]. apply in_dec_boxes in HB as (k & e & bp & bs & K & Bp & Bs & E). injection E as -> _.
    apply all_nodes_dec in NN as [NW NN]. apply all_nodes_dec in N as [N1 N]. cbn [fst] in Hi. rewrite Rplus_0_l in Hi.
    rewrite Forall_forall in IH, NW, NN, N. pose proof (nth_error_In _ _ K) as He. destruct (IH e He) as [I1 I2]. destruct (NN e He) as [M1 M2]. destruct (N e He) as [O1 O2].
    destruct Hi as [<-|Hi].
    + simpl. assert (0 <= rsum tw (firstn k es)). { apply rsum_nonneg. intros f Hf. apply NW. rewrite <- (firstn_skipn k es). apply in_or_app; auto. }
      pose proof (NW e He) as We. assert (rsum tw (firstn k es) + tw e <= rsum tw es); [|lra].
      apply nth_error_split in K as (l1 & l2 & -> & <-). rewrite firstn_app, Nat.sub_diag, firstn_all, firstn_O, app_nil_r, rsum_app, rsum_cons.
      assert (0 <= rsum tw l2); [|lra]. apply rsum_nonneg. intros f Hf. apply NW. apply in_or_app. right. right. auto.
    + apply in_app_or in Hi as [Hi|Hi]; [eapply I1|eapply I2]; eauto.
Qed.
(** ** Final form *)
Lemma fop_nth {A} (Q : A -> A -> Prop) l : ForallOrdPairs Q l -> forall i j a b, (i < j)%nat -> nth_error l i = Some a -> nth_error l j = Some b -> Q a b.
Proof.
  intros H. induction H as [|c l F H IH]; intros i j a b L HA HB; [destruct i; discriminate|].
  destruct j as [|j]; [lia|]. destruct i as [|i]; simpl in HA, HB.
  - injection HA as <-. rewrite Forall_forall in F. apply F. eapply nth_error_In; eauto.
  - eapply IH; [|eauto|eauto]. lia.
Qed.
Lemma sample_boxes {P : pops} (val : P -> R) : pexact P val -> forall (m : mgr P) i s t fuel, psdd_at val m i s t -> nonneg t -> normalized t -> (i < fuel)%nat ->
  exists Bs : list (box * inst),
    (forall us, (vsize s <= length us)%nat -> (forall u, In u us -> val u < 1) ->
       exists k b x d us', nth_error Bs k = Some (b, x) /\ us = d ++ us' /\ inside b (map val d) /\
         DirectSample fuel (m_heap m) i (fun _ => false) us = Ok (x, us') /\
         forall k' b' x', nth_error Bs k' = Some (b', x') -> starts b' (map val us) -> k' = k) /\
    (forall b x iv, In (b, x) Bs -> In iv b -> 0 <= fst iv <= snd iv /\ snd iv <= 1) /\
    (forall x, rsum (fun B => if same_on (leaves s) x (snd B) then volume (fst B) else 0) Bs = weight t x).
Proof.
  intros HP m i s t fuel A NN N F. destruct (psdd_at_facts val _ _ _ _ A) as (HO & ND & C & _). exists (boxes t). split; [|split].
  - intros us L U. destruct (sample_full val HP m i s t fuel us A NN N F L U) as (x & us' & E & S & _ & _ & d & ->).
    assert (forall u, In u (map val (d ++ us')) -> 0 <= u < 1) as U'.
    { intros u Hu. apply in_map_iff in Hu as (w & <- & Hw). split; [apply (val_nonneg HP)|auto]. }
    destruct (sampled_box s t _ _ _ C N U' S) as (b & d' & HB & Ed & I).
    rewrite map_app in Ed. assert (length (map val d) = length d') as LE by (apply (f_equal (@length R)) in Ed; rewrite !app_length in Ed; lia).
    apply app_len_inj in Ed as [<- _]; auto. apply In_nth_error in HB as [k HB]. exists k, b, x, d, us'. split; auto. split; auto. split; auto. split; auto.
    intros k' b' x' HB' ST. pose proof (boxes_apart t NN) as AP. assert (starts b (map val (d ++ us'))) as ST'.
    { exists (map val d), (map val us'). rewrite map_app. auto. }
    destruct (Nat.lt_total k' k) as [H|[H|H]]; auto; exfalso; [apply (fop_nth _ _ AP _ _ _ _ H HB' HB (map val (d ++ us')))|apply (fop_nth _ _ AP _ _ _ _ H HB HB' (map val (d ++ us')))]; auto.
  - intros b x iv HB. apply (boxes_wide t NN N _ _ HB).
  - intros x. exact (boxes_weight s ND t x C).
Qed.
