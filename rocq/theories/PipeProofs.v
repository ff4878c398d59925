(** The two programs one after the other, from their command lines. *)
From Coq Require Import Ascii String Reals Lra.
From Verif Require Import Base Param ParamProofs Vtree VtreeProofs Spec SpecProofs Heap Manager HeapProofs Query Text IO IOProofs Csv Sdd Cnf CnfProofs InferProofs
  Pgm PgmLayout PgmProofs PgmNet PgmExamples Uai UaiProofs VtreeGen VtreeGenProofs JointreeProofs HyperProofs Compiler CompilerProofs Kahypar FixedProofs Args ArgsProofs ProgProofs.
Local Open Scope R_scope.

Section Infer.
Context {P : pops} (val : P -> R) (HP : pexact P val) (showd : P -> text) (rd : text -> option P) (log0 : P) (libs : vtree -> sddlib) (dflt : P * P) (help : text)
  (vread : option text -> res vtree) (disk : files).
Theorem main_answers items tail psdd_name vtree_name rest psdd vt t : Forall item_ok items -> wants_help items = false ->
  ends tail (psdd_name :: vtree_name :: rest) -> disk psdd_name = Some psdd -> vread (disk vtree_name) = Ok vt ->
  file_holds val rd log0 psdd vt t -> positive t -> normalized t -> deterministic t ->
  let main := psdd_inference showd rd log0 libs dflt help vread disk in
  (evidence items = None -> exists a, main (line items ++ tail) = Ok (0%Z, print_answer showd a) /\
     answers_for val vt (weight t) 1 (wants_mpe items) (wants_mar items) a) /\
  (libs_ok libs -> (forall v, In v (leaves vt) -> v <> 0%N) ->
   forall f cnf cs, evidence items = Some f -> disk f = Some cnf -> ReadCnf cnf = Ok cs -> in_vtree vt cs ->
   let g x := if cnf_sat cs x then weight t x else 0 in
   ((exists x, cnf_sat cs x = true) -> (forall x, g x = 0) -> main (line items ++ tail) = Ok (0%Z, str "UNSATISFIED" ++ [nl])) /\
   ((exists x, 0 < g x) -> exists a z, main (line items ++ tail) = Ok (0%Z, print_answer showd a) /\ 0 < z /\ (forall x0, z = sum_over (leaves vt) g x0) /\
      answers_for val vt g z (wants_mpe items) (wants_mar items) a) /\
   ((forall x, cnf_sat cs x = false) -> main (line items ++ tail) = UB)).
Proof.
  intros F NH E EP EV HF PO NO DE main.
  pose proof (main_files showd rd log0 libs dflt help vread disk items tail psdd_name vtree_name rest psdd vt F NH E EP EV) as M. fold main in M. rewrite M. clear M. split.
  - intros ->. cbn [option_map]. destruct (@inference_no_evidence P val HP rd log0 libs dflt psdd vt t (wants_mpe items) (wants_mar items)) as (a & m' & EI & A); auto.
    rewrite EI. cbn [bind]. eauto.
  - intros LO NZ f cnf cs EF EC RC IV. rewrite EF. cbn [option_map]. rewrite EC.
    destruct (@inference_evidence P val HP rd log0 libs LO dflt psdd vt t (wants_mpe items) (wants_mar items) cnf cs) as (A & B & C); auto.
    split; [|split].
    + intros H1 H2. destruct (A H1 H2) as [m' ->]. reflexivity.
    + intros H. destruct (B H) as (a & m' & z & EI & H1 & H2 & H3). rewrite EI. cbn [bind]. eauto 6.
    + intros H. rewrite (C H). reflexivity.
Qed.
(** An evidence file that cannot be opened *)
Theorem main_no_evidence_file items tail psdd_name vtree_name rest psdd vt t f : Forall item_ok items -> wants_help items = false ->
  ends tail (psdd_name :: vtree_name :: rest) -> disk psdd_name = Some psdd -> vread (disk vtree_name) = Ok vt ->
  file_holds val rd log0 psdd vt t -> positive t -> normalized t -> deterministic t -> libs_ok libs -> (forall v, In v (leaves vt) -> v <> 0%N) ->
  (exists x, 0 < weight t x) -> evidence items = Some f -> disk f = None ->
  exists a z, psdd_inference showd rd log0 libs dflt help vread disk (line items ++ tail) = Ok (0%Z, print_answer showd a) /\
    0 < z /\ (forall x0, z = sum_over (leaves vt) (weight t) x0) /\ answers_for val vt (weight t) z (wants_mpe items) (wants_mar items) a.
Proof.
  intros F NH E EP EV HF PO NO DE LO NZ PX EF EC.
  rewrite (main_files showd rd log0 libs dflt help vread disk items tail psdd_name vtree_name rest psdd vt F NH E EP EV). rewrite EF. cbn [option_map]. rewrite EC.
  destruct (@inference_evidence P val HP rd log0 libs LO dflt psdd vt t (wants_mpe items) (wants_mar items) [] []) as (_ & B & _); auto; try reflexivity.
  { intros c l []. }
  destruct (B PX) as (a & m' & z & EI & H1 & H2 & H3). rewrite EI. cbn [bind]. exists a, z. auto.
Qed.
End Infer.

(** Unknown options *)
Definition known (i : item) : bool := match i with Long _ | Short _ => false | _ => true end.
Lemma known_mpe items : wants_mpe (filter known items) = wants_mpe items.
Proof. induction items as [|[] items IH]; simpl; auto; unfold wants_mpe in *; simpl; rewrite ?IH; auto. Qed.
Lemma known_mar items : wants_mar (filter known items) = wants_mar items.
Proof. induction items as [|[] items IH]; simpl; auto; unfold wants_mar in *; simpl; rewrite ?IH; auto. Qed.
Lemma known_help items : wants_help items = false -> wants_help (filter known items) = false.
Proof.
  induction items as [|[] items IH]; simpl; auto; unfold wants_help in *; simpl; intros H; auto.
  apply orb_false_iff in H as [_ H]. auto.
Qed.
Lemma known_evidence items : evidence (filter known items) = evidence items.
Proof. induction items as [|[] items IH]; simpl; auto. Qed.
Lemma known_ok items : Forall item_ok items -> Forall item_ok (filter known items).
Proof. intros F. apply Forall_forall. intros i Hi. apply filter_In in Hi as [Hi _]. rewrite Forall_forall in F. auto. Qed.
Theorem main_unknown (P : pops) showd rd log0 libs (dflt : P * P) help vread disk items tail psdd_name vtree_name rest psdd vt : Forall item_ok items -> wants_help items = false ->
  ends tail (psdd_name :: vtree_name :: rest) -> disk psdd_name = Some psdd -> vread (disk vtree_name) = Ok vt ->
  let main := @psdd_inference P showd rd log0 libs dflt help vread disk in
  main (line items ++ tail) = main (line (filter known items) ++ tail).
Proof.
  intros F NH E EP EV main. unfold main.
  rewrite (main_files showd rd log0 libs dflt help vread disk items tail psdd_name vtree_name rest psdd vt F NH E EP EV).
  rewrite (main_files showd rd log0 libs dflt help vread disk (filter known items) tail psdd_name vtree_name rest psdd vt (known_ok _ F) (known_help _ NH) E EP EV).
  rewrite known_mpe, known_mar, known_evidence. reflexivity.
Qed.

Section Pipe.
Context {P : pops} (val : P -> R) (HP : pexact P val) (showd : P -> text) (x : externals) (rdu : text -> option P) (show : P -> text) (ud : udN) (fuel : nat)
  (rd : text -> option P) (log0 : P) (libs : vtree -> sddlib) (dflt : P * P)
  (vread : option text -> res vtree) (vsave : vtree -> text) (config help1 help2 noise : text) (disk : files).
Theorem programs uai w rest method l1 l2 l3 l4 scs tbs ty nv scopes tables s :
  uai_text rdu l1 l2 l3 l4 scs tbs ty nv scopes tables -> feeds (l1 :: l2 :: l3 :: l4 :: scs ++ concat tbs) (s, true) -> (length (concat tbs) <= fuel)%nat ->
  externals_ok x (N.to_nat nv) scopes -> method_ok method scopes -> (2 <= length scopes)%nat ->
  let fs := map (fun y => MkF (fst y) (snd y)) (combine scopes tables) in
  Forall (plain_factor (N.to_nat nv)) fs -> (exists y, network_value val fs y <> 0) ->
  (forall a, Forall plain (show a)) -> (forall a, show a <> []) -> (forall a, rd (show a) = Some a) -> libs_ok libs ->
  disk uai = Some s -> means vread disk w method -> (length uai <= 993)%nat -> (forall u, uai <> "-"%char :: u) ->
  (method = Hyper -> ~ In nul (directory rest) /\ (length (directory rest) <= 488)%nat) ->
  exists size z (m : mgr P) disk',
    uai_main showd x rdu show ud fuel vread vsave config help1 noise disk (uai :: w :: rest) =
      Ok ((0%Z, noise ++ str "Final size " ++ show_N (N.of_nat size) ++ [nl] ++ str "Log Partition " ++ showd z ++ [nl]), disk') /\
    (forall y, val z = sum_over (leaves (m_vt m)) (network_value val fs) y) /\
    disk' (uai ++ str ".vtree") = Some (vsave (m_vt m)) /\
    (forall n, n <> uai ++ str ".psdd" -> n <> uai ++ str ".vtree" -> (method = Hyper -> n <> directory rest ++ str "/config.ini") -> disk' n = disk n) /\
    (fits (m_vt m) (m_heap m) -> vread (Some (vsave (m_vt m))) = Ok (m_vt m) -> forall items, Forall item_ok items -> wants_help items = false ->
      let run := psdd_inference showd rd log0 libs dflt help2 vread disk' (line items ++ [uai ++ str ".psdd"; uai ++ str ".vtree"]) in
      (evidence items = None -> exists a, run = Ok (0%Z, print_answer showd a) /\
         answers_for val (m_vt m) (network_value val fs) (val z) (wants_mpe items) (wants_mar items) a) /\
      forall f cnf cs, evidence items = Some f -> disk' f = Some cnf -> ReadCnf cnf = Ok cs -> in_vtree (m_vt m) cs ->
        let g y := if cnf_sat cs y then network_value val fs y else 0 in
        ((exists y, cnf_sat cs y = true) -> (forall y, g y = 0) -> run = Ok (0%Z, str "UNSATISFIED" ++ [nl])) /\
        ((exists y, g y <> 0) -> exists a ze, run = Ok (0%Z, print_answer showd a) /\ 0 < ze /\ (forall y, ze = sum_over (leaves (m_vt m)) g y) /\
           answers_for val (m_vt m) g ze (wants_mpe items) (wants_mar items) a)).
Proof.
  intros U FE FU X MO L2 fs PF NZ S1 S2 S3 LO DU ME LU ND CF.
  destruct (@compile_and_infer P val HP x rdu show rd log0 ud fuel method l1 l2 l3 l4 scs tbs ty nv scopes tables s libs dflt U FE FU X MO L2 PF NZ S1 S2 S3 LO)
    as (content & size & z & m & EU & Z & INF). fold fs in Z, INF.
  rewrite <- DU in EU.
  destruct (uai_main_ok showd x rdu show ud fuel vread vsave config help1 noise disk uai w rest method content size z m ME EU LU CF) as (disk' & EM & D1 & D2 & D3 & D4).
  exists size, z, m, disk'. split; [exact EM|]. split; [exact Z|]. split; [exact D2|]. split; [exact D4|].
  intros FT VR items FI NH.
  assert (ends [uai ++ str ".psdd"; uai ++ str ".vtree"] [uai ++ str ".psdd"; uai ++ str ".vtree"]) as EN.
  { constructor. left. intros u. destruct uai as [|c u']; [discriminate|]. simpl. intros H. injection H as -> _. apply (ND u'). reflexivity. }
  assert (vread (disk' (uai ++ str ".vtree")) = Ok (m_vt m)) as VR' by (rewrite D2; exact VR).
  intros run. assert (run = _) as ER by (apply (main_files showd rd log0 libs dflt help2 vread disk' items _ _ _ [] content (m_vt m) FI NH EN D1 VR')).
  rewrite ER. clear run ER. destruct (INF FT (wants_mpe items) (wants_mar items)) as [IN IE]. split.
  - intros ->. cbn [option_map]. destruct IN as (a & m' & -> & A). cbn [bind]. eauto.
  - intros f cnf cs EF EC RC IV. rewrite EF. cbn [option_map]. rewrite EC. destruct (IE cnf cs RC IV) as [A B]. split.
    + intros H1 H2. destruct (A H1 H2) as [m' ->]. reflexivity.
    + intros H. destruct (B H) as (a & m' & ze & -> & H1 & H2 & H3). cbn [bind]. eauto 6.
Qed.
End Pipe.
