(** Proofs about the command lines of psdd_inference. *)
From Coq Require Import Ascii String.
From Verif Require Import Base Param Vtree Heap Manager Query Sdd Text IO Csv Cnf Uai Pgm VtreeGen Compiler Kahypar FixedProofs Args.

(** ** What users write.  The words of one option; [e]: "=..." written behind a name *)
Inductive item :=
| Mpe (e : option text)
| Mar (e : option text)
| Evid (file : text)
| EvidEq (file : text)
| Help (e : option text)
| Long (name : text)
| Short (group : text).
Definition eq_text (e : option text) : text := match e with None => [] | Some t => "="%char :: t end.
Definition words (i : item) : list text :=
  match i with
  | Mpe e => [str "--mpe_query" ++ eq_text e]
  | Mar e => [str "--mar_query" ++ eq_text e]
  | Evid f => [str "--cnf_evid"; f]
  | EvidEq f => [str "--cnf_evid=" ++ f]
  | Help e => [str "--help" ++ eq_text e]
  | Long n => [str "--" ++ n]
  | Short g => [str "-" ++ g]
  end.
(** Other long names are different from the known ones up to '=', and not empty; a short group does not begin with a dash *)
Definition item_ok (i : item) : Prop :=
  match i with
  | Long n => n <> [] /\ forall k e, In k [str "mpe_query"; str "mar_query"; str "cnf_evid"; str "help"] -> n <> k ++ eq_text e
  | Short g => exists c g', g = c :: g' /\ c <> "-"%char
  | _ => True
  end.
Definition line (items : list item) : list text := concat (map words items).
(** Where the options end: at the end, at "--" or at a word that is not an option; and the words left as file names *)
Inductive ends : list text -> list text -> Prop :=
| ends_nil : ends [] []
| ends_dashes rest : ends (str "--" :: rest) rest
| ends_word w rest : (forall s, w <> "-"%char :: s) \/ w = str "-" -> ends (w :: rest) (w :: rest).
(** What is asked for *)
Definition wants_mpe (items : list item) : bool := existsb (fun i => match i with Mpe _ => true | _ => false end) items.
Definition wants_mar (items : list item) : bool := existsb (fun i => match i with Mar _ => true | _ => false end) items.
Definition wants_help (items : list item) : bool :=
  existsb (fun i => match i with Help _ => true | Short g => existsb (Ascii.eqb "h") g | _ => false end) items.
(** The first evidence file *)
Fixpoint evidence (items : list item) : option text :=
  match items with
  | [] => None
  | Evid f :: _ | EvidEq f :: _ => Some f
  | _ :: l => evidence l
  end.

(** ** The parser *)
Definition stored (i : item) : list opt :=
  match i with
  | Mpe _ => [MkO MPE_QUERY None]
  | Mar _ => [MkO MAR_QUERY None]
  | Evid f | EvidEq f => [MkO CNF_EVID (Some f)]
  | Help _ => [MkO HELP None]
  | Long _ => [MkO UNKNOWN None]
  | Short g => map (fun c => MkO (if Ascii.eqb c "h" then HELP else UNKNOWN) None) g
  end.
Lemma streq_spec k n : (forall c, In c k -> c <> "="%char) -> streq k n = true <-> exists e, n = k ++ eq_text e.
Proof.
  revert n. induction k as [|a k IH]; intros n H.
  - destruct n as [|c n]; simpl.
    + split; auto. intros _. exists None. reflexivity.
    + destruct (Ascii.eqb_spec c "=") as [->|NE]; split; intros E; auto; try discriminate.
      * exists (Some n). reflexivity.
      * destruct E as [[t|] E]; simpl in E; [injection E as -> _; congruence|discriminate].
  - destruct n as [|b n]; simpl.
    + split; [discriminate|]. intros [e E]. discriminate.
    + destruct (Ascii.eqb_spec a b) as [->|NE].
      * rewrite IH by (intros c Hc; apply H; right; auto). split; intros [e E]; exists e; [congruence|injection E; auto].
      * split; [discriminate|]. intros [e E]. injection E as E _. congruence.
Qed.
Lemma attached_name k e : (forall c, In c k -> c <> "="%char) -> attached (k ++ eq_text e) = e.
Proof.
  induction k as [|a k IH]; intros H; simpl.
  - destruct e as [t|]; reflexivity.
  - destruct (Ascii.eqb_spec a "=") as [->|NE]; [exfalso; apply (H "="%char); simpl; auto|]. apply IH. intros c Hc. apply H. right. auto.
Qed.
Ltac noeq := let c := fresh in let H := fresh in intros c H; simpl in H; repeat (destruct H as [<-|H]; [discriminate|]); destruct H.
Lemma streq_head k e : (forall c, In c k -> c <> "="%char) -> streq k (k ++ eq_text e) = true.
Proof. intros H. apply streq_spec; eauto. Qed.
Lemma streq_other k n : (forall c, In c k -> c <> "="%char) -> (forall e, n <> k ++ eq_text e) -> streq k n = false.
Proof. intros H E. destruct (streq k n) eqn:F; auto. apply streq_spec in F as [e F]; auto. exfalso. apply (E e F). Qed.
Lemma lookup_long_known n : n <> [] ->
  lookup usage (fun d => streq (d_long d) n) =
    if streq (str "help") n then Some (MkD HELP (str "h") (str "help") NoArg)
    else if streq (str "mpe_query") n then Some (MkD MPE_QUERY [] (str "mpe_query") NoArg)
    else if streq (str "mar_query") n then Some (MkD MAR_QUERY [] (str "mar_query") NoArg)
    else if streq (str "cnf_evid") n then Some (MkD CNF_EVID [] (str "cnf_evid") Required)
    else Some (MkD UNKNOWN [] [] NoArg).
Proof.
  intros NE. unfold lookup, usage, find, d_long. destruct n as [|c n]; [congruence|]. destruct (Ascii.eqb_spec c "=") as [->|NC].
  - reflexivity.
  - change (streq [] (c :: n)) with (Ascii.eqb c "="). destruct (Ascii.eqb_spec c "=") as [->|_]; [congruence|].
    destruct (streq (str "help") (c :: n)); auto. destruct (streq (str "mpe_query") (c :: n)); auto.
    destruct (streq (str "mar_query") (c :: n)); auto. destruct (streq (str "cnf_evid") (c :: n)); auto.
Qed.
Lemma long_none k e next d : d_check d = NoArg -> lookup usage (fun d => streq (d_long d) (k ++ eq_text e)) = Some d ->
  long_option usage (k ++ eq_text e) next = Some ([MkO (d_index d) None], false).
Proof. intros C E. unfold long_option. rewrite E. unfold handle. rewrite C. reflexivity. Qed.
Lemma short_spec g next : short_options usage g next = Some (map (fun c => MkO (if Ascii.eqb c "h" then HELP else UNKNOWN) None) g, false).
Proof.
  induction g as [|c g IH]; auto. cbn [short_options map].
  assert (lookup usage (fun d => instr c (d_short d)) = Some (if Ascii.eqb c "h" then MkD HELP (str "h") (str "help") NoArg else MkD UNKNOWN [] [] NoArg)) as E.
  { unfold lookup, usage. cbn. destruct (Ascii.eqb c "h"); reflexivity. }
  rewrite E. rewrite IH. destruct (Ascii.eqb c "h"); reflexivity.
Qed.
(** One long option without argument, or unknown *)
Lemma workhorse_none w rest os : (exists n, n <> [] /\ w = str "--" ++ n /\ long_option usage n (hd_error rest) = Some (os, false)) \/
    (exists c g, c <> "-"%char /\ w = "-"%char :: c :: g /\ short_options usage (c :: g) (hd_error rest) = Some (os, false)) ->
  workhorse usage (w :: rest) = match workhorse usage rest with None => None | Some (os', names) => Some (os ++ os', names) end.
Proof.
  intros [(n & NE & -> & E)|(c & g & NC & -> & E)].
  - destruct n as [|a n]; [congruence|].
    change (workhorse usage ((str "--" ++ a :: n) :: rest)) with
      (match long_option usage (a :: n) (hd_error rest) with
       | None => None
       | Some (os, used) =>
           match (match rest with [] => Some ([], []) | _ :: rest' => if used then workhorse usage rest' else workhorse usage rest end) with
           | None => None | Some (os', files) => Some (os ++ os', files) end
       end). rewrite E. destruct rest; reflexivity.
  - change (workhorse usage (("-"%char :: c :: g) :: rest)) with
      (if Ascii.eqb c "-" then
         if is_nil g then Some ([], rest) else match long_option usage g (hd_error rest) with
       | None => None
       | Some (os, used) =>
           match (match rest with [] => Some ([], []) | _ :: rest' => if used then workhorse usage rest' else workhorse usage rest end) with
           | None => None | Some (os', files) => Some (os ++ os', files) end
       end
       else match short_options usage (c :: g) (hd_error rest) with
       | None => None
       | Some (os, used) =>
           match (match rest with [] => Some ([], []) | _ :: rest' => if used then workhorse usage rest' else workhorse usage rest end) with
           | None => None | Some (os', files) => Some (os ++ os', files) end
       end).
    destruct (Ascii.eqb_spec c "-") as [->|_]; [congruence|]. rewrite E. destruct rest; reflexivity.
Qed.
Lemma workhorse_item i rest : item_ok i ->
  workhorse usage (words i ++ rest) = match workhorse usage rest with None => None | Some (os, names) => Some (stored i ++ os, names) end.
Proof.
  intros OK. destruct i as [e|e|f|f|e|n|g]; cbn [words stored].
  - change ([str "--mpe_query" ++ eq_text e] ++ rest) with ((str "--" ++ (str "mpe_query" ++ eq_text e)) :: rest).
    apply workhorse_none. left. exists (str "mpe_query" ++ eq_text e). split; [discriminate|]. split; auto.
    apply (long_none (str "mpe_query") e _ (MkD MPE_QUERY [] (str "mpe_query") NoArg)); auto.
    rewrite lookup_long_known by discriminate. rewrite streq_head by noeq. reflexivity.
  - change ([str "--mar_query" ++ eq_text e] ++ rest) with ((str "--" ++ (str "mar_query" ++ eq_text e)) :: rest).
    apply workhorse_none. left. exists (str "mar_query" ++ eq_text e). split; [discriminate|]. split; auto.
    apply (long_none (str "mar_query") e _ (MkD MAR_QUERY [] (str "mar_query") NoArg)); auto.
    rewrite lookup_long_known by discriminate. rewrite streq_head by noeq. reflexivity.
  - change ([str "--cnf_evid"; f] ++ rest) with (str "--cnf_evid" :: f :: rest). reflexivity.
  - change ([str "--cnf_evid=" ++ f] ++ rest) with ((str "--cnf_evid=" ++ f) :: rest). destruct rest; reflexivity.
  - change ([str "--help" ++ eq_text e] ++ rest) with ((str "--" ++ (str "help" ++ eq_text e)) :: rest).
    apply workhorse_none. left. exists (str "help" ++ eq_text e). split; [discriminate|]. split; auto.
    apply (long_none (str "help") e _ (MkD HELP (str "h") (str "help") NoArg)); auto.
    rewrite lookup_long_known by discriminate. rewrite streq_head by noeq. reflexivity.
  - destruct OK as [NE OK]. change ([str "--" ++ n] ++ rest) with ((str "--" ++ n) :: rest).
    apply workhorse_none. left. exists n. split; auto. split; auto. unfold long_option. rewrite lookup_long_known by auto.
    assert (forall k, In k [str "mpe_query"; str "mar_query"; str "cnf_evid"; str "help"] -> streq k n = false) as Z.
    { intros k Hk. apply streq_other; [|intros e; apply OK; auto]. destruct Hk as [<-|[<-|[<-|[<-|[]]]]]; noeq. }
    rewrite !Z by (simpl; auto). destruct (attached n); reflexivity.
  - destruct OK as (c & g' & -> & NC). change ([str "-" ++ c :: g'] ++ rest) with (("-"%char :: c :: g') :: rest).
    apply workhorse_none. right. exists c, g'. split; auto. split; auto. apply short_spec.
Qed.
Lemma workhorse_ends tail names : ends tail names -> workhorse usage tail = Some ([], names).
Proof.
  intros [|rest|w rest [NE| ->]]; auto. destruct w as [|m [|c w]]; auto. simpl. destruct (Ascii.eqb_spec m "-") as [->|_]; auto.
  exfalso. apply (NE (c :: w)). reflexivity.
Qed.
Theorem parse_line items tail names : Forall item_ok items -> ends tail names ->
  workhorse usage (line items ++ tail) = Some (concat (map stored items), names).
Proof.
  intros F E. induction items as [|i items IH]; [apply workhorse_ends; auto|]. apply Forall_cons_iff in F as [F1 F2].
  unfold line. cbn [map concat]. rewrite <- (app_assoc (words i)). rewrite workhorse_item by auto. fold (line items). rewrite IH by auto. reflexivity.
Qed.
Theorem parse_missing items : Forall item_ok items -> workhorse usage (line items ++ [str "--cnf_evid"]) = None.
Proof.
  intros F. induction items as [|i items IH]; [reflexivity|]. apply Forall_cons_iff in F as [F1 F2].
  unfold line. cbn [map concat]. rewrite <- (app_assoc (words i)). rewrite workhorse_item by auto. fold (line items). rewrite IH by auto. reflexivity.
Qed.
(** Every command line is one of these *)
Lemma long_cases n : n <> [] -> (exists e, n = str "mpe_query" ++ eq_text e) \/ (exists e, n = str "mar_query" ++ eq_text e) \/
  (exists e, n = str "cnf_evid" ++ eq_text e) \/ (exists e, n = str "help" ++ eq_text e) \/ item_ok (Long n).
Proof.
  intros NE. destruct (streq (str "mpe_query") n) eqn:E1; [apply streq_spec in E1; [auto|noeq]|].
  destruct (streq (str "mar_query") n) eqn:E2; [apply streq_spec in E2; [auto|noeq]|].
  destruct (streq (str "cnf_evid") n) eqn:E3; [apply streq_spec in E3; [auto|noeq]|].
  destruct (streq (str "help") n) eqn:E4; [apply streq_spec in E4; [auto 6|noeq]|].
  do 4 right. split; auto. intros k e [<-|[<-|[<-|[<-|[]]]]] ->; [rewrite streq_head in E1 by noeq|rewrite streq_head in E2 by noeq|rewrite streq_head in E3 by noeq|rewrite streq_head in E4 by noeq]; discriminate.
Qed.
Theorem every_line args : exists items, Forall item_ok items /\
  ((exists tail names, ends tail names /\ args = line items ++ tail) \/ args = line items ++ [str "--cnf_evid"]).
Proof.
  remember (length args) as k eqn:HK. assert (length args <= k) as HL by lia. clear HK. revert args HL.
  induction k as [|k IH]; intros args HL.
  { destruct args; [|simpl in HL; lia]. exists []. split; auto. left. exists [], []. split; [constructor|reflexivity]. }
  assert (forall i rest, item_ok i -> length rest <= k -> args = words i ++ rest -> exists items, Forall item_ok items /\
    ((exists tail names, ends tail names /\ args = line items ++ tail) \/ args = line items ++ [str "--cnf_evid"])) as STEP.
  { intros i rest OK LR ->. destruct (IH rest LR) as (items & F & H). exists (i :: items). split; auto.
    unfold line. cbn [map concat]. fold (line items). destruct H as [(tail & names & E & ->)| ->].
    - left. exists tail, names. split; auto. rewrite app_assoc. reflexivity.
    - right. rewrite app_assoc. reflexivity. }
  destruct args as [|w rest].
  { exists []. split; auto. left. exists [], []. split; [constructor|reflexivity]. }
  simpl in HL. assert (length rest <= k) as LR by lia.
  assert ((forall s, w <> "-"%char :: s) \/ w = str "-" -> exists items, Forall item_ok items /\
    ((exists tail names, ends tail names /\ w :: rest = line items ++ tail) \/ w :: rest = line items ++ [str "--cnf_evid"])) as STOP.
  { intros H. exists []. split; auto. left. exists (w :: rest), (w :: rest). split; [constructor; auto|reflexivity]. }
  destruct w as [|m w]; [apply STOP; left; discriminate|].
  destruct (Ascii.eqb_spec m "-") as [->|NM]; [|apply STOP; left; intros s H; injection H as -> _; congruence].
  destruct w as [|c w]; [apply STOP; right; reflexivity|].
  destruct (Ascii.eqb_spec c "-") as [->|NC].
  - destruct w as [|a w].
    { exists []. split; auto. left. exists (str "--" :: rest), rest. split; [constructor|reflexivity]. }
    destruct (long_cases (a :: w)) as [[e H]|[[e H]|[[e H]|[[e H]|H]]]]; [discriminate| | | | |].
    + apply (STEP (Mpe e) rest); simpl; auto. rewrite H. reflexivity.
    + apply (STEP (Mar e) rest); simpl; auto. rewrite H. reflexivity.
    + destruct e as [f|].
      * apply (STEP (EvidEq f) rest); simpl; auto. rewrite H. reflexivity.
      * destruct rest as [|f rest].
        -- exists []. split; auto. right. rewrite H. reflexivity.
        -- apply (STEP (Evid f) rest); simpl; auto; [simpl in LR; lia|]. rewrite H. reflexivity.
    + apply (STEP (Help e) rest); simpl; auto. rewrite H. reflexivity.
    + apply (STEP (Long (a :: w)) rest); auto.
  - apply (STEP (Short (c :: w)) rest); simpl; eauto.
Qed.

(** ** The stored options *)
Lemma chosen_app i l1 l2 : chosen i (l1 ++ l2) = match chosen i l1 with Some o => Some o | None => chosen i l2 end.
Proof. unfold chosen. induction l1 as [|o l1 IH]; auto. simpl. destruct (Nat.eqb (o_index o) i); auto. Qed.
Lemma chosen_short i g : i <> HELP -> i <> UNKNOWN -> chosen i (map (fun c => MkO (if Ascii.eqb c "h" then HELP else UNKNOWN) None) g) = None.
Proof.
  intros H1 H2. induction g as [|c g IH]; auto. unfold chosen in *. cbn [map find o_index].
  destruct (Ascii.eqb c "h"); [destruct (Nat.eqb_spec HELP i); [congruence|auto]|destruct (Nat.eqb_spec UNKNOWN i); [congruence|auto]].
Qed.
Definition given (i : nat) (os : list opt) : bool := match chosen i os with Some _ => true | None => false end.
Lemma given_short_help g : given HELP (map (fun c => MkO (if Ascii.eqb c "h" then HELP else UNKNOWN) None) g) = existsb (Ascii.eqb "h") g.
Proof.
  induction g as [|c g IH]; auto. unfold given, chosen in *. cbn [map find o_index existsb]. rewrite (Ascii.eqb_sym "h" c).
  destruct (Ascii.eqb c "h"); auto.
Qed.
Lemma given_app i l1 l2 : given i (l1 ++ l2) = given i l1 || given i l2.
Proof. unfold given. rewrite chosen_app. destruct (chosen i l1); auto. Qed.
Lemma given_mpe items : given MPE_QUERY (concat (map stored items)) = wants_mpe items.
Proof.
  induction items as [|i items IH]; auto. cbn [map concat]. rewrite given_app, IH. unfold wants_mpe at 2. cbn [existsb]. fold (wants_mpe items). f_equal.
  destruct i; try reflexivity. unfold given. cbn [stored]. rewrite chosen_short by discriminate. reflexivity.
Qed.
Lemma given_mar items : given MAR_QUERY (concat (map stored items)) = wants_mar items.
Proof.
  induction items as [|i items IH]; auto. cbn [map concat]. rewrite given_app, IH. unfold wants_mar at 2. cbn [existsb]. fold (wants_mar items). f_equal.
  destruct i; try reflexivity. unfold given. cbn [stored]. rewrite chosen_short by discriminate. reflexivity.
Qed.
Lemma given_help items : given HELP (concat (map stored items)) = wants_help items.
Proof.
  induction items as [|i items IH]; auto. cbn [map concat]. rewrite given_app, IH. unfold wants_help at 2. cbn [existsb]. fold (wants_help items). f_equal.
  destruct i; try reflexivity. cbn [stored]. apply given_short_help.
Qed.
Lemma chosen_evidence items : chosen CNF_EVID (concat (map stored items)) = option_map (fun f => MkO CNF_EVID (Some f)) (evidence items).
Proof.
  induction items as [|i items IH]; auto. cbn [map concat]. rewrite chosen_app, IH. destruct i; try reflexivity.
  cbn [stored]. rewrite chosen_short by discriminate. reflexivity.
Qed.

(** ** The program *)
Section Main.
Context {P : pops} (showd : P -> text) (rd : text -> option P) (log0 : P) (libs : vtree -> sddlib) (dflt : P * P) (help : text)
  (vread : option text -> res vtree) (fs : files).
Let main := psdd_inference showd rd log0 libs dflt help vread fs.
Let content name := match fs name with Some c => c | None => [] end.
Theorem main_files items tail psdd_name vtree_name rest psdd vt : Forall item_ok items -> wants_help items = false ->
  ends tail (psdd_name :: vtree_name :: rest) -> fs psdd_name = Some psdd -> vread (fs vtree_name) = Ok vt ->
  main (line items ++ tail) =
    (do (a, _) <- Inference rd log0 libs (wants_mpe items) (wants_mar items) dflt psdd (option_map content (evidence items)) vt ;; Ok (0%Z, print_answer showd a)).
Proof.
  intros F NH E EP EV. unfold main, psdd_inference. rewrite (parse_line items tail _ F E).
  pose proof (given_help items) as GH. rewrite NH in GH. unfold given in GH. destruct (chosen HELP _) as [o|]; [discriminate|].
  assert (line items ++ tail <> []) as NE.
  { intros H. apply app_eq_nil in H as [_ H]. subst. inversion E. }
  destruct (line items ++ tail) as [|w ws]; [congruence|]. cbn [nth_error get bind].
  rewrite chosen_evidence. pose proof (given_mpe items) as GM. pose proof (given_mar items) as GR. unfold given in GM, GR. rewrite GM, GR. rewrite EP.
  destruct (evidence items) as [f|]; cbn [option_map o_arg get bind].
  - fold (content f). unfold Inference. destruct (ReadCnf (content f)) as [cs| | |]; cbn [bind]; auto. rewrite EV. cbn [bind]. reflexivity.
  - rewrite EV. cbn [bind]. reflexivity.
Qed.
Theorem main_missing_argument items : Forall item_ok items -> main (line items ++ [str "--cnf_evid"]) = Ok (1%Z, []).
Proof. intros F. unfold main, psdd_inference. rewrite parse_missing; auto. Qed.
Theorem main_help items tail names : Forall item_ok items -> ends tail names -> wants_help items = true \/ line items ++ tail = [] ->
  main (line items ++ tail) = Ok (0%Z, help).
Proof.
  intros F E H. unfold main, psdd_inference. rewrite (parse_line items tail _ F E). pose proof (given_help items) as GH. unfold given in GH.
  destruct (chosen HELP _) as [o|]; auto. destruct H as [H|H]; [congruence|]. rewrite H. reflexivity.
Qed.
Theorem main_few items tail names : Forall item_ok items -> ends tail names -> wants_help items = false -> line items ++ tail <> [] -> length names < 2 ->
  (forall f, evidence items = Some f -> exists cs, ReadCnf (content f) = Ok cs) -> main (line items ++ tail) = UB.
Proof.
  intros F E NH NE L EV. unfold main, psdd_inference. rewrite (parse_line items tail _ F E). pose proof (given_help items) as GH. rewrite NH in GH. unfold given in GH.
  destruct (chosen HELP _) as [o|]; [discriminate|]. destruct (line items ++ tail) as [|w ws]; [congruence|].
  destruct names as [|n [|n2 names]]; [reflexivity| |simpl in L; lia]. cbn [nth_error get bind].
  rewrite chosen_evidence. destruct (evidence items) as [f|]; cbn [option_map o_arg get bind]; auto.
  destruct (EV f eq_refl) as [cs C]. fold (content f). rewrite C. reflexivity.
Qed.
Theorem main_no_psdd items tail psdd_name vtree_name rest vt : Forall item_ok items -> wants_help items = false ->
  ends tail (psdd_name :: vtree_name :: rest) -> fs psdd_name = None -> vread (fs vtree_name) = Ok vt ->
  (forall f, evidence items = Some f -> exists cs, ReadCnf (content f) = Ok cs) -> main (line items ++ tail) = Abort.
Proof.
  intros F NH E EP EV EC. unfold main, psdd_inference. rewrite (parse_line items tail _ F E).
  pose proof (given_help items) as GH. rewrite NH in GH. unfold given in GH. destruct (chosen HELP _) as [o|]; [discriminate|].
  assert (line items ++ tail <> []) as NE.
  { intros H. apply app_eq_nil in H as [_ H]. subst. inversion E. }
  destruct (line items ++ tail) as [|w ws]; [congruence|]. cbn [nth_error get bind]. rewrite chosen_evidence.
  destruct (evidence items) as [f|]; cbn [option_map o_arg get bind].
  - destruct (EC f eq_refl) as [cs C]. fold (content f). rewrite C. cbn [bind]. rewrite EV. cbn [bind]. rewrite EP. reflexivity.
  - rewrite EV. cbn [bind]. rewrite EP. reflexivity.
Qed.
End Main.
