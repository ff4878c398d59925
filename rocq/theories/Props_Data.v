(** Property theorems C46, C48 and C52 (data sets).  A record is a number whose bit k is variable k; [lookup r m]: the count of record r;
    [occ r l]: how often r is in the list l; [total m]: the sum of the counts; [sound b]: the map has every record at most once, with a
    positive count; [record_of 0 bs]: the record with variable i true if the i-th of bs is; [within v r]: r has variables 1..v only. *)
From Coq Require Import Ascii String Reals Lra Permutation.
From Verif Require Import Base Text Csv CsvProofs CsvExamples Data DataProofs DataExamples.
Local Open Scope N_scope.

(** C46: AddRecord, any number of times *)
Theorem C46_add_records : forall l b n, sound b -> b_size b = Some n -> total (b_map b) + lenN l < u64 -> n + lenN l < u64 ->
  exists b', foldM AddRecord l b = Ok b' /\ sound b' /\ (forall k, lookup k (b_map b') = lookup k (b_map b) + occ k l) /\
    total (b_map b') = total (b_map b) + lenN l /\ b_size b' = Some (n + lenN l) /\ b_vars b' = b_vars b.
Proof. exact add_records. Qed.
Print Assumptions C46_add_records.
Example C46_add_records_nonvacuous : sound new_data /\ foldM AddRecord [2; 4; 2] new_data = Ok {| b_map := [(2, 2); (4, 1)]; b_vars := Some 0; b_size := Some 3 |}.
Proof. split; [exact sound_new|reflexivity]. Qed.
(** reading a file of rows of one length: every row is counted, on top of what was there; the sizes are those of the file *)
Theorem C46_read_file : forall rs bss n s b, enc_file comma rs s -> Forall2 (Forall2 field_value) rs bss -> Forall (fun row => lenN row = n) rs -> 0 < n -> n < max_var ->
  lenN s + 3 <= big -> sound b -> total (b_map b) + lenN rs < u64 ->
  exists b', ReadFile b (Some s) = Ok b' /\ sound b' /\ (forall k, lookup k (b_map b') = lookup k (b_map b) + occ k (map (record_of 0) bss)) /\
    b_size b' = Some (lenN rs) /\ b_vars b' = Some (match rs with [] => 0 | _ => n end) /\ total (b_map b') = total (b_map b) + lenN rs.
Proof. exact read_file. Qed.
Print Assumptions C46_read_file.
Theorem C46_record_bits : forall bs k, N.testbit (record_of 0 bs) k = if N.eqb k 0 then false else nth (N.to_nat (k - 1)) bs false.
Proof.
  intros bs k. destruct (N.eqb_spec k 0) as [->|NE]; [apply record_low; lia|]. replace k with (0 + 1 + N.of_nat (N.to_nat (k - 1))) at 1 by lia. apply record_bit.
Qed.
Print Assumptions C46_record_bits.
Example C46_read_file_nonvacuous : enc_file comma data_rows data_ex /\ Forall2 (Forall2 field_value) data_rows data_bits /\ Forall (fun row => lenN row = 2) data_rows /\
  ReadFile new_data (Some data_ex) = Ok data_three.
Proof. split; [exact data_ex_enc|]. split; [exact data_ex_bits|]. split; [repeat constructor|vm_compute; reflexivity]. Qed.
(** rows of different lengths stop the program *)
Theorem C46_ragged : forall rs1 row rs2 bss bs n s b, enc_file comma (rs1 ++ row :: rs2) s -> Forall2 (Forall2 field_value) rs1 bss -> Forall2 field_value row bs -> rs1 <> [] ->
  Forall (fun r => lenN r = n) rs1 -> 0 < n -> n < max_var -> lenN row <> n -> lenN row < max_var -> lenN s + 3 <= big -> lenN rs1 < u64 ->
  ReadFile b (Some s) = Abort.
Proof. exact read_ragged. Qed.
Print Assumptions C46_ragged.
Example C46_ragged_nonvacuous : ReadFile new_data (Some (str "1,0" ++ [nl] ++ str "1")) = Abort.
Proof. vm_compute. reflexivity. Qed.
(** writing and reading back, whatever the order of iteration *)
Theorem C46_write_read : forall b v it, sound b -> b_vars b = Some v -> 1 <= v -> v < max_var -> (forall r, In r (keys (b_map b)) -> within v r) ->
  (forall r, lookup r (b_map b) <= int_max) -> Permutation (b_map b) it -> total (b_map b) < u64 ->
  exists s, WriteFile b it = Ok s /\ (lenN s + 3 <= big -> exists b', ReadFile new_data (Some s) = Ok b' /\ sound b' /\
    (forall r, lookup r (b_map b') = lookup r (b_map b)) /\ b_size b' = Some (total (b_map b)) /\ (b_map b <> [] -> b_vars b' = Some v) /\ (b_map b = [] -> b_vars b' = Some 0)).
Proof. exact write_read_data. Qed.
Print Assumptions C46_write_read.
Example C46_write_read_nonvacuous : sound data_three /\ (forall r, In r (keys (b_map data_three)) -> within 2 r) /\ (forall r, lookup r (b_map data_three) <= int_max) /\
  (do s <- WriteFile data_three [(4, 1); (2, 2)] ;; ReadFile new_data (Some s)) = Ok {| b_map := [(4, 1); (2, 2)]; b_vars := Some 2; b_size := Some 3 |}.
Proof. split; [exact data_three_sound|]. split; [exact data_three_within|]. split; [exact data_three_counts|]. vm_compute. reflexivity. Qed.
(** the text that is written: for each record, as often as it is counted, a line with 0 or 1 for each variable, separated by commas ([row_of]) *)
Theorem C46_written_text : forall b v it, b_vars b = Some v -> 1 <= v -> v < max_var -> (forall r c, In (r, c) it -> c <= int_max) ->
  exists ls, WriteFile b it = Ok (concat (map (fun l => l ++ [nl]) ls)) /\ Forall2 (row_of v) (flat_map (fun rc => repeat (fst rc) (N.to_nat (snd rc))) it) ls.
Proof. exact written_text. Qed.
Print Assumptions C46_written_text.
Example C46_written_text_nonvacuous : WriteFile data_three [(4, 1); (2, 2)] = Ok (str "0,1" ++ [nl] ++ str "1,0" ++ [nl] ++ str "1,0" ++ [nl]) /\ row_of 2 4 (str "0,1").
Proof.
  split; [vm_compute; reflexivity|]. exists [false; true]. split; [apply (rt_more false [true] _ (rt_one true))|]. split; [reflexivity|].
  intros k K. assert (k = 1 \/ k = 2) as [-> | ->] by lia; reflexivity.
Qed.
(** not a faithful multiset: reading a second file keeps the records of the first but not their number; a missing file is an empty one;
    variables outside 1..variable_size are lost in writing; and so is the variable size of an empty data set *)
Theorem C46_faithful_refuted :
  (do b <- ReadFile new_data (Some data_ex) ;; ReadFile b (Some data_ex)) = Ok {| b_map := [(2, 4); (4, 2)]; b_vars := Some 2; b_size := Some 3 |} /\
  (forall b, ReadFile b None = Ok {| b_map := b_map b; b_vars := Some 0; b_size := Some 0 |}) /\
  (do s <- WriteFile {| b_map := [(9, 1)]; b_vars := Some 2; b_size := Some 1 |} [(9, 1)] ;; ReadFile new_data (Some s)) = Ok {| b_map := [(0, 1)]; b_vars := Some 2; b_size := Some 1 |} /\
  (do s <- WriteFile (set_variable_size new_data 5) [] ;; ReadFile new_data (Some s)) = Ok new_data.
Proof. split; [vm_compute; reflexivity|]. split; [intros b; reflexivity|]. split; [vm_compute; reflexivity|]. vm_compute. reflexivity. Qed.
Print Assumptions C46_faithful_refuted.
(** undefined behaviour: writing when the number of variables was never set, and AddRecord to an object that is a local variable *)
Theorem C46_undefined_refuted : (forall b it r c, In (r, c) it -> 0 < c -> (b_vars b = Some 0 \/ b_vars b = None) -> WriteFile b it = UB) /\
  (forall r, AddRecord local_data r = UB) /\ (forall b r, foldM AddRecord [r] new_data = Ok b -> WriteFile b (b_map b) = UB).
Proof.
  split; [exact write_zero|]. split; [reflexivity|]. intros b r E. cbn in E. injection E as <-. apply (write_zero _ _ r 1); simpl; auto. lia.
Qed.
Print Assumptions C46_undefined_refuted.

(** C48: the negated entropy is returned; it is never positive, and 0 only if all records are equal *)
Theorem C48_entropy_partial : forall b it n, sound b -> b_size b = Some n -> n = total (b_map b) -> b_map b <> [] -> Permutation (b_map b) it ->
  exists e, CalculateEntropy b it = Ok (Some e) /\ (e = - entropy (b_map b) n)%R /\ (e <= 0)%R /\ (e = 0%R <-> length (b_map b) = 1%nat).
Proof. exact entropy_spec. Qed.
Print Assumptions C48_entropy_partial.
Example C48_nonvacuous : sound data_three /\ b_size data_three = Some 3 /\ 3 = total (b_map data_three) /\ b_map data_three <> [].
Proof. split; [exact data_three_sound|]. split; [reflexivity|]. split; [reflexivity|discriminate]. Qed.
(** so it is not the entropy of any data with two different records, and not a number if there are none *)
Theorem C48_entropy_refuted : (forall b it n, sound b -> b_size b = Some n -> n = total (b_map b) -> (2 <= length (b_map b))%nat -> Permutation (b_map b) it ->
    exists e, CalculateEntropy b it = Ok (Some e) /\ (e < 0)%R /\ (0 < entropy (b_map b) n)%R) /\
  CalculateEntropy new_data [] = Ok None.
Proof.
  split; [|reflexivity]. intros b it n S EN ET L PM. assert (b_map b <> []) as NE by (intros E; rewrite E in L; simpl in L; lia).
  destruct (entropy_spec b it n S EN ET NE PM) as (e & E & EQ & LE & Z). exists e. split; auto. assert (e <> 0%R) by (intros E0; apply Z in E0; lia). lra.
Qed.
Print Assumptions C48_entropy_refuted.

(** C52: sparse data in JSON; an example is legal if it is an array of numbers 0..variable_size *)
Theorem C52_json_partial : forall kv v data rs, member (str "variable_size") kv = Some (JNum v) -> member (str "data") kv = Some (JArr data) -> (0 <= v < 65536)%Z -> exs v data rs ->
  lenN rs < u64 ->
  exists b, ReadSparseDataJsonFile (JObj kv) = Ok (Some b) /\ sound b /\ (forall k, lookup k (b_map b) = occ k rs) /\ b_size b = Some (lenN rs) /\ b_vars b = Some (Z.to_N v).
Proof. exact read_json. Qed.
Print Assumptions C52_json_partial.
Example C52_nonvacuous : exs 2 [JArr [JNum 1]; JArr [JNum 3]; JStr (str "x"); JArr [JNum 1; JNum 2]; JArr [JNum 2; JNull]] [2; 6] /\
  ReadSparseDataJsonFile (JObj json_ex) = Ok (Some {| b_map := [(2, 1); (6, 1)]; b_vars := Some 2; b_size := Some 2 |}).
Proof. split; [exact json_ex_exs|vm_compute; reflexivity]. Qed.
(** variable 0 is accepted (and is lost when the data set is written); a negative number is not skipped but stops the program *)
Theorem C52_json_refuted :
  (exists b, ReadSparseDataJsonFile (JObj json_zero) = Ok (Some b) /\ b_size b = Some 1 /\ lookup 1 (b_map b) = 1 /\
     exists s b', WriteFile b (b_map b) = Ok s /\ ReadFile new_data (Some s) = Ok b' /\ lookup 1 (b_map b') = 0 /\ lookup 0 (b_map b') = 1) /\
  ReadSparseDataJsonFile (JObj json_minus) = Abort /\
  (forall kv v zs z l data, member (str "variable_size") kv = Some (JNum v) -> member (str "data") kv = Some (JArr (JArr (map JNum zs ++ JNum z :: l) :: data)) ->
     (0 <= v < 65536)%Z -> Forall (fun z => (0 <= z <= v)%Z) zs -> (z < 0)%Z -> ReadSparseDataJsonFile (JObj kv) = Abort).
Proof.
  split; [|split; [vm_compute; reflexivity|exact json_negative]].
  exists {| b_map := [(1, 1)]; b_vars := Some 2; b_size := Some 1 |}. split; [vm_compute; reflexivity|]. split; [reflexivity|]. split; [reflexivity|].
  exists (str "0,0" ++ [nl]), {| b_map := [(0, 1)]; b_vars := Some 2; b_size := Some 1 |}. split; [reflexivity|]. split; [vm_compute; reflexivity|]. split; reflexivity.
Qed.
Print Assumptions C52_json_refuted.
(** C52, the other documents: without the two members nothing is read; a variable_size that is neither number nor boolean stops the program; data that is neither array nor object has no examples;
    a number from 65536 on stops the program; *)
Theorem C52_other_documents : (forall j, (match j with JObj _ => False | _ => True end) -> ReadSparseDataJsonFile j = Ok None) /\
  (forall kv, member (str "variable_size") kv = None \/ member (str "data") kv = None -> ReadSparseDataJsonFile (JObj kv) = Ok None) /\
  (forall kv vs data, member (str "variable_size") kv = Some vs -> member (str "data") kv = Some data ->
     (match vs with JNum _ | JBool _ => False | _ => True end) -> ReadSparseDataJsonFile (JObj kv) = Abort) /\
  (forall kv vs d data, member (str "variable_size") kv = Some vs -> member (str "data") kv = Some data -> (match vs with JNum _ | JBool _ => True | _ => False end) ->
     (match data with JArr _ | JObj _ => False | _ => True end) -> ReadSparseDataJsonFile (JObj kv) = Ok (Some d) -> b_map d = [] /\ b_size d = Some 0) /\
  (forall kv v zs z l data, member (str "variable_size") kv = Some (JNum v) -> member (str "data") kv = Some (JArr (JArr (map JNum zs ++ JNum z :: l) :: data)) ->
     Forall (fun z => (0 <= z <= v /\ z < 65536)%Z) zs -> (65536 <= z <= v)%Z -> ReadSparseDataJsonFile (JObj kv) = Abort).
Proof. destruct read_json_other as (A & B & C & D). split; [exact A|]. split; [exact B|]. split; [exact C|]. split; [exact D|exact json_large]. Qed.
Print Assumptions C52_other_documents.
(** and where variable_size is a boolean every example that is not empty is skipped (every number is more than a boolean). *)
Theorem C52_boolean_size_refuted : forall kv t data, member (str "variable_size") kv = Some (JBool t) -> member (str "data") kv = Some data ->
  lenN (filter no_entry (elements data)) < u64 ->
  exists b, ReadSparseDataJsonFile (JObj kv) = Ok (Some b) /\ sound b /\ b_vars b = Some (if t then 1 else 0) /\ b_size b = Some (lenN (filter no_entry (elements data))) /\
    (forall k, k <> 0 -> lookup k (b_map b) = 0) /\ lookup 0 (b_map b) = lenN (filter no_entry (elements data)).
Proof. exact read_json_bool. Qed.
Print Assumptions C52_boolean_size_refuted.
Definition json_bool : list (text * json) := [(str "data", JArr [JArr [JNum 1]; JArr []; JArr [JNum 0]]); (str "variable_size", JBool true)].
Example C52_other_nonvacuous : ReadSparseDataJsonFile (JObj json_bool) = Ok (Some {| b_map := [(0, 1)]; b_vars := Some 1; b_size := Some 1 |}) /\
  ReadSparseDataJsonFile (JObj [(str "data", JNum 3); (str "variable_size", JNum 5)]) = Ok (Some {| b_map := []; b_vars := Some 5; b_size := Some 0 |}) /\
  ReadSparseDataJsonFile (JObj [(str "data", JArr [JArr [JNum 65536]]); (str "variable_size", JNum 70000)]) = Abort.
Proof. split; [|split]; vm_compute; reflexivity. Qed.
