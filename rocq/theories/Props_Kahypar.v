(** Property theorems C79, C80: what the hypergraph construction gives to the partitioner.
    [slice eptr eind k]: the part of eind that belongs to hyperedge k; [cut_edge block eptr eind k]: hyperedge k has vertices in both blocks. *)
From Coq Require Import Ascii String.
From Verif Require Import Base Vtree Text Csv VtreeGen HyperProofs Kahypar KahyparProofs.

(** C79: the vertices are the factors; the hyperedges are the variables that occur in factors, each once; the hyperedge of v has the vertices of
    exactly the factors with v, as often as v is in the scope; the arrays are consistent *)
Theorem C79_hypergraph : forall ord scopes nv ne eptr eind, (forall m, Permutation (ord m) m) -> hypergraph ord scopes = (nv, ne, eptr, eind) ->
  nv = length scopes /\ length eptr = S ne /\ nth_error eptr 0 = Some 0 /\ nth_error eptr ne = Some (length eind) /\ (forall i, In i eind -> i < nv) /\
  exists vars, NoDup vars /\ (forall v, In v vars <-> exists S, In S scopes /\ In v S) /\ ne = length vars /\
    forall k v, nth_error vars k = Some v -> exists a b, nth_error eptr k = Some a /\ nth_error eptr (S k) = Some b /\ a <= b /\ b <= length eind /\
      forall i, count_occ Nat.eq_dec (firstn (b - a) (skipn a eind)) i = match nth_error scopes i with Some sc => count_occ N.eq_dec sc v | None => 0 end.
Proof.
  intros ord scopes nv ne eptr eind O E. destruct (hypergraph_spec _ _ _ _ _ _ O E) as (-> & vars & H1 & H2 & H3 & H4 & H5 & H6 & H7).
  repeat (split; [assumption || reflexivity|]). split.
  - intros i I. unfold hypergraph in E. destruct (pins_spec (ord (factor_indexes scopes))) as (P & _). destruct (pins (ord (factor_indexes scopes))) as [p q].
    injection E as _ <- <-. cbn [fst snd] in P. rewrite P in I. apply in_concat in I as (l & I1 & I2). apply in_map_iff in I1 as ([v l'] & E & I1). cbn [snd] in E. subst l'.
    apply (Permutation_in _ (O _)) in I1. apply indexes_in in I1. subst l. apply occs_in in I2 as (sc & E & _). apply nth_error_Some. congruence.
  - exists vars. repeat (split; [assumption|]). intros k v Ek. destruct (H7 k v Ek) as (a & b & A1 & A2 & A3 & A4 & A5). exists a, b. repeat (split; [assumption|]).
    intros i. rewrite A5. exact (occs_count v scopes 0 i).
Qed.
Print Assumptions C79_hypergraph.
(** the variables that PartitionGraph puts above the two parts are those of the hyperedges that the partition cuts: one for each cut hyperedge, so
    that their number is the objective the partitioner minimizes *)
Theorem C79_cut : forall ord ord2 block scopes nv ne eptr eind lf rf ctx, (forall m, Permutation (ord m) m) -> (forall l, Permutation (ord2 l) l) ->
  hypergraph ord scopes = (nv, ne, eptr, eind) -> PartitionGraph ord2 block scopes = (lf, rf, ctx) ->
  NoDup ctx /\
  (forall v, In v ctx <-> (exists i S, nth_error scopes i = Some S /\ In v S /\ block i = true) /\ (exists i S, nth_error scopes i = Some S /\ In v S /\ block i = false)) /\
  length ctx = length (filter (cut_edge block eptr eind) (seq 0 ne)).
Proof.
  intros ord ord2 block scopes nv ne eptr eind lf rf ctx O O2 E E2. destruct (context_spec _ _ _ _ _ _ O2 E2) as [A B]. split; auto. split; auto.
  exact (cut_spec _ _ _ _ _ _ _ _ _ _ _ O O2 E E2).
Qed.
Print Assumptions C79_cut.
Definition kah_scopes : list (list N) := [[1; 2]; [2; 3]; [3; 4]; [4; 1]; [5]]%N.
Example C79_nonvacuous : hypergraph (fun m => rev m) kah_scopes = (5, 5, [0; 1; 3; 5; 7; 9], [4; 2; 3; 1; 2; 0; 1; 0; 3]) /\
  PartitionGraph (fun l => rev l) (fun i => Nat.ltb i 2) kah_scopes = ([[2]; [2]], [[4]; [4]; [5]], [1; 3])%N /\
  filter (cut_edge (fun i => Nat.ltb i 2) [0; 1; 3; 5; 7; 9] [4; 2; 3; 1; 2; 0; 1; 0; 3]) (seq 0 5) = [2; 4] /\
  (forall m : list (N * list nat), Permutation (rev m) m) /\ (forall l : list N, Permutation (rev l) l).
Proof. split; [reflexivity|]. split; [vm_compute; reflexivity|]. split; [reflexivity|]. split; intros l; apply Permutation_sym, Permutation_rev. Qed.

(** C80: the name of the configuration file, for all working directories; with 489 or more bytes the program writes beyond its buffer *)
Theorem C80_config_name : forall dir, ~ In nul dir -> length dir <= 488 -> config_name dir = Ok (dir ++ str "/config.ini").
Proof.
  intros dir NI L. rewrite config_name_spec.
  - destruct (Nat.leb_spec (length dir) 488) as [_|H]; [reflexivity|lia].
  - induction dir as [|c dir IH]; simpl; auto. destruct (Ascii.eqb c nul) eqn:E; [apply Ascii.eqb_eq in E; subst; exfalso; apply NI; simpl; auto|].
    rewrite IH; auto; [intros I; apply NI; simpl; auto|simpl in L; lia].
Qed.
Print Assumptions C80_config_name.
Example C80_config_name_nonvacuous : config_name (str ".") = Ok (str "./config.ini") /\ ~ In nul (str ".") /\ length (str ".") <= 488.
Proof. split; [reflexivity|]. split; [intros [H|[]]; discriminate|simpl; lia]. Qed.
Theorem C80_config_name_refuted : forall dir, ~ In nul dir -> 489 <= length dir -> config_name dir = UB.
Proof.
  intros dir NI L. rewrite config_name_spec.
  - destruct (Nat.leb_spec (length dir) 488) as [H|_]; [lia|reflexivity].
  - clear L. induction dir as [|c dir IH]; simpl; auto. destruct (Ascii.eqb c nul) eqn:E; [apply Ascii.eqb_eq in E; subst; exfalso; apply NI; simpl; auto|].
    rewrite IH; auto. intros I; apply NI; simpl; auto.
Qed.
Print Assumptions C80_config_name_refuted.
Example C80_config_name_witness : config_name (repeat "a"%char 489) = UB.
Proof. vm_compute. reflexivity. Qed.
