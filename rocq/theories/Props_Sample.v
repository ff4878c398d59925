(** Property C57: the distribution of DirectSample. *)
From Coq Require Import Reals Lra.
From Verif Require Import Base Param ParamProofs Vtree VtreeProofs Spec SpecProofs Heap Manager HeapProofs SerProofs
  RepProofs OrderProofs CanonProofs HeapExamples ManagerExamples TreeProofs Query QueryProofs MpeProofs SampleProofs QueryExamples BoxProofs.
Local Open Scope R_scope.

(** C57.  There is a finite list of boxes of draws, each with an instantiation.  Every list of draws below 1 that is long enough starts in
    exactly one of them, and DirectSample uses up that part of the draws and returns the box's instantiation.  The volumes of
    the boxes of an instantiation add up to its weight: with independent uniform draws, every instantiation is returned with
    exactly the probability the PSDD gives it. *)
Theorem C57_sampling_distribution : forall P val, pexact P val -> forall (m : mgr P) i s t fuel, psdd_at val m i s t -> nonneg t -> normalized t -> (i < fuel)%nat ->
  exists Bs : list (box * inst),
    (forall us, (vsize s <= length us)%nat -> (forall u, In u us -> val u < 1) ->
       exists k b x d us', nth_error Bs k = Some (b, x) /\ us = d ++ us' /\ inside b (map val d) /\
         DirectSample fuel (m_heap m) i (fun _ => false) us = Ok (x, us') /\
         forall k' b' x', nth_error Bs k' = Some (b', x') -> starts b' (map val us) -> k' = k) /\
    (forall b x iv, In (b, x) Bs -> In iv b -> 0 <= fst iv <= snd iv /\ snd iv <= 1) /\
    (forall x, rsum (fun B => if same_on (leaves s) x (snd B) then volume (fst B) else 0) Bs = weight t x).
Proof. exact @sample_boxes. Qed.
Print Assumptions C57_sampling_distribution.
(** the PSDD of four variables of ManagerExamples.v: one list of draws, two of which are left over *)
Example C57_nonvacuous : @psdd_at Qex qval ex_m 8 ex_vt ex_t8 /\ nonneg ex_t8 /\ normalized ex_t8 /\ (8 < 9)%nat /\
  (exists x us', DirectSample 9 (m_heap ex_m) 8 (fun _ => false) [q 1 2; q 1 8; q 0 1; q 1 5; q 3 4; q 0 1; q 0 1] = Ok (x, us') /\ length us' = 2%nat) /\
  (2 <= length (boxes ex_t8))%nat.
Proof.
  split; [exact ex_at8|]. split; [exact ex_nonneg|]. split; [apply ex_normalized|]. split; [lia|].
  split; [do 2 eexists; split; vm_compute; reflexivity|]. cbn. lia.
Qed.
