(** Property theorem C51, second part: whole constructions.  [same_again f]: if [f] returned [x] and left the manager [m1], then on
    every well-formed manager [m2] that has grown from [m1] it returns [x] again and leaves [m2] as it is. *)
From Coq Require Import Reals.
From Verif Require Import Base Param ParamProofs Vtree VtreeProofs Spec Heap Manager HeapProofs SerProofs RepProofs OrderProofs CanonProofs HeapExamples LoadProofs MulProofs
  ReplayProofs ManagerExamples Query Learn LearnExamples Sdd Text IO Cnf Pgm PgmExamples AgainProofs.

Theorem C51_constructions_idempotent : forall P val, pexact P val ->
  (forall rd log0 content fl, same_again (P := P) (ReadPsddFile rd log0 content fl)) /\
  (forall sd order root svt fl target d, same_again (P := P) (FromSdd sd order root svt fl target d)) /\
  (forall libs cnf fl, same_again (P := P) (Compile libs cnf fl)) /\
  (forall hs ud dc root ex n alpha fl, same_again (P := P) (LearnPsddParameters hs ud dc root ex n alpha fl)) /\
  (forall G near1 hs ud root fl draws, same_again (P := P) (SampleParameters G near1 hs ud root fl draws)) /\
  (forall ord F, same_again (P := P) (compile_factor ord F)) /\
  (forall ords srt net, same_again (P := P) (compile_network ords srt net)).
Proof.
  intros P val HP. pose proof (pord_exact P val HP) as O. pose proof (val_peq_refl val HP) as Hr. pose proof (val_plt_irrefl val HP) as Hi.
  assert (forall a, (fun _ : P => True) a) as T by (intros; exact Logic.I).
  split; [|split; [|split; [|split; [|split; [|split]]]]]; intros; intros m x m1 E; eapply replay_exact; try exact E.
  - apply again_file; auto.
  - apply again_sdd; auto.
  - apply again_cnf; auto.
  - apply again_learn; auto.
  - apply again_sample; auto.
  - apply again_factor; auto.
  - apply again_network; auto.
Qed.
Print Assumptions C51_constructions_idempotent.
(** compiling a network of two factors creates nodes; compiling it again creates none *)
Example C51_constructions_nonvacuous : exists r m1, compile_network id_ord isort [fac_a; fac_b] (new_mgr ex_vt) = Ok (r, m1) /\ m_heap m1 <> [] /\
  compile_network id_ord isort [fac_a; fac_b] m1 = Ok (r, m1).
Proof. do 2 eexists. split; [vm_compute; reflexivity|]. split; [vm_compute; discriminate|vm_compute; reflexivity]. Qed.
