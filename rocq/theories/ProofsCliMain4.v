(** The programs with the modelled proof systems: Groth16 and Bulletproofs. *)
From Coq Require Import String Ascii ZArith List Lia Bool.
From Verif Require Import Field Poly Module ModelTranscript ModelLC SpecLC ModelCS SpecCS ProofsCS ModelMimc ProofsMimc SpecMode ProofsMode ModelGroth16 SpecGroth16 ProofsGroth16
  ModelBulletproofs SpecBulletproofs ProofsBulletproofs ProofsBulletproofs3 ModelCli SpecCli ProofsCli ModelCliMain SpecCliMain AttackCli ProofsCliMain ProofsCliMain2 ProofsCliMain3.
From Coq Require Import List.
Import ListNotations.
Local Open Scope Z_scope.
Section Runs.
Variable K : PFld.
Variables (nl : nat) (cts : list K).
Local Open Scope fld_scope.
Notation row := (mkC (lc_add_var lc_zero (Aux 0)) (lc_add_term (lc_add_var lc_zero (Aux 1)) (of_Z 2) ONE) (lc_add_var lc_zero (Input 1)) : constraint K).
Lemma mini_setup (x y z : option K) n : mini K x y z n (cs_new Setup) = Ok (tt, mkCS Setup [1; 0] [0; 0] (repeat row n)).
Proof. unfold mini, bind. cbn [alloc alloc_input cs_new md inps auxs ModelCS.cons app length]. rewrite mini_loop_ok. reflexivity. Qed.
Lemma mini_wf (x y z : K) n m : wf (mkCS m [1; z] [x; y] (repeat row n)).
Proof.
  split; [eexists; reflexivity|]. cbn [ModelCS.cons]. apply Forall_forall. intros c I. apply repeat_spec in I. subst c.
  unfold c_in. cbn [ca cb cc]. repeat split; repeat constructor; cbn; lia.
Qed.
Lemma mini_no_dups (x y z : K) n m : no_dups (mkCS m [1; z] [x; y] (repeat row n)).
Proof.
  unfold no_dups. cbn [ModelCS.cons]. apply Forall_forall. intros c I. apply repeat_spec in I. subst c. cbn [ca cb cc].
  assert (O : forall v w : var, v <> w -> NoDup [v; w]) by (intros v w N; repeat constructor; cbn; intuition).
  repeat split; [repeat constructor; cbn; tauto| |repeat constructor; cbn; tauto]. apply O. discriminate.
Qed.
Lemma claim_run a h : (0 < nl)%nat -> a <> [] -> cts <> [] -> exists s s1, claim_hash nl cts a h (cs_new Prove) = Ok (tt, s) /\ wf s /\ self_sat s /\ inps s = [1; h] /\
  cli_hash nl cts None (cs_new Setup) = Ok (tt, s1) /\ SpecGroth16.same_shape s1 s.
Proof.
  intros N A C. pose proof (mimc_circuit K nl cts (Some a) (cs_new Prove) (wf_new K Prove) C) as S. unfold spec in S.
  specialize (S ltac:(intros b E; injection E as <-; auto)). unfold claim_hash, bind.
  destruct (mimc nl cts (Some a) (cs_new Prove)) as [[r s]|e|] eqn:Q.
  2:{ exfalso. destruct S as [_ S]. apply S; [apply self_sat_new|discriminate]. } 2:{ contradiction. }
  destruct S as (X & W & (LA & LI & _) & _ & SS). destruct (SS eq_refl (self_sat_new K Prove)) as [Sat _]; [discriminate|].
  assert (md s = Prove) as Md by (apply (ext_md K _ _ X)).
  assert (SpecMode.same_shape (K:=K) (cs_new Prove) (cs_new Setup)) as SH by (repeat split).
  destruct (fits_mimc K nl cts (Some a) None N I (cs_new Prove) (cs_new Setup) SH eq_refl r s Q) as (r' & t' & Q' & _ & (S1 & S2 & S3) & Md').
  unfold alloc_input. rewrite Md. cbn [ret].
  pose proof (wf_alloc_inp K s h W) as W'. rewrite Md in W'.
  exists (mkCS Prove (inps s ++ [h]) (auxs s) (ModelCS.cons s)), (mkCS Setup (inps t' ++ [0]) (auxs t') (ModelCS.cons t')). split; [reflexivity|]. split; [exact W'|].
  split; [apply (self_sat_ext K s _); [|exact W|exact W'|reflexivity|exact Sat]|].
  { split; [cbn [md]; rewrite Md; reflexivity|]. split; [eexists; reflexivity|]. split; exists []; rewrite app_nil_r; reflexivity. }
  cbn [inps]. split; [rewrite LI; reflexivity|]. split.
  - unfold cli_hash, bind. rewrite Q'. unfold alloc_input. rewrite Md'. reflexivity.
  - unfold SpecGroth16.same_shape. cbn [ModelCS.cons inps auxs]. rewrite !app_length. split; [symmetry; exact S3|]. split; [cbn; lia|lia].
Qed.
Lemma hash_run a h : (0 < nl)%nat -> a <> [] -> cts <> [] -> hash nl cts a = Ok h -> cli_hash nl cts (Some a) (cs_new Prove) = claim_hash nl cts a h (cs_new Prove).
Proof.
  intros N A C H. pose proof (mimc_circuit K nl cts (Some a) (cs_new Prove) (wf_new K Prove) C) as S. unfold spec in S.
  specialize (S ltac:(intros b E; injection E as <-; auto)). unfold cli_hash, claim_hash, bind.
  destruct (mimc nl cts (Some a) (cs_new Prove)) as [[r s]|e|]; [|reflexivity|reflexivity].
  destruct S as (_ & _ & (_ & _ & V & _) & _). specialize (V a eq_refl). rewrite H in V. cbn [rmap] in V. injection V as <-. reflexivity.
Qed.
End Runs.
