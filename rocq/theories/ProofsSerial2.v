(** The sizes of generated keys (C120, C122). *)
From Verif Require Import Field Poly Module ModelLC ModelCS ModelGroth16 ModelSerial SpecSerial ProofsSerial ProofsGroth16.
Section G.
Variable K : PFld.
Variable PR : Pairing K.
Variable dnew : nat -> option (dom K).
Local Open Scope fld_scope.
Lemma acc_row_len (ui : K) ni l : forall a a', acc_row K ui ni l a = Ok a' -> length a' = length a.
Proof.
  induction l as [|[v k] l IH]; intros a a' E; cbn [acc_row] in E; [congruence|]. destruct (Nat.ltb _ _) in E; [|discriminate]. rewrite (IH _ _ E). apply length_upd.
Qed.
Lemma acc_rows_len (u : list K) ni rows : forall i a a', acc_rows K u ni i rows a = Ok a' -> length a' = length a.
Proof.
  induction rows as [|row rows IH]; intros i a a' E; cbn [acc_rows] in E; [congruence|]. destruct (nth_error u i) as [ui|]; [|discriminate]. destruct (acc_row K ui ni row a) as [a1| |] eqn:E1; try discriminate. cbn [rbind] in E.
  rewrite (IH _ _ _ E). exact (acc_row_len _ _ _ _ _ E1).
Qed.
Theorem gen_sizes (circuit : M K unit) (al be ga de t : K) g1 g2 p : generate_parameters K PR dnew circuit al be ga de t g1 g2 = Ok p ->
  exists s, circuit (cs_new Setup) = Ok (tt, s) /\ length (gamma_abc_g1 K PR (pvk K PR p)) = num_inputs K s /\ length (a_query K PR p) = (num_inputs K s + num_aux K s)%nat /\
    length (b_g1_query K PR p) = (num_inputs K s + num_aux K s)%nat /\ length (b_g2_query K PR p) = (num_inputs K s + num_aux K s)%nat /\ length (l_query K PR p) = num_aux K s /\
    exists d, dnew (num_constraints K s + (num_inputs K s - 1) + 1)%nat = Some d /\ length (h_query K PR p) = (dsize d - 1)%nat.
Proof.
  unfold generate_parameters. destruct (circuit (cs_new Setup)) as [[[] s]| |]; try discriminate. cbn [rbind]. unfold instance_map. destruct (dnew (num_constraints K s + (num_inputs K s - 1) + 1)%nat) as [d|] eqn:Ed; [|discriminate].
  destruct (acc_rows K _ _ 0 (at_ K s) _) as [a| |] eqn:Ea; try discriminate. destruct (acc_rows K _ _ 0 (bt_ K s) _) as [b| |] eqn:Eb; try discriminate. destruct (acc_rows K _ _ 0 (ct_ K s) _) as [c| |] eqn:Ec; try discriminate. cbn [rbind].
  destruct (feqb ga 0); [discriminate|]. destruct (feqb de 0); [discriminate|]. intro E. injection E as <-. exists s. split; [reflexivity|].
  apply acc_rows_len in Ea, Eb, Ec. unfold input_row in Ea. rewrite app_length, map_length, seq_length in Ea. rewrite repeat_length in Ea, Eb, Ec.
  cbn [pvk gamma_abc_g1 a_query b_g1_query b_g2_query l_query h_query]. rewrite !map_length, firstn_length, skipn_length, !map_length, !combine_length, seq_length. repeat split; try lia. exists d. split; [exact Ed|reflexivity].
Qed.
End G.
