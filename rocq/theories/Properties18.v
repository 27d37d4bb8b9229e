(** Theorems C50: setup and proving see the same circuit, and where they do not. *)
From Verif Require Import Field Zp Gold ModelLC ModelCS ModelBoolean ModelUint32 ModelOperator ModelCbmt ModelMimc ModelSponge ModelSha256 ModelBlake2s SpecMode ProofsMode ProofsMode2 ProofsMode3 ProofsMode4 ExMarlin.
Local Open Scope fld_scope.

(** ** C50 *)
Theorem C50_fresh : forall (K : Fld) A (R : A -> A -> Prop) (m m' : M K A) a t, fits R m m' -> m (cs_new Prove) = Ok (a, t) ->
  exists a' t', m' (cs_new Setup) = Ok (a', t') /\ R a a' /\ length (inps t) = length (inps t') /\ length (auxs t) = length (auxs t') /\ cons t = cons t'.
Proof. intros K A R m m' a t H E. destruct (H (cs_new Prove) (cs_new Setup) (conj eq_refl (conj eq_refl eq_refl)) eq_refl a t E) as (a' & t' & X & Y & Z & _). exists a', t'. split; [exact X|]. split; [exact Y|exact Z]. Qed.
Print Assumptions C50_fresh.
Theorem C50_sequence : forall (K : Fld) A B (RA : A -> A -> Prop) (RB : B -> B -> Prop) (m m' : M K A) k k', fits RA m m' -> (forall a a', RA a a' -> fits RB (k a) (k' a')) -> fits RB (bind m k) (bind m' k').
Proof. exact fits_bind. Qed.
Print Assumptions C50_sequence.
Theorem C50_bits : forall (K : Fld) o o' b b', same_bit b b' ->
  fits same_bit (@bit_alloc K o) (bit_alloc o') /\ fits same_bit (@bit_alloc_input K o) (bit_alloc_input o') /\ fits same_bit (@bit_alloc_cond K o b) (bit_alloc_cond o' b') /\ (forall z z', fits (Forall2 same_wire) (@u64_into_boolean_vec_le K z) (u64_into_boolean_vec_le z')).
Proof. intros K o o' b b' H. split; [apply fits_bit_alloc|]. split; [apply fits_bit_alloc_input|]. split; [apply fits_bit_alloc_cond, H|]. intros. apply fits_u64. Qed.
Print Assumptions C50_bits.
Theorem C50_booleans : forall (K : Fld) a a' b b' c c', same_wire a a' -> same_wire b b' -> same_wire c c' ->
  fits same_wire (@b_xor K a b) (b_xor a' b') /\ fits same_wire (@b_and K a b) (b_and a' b') /\ fits same_wire (@b_ch K a b c) (b_ch a' b' c') /\ fits same_wire (@b_maj K a b c) (b_maj a' b' c') /\ fits any (@b_enforce_equal K a b) (b_enforce_equal a' b').
Proof. intros K a a' b b' c c' Ha Hb Hc. split; [apply fits_xor; assumption|]. split; [apply fits_and; assumption|]. split; [apply fits_ch; assumption|]. split; [apply fits_maj; assumption|apply fits_enforce_equal; assumption]. Qed.
Print Assumptions C50_booleans.
Theorem C50_field_elements : forall (K : Fld) f f' a a', @fvar K a = fvar a' ->
  fits (fun x y => fvar x = fvar y) (@fr_alloc K f) (fr_alloc f') /\ fits (fun x y => fvar x = fvar y) (@fr_alloc_input K f) (fr_alloc_input f') /\ fits any (fr_inputize a) (fr_inputize a') /\ fits any (fr_isnonzero a) (fr_isnonzero a').
Proof. intros K f f' a a' H. split; [apply fits_fr_alloc|]. split; [apply fits_fr_alloc_input|]. split; [apply fits_inputize, H|apply fits_isnonzero, H]. Qed.
Print Assumptions C50_field_elements.
Theorem C50_lookups : forall (K : Fld) b b' bs bs' c cc, same_wire b b' -> Forall2 same_wire bs bs' ->
  fits (fun x y => fvar x = fvar y) (@lookup1_x K b c) (lookup1_x b' c) /\ fits (fun x y => fvar x = fvar y) (@lookup2_x K bs c) (lookup2_x bs' c) /\ fits (fun x y => fvar x = fvar y) (@lookup3_x K bs c) (lookup3_x bs' c) /\
  fits (fun x y => fvar (fst x) = fvar (fst y) /\ fvar (snd x) = fvar (snd y)) (@lookup2_xy K bs cc) (lookup2_xy bs' cc) /\ fits (fun x y => fvar (fst x) = fvar (fst y) /\ fvar (snd x) = fvar (snd y)) (@lookup3_xy K bs cc) (lookup3_xy bs' cc).
Proof. intros K b b' bs bs' c cc H Hs. split; [apply fits_lookup1, H|]. split; [apply fits_lookup2_x, Hs|]. split; [apply fits_lookup3_x, Hs|]. split; [apply fits_lookup2_xy, Hs|apply fits_lookup3_xy, Hs]. Qed.
Print Assumptions C50_lookups.
Theorem C50_rangeproof : forall (K : PFld) rb (lhs rhs lhs' rhs' : option K) n, fits any (rangeproof rb lhs rhs n) (rangeproof rb lhs' rhs' n).
Proof. exact fits_rangeproof. Qed.
Print Assumptions C50_rangeproof.
Theorem C50_mimc : forall (K : PFld) nl (cts : list K) b b', (0 < nl)%nat -> b' <> Some [] -> fits any (mimc nl cts b) (mimc nl cts b') /\ fits any (cli_hash nl cts b) (cli_hash nl cts b').
Proof. intros K nl cts b b' N H. assert (usable b') as U by (destruct b' as [l|]; [cbn; intro E; apply H; rewrite E; reflexivity|exact I]). split; [apply fits_mimc; assumption|apply fits_cli_hash; assumption]. Qed.
Print Assumptions C50_mimc.
Theorem C50_sponges : forall (K : PFld) nl al il half (mds : t3 (t3 K)) c0 cs b b', (0 < nl)%nat -> b' <> [] ->
  fits any (rescue nl al il mds c0 cs b) (rescue nl al il mds c0 cs b') /\ fits any (poseidon nl al half mds cs b) (poseidon nl al half mds cs b').
Proof. intros. split; [apply fits_rescue; assumption|apply fits_poseidon; assumption]. Qed.
Print Assumptions C50_sponges.
(** Words: [u32_alloc], and addition of words whose cached values are known in both runs whenever all their bits are constant. *)
Theorem C50_words : forall (K : PFld) o o' ops ops', Forall2 (fun u u' => Forall2 same_wire (ubits u) (ubits u')) ops ops' ->
  (forallb (fun u => forallb b_is_const (ubits u)) ops = true -> Forall2 (fun u u' => exists v, uval u = Some v /\ uval u' = Some v) ops ops') ->
  fits (fun u u' => Forall2 same_wire (ubits u) (ubits u')) (@u32_alloc K o) (u32_alloc o') /\
  fits (fun u u' => Forall2 same_wire (ubits u) (ubits u')) (with_multieq (@u32_addmany K ops)) (with_multieq (u32_addmany ops')).
Proof. intros K o o' ops ops' H C. split; [eapply fits_weaken; [|apply fits_u32_alloc]; intros a a' [[X _] _]; exact X|]. eapply fits_weaken; [|apply fits_with_multieq, (fits_addmany K ops ops' H C)]. intros a a' [[[X _] _] _]. exact X. Qed.
Print Assumptions C50_words.
Theorem C50_sha256 : forall (K : PFld) inp inp', Forall2 same_wire inp inp' ->
  fits (Forall2 same_wire) (@sha256 K inp) (sha256 inp') /\ fits (Forall2 same_wire) (@sha256_block_no_padding K inp) (sha256_block_no_padding inp').
Proof. intros K inp inp' H. split; [apply fits_sha256, H|apply fits_sha_block, H]. Qed.
Print Assumptions C50_sha256.
Theorem C50_blake2s : forall (K : PFld) inp inp' pers, Forall2 same_wire inp inp' -> fits (Forall2 same_wire) (@blake2s K inp pers) (blake2s inp' pers).
Proof. exact fits_blake2s. Qed.
Print Assumptions C50_blake2s.
(** Key generation without values is refused by the Merkle gadget. *)
Theorem C50_membership_needs_witness : forall (K : PFld) nl (cts : list K) index lemmas root leaf (s : cs K), md s = Setup -> lemmas <> [] -> mo_val leaf = None -> set_membership nl cts index lemmas root leaf s = Err AssignmentMissing.
Proof. exact membership_missing. Qed.
Print Assumptions C50_membership_needs_witness.
(** Adding shifted words: no allocation with a witness, 33 without. *)
Theorem C50_addmany_diverges : forall (K : PFld) v x (ks : list bool) c u u' (s s' : cs K) q, (64 <= modulus_bits K)%Z -> length ks = 31%nat ->
  u32_from_bits (BIs (mkBit v (Some x)) :: map BConst ks) = Ok u -> u32_from_bits (BIs (mkBit v None) :: map BConst ks) = Ok u' -> md s' = Setup ->
  (exists r, @u32_addmany K [u32_shr u 1; u32_constant c] (s, q) = Ok (r, (s, q))) /\ (exists r t q', @u32_addmany K [u32_shr u' 1; u32_constant c] (s', q) = Ok (r, (t, q')) /\ length (auxs t) = (length (auxs s') + 33)%nat).
Proof. exact addmany_diverges. Qed.
Print Assumptions C50_addmany_diverges.
Definition known50 : list boolean := map (fun i => BIs (mkBit (Aux i) (Some (Nat.even i)))) (seq 0 8).
Definition unknown50 : list boolean := map (fun i => BIs (mkBit (Aux i) None)) (seq 0 8).
Definition two50 (o : option bool) : M F97 boolean := a <- bit_alloc o ;; b <- bit_alloc o ;; b_ch (BIs a) (BNot b) (BNot a).
Example ex_C50 : Forall2 same_wire known50 unknown50 /\ fits same_wire (two50 (Some true)) (two50 None) /\ (exists r s, two50 (Some true) (cs_new Prove) = Ok (r, s) /\ length (cons s) = 3%nat) /\
  (exists b, b = Some [3%Z] /\ b <> Some []) /\ (exists u u', u32_from_bits (BIs (mkBit (Aux 0) (Some true)) :: map BConst (repeat false 31)) = Ok u /\ u32_from_bits (BIs (mkBit (Aux 0) None) :: map BConst (repeat false 31)) = Ok u') /\ (64 <= modulus_bits Fg)%Z.
Proof.
  split; [repeat (constructor; [reflexivity|]); constructor|]. split.
  - eapply C50_sequence; [apply fits_bit_alloc|]. intros a a' Ha. eapply C50_sequence; [apply fits_bit_alloc|]. intros b b' Hb. apply fits_ch; assumption.
  - split; [eexists _, _; split; reflexivity|]. split; [exists (Some [3%Z]); split; [reflexivity|discriminate]|]. split; [eexists _, _; split; reflexivity|]. vm_compute. discriminate.
Qed.
