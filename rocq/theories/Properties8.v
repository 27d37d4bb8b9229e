(** Theorem C27: the BLAKE2s circuit. *)
From Verif Require Import Field ModelLC SpecLC ModelCS SpecCS ModelBoolean SpecBoolean ModelUint32 SpecUint32 ModelOperator ModelSha256 SpecSha256 ModelBlake2s SpecBlake2s ProofsBlake2sTop.
Local Open Scope Z_scope.

(** ** C27 *)
Theorem C27_blake2s_circuit : forall (K : PFld), 64 <= modulus_bits K -> forall (input : list boolean) (pers : list Z) (s : cs K),
  wf s -> (length input mod 8 = 0)%nat -> Forall (bool_in s) input -> length pers = 8%nat -> Forall (fun b => 0 <= b < 256) pers ->
  spec (blake2s input pers) s (fun s' r => Forall (bool_in s') r /\ length r = 256%nat)
    (fun x r => bits_bytes (map (btrue x) r) = blake2s_spec pers (bits_bytes (map (btrue x) input)))
    (Forall (b_honest s) input) (fun s' r => Forall (b_honest s') r).
Proof. exact blake2s_circuit. Qed.
Print Assumptions C27_blake2s_circuit.
Theorem C27_misuse_panics : forall (K : PFld) (s : cs K) input pers,
  length pers <> 8%nat \/ (length input mod 8 <> 0)%nat -> blake2s input pers s = Panic.
Proof. exact blake2s_panics. Qed.
Print Assumptions C27_misuse_panics.

(** ** Concrete instances *)
From Verif Require Import Gold ProofsCS ProofsWord ProofsAddmany ProofsOperator ProofsSolve Properties7.
Definition pers8 : list Z := [49; 50; 51; 52; 53; 54; 55; 56].
(** BLAKE2s-256 of "abc" personalised with "12345678", as computed by an independent implementation. *)
Definition abc_blake : list Z := [13; 111; 10; 117; 105; 154; 41; 133; 140; 174; 106; 142; 177; 244; 61; 23; 104; 86; 52; 158; 27; 9; 106; 237; 220; 228; 33; 139; 100; 113; 174; 242].
Definition le_bits (m : list Z) : list bool := flat_map (fun b => map (fun i => Z.testbit b (Z.of_nat i)) (seq 0 8)) m.
Example ex_blake_spec : blake2s_spec pers8 [97; 98; 99] = abc_blake.
Proof. vm_compute. reflexivity. Qed.
Definition blake_run {K : PFld} (m : list bool) (pers : list Z) : M K (list abit * list boolean) :=
  bs <- mapM (fun i => bit_alloc (Some (nth i m false))) (seq 0 (length m)) ;;
  r <- blake2s (map BIs bs) pers ;; ret (bs, r).
Lemma blake_run_ok (K : PFld) (m : list bool) pers : 64 <= modulus_bits K -> (length m mod 8 = 0)%nat -> length pers = 8%nat -> Forall (fun b => 0 <= b < 256) pers ->
  match blake_run (K := K) m pers (cs_new Prove) with
  | Ok ((bs, r), s) => self_sat s /\ bits_bytes (map (btrue (wit s)) r) = blake2s_spec pers (bits_bytes m) /\ length bs = length m
  | _ => False end.
Proof.
  intros K64 L8 Lp Bp.
  assert (spec (blake_run (K := K) m pers) (cs_new Prove) (fun s' r => length (fst r) = length m /\ length (snd r) = 256%nat)
    (fun x r => bits_bytes (map (btrue x) (snd r)) = blake2s_spec pers (bits_bytes (map (btrue x) (map BIs (fst r))))) True
    (fun s' r => map (btrue (wit s')) (map BIs (fst r)) = m)) as Sp.
  { unfold blake_run. eapply spec_seq; [apply (spec_bits K (fun i => Some (nth i m false)) (seq 0 (length m))), wf_new|eauto|].
    intros bs s1 E1 Hw1 [B1 B2] _. assert (length bs = length m) as Lb by (rewrite <- (map_length bval), B2, map_length, seq_length; reflexivity).
    eapply spec_seq; [apply (blake2s_circuit K K64 (map BIs bs) pers s1 Hw1)| |].
    - rewrite map_length, Lb. exact L8.
    - apply Forall_BIs, B1.
    - exact Lp.
    - exact Bp.
    - intros (_ & _ & _ & H). apply Forall_BIs, H.
    - intros r s2 E2 Hw2 [W1 W2] V. apply spec_ret'; auto. cbn [fst].
      intros _ _ ((_ & _ & _ & H) & _). assert (map (btrue (wit s2)) (map BIs bs) = map (btrue (wit s1)) (map BIs bs)) as ->.
      { apply map_ext_in. intros b Ib. eapply btrue_wit_ext; [exact E2|]. apply in_map_iff in Ib. destruct Ib as (a & <- & Ia).
        eapply Forall_forall in B1; [|exact Ia]. apply B1. }
      eapply honest_bits_vals; [exact H|]. rewrite B2. transitivity (map Some (map (fun i => nth i m false) (seq 0 (length m)))); [rewrite map_map; reflexivity|]. rewrite map_nth_seq. reflexivity. }
  unfold spec in Sp. destruct (blake_run m pers (cs_new Prove)) as [[[bs r] s]|e|]; [| |exact Sp].
  - destruct Sp as (_ & _ & [L _] & Sv & Sh). destruct (Sh eq_refl (self_sat_new K Prove) I) as [S1 S2].
    split; [exact S1|]. split; [|exact L]. cbn [fst snd] in *. rewrite (Sv _ S1), S2. reflexivity.
  - destruct Sp as [_ Sp]. exact (Sp (self_sat_new K Prove) I).
Qed.
(** Three private bytes: the prover's run ends in a satisfied system whose output bits are the digest of "abc". *)
Example ex_C27 : match blake_run (K := Fg) (le_bits [97; 98; 99]) pers8 (cs_new Prove) with
  | Ok ((bs, r), s) => self_sat s /\ bits_bytes (map (btrue (wit s)) r) = abc_blake /\ length bs = 24%nat
  | _ => False end.
Proof.
  rewrite <- ex_blake_spec. change 24%nat with (length (le_bits [97; 98; 99])). change [97; 98; 99] with (bits_bytes (le_bits [97; 98; 99])) at 2.
  apply (blake_run_ok Fg); [exact Fg64|reflexivity|reflexivity|]. unfold pers8. repeat apply Forall_cons; try apply Forall_nil; lia.
Qed.
Example ex_C27_panic : match blake2s (repeat (BConst true) 7) pers8 (cs_new (K := Fg) Prove) with Panic => True | _ => False end.
Proof. exact I. Qed.
Example ex_C27_pers_panic : match blake2s (repeat (BConst true) 8) [1; 2] (cs_new (K := Fg) Prove) with Panic => True | _ => False end.
Proof. exact I. Qed.
