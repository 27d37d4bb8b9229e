(** Theorems C26, C53: the SHA-256 circuit. *)
From Verif Require Import Field ModelLC SpecLC ModelCS SpecCS ModelBoolean SpecBoolean ModelUint32 SpecUint32 ModelOperator SpecOperator ModelSha256 SpecSha256 ProofsSha256.
Local Open Scope Z_scope.

(** ** C26 *)
Theorem C26_sha256_circuit : forall (K : PFld), 64 <= modulus_bits K -> forall (input : list boolean) (s : cs K),
  wf s -> (length input mod 8 = 0)%nat -> Forall (bool_in s) input ->
  spec (sha256 input) s (fun s' r => Forall (bool_in s') r /\ length r = 256%nat)
    (fun x r => map (btrue x) r = sha256_spec (map (btrue x) input))
    (Forall (b_honest s) input) (fun s' r => Forall (b_honest s') r).
Proof. exact sha256_circuit. Qed.
Print Assumptions C26_sha256_circuit.
Theorem C26_block_circuit : forall (K : PFld), 64 <= modulus_bits K -> forall (input : list boolean) (s : cs K),
  wf s -> length input = 512%nat -> Forall (bool_in s) input ->
  spec (sha256_block_no_padding input) s (fun s' r => Forall (bool_in s') r /\ length r = 256%nat)
    (fun x r => map (btrue x) r = flat_map (be_bits 32) (compress H256 (map Z_be (groups 32 (map (btrue x) input)))))
    (Forall (b_honest s) input) (fun s' r => Forall (b_honest s') r).
Proof. exact sha256_block_circuit. Qed.
Print Assumptions C26_block_circuit.
Theorem C26_unaligned_panics : forall (K : PFld) (s : cs K) (input : list boolean),
  ((length input mod 8 <> 0)%nat -> sha256 input s = Panic) /\ (length input <> 512%nat -> sha256_block_no_padding input s = Panic).
Proof. intros K s input. split; [apply sha256_panics|apply sha256_block_panics]. Qed.
Print Assumptions C26_unaligned_panics.

(** ** C53 *)
Theorem C53_exported_digest_unbound : forall (K : PFld), 64 <= modulus_bits K ->
  forall (ps : list sha_out) (pss : list (list boolean)) (s : cs K) o s', wf s -> map so_value ps = map Some pss ->
  Forall (Forall (bool_in s)) pss -> sha_hash_enforce ps s = Ok (o, s') ->
  exists ds, so_value o = Some ds /\ length ds = 256%nat /\ length (so_vars o) = 256%nat /\
    (forall x, sat x s' -> map (btrue x) ds = sha256_spec (map (btrue x) (concat pss))) /\
    forall x ts, sat x s' -> length ts = 256%nat -> exists x', sat x' s' /\ continues s x x' /\
      map (btrue x') ds = map (btrue x) ds /\ map x' (so_vars o) = map (fun t : bool => if t then f1 else f0) ts.
Proof. exact sha_exported_free. Qed.
Print Assumptions C53_exported_digest_unbound.

(** ** Concrete instances *)
From Verif Require Import Gold ProofsCS ProofsWord ProofsAddmany ProofsOperator ProofsSolve.
Definition abc_digest : list Z := [0xba7816bf; 0x8f01cfea; 0x414140de; 0x5dae2223; 0xb00361a3; 0x96177a9c; 0xb410ff61; 0xf20015ad].
(** The FIPS example. *)
Example ex_spec_abc : sha256_spec (bytes_bits [97; 98; 99]) = flat_map (be_bits 32) abc_digest.
Proof. vm_compute. reflexivity. Qed.
Section Ex.
Let K : PFld := Fg.
Lemma Fg64 : 64 <= modulus_bits Fg. Proof. vm_compute. congruence. Qed.
End Ex.
(** Allocating message bits and hashing them. *)
Definition msg_run {K : PFld} (m : list bool) : M K (list abit * list boolean) :=
  bs <- mapM (fun i => bit_alloc (Some (nth i m false))) (seq 0 (length m)) ;;
  r <- sha256 (map BIs bs) ;; ret (bs, r).
Lemma map_nth_seq (m : list bool) : map (fun i => nth i m false) (seq 0 (length m)) = m.
Proof. induction m as [|b m IH]; [reflexivity|]. cbn [length seq map nth]. rewrite <- seq_shift, map_map. f_equal. exact IH. Qed.
Lemma msg_run_ok (K : PFld) (m : list bool) : 64 <= modulus_bits K -> (length m mod 8 = 0)%nat ->
  match msg_run (K := K) m (cs_new Prove) with
  | Ok ((bs, r), s) => self_sat s /\ map (btrue (wit s)) r = sha256_spec m /\ length bs = length m
  | _ => False end.
Proof.
  intros K64 L8.
  assert (spec (msg_run (K := K) m) (cs_new Prove) (fun s' r => length (fst r) = length m /\ length (snd r) = 256%nat)
    (fun x r => map (btrue x) (snd r) = sha256_spec (map (btrue x) (map BIs (fst r)))) True
    (fun s' r => map (btrue (wit s')) (map BIs (fst r)) = m)) as Sp.
  { unfold msg_run. eapply spec_seq; [apply (spec_bits K (fun i => Some (nth i m false)) (seq 0 (length m))), wf_new|eauto|].
    intros bs s1 E1 Hw1 [B1 B2] _. assert (length bs = length m) as Lb by (rewrite <- (map_length bval), B2, map_length, seq_length; reflexivity).
    eapply spec_seq; [apply (sha256_circuit K K64 (map BIs bs) s1 Hw1)| |].
    - rewrite map_length, Lb. exact L8.
    - apply Forall_BIs, B1.
    - intros (_ & _ & _ & H). apply Forall_BIs, H.
    - intros r s2 E2 Hw2 [W1 W2] V. apply spec_ret'; auto. cbn [fst].
      intros _ _ ((_ & _ & _ & H) & _). assert (map (btrue (wit s2)) (map BIs bs) = map (btrue (wit s1)) (map BIs bs)) as ->.
      { apply map_ext_in. intros b Ib. eapply btrue_wit_ext; [exact E2|]. apply in_map_iff in Ib. destruct Ib as (a & <- & Ia).
        eapply Forall_forall in B1; [|exact Ia]. apply B1. }
      eapply honest_bits_vals; [exact H|]. rewrite B2. transitivity (map Some (map (fun i => nth i m false) (seq 0 (length m)))); [rewrite map_map; reflexivity|]. rewrite map_nth_seq. reflexivity. }
  unfold spec in Sp. destruct (msg_run m (cs_new Prove)) as [[[bs r] s]|e|]; [| |exact Sp].
  - destruct Sp as (_ & _ & [L _] & Sv & Sh). destruct (Sh eq_refl (self_sat_new K Prove) I) as [S1 S2].
    split; [exact S1|]. split; [|exact L]. cbn [fst snd] in *. rewrite (Sv _ S1), S2. reflexivity.
  - destruct Sp as [_ Sp]. exact (Sp (self_sat_new K Prove) I).
Qed.
Section Ex2.
Let K : PFld := Fg.
(** Three private bytes, allocated bit by bit: the prover's run ends in a satisfied system whose
    output bits are the digest of "abc". *)
Example ex_C26 : match msg_run (K := Fg) (bytes_bits [97; 98; 99]) (cs_new Prove) with
  | Ok ((bs, r), s) => self_sat s /\ map (btrue (wit s)) r = flat_map (be_bits 32) abc_digest /\ length bs = 24%nat
  | _ => False end.
Proof. rewrite <- ex_spec_abc. change 24%nat with (length (bytes_bits [97; 98; 99])). apply (msg_run_ok Fg); [exact Fg64|reflexivity]. Qed.
Example ex_C26_panic : match sha256 (repeat (BConst true) 7) (cs_new (K := K) Prove) with Panic => True | _ => False end.
Proof. exact I. Qed.
End Ex2.
(** The same digest is computed from constants; here the exported variables really exist. *)
Definition const_param (m : list bool) : sha_out := mkSO (Some (map BConst m)) [].
Lemma setup_bit (K : PFld) (d : boolean) (s : cs K) : md s = Setup -> exists b s', (a <- unwrapM (bit_alloc (b_value d)) ;; ret (bvar a)) s = Ok (b, s') /\ md s' = Setup.
Proof. destruct s as [m i a c]. cbn [md]. intros ->. do 2 eexists. split; reflexivity. Qed.
Lemma setup_bits (K : PFld) (ds : list boolean) : forall s : cs K, md s = Setup ->
  exists r, mapM (fun b => a <- unwrapM (bit_alloc (b_value b)) ;; ret (bvar a)) ds s = Ok r.
Proof.
  induction ds as [|d ds IH]; intros s E; [eexists; reflexivity|]. cbn [mapM].
  destruct (setup_bit K d s E) as (b & s1 & R1 & E1). destruct (IH s1 E1) as [[vs s2] R2].
  unfold bind at 1. rewrite R1. unfold bind at 1. rewrite R2. eexists. reflexivity.
Qed.
Lemma const_hash_ok (K : PFld) (m : list bool) : 64 <= modulus_bits K -> (length m mod 8 = 0)%nat ->
  match sha_hash_enforce [const_param m] (cs_new (K := K) Setup) with Ok (o, s) => length (so_vars o) = 256%nat | _ => False end.
Proof.
  intros K64 L8.
  assert (Forall (bool_in (cs_new (K := K) Setup)) (map BConst m ++ [])) as B.
  { rewrite app_nil_r. apply Forall_map, Forall_forall. intros. apply bool_in_const. }
  assert (length (map BConst m ++ []) mod 8 = 0)%nat as L8' by (rewrite app_nil_r, map_length; exact L8).
  assert (exists r, sha_hash_enforce [const_param m] (cs_new (K := K) Setup) = Ok r) as [[o s] R].
  { unfold sha_hash_enforce. cbn [so_inputs const_param so_value rbind lift_res]. unfold bind at 1, ret at 1.
    pose proof (sha256_circuit K K64 (map BConst m ++ []) (cs_new Setup) (wf_new K Setup) L8' B) as Sp. unfold spec in Sp. unfold bind at 1.
    destruct (sha256 _ _) as [[ds s1]|e|]; [|destruct Sp as [Sp _]; discriminate Sp|contradiction].
    destruct Sp as (E1 & _). destruct (setup_bits K ds s1) as [[vs s2] R]; [apply E1|]. unfold bind in R. unfold bind. rewrite R. eexists. reflexivity. }
  rewrite R. destruct (sha_exported_free K K64 [const_param m] [map BConst m] _ o s (wf_new K Setup) eq_refl) with (2 := R) as (ds & _ & _ & L & _).
  - constructor; [|constructor]. rewrite app_nil_r in B. exact B.
  - exact L.
Qed.
Example ex_C53 : match sha_hash_enforce [const_param (bytes_bits [97; 98; 99])] (cs_new (K := Fg) Setup) with
  | Ok (o, s) => length (so_vars o) = 256%nat | _ => False end.
Proof. apply (const_hash_ok Fg); [exact Fg64|reflexivity]. Qed.
